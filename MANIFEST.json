{
 "claims": [
  {
   "property": "C01",
   "status": "proved",
   "theorems": [
    "C01_name_accepted_iff",
    "C01_name_panic_iff",
    "C01_name_error_iff"
   ],
   "note": ""
  },
  {
   "property": "C02",
   "status": "proved",
   "theorems": [
    "C02_name_identity",
    "C02_name_order_transitive",
    "C02_name_order_used",
    "C02_name_spelling"
   ],
   "note": ""
  },
  {
   "property": "C03",
   "status": "proved",
   "theorems": [
    "C03_subname_accepted_iff",
    "C03_subname_never_panics",
    "C03_subname_identity"
   ],
   "note": ""
  },
  {
   "property": "C04",
   "status": "proved",
   "theorems": [
    "C04_subnames_exact",
    "C04_subnames_complete",
    "C04_subnames_distinct"
   ],
   "note": ""
  },
  {
   "property": "C05",
   "status": "proved",
   "theorems": [
    "C05_parent",
    "C05_auto_partof",
    "C05_parents_reach_root",
    "C05_parent_auto_commute"
   ],
   "note": ""
  },
  {
   "property": "C06",
   "status": "proved",
   "theorems": [
    "C06_trees_expand",
    "C06_expansion_exact",
    "C06_rejection_exact",
    "C06_never_panics"
   ],
   "note": ""
  },
  {
   "property": "C07",
   "status": "proved",
   "theorems": [
    "C07_partof_roundtrip",
    "C07_partof_canonical",
    "C07_names_roundtrip",
    "C07_names_canonical"
   ],
   "note": ""
  },
  {
   "property": "C08",
   "status": "proved",
   "theorems": [
    "C08_partof_exact"
   ],
   "note": ""
  },
  {
   "property": "C09",
   "status": "proved",
   "theorems": [
    "C09_store_then_load",
    "C09_never_written"
   ],
   "note": ""
  },
  {
   "property": "C10",
   "status": "proved",
   "theorems": [
    "C10_missing_links",
    "C10_missing_parent_silent"
   ],
   "note": ""
  },
  {
   "property": "C11",
   "status": "proved",
   "theorems": [
    "C11_parts_inverse",
    "C11_parts_are_artifacts"
   ],
   "note": ""
  },
  {
   "property": "C12",
   "status": "proved",
   "theorems": [
    "C12_build_total"
   ],
   "note": ""
  },
  {
   "property": "C13",
   "status": "proved",
   "theorems": [
    "C13_ratios_bounded"
   ],
   "note": ""
  },
  {
   "property": "C14",
   "status": "proved",
   "theorems": [
    "C14_unique_solution",
    "C14_order_independent"
   ],
   "note": ""
  },
  {
   "property": "C15",
   "status": "proved",
   "theorems": [
    "C15_full_iff_done",
    "C15_done_reported"
   ],
   "note": ""
  },
  {
   "property": "C16",
   "status": "proved",
   "theorems": [
    "C16_monotone",
    "C16_mark_done",
    "C16_add_reference",
    "C16_mark_done_refuted",
    "C16_add_reference_refuted"
   ],
   "note": ""
  },
  {
   "property": "C17",
   "status": "proved",
   "theorems": [
    "C17_cycle_zero",
    "C17_cycle_silent"
   ],
   "note": ""
  },
  {
   "property": "C18",
   "status": "proved",
   "theorems": [
    "C18_rounding",
    "C18_incomplete_shown_full",
    "C18_float_counts",
    "C18_float_rounds"
   ],
   "note": ""
  },
  {
   "property": "C19",
   "status": "proved",
   "theorems": [
    "C19_total",
    "C19_ordered",
    "C19_green",
    "C19_red",
    "C19_rounded",
    "C19_percent"
   ],
   "note": ""
  },
  {
   "property": "C20",
   "status": "proved",
   "theorems": [
    "C20_scan_exact",
    "C20_scan_complete",
    "C20_skip_to_end"
   ],
   "note": ""
  },
  {
   "property": "C21",
   "status": "proved",
   "theorems": [
    "C21_load_fails",
    "C21_exact",
    "C21_duplicates_reported",
    "C21_only_duplicates"
   ],
   "note": ""
  },
  {
   "property": "C22",
   "status": "proved",
   "theorems": [
    "C22_orders",
    "C22_spelling_depends"
   ],
   "note": ""
  },
  {
   "property": "C23",
   "status": "proved",
   "theorems": [
    "C23_implementation_exact",
    "C23_unknown_reference"
   ],
   "note": ""
  },
  {
   "property": "C24",
   "status": "proved",
   "theorems": [
    "C24_clean_text",
    "C24_clean_idempotent"
   ],
   "note": ""
  },
  {
   "property": "C25",
   "status": "proved",
   "theorems": [
    "C25_markdown_roundtrip",
    "C25_markdown_exact"
   ],
   "note": ""
  },
  {
   "property": "C26",
   "status": "proved",
   "theorems": [
    "C26_accepted_but_corrupted",
    "C26_exact"
   ],
   "note": ""
  },
  {
   "property": "C27",
   "status": "proved",
   "theorems": [
    "C27_reported_iff",
    "C27_both_files",
    "C27_only_clashes",
    "C27_any_order",
    "C27_nothing_lost",
    "C27_load_fails"
   ],
   "note": ""
  },
  {
   "property": "C28",
   "status": "proved",
   "theorems": [
    "C28_raw_roundtrip",
    "C28_stored_form",
    "C28_id_is_hash_of_stored_form"
   ],
   "note": ""
  },
  {
   "property": "C29",
   "status": "proved",
   "theorems": [
    "C29_no_errors_iff",
    "C29_errors_exact"
   ],
   "note": ""
  },
  {
   "property": "C30",
   "status": "proved",
   "theorems": [
    "C30_chain_rank",
    "C30_cycle_one_type"
   ],
   "note": ""
  },
  {
   "property": "C31",
   "status": "proved",
   "theorems": [
    "C31_refs_exact",
    "C31_refs_panic"
   ],
   "note": ""
  },
  {
   "property": "C32",
   "status": "proved",
   "theorems": [
    "C32_code_exact",
    "C32_code_quiet"
   ],
   "note": ""
  },
  {
   "property": "C33",
   "status": "proved",
   "theorems": [
    "C33_categorize",
    "C33_sorted",
    "C33_canonical",
    "C33_idempotent",
    "C33_order"
   ],
   "note": ""
  },
  {
   "property": "C34",
   "status": "proved",
   "theorems": [
    "C34_exit_status"
   ],
   "note": ""
  },
  {
   "property": "C35",
   "status": "proved",
   "theorems": [
    "C35_loaded",
    "C35_new_artifacts",
    "C35_map"
   ],
   "note": ""
  },
  {
   "property": "C36",
   "status": "proved",
   "theorems": [
    "C36_refused",
    "C36_kinds"
   ],
   "note": ""
  },
  {
   "property": "C37",
   "status": "proved",
   "theorems": [
    "C37_same_outcome",
    "C37_same_artifacts",
    "C37_order_refuted"
   ],
   "note": ""
  },
  {
   "property": "C38",
   "status": "proved",
   "theorems": [
    "C38_disk_untouched"
   ],
   "note": ""
  },
  {
   "property": "C39",
   "status": "proved",
   "theorems": [
    "C39_crash_safe",
    "C39_twins_lost"
   ],
   "note": ""
  },
  {
   "property": "C40",
   "status": "proved",
   "theorems": [
    "C40_disk",
    "C40_reload"
   ],
   "note": ""
  },
  {
   "property": "C41",
   "status": "proved",
   "theorems": [
    "C41_no_artifacts",
    "C41_rewritten",
    "C41_file_roots"
   ],
   "note": ""
  },
  {
   "property": "C42",
   "status": "proved",
   "theorems": [
    "C42_confined",
    "C42_plain_location",
    "C42_exclusion_inverted"
   ],
   "note": ""
  },
  {
   "property": "C43",
   "status": "proved",
   "theorems": [
    "C43_equal_content_equal_id",
    "C43_hashed",
    "C43_separates",
    "C43_collision"
   ],
   "note": ""
  },
  {
   "property": "C44",
   "status": "proved",
   "theorems": [
    "C44_roundtrip",
    "C44_distinct",
    "C44_form",
    "C44_accepted",
    "C44_short_long",
    "C44_invalid"
   ],
   "note": ""
  },
  {
   "property": "C45",
   "status": "proved",
   "theorems": [
    "C45_atomic",
    "C45_served",
    "C45_read",
    "C45_poisoned",
    "C45_exit",
    "C45_once",
    "C45_disk"
   ],
   "note": ""
  },
  {
   "property": "C46",
   "status": "proved",
   "theorems": [
    "C46_deterministic",
    "C46_completion",
    "C46_lints_depend",
    "C46_binary64_depends"
   ],
   "note": ""
  },
  {
   "property": "C47",
   "status": "proved",
   "theorems": [
    "C47_ends",
    "C47_small",
    "C47_exactly",
    "C47_large"
   ],
   "note": ""
  },
  {
   "property": "C48",
   "status": "proved",
   "theorems": [
    "C48_listed",
    "C48_errors",
    "C48_subnames",
    "C48_completion_ignored",
    "C48_help_refuted"
   ],
   "note": ""
  },
  {
   "property": "C49",
   "status": "proved",
   "theorems": [
    "C49_accepted",
    "C49_rejected",
    "C49_order",
    "C49_inverted",
    "C49_invert_twice",
    "C49_shown"
   ],
   "note": ""
  },
  {
   "property": "C50",
   "status": "proved",
   "theorems": [
    "C50_nearest",
    "C50_fails",
    "C50_within"
   ],
   "note": ""
  },
  {
   "property": "C51",
   "status": "proved",
   "theorems": [
    "C51_leading_ignored",
    "C51_below_project",
    "C51_inside",
    "C51_panics_iff"
   ],
   "note": ""
  },
  {
   "property": "C52",
   "status": "proved",
   "theorems": [
    "C52_artifact_files",
    "C52_source_files",
    "C52_file_root"
   ],
   "note": ""
  },
  {
   "property": "C53",
   "status": "proved",
   "theorems": [
    "C53_one_request",
    "C53_kept",
    "C53_opened",
    "C53_saved",
    "C53_error",
    "C53_busy",
    "C53_stuck",
    "C53_lost"
   ],
   "note": ""
  },
  {
   "property": "C54",
   "status": "proved",
   "theorems": [
    "C54_noop",
    "C54_unchanged",
    "C54_empty_done"
   ],
   "note": ""
  },
  {
   "property": "C55",
   "status": "proved",
   "theorems": [
    "C55_exact",
    "C55_unique",
    "C55_names",
    "C55_edits"
   ],
   "note": ""
  },
  {
   "property": "C56",
   "status": "proved",
   "theorems": [
    "C56_below",
    "C56_elsewhere",
    "C56_ambiguous"
   ],
   "note": ""
  },
  {
   "property": "C57",
   "status": "proved",
   "theorems": [
    "C57_exact",
    "C57_panics"
   ],
   "note": ""
  },
  {
   "property": "C58",
   "status": "proved",
   "theorems": [
    "C58_kinds",
    "C58_methods"
   ],
   "note": ""
  },
  {
   "property": "C59",
   "status": "proved",
   "theorems": [
    "C59_hidden",
    "C59_silent",
    "C59_check_passes"
   ],
   "note": ""
  },
  {
   "property": "C60",
   "status": "proved",
   "theorems": [
    "C60_ends",
    "C60_delivers",
    "C60_exists"
   ],
   "note": ""
  },
  {
   "property": "C61",
   "status": "proved",
   "theorems": [
    "C61_one_per_header",
    "C61_links_are_names"
   ],
   "note": ""
  },
  {
   "property": "C62",
   "status": "proved",
   "theorems": [
    "C62_unclosed"
   ],
   "note": ""
  },
  {
   "property": "C63",
   "status": "proved",
   "theorems": [
    "C63_table",
    "C63_one_line",
    "C63_colours",
    "C63_subnames"
   ],
   "note": ""
  },
  {
   "property": "C64",
   "status": "proved",
   "theorems": [
    "C64_long",
    "C64_separators",
    "C64_items_refuted"
   ],
   "note": ""
  },
  {
   "property": "C65",
   "status": "proved",
   "theorems": [
    "C65_exact",
    "C65_new",
    "C65_answers"
   ],
   "note": ""
  },
  {
   "property": "C66",
   "status": "proved",
   "theorems": [
    "C66_settled",
    "C66_fmt_twice"
   ],
   "note": ""
  },
  {
   "property": "C67",
   "status": "proved",
   "theorems": [
    "C67_rendering",
    "C67_plain",
    "C67_complete"
   ],
   "note": ""
  },
  {
   "property": "C68",
   "status": "proved",
   "theorems": [
    "C68_reference",
    "C68_warned"
   ],
   "note": ""
  },
  {
   "property": "C69",
   "status": "proved",
   "theorems": [
    "C69_export_fails"
   ],
   "note": ""
  },
  {
   "property": "C70",
   "status": "proved",
   "theorems": [
    "C70_document",
    "C70_contents"
   ],
   "note": ""
  },
  {
   "property": "C71",
   "status": "proved",
   "theorems": [
    "C71_preview",
    "C71_loaded_shown"
   ],
   "note": ""
  },
  {
   "property": "C72",
   "status": "proved",
   "theorems": [
    "C72_refused",
    "C72_succeeds_iff",
    "C72_effect",
    "C72_no_retry"
   ],
   "note": ""
  },
  {
   "property": "C73",
   "status": "proved",
   "theorems": [
    "C73_project",
    "C73_check_passes"
   ],
   "note": ""
  },
  {
   "property": "C74",
   "status": "proved",
   "theorems": [
    "C74_unusable",
    "C74_paths",
    "C74_order",
    "C74_climbs"
   ],
   "note": ""
  },
  {
   "property": "C75",
   "status": "proved",
   "theorems": [
    "C75_artifacts",
    "C75_source"
   ],
   "note": ""
  },
  {
   "property": "C76",
   "status": "proved",
   "theorems": [
    "C76_reported",
    "C76_success_errors",
    "C76_error_in_success",
    "C76_ends",
    "C76_no_panic",
    "C76_possible_iff",
    "C76_never",
    "C76_overlap"
   ],
   "note": ""
  },
  {
   "property": "C77",
   "status": "proved",
   "theorems": [
    "C77_graph",
    "C77_consistent",
    "C77_total",
    "C77_addresses"
   ],
   "note": ""
  },
  {
   "property": "C78",
   "status": "proved",
   "theorems": [
    "C78_page",
    "C78_ticks_refuted"
   ],
   "note": ""
  },
  {
   "property": "C79",
   "status": "proved",
   "theorems": [
    "C79_where",
    "C79_success",
    "C79_failure",
    "C79_destroyed",
    "C79_html",
    "C79_initial",
    "C79_next"
   ],
   "note": ""
  },
  {
   "property": "C80",
   "status": "proved",
   "theorems": [
    "C80_nowhere",
    "C80_readonly",
    "C80_passed",
    "C80_refused",
    "C80_errors"
   ],
   "note": ""
  },
  {
   "property": "C81",
   "status": "proved",
   "theorems": [
    "C81_edited",
    "C81_created",
    "C81_kept"
   ],
   "note": ""
  },
  {
   "property": "C82",
   "status": "proved",
   "theorems": [
    "C82_stale",
    "C82_edits"
   ],
   "note": ""
  },
  {
   "property": "C83",
   "status": "proved",
   "theorems": [
    "C83_closed",
    "C83_shown",
    "C83_opened"
   ],
   "note": ""
  },
  {
   "property": "C84",
   "status": "proved",
   "theorems": [
    "C84_created",
    "C84_edited"
   ],
   "note": ""
  },
  {
   "property": "C85",
   "status": "proved",
   "theorems": [
    "C85_shown",
    "C85_artifacts",
    "C85_forms",
    "C85_errors"
   ],
   "note": ""
  },
  {
   "property": "C86",
   "status": "proved",
   "theorems": [
    "C86_restore",
    "C86_finish",
    "C86_forgotten"
   ],
   "note": ""
  },
  {
   "property": "C87",
   "status": "proved",
   "theorems": [
    "C87_read",
    "C87_load",
    "C87_repeated",
    "C87_saved",
    "C87_reload"
   ],
   "note": ""
  },
  {
   "property": "C88",
   "status": "proved",
   "theorems": [
    "C88_answer",
    "C88_to_ser",
    "C88_request",
    "C88_form",
    "C88_any",
    "C88_no_number"
   ],
   "note": ""
  },
  {
   "property": "C89",
   "status": "proved",
   "theorems": [
    "C89_list",
    "C89_lints"
   ],
   "note": ""
  },
  {
   "property": "C90",
   "status": "proved",
   "theorems": [
    "C90_local",
    "C90_edit",
    "C90_cycles_refuted"
   ],
   "note": ""
  },
  {
   "property": "C91",
   "status": "proved",
   "theorems": [
    "C91_elsewhere",
    "C91_completion"
   ],
   "note": ""
  },
  {
   "property": "C92",
   "status": "proved",
   "theorems": [
    "C92_reads",
    "C92_stops"
   ],
   "note": ""
  },
  {
   "property": "C93",
   "status": "proved",
   "theorems": [
    "C93_cut",
    "C93_project",
    "C93_completion"
   ],
   "note": ""
  },
  {
   "property": "C94",
   "status": "proved",
   "theorems": [
    "C94_fresh",
    "C94_sync"
   ],
   "note": ""
  },
  {
   "property": "C95",
   "status": "proved",
   "theorems": [
    "C95_load",
    "C95_stops",
    "C95_for_good",
    "C95_answers",
    "C95_not_lost"
   ],
   "note": ""
  },
  {
   "property": "C96",
   "status": "proved",
   "theorems": [
    "C96_shows",
    "C96_saved",
    "C96_history",
    "C96_check"
   ],
   "note": ""
  },
  {
   "property": "C97",
   "status": "proved",
   "theorems": [
    "C97_together",
    "C97_step",
    "C97_pages"
   ],
   "note": ""
  },
  {
   "property": "C98",
   "status": "proved",
   "theorems": [
    "C98_last",
    "C98_lost",
    "C98_wiped",
    "C98_fmt"
   ],
   "note": ""
  },
  {
   "property": "C99",
   "status": "proved",
   "theorems": [
    "C99_reported",
    "C99_only"
   ],
   "note": ""
  },
  {
   "property": "C100",
   "status": "proved",
   "theorems": [
    "C100_project",
    "C100_accepted",
    "C100_create",
    "C100_delete",
    "C100_update"
   ],
   "note": ""
  },
  {
   "property": "C101",
   "status": "proved",
   "theorems": [
    "C101_run",
    "C101_moments",
    "C101_backups",
    "C101_removed",
    "C101_ends"
   ],
   "note": ""
  }
 ]
}