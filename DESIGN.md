# Verification design: vitiral/artifact in Rocq (Coq 8.16.1)

## 1. Approach

The Rust sources under `/repo` were read as text (nothing was built or run) and transcribed,
function by function, into total computable Gallina functions and, for threads, into transition
systems. Every model definition carries a comment with the file and lines it models and, where it
is simplified, how.

The files in `rocq/theories` are of four kinds:

* model files (section 4), definitions only;
* specifications `Spec*.v`: what the properties speak about, written without the model's helpers
  wherever the English statement does not mention them;
* proof files `*Facts.v`, `*Thms.v`, `Schedules.v`, `Topo.v`, `WebRoute.v`, `MarkdownExact.v`;
* property files `Prop*.v`: the theorems `Cnn_…`, beside each an `Example` (or a refuting or
  witnessing theorem) with a concrete case that meets the hypotheses, and `Print Assumptions`.
  Short proofs are there as well.

`YamlExample.v`, `CodecExample.v` and `Topo.v` construct instances of the contracts asked of
external code, so that no theorem is vacuous because of its contract.

Conventions:

* characters are Unicode code points (`N`), strings are lists of them (`Base.v`). Rust compares
  strings bytewise in UTF-8; on scalar values this is the same order as code-point order.
* panics, errors and successes are explicit constructors of `res`; `expect!`, `unreachable!`,
  slice and map indexing that may fail are modelled as `Panic`.
* `IndexMap`/`IndexSet` are association lists in insertion order; `insert` on an existing key keeps
  position and old key object and replaces the value; `remove` is `swap_remove` (indexmap 1.0.2);
  `sort`/`sort_keys` is a stable sort by key.
* regular expressions are transcribed as abstract syntax and run by a generic leftmost-first
  matcher (`Regex.v`) that is proved sound and complete for the usual language semantics;
  `(?i)` uses Unicode simple case folding, in which `s` also matches U+017F and `k` also U+212A.
* threads: transition systems whose steps are the channel operations and the effects on the disk
  (`Pool.v`, `Modify.v`, `Saving.v`, `Server.v`, `Web.v`); theorems hold for every run.
* the disk is a tree of directories and files (`Disk.v`); paths are lists of components.
* where a property is false of the code as it is, the theorem characterises exactly when it holds
  and a second theorem exhibits the failure (`…_refuted`, `…_lost`, `…_stuck`, ...). The English
  statement in `properties.jsonl` then says so too.

## 2. Trusted base

* the Coq 8.16.1 kernel (and `vm_compute`);
* what `Print Assumptions` lists for each property theorem: section 5 (nothing);
* the faithfulness of the model: the reading of the sources described in section 4;
* external code that is not modelled enters as universally quantified parameters with stated
  contracts, never as axioms:

| external code | contract |
|---|---|
| SipHash of artifacts | any function `hash_im`; injectivity only where a theorem states it |
| petgraph `toposort` | `topo_ok` (SpecGraph.v): a topological order, or a cycle is reported; instance in `Topo.v` |
| serde_yaml | `yaml_ok` (SpecMarkdown.v): written attributes are read back; instance in `YamlExample.v` |
| toml, serde_json | `parser_ok`, `codec_ok` (LoadFacts.v, SpecModify.v): values read are well formed, written values are read back; instance in `CodecExample.v`; for serde_json both are proved of the model in `Json.v`, `JsonArt.v` (C87) |
| base64 0.9.3 | transcribed bit by bit (`Ids.v`) |
| the regular expression of `art ls` | any predicate on texts |
| the file system | a tree; every operation may fail, at the choice of an oracle |
| path_abs / `PathSer` | textual resolution of `.` and `..`; the JSON text of a path is any encoding with a left inverse |
| HTTP, the browser | requests are delivered whole; the server echoes the id of a request |

Assumptions of the reading, beyond the per-definition comments:

* there are no symbolic links, and nothing but artifact changes the disk during one load or one
  modification (between them it may change arbitrarily);
* a directory that is listed while files in it are renamed or removed still lists every other entry
  once (as POSIX guarantees); what was renamed or removed before a walk comes by a second time may
  be missed (`b_gone`, `b_late`, `r_gone`, `r_late` in `Modify.v`; on a disk that can be read this
  covers every interleaving: C101);
* file names are UTF-8;
* a worker performs one file operation atomically; a crash happens between two operations;
* in the phases of a modification that rename and write files, the case that all worker threads
  have died is not modelled (formatting a file is the only thing that can panic there, and
  `C76_no_panic` proves that it does not);
* the `f64`/`f32` arithmetic of completion is modelled three times: exactly, with an arbitrary
  monotone rounding, and bit by bit with the standard library's `SpecFloat` (`FloatNum.v`);
* the web client handles one message after another (it is single threaded); `usize` has `lim`
  values there, `lim` a parameter; percent-encoding of URLs is left out.

## 3. Properties and plan

| id | model | method |
|----|-------|--------|
| C01 | regex engine, `InternalName::from_str` | language equivalence of the transcribed regex with an independent grammar; panic set characterised |
| C02 | Name Eq/Hash/Ord | algebra on upper-cased keys, lexicographic order |
| C03 | `SubName::from_str` | as C01 |
| C04 | `parse_subnames` | leftmost scan soundness/completeness against "text contains `[[x]]`" |
| C05 | `parent`, `auto_partof` | induction on elements |
| C06 | `parse_collapsed` | induction on bracket trees; rejection by a depth invariant |
| C07 | `NamesRaw` ser/de | sort canonicity, `expand` of a plain name |
| C08 | `auto_partofs`, `determine_partofs` | set-level iff |
| C09 | `strip_auto_partofs` + load | set equality |
| C10 | lints + from_raw | refutation by witness and general characterisation |
| C11 | `determine_graphs`, `determine_parts`, `create_ids` | id injectivity, then relation inverse |
| C12 | `determine_artifacts` | domain equality of all maps |
| C13 | `determine_completed` over rationals with a parametric rounding | induction along topological order |
| C14 | same | uniqueness of the solution of the averaging equations |
| C15 | same, exact arithmetic | average equals one iff all terms do |
| C16 | same | monotonicity by induction along topological order |
| C17 | same + lints | contract of toposort; witness |
| C18 | `round_ratio` | rational arithmetic |
| C19 | points and colours | case analysis |
| C20 | `parse_locations` | state machine over lines vs. region specification |
| C21, C22 | `join_locations` | fold invariant; permutation invariance; witness for spelling |
| C23 | `determine_impls` | map-level iff |
| C24 | `clean_text`, `ArtifactIm::clean` | list lemmas |
| C25 | markdown writer and reader | line-level simulation, codec contract for YAML |
| C26 | lint + reader | witness |
| C27 | `join_artifacts_raw` | fold invariant |
| C28 | `from_raw`, `into_raw`, `From<Artifact>` | composition of C08, C09, C24 |
| C29, C30 | error lints | iff with the specification, induction on chains |
| C31, C32 | warning lints | scan completeness as C04; case analysis |
| C33 | `Categorized` | sort/dedup canonicity |
| C34 | `check::run` | case analysis over outcomes |
| C35–C37 | `perform_operations`, `check_overlap` | refinement to finite maps; permutation invariance |
| C38–C41 | `modify_project` over a disk model | step-indexed crash prefixes and permutations of renames; witnesses |
| C42 | `check_paths` | iff; witness |
| C43 | hash stream | prefix-code argument; witness |
| C44 | base64 | bit-level round trip |
| C45 | server handler | invariant over request histories |
| C46 | read pipeline | composition of C14, C22, C27, C33 |
| C47 | channel transition system | invariant and explicit stuck run |
| C48, C49 | `art ls` | case analysis over flags, oracle for the regex |
| C50 | `find_repo` | induction on path length |
| C51 | `resolve_raw_paths` | string prefixes |
| C52 | `walk_path` | induction on directory trees |
| C53–C55 | web client model | invariant over event histories; conversions |
| C56–C58 | helpers | string lemmas |
| C59–C62 | `read_project` as a whole, headers of markdown files | composition over all interleavings of the reader threads (`Pool.v`); line-level specification |
| C63, C64 | `art ls` output | structure of the printed rows; witness for ambiguous separators |
| C65 | panics of the web client's buttons | iff over client states |
| C66 | `modify_project` without operations | composition of C35, C40, C41 and the origin of every file of the new disk |
| C67 | `replace_markdown`, `replace_all`, `token_here` | the regular expression against the relation `cut`; uniqueness of the cut; every bracketed mark is found |
| C68 | `name_markdown`, `lint_text_refs` | both against `target`, for what `loads` delivers |
| C69 | `to_markdown` | every section panics exactly if the template is broken |
| C70 | `to_markdown` | refinement of `document` |
| C71 | `replace_markdown` | `broken` pieces in terms of the text |
| C72 | `init_run` | effect of each operation composed; all failures |
| C73 | `init_run`, `reads`, `checks` | the walk finds the one file; the load of that file for every schedule |
| C74 | `load_settings`, `reads` | sorted lists without duplicates are equal if they have the same members |
| C75 | `reads` | the file occurs twice among the jobs; C27 and C21 for loads |
| C76 | `runs` of `Modify.v` | invariant that carries where each lint is from; for the exact condition of success: a run built phase by phase, and the invariants of C39 read backwards |
| C77 | `graph_results` | `parts` and `partof` of a loaded project are inverse; keys of well-formed names determine the names |
| C78 | `view_text` | the two expressions have the same matches; the rendered pieces keep the shape of the blocks: nodes have a brace, no back tick, and end in a space; links have no line break |
| C79 | `art_export` | writes as a list of results: the file holds a prefix of them; unpacking as a fold over the archive; for the next load: the document parses to an artifact with the name of one that exists |
| C80 | `art_check`, `art_ls`, `art_fmt`, `art_export` | the status of every run is determined by the outcome of the load, which no schedule changes |
| C81 | `edit_op`, `receive`, `runs` | the form to its operation, then the map of C35; reading back by C40 |
| C82 | `history` of `runs` | invariant: no artifact on the disk has the id; kept by saved requests (C35, C40) and by refused ones (C38); then C36 |
| C83 | `happened` of `ystep` | invariants over executions: request numbers on the net are below the page's counter, each answer under way was given by the server to that request; C53 for one page, C81 for the save |
| C84 | `history` of `runs` | invariant: an artifact with the id is on the disk; kept by saved requests that do not take it (C35, C40) and refused ones (C38); then C36; for edits C82 |
| C85 | `displays` for loaded projects; `history` of one page | cases over the view with C67 (texts), C68 (graphs) and C55 (addresses); errors: invariant that their ids are distinct and below the counter |
| C86 | `runs` on safe disks; every state of a run | the phase invariants of C39: in the backup and save phases each original is in place or in its backup; success passes through the end of the backup phase, whose disk is safe and has no artifact file, so C35 and C41 apply to the next request |
| C87 | `json_parse`, `json_store`; `loads` and `runs` with them | the reader is sound and complete for the grammar (mutual induction); decoding inverted field by field; `codec_ok` and `parser_ok` proved for JSON, then C40 |
| C88 | `answer_text`, `from_text`; `to_ser`; `ops_text`, `read_ops` | decoding inverts encoding field by field for objects in any order; loaded projects have proper names without repetition (invariants of the load); texts by `read_written` of C87 |
| C89 | `ls_run`, `ls_text`; `lints_text` | as C88; reading a JSON value stops at its end, so the two lists are separated in one way |
| C90 | `loads` twice | the averages of C13 have one solution on the part of the graph that can be reached, by induction on a rank |
| C91 | `loads` twice | the joined map depends on the references up to case only; links and faults transfer between the two projects; exit status by C34; completion by C16 in both directions |
| C92 | `from_markdown` | the loop against the grammar in both directions: invariant on what was read below the current header; lines against `BufRead::lines` |
| C93 | `from_markdown`; `loads` twice | the loop over a text with closed blocks is sequential; then C91 |
| C94 | `ystep` histories | a page has at most one request under way and its number is new; the answer found on the way back was given since the page was last told anything |
| C95 | `ystep` histories; `loads`; `runs` | exit status 101 by C34; modifying panics only if loading does (C12, phases); every waiting request is in one of three places by induction on histories |
| C96 | `runs`, `loads` one after the other | what a save leaves is read without a lint (C40), and what was accepted has no error (C38): so the next load succeeds; the disk is safe again; induction on the list of requests |
| C97 | `ystep` histories; `runs`, `loads` | the disk always shows the server's project: a reload gives it again, a save is C96 with the wellformedness of C81, refused requests leave the disk alone (C38); induction on histories |
| C98 | `runs` on a disk other than the one loaded from | saving does not look at what it replaces: the proofs of C40 and C96 need only that the loaded files lie where artifact files are looked for; the empty moment is the end of the backups (C86). Interleavings within the saving of the two programs are not considered |
| C99 | `loads` | what arrives is a permutation of the lints of all files (C60); each lint is traced to its file, duplicates to C27 and C32 |
| C99 | `loads` | what arrives is a permutation of the lints of all files (C60); each lint is traced to its file, duplicates to C21 and C27 |
| C100 | `modify_pure`, `runs`, `loads` | error lints of a built project are traced to the stored artifacts (`errors_sound`: derived links always exist and never go to a lower type); the stages of a request (C37, C38) then become conditions on ids, places and the resulting set. Requests with updates that change nothing are covered by C36 and C37 only. That an accepted request also succeeds needs a disk without failures (C40) |
| C101 | `rstep`, `racy`, `mstep` | simulation: what was done so far, what was sent and what the walk has still to find in the tree at the start together are what a walk at the start finds (entries that are gone are done, new ones are none); renaming and removing keep the directories. Ends: configured paths left, directories to list, files to look at and files sent go down lexicographically |

Nothing in the list was found inexpressible; what a model cannot exhibit (real I/O timing,
memory, the exact behaviour of serde back ends) is listed in section 2.

## 4. What is modelled

| model file | code | left out |
|---|---|---|
| `Name.v` | artifact-ser/src/name.rs: parsing, comparison, hashing, serialisation of names and subnames | |
| `Family.v` | artifact-ser/src/family.rs: `parent`, `auto_partof(s)`, `strip_auto_partofs` | |
| `Expand.v` | artifact-ser/src/expand_names.rs, whole | |
| `RawNames.v` | artifact-data/src/raw_names.rs and the list form of family.rs | serde plumbing |
| `Artifact.v` | artifact-data/src/artifact.rs, graph.rs; artifact-lib/src/lib.rs: data types, `clean` | `log` output |
| `Numbers.v`, `FloatNum.v`, `FloatFacts.v` | the arithmetic of graph.rs:74-163 | `FloatFacts.v`: lemmas for C18 |
| `Stored.v` | artifact-data/src/intermediate.rs; artifact-lib/src/lib.rs:259-275 | |
| `Markdown.v` | artifact-data/src/raw.rs: the markdown format, both directions | YAML itself |
| `Lint.v` | artifact-ser/src/lint.rs; the lints of artifact-data/src/project.rs; artifact-app/src/check.rs: exit status | texts of messages are kept, terminal styling is not |
| `Source.v` | artifact-data/src/implemented.rs: scanning and joining references | |
| `Pool.v`, `Load.v` | artifact-data/src/project.rs: `read_project`; raw.rs:99-121, 162-200, 429-457 | logging |
| `Disk.v`, `Walk.v` | artifact-data/src/settings.rs: walking and resolving paths | reading `settings.toml` (its parsed value is a parameter) |
| `Modify.v` | artifact-data/src/modify.rs, whole, but for the bounded channels (see `Saving.v`, `Pool.v`) | |
| `Saving.v` | modify.rs:330-379: the two channels of saving | contents of files |
| `Ids.v` | what is hashed (artifact-lib/src/lib.rs:243-292); text of ids (artifact-ser/src/lib.rs:249-270) | SipHash |
| `Server.v`, `ServerCalls.v` | artifact-app/src/serve: handlers and the lock | HTTP |
| `Ls.v` | artifact-app/src/ls.rs; dev_prelude.rs:68-79 (`find_repo`); points and colours | table layout and escape codes |
| `Api.v` | artifact-ser/src/ser.rs:76-130; artifact-ser/src/lib.rs:341-417 | |
| `Web.v`, `WebSave.v` | artifact-frontend/src: routing, forms, messages, state, requests; the JSON exchange with the server | rendering, search fields, texts of log entries |
| `PropFmt.v` | artifact-app/src/fmt.rs:40-46 (`art fmt` is the request without operations; `--type` is accepted and has no effect) | |
| `Render.v`, `SpecRender.v`, `SpecExport.v` | artifact-ser/src/markdown.rs (but `Default`s), md_graph.rs, artifact-ser/src/lib.rs:81-168 (export settings), artifact-app/src/export.rs:76-91 (`export_markdown`), artifact-frontend/src/view.rs:66-69 up to the call of `replace_markdown` | the text written is the result, errors of the writer are left out; `strfmt` is a parameter with a failure value (C69 assumes that failure depends on the template only); `{:.2}` of a completion in thousandths is the one-digit percentage with a 0; the leading bar of `REPLACE_TEXT_RE` after the flags gives no empty alternative (regex-syntax 0.5.6 has no expression for flags) |
| `RenderFacts.v`, `MarkFacts.v`, `ExportFacts.v`, `DocFacts.v`, `ReadyFacts.v` | | lemmas for C67-C71 |
| `Settings.v`, `SpecSettings.v` | artifact-data/src/settings.rs:26-77 (`load_settings`) and 147-212 (raw settings, resolving), project.rs:41-99 (`read_project`), artifact-app/src/check.rs:36-49 | reading TOML is a parameter with a failure value; the export settings are passed over; a path is UTF-8; links on the disk are left out (`canonicalize` fails exactly if the directory is missing) |
| `Init.v` | artifact-app/src/init.rs:27-60, data/settings.toml, data/purpose.md (both texts in full) | six operations, each of which may fail, a write after any number of characters; the settings are text |
| `SettingsFacts.v`, `InitFacts.v`, `FreshFacts.v` | | lemmas for C72-C75 |
| `SpecOutcome.v`, `OutcomeFacts.v`, `PossibleFacts.v` | | spec and lemmas for C76 |
| `WebGraph.v` | artifact-frontend/src/graph.rs:85-136 | the hash tables are walked in any order (a permutation); the regex library is a parameter; drawing with viz.js and the page around it are not modelled |
| `SpecWebGraph.v`, `WebGraphFacts.v` | | spec and lemmas for C77 |
| `View.v` | artifact-frontend/src/view.rs:29-33, 68-71, 85-113 (`markdown_html` up to the call of commonmark, `ser_markdown`, `replace_markdown`, `replace_markdown_dot`) | `viz` (graph::dot_html_string) is a parameter; the shared model is the loaded project |
| `SpecView.v`, `ViewFacts.v` | | spec and lemmas for C78 |
| `Commands.v` | artifact-app/src/lib.rs:55-95, bin/art.rs, ls.rs:131-164, fmt.rs:40-46, export.rs:66-91 and 116-145, serve/mod.rs:48-63 (exit status), frontend.rs (`unpack_frontend`) | commands from the working directory to the exit status; a write may fail after any prefix; the archive of the web client is a list of paths and contents given as a parameter; the JSON of the initial data is a parameter |
| `SpecCommands.v`, `CommandFacts.v`, `NextFacts.v` | | spec (`stump`: what is written before the first link that cannot be made) and lemmas for C79, C80 |
| `SpecReload.v` | | spec for C40, C66: in every markdown file the artifacts survive being written and read |
| `SpecSave.v` | | spec for C81, C82: the artifact a form describes |
| `System.v` | artifact-frontend main.rs, fetch.rs with artifact-app/src/serve/handler.rs | any number of pages (Web.v), the network and the server (ServerCalls.v) as one transition system. Simplified: a request is answered in one step (C45 reduces the threads to that); an answer may arrive in any order or never, and the browser may give up on any request at any time; other programs may replace the disk between requests; a page that panics takes no step; the page of initial data is the one of a running server, without a project |
| `SpecSystem.v`, `SystemFacts.v` | | spec (`replaced`: the project with the form's content in place of the artifact) and invariants for C83 |
| `Screen.v` | artifact-frontend nav.rs, artifact.rs, edit.rs (view), name.rs, main.rs (view) | what a page shows, as the values its HTML is made of. Simplified: markup, titles, icons and layout are left out; the regex, markdown and picture libraries are parameters |
| `SpecScreen.v`, `ScreenFacts.v` | | spec and lemmas for C85 |
| `SpecRecover.v` | | spec for C86 |
| `Json.v` | serde_json 1.0 (not in /repo): `to_string`, `to_string_pretty`, `from_str` | texts as characters; numbers kept as written: no range errors for numbers (they occur only in ignored fields of artifact files); the recursion limit of 128; the position of an error is not modelled, but what precedes it is |
| `JsonArt.v` | raw.rs:38-84, raw_names.rs:83-138, name.rs:294-302: serde implementations; modify.rs:364, raw.rs:186 | derived implementations written out |
| `SpecJson.v`, `JsonFacts.v` | | the grammar of RFC 8259; the parser accepts exactly its documents |
| `SpecJsonArt.v`, `JsonArtFacts.v` | | spec and lemmas for C87 |
| `WireJson.v` | ser.rs:44-71, 97-113, 133-238, artifact-lib/src/lib.rs:47-124, 227-235, 296-312, 360-412, artifact-ser/src/lib.rs:62-217, 274-280, lint.rs:27-120, name.rs:285-302, 409-426, ls.rs:143-147, handler.rs:77-88, 144-170, fetch.rs:22-29, 113-116 | derived serde implementations written out; the texts of ids, ratios and paths are parameters; an object is not accepted in the form of a list (serde would accept it), numbers have no range, of two wrong fields the first in the type (not in the text) is reported |
| `SpecWire.v`, `WireFacts.v`, `SendFacts.v`, `MovedFacts.v` | | spec and lemmas for C88, C89; a loaded project can be sent; C85 does not depend on the order of the project |
| `SpecLocal.v`, `LocalFacts.v`, `RestateFacts.v`, `ElsewhereFacts.v` | | spec and lemmas for C90, C91 |
| `SpecMdFile.v`, `MdFileFacts.v`, `CutFacts.v` | | the grammar of markdown files; lemmas for C92, C93 |
| `SpecFresh.v`, `SinceFacts.v`, `StopFacts.v` | | spec and lemmas for C94, C95 |
| `SpecAgain.v`, `AgainFacts.v` | | spec and lemmas for C96 |
| `SpecTogether.v` | | spec for C97 |
| `JsonPanicFacts.v`, `MdPanicFacts.v` | | what stops the readers of JSON and markdown files (C87, C92) |
| `SpecReport.v` | | spec for C99: what can go wrong in reading |
| `SpecAccept.v`, `AcceptFacts.v` | | spec and lemmas for C100: which requests are accepted |
| `WalkRace.v`, `WalkRaceFacts.v` | artifact-data/src/modify.rs:233-315 with settings.rs:93-145: a walk that lists directories while files are renamed or removed | a listing shows one moment; the channels are not bounded (see `Pool.v`); an entry that is gone when it is looked at is no error; the disk can be read and configured paths are directories |

Not modelled at all: parsing of command lines; the format and contents of the archive of the web client; commonmark; graphviz; HTTP transport and the envelope of JSON-RPC requests; logging; terminal styling; the test framework (artifact-test, artifact-lib/src/expected.rs); build scripts; JavaScript glue.

## 5. Assumptions of the theorems

`Print Assumptions` was run on each of the 321 theorems listed in `MANIFEST.json` (they are also
printed during the build, at the end of the property files). The answer is the same for all:
`Closed under the global context`. No axiom, neither of the standard library nor of our own, is
used.

| property | theorems, each closed under the global context |
|---|---|
| C01 | `C01_name_accepted_iff`, `C01_name_panic_iff`, `C01_name_error_iff` |
| C02 | `C02_name_identity`, `C02_name_order_transitive`, `C02_name_order_used`, `C02_name_spelling` |
| C03 | `C03_subname_accepted_iff`, `C03_subname_never_panics`, `C03_subname_identity` |
| C04 | `C04_subnames_exact`, `C04_subnames_complete`, `C04_subnames_distinct` |
| C05 | `C05_parent`, `C05_auto_partof`, `C05_parents_reach_root`, `C05_parent_auto_commute` |
| C06 | `C06_trees_expand`, `C06_expansion_exact`, `C06_rejection_exact`, `C06_never_panics` |
| C07 | `C07_partof_roundtrip`, `C07_partof_canonical`, `C07_names_roundtrip`, `C07_names_canonical` |
| C08 | `C08_partof_exact` |
| C09 | `C09_store_then_load`, `C09_never_written` |
| C10 | `C10_missing_links`, `C10_missing_parent_silent` |
| C11 | `C11_parts_inverse`, `C11_parts_are_artifacts` |
| C12 | `C12_build_total` |
| C13 | `C13_ratios_bounded` |
| C14 | `C14_unique_solution`, `C14_order_independent` |
| C15 | `C15_full_iff_done`, `C15_done_reported` |
| C16 | `C16_monotone`, `C16_mark_done`, `C16_add_reference`, `C16_mark_done_refuted`, `C16_add_reference_refuted` |
| C17 | `C17_cycle_zero`, `C17_cycle_silent` |
| C18 | `C18_rounding`, `C18_incomplete_shown_full`, `C18_float_counts`, `C18_float_rounds` |
| C19 | `C19_total`, `C19_ordered`, `C19_green`, `C19_red`, `C19_rounded`, `C19_percent` |
| C20 | `C20_scan_exact`, `C20_scan_complete`, `C20_skip_to_end` |
| C21 | `C21_load_fails`, `C21_exact`, `C21_duplicates_reported`, `C21_only_duplicates` |
| C22 | `C22_orders`, `C22_spelling_depends` |
| C23 | `C23_implementation_exact`, `C23_unknown_reference` |
| C24 | `C24_clean_text`, `C24_clean_idempotent` |
| C25 | `C25_markdown_roundtrip`, `C25_markdown_exact` |
| C26 | `C26_accepted_but_corrupted`, `C26_exact` |
| C27 | `C27_reported_iff`, `C27_both_files`, `C27_only_clashes`, `C27_any_order`, `C27_nothing_lost`, `C27_load_fails` |
| C28 | `C28_raw_roundtrip`, `C28_stored_form`, `C28_id_is_hash_of_stored_form` |
| C29 | `C29_no_errors_iff`, `C29_errors_exact` |
| C30 | `C30_chain_rank`, `C30_cycle_one_type` |
| C31 | `C31_refs_exact`, `C31_refs_panic` |
| C32 | `C32_code_exact`, `C32_code_quiet` |
| C33 | `C33_categorize`, `C33_sorted`, `C33_canonical`, `C33_idempotent`, `C33_order` |
| C34 | `C34_exit_status` |
| C35 | `C35_loaded`, `C35_new_artifacts`, `C35_map` |
| C36 | `C36_refused`, `C36_kinds` |
| C37 | `C37_same_outcome`, `C37_same_artifacts`, `C37_order_refuted` |
| C38 | `C38_disk_untouched` |
| C39 | `C39_crash_safe`, `C39_twins_lost` |
| C40 | `C40_disk`, `C40_reload` |
| C41 | `C41_no_artifacts`, `C41_rewritten`, `C41_file_roots` |
| C42 | `C42_confined`, `C42_plain_location`, `C42_exclusion_inverted` |
| C43 | `C43_equal_content_equal_id`, `C43_hashed`, `C43_separates`, `C43_collision` |
| C44 | `C44_roundtrip`, `C44_distinct`, `C44_form`, `C44_accepted`, `C44_short_long`, `C44_invalid` |
| C45 | `C45_atomic`, `C45_served`, `C45_read`, `C45_poisoned`, `C45_exit`, `C45_once`, `C45_disk` |
| C46 | `C46_deterministic`, `C46_completion`, `C46_lints_depend`, `C46_binary64_depends` |
| C47 | `C47_ends`, `C47_small`, `C47_exactly`, `C47_large` |
| C48 | `C48_listed`, `C48_errors`, `C48_subnames`, `C48_completion_ignored`, `C48_help_refuted` |
| C49 | `C49_accepted`, `C49_rejected`, `C49_order`, `C49_inverted`, `C49_invert_twice`, `C49_shown` |
| C50 | `C50_nearest`, `C50_fails`, `C50_within` |
| C51 | `C51_leading_ignored`, `C51_below_project`, `C51_inside`, `C51_panics_iff` |
| C52 | `C52_artifact_files`, `C52_source_files`, `C52_file_root` |
| C53 | `C53_one_request`, `C53_kept`, `C53_opened`, `C53_saved`, `C53_error`, `C53_busy`, `C53_stuck`, `C53_lost` |
| C54 | `C54_noop`, `C54_unchanged`, `C54_empty_done` |
| C55 | `C55_exact`, `C55_unique`, `C55_names`, `C55_edits` |
| C56 | `C56_below`, `C56_elsewhere`, `C56_ambiguous` |
| C57 | `C57_exact`, `C57_panics` |
| C58 | `C58_kinds`, `C58_methods` |
| C59 | `C59_hidden`, `C59_silent`, `C59_check_passes` |
| C60 | `C60_ends`, `C60_delivers`, `C60_exists` |
| C61 | `C61_one_per_header`, `C61_links_are_names` |
| C62 | `C62_unclosed` |
| C63 | `C63_table`, `C63_one_line`, `C63_colours`, `C63_subnames` |
| C64 | `C64_long`, `C64_separators`, `C64_items_refuted` |
| C65 | `C65_exact`, `C65_new`, `C65_answers` |
| C66 | `C66_settled`, `C66_fmt_twice` |
| C67 | `C67_rendering`, `C67_plain`, `C67_complete` |
| C68 | `C68_reference`, `C68_warned` |
| C69 | `C69_export_fails` |
| C70 | `C70_document`, `C70_contents` |
| C71 | `C71_preview`, `C71_loaded_shown` |
| C72 | `C72_refused`, `C72_succeeds_iff`, `C72_effect`, `C72_no_retry` |
| C73 | `C73_project`, `C73_check_passes` |
| C74 | `C74_unusable`, `C74_paths`, `C74_order`, `C74_climbs` |
| C75 | `C75_artifacts`, `C75_source` |
| C76 | `C76_reported`, `C76_success_errors`, `C76_error_in_success`, `C76_ends`, `C76_no_panic`, `C76_possible_iff`, `C76_never`, `C76_overlap` |
| C77 | `C77_graph`, `C77_consistent`, `C77_total`, `C77_addresses` |
| C78 | `C78_page`, `C78_ticks_refuted` |
| C79 | `C79_where`, `C79_success`, `C79_failure`, `C79_destroyed`, `C79_html`, `C79_initial`, `C79_next` |
| C80 | `C80_nowhere`, `C80_readonly`, `C80_passed`, `C80_refused`, `C80_errors` |
| C81 | `C81_edited`, `C81_created`, `C81_kept` |
| C82 | `C82_stale`, `C82_edits` |
| C83 | `C83_closed`, `C83_shown`, `C83_opened` |
| C84 | `C84_created`, `C84_edited` |
| C85 | `C85_shown`, `C85_artifacts`, `C85_forms`, `C85_errors` |
| C86 | `C86_restore`, `C86_finish`, `C86_forgotten` |
| C87 | `C87_read`, `C87_load`, `C87_repeated`, `C87_saved`, `C87_reload` |
| C88 | `C88_answer`, `C88_to_ser`, `C88_request`, `C88_form`, `C88_any`, `C88_no_number` |
| C89 | `C89_list`, `C89_lints` |
| C90 | `C90_local`, `C90_edit`, `C90_cycles_refuted` |
| C91 | `C91_elsewhere`, `C91_completion` |
| C92 | `C92_reads`, `C92_stops` |
| C93 | `C93_cut`, `C93_project`, `C93_completion` |
| C94 | `C94_fresh`, `C94_sync` |
| C95 | `C95_load`, `C95_stops`, `C95_for_good`, `C95_answers`, `C95_not_lost` |
| C96 | `C96_shows`, `C96_saved`, `C96_history`, `C96_check` |
| C97 | `C97_together`, `C97_step`, `C97_pages` |
| C98 | `C98_last`, `C98_lost`, `C98_wiped`, `C98_fmt` |
| C99 | `C99_reported`, `C99_only` |
| C100 | `C100_project`, `C100_accepted`, `C100_create`, `C100_delete`, `C100_update` |
| C101 | `C101_run`, `C101_moments`, `C101_backups`, `C101_removed`, `C101_ends` |
