{"id": "C01", "title": "Which strings are artifact names", "statement": "Name::from_str accepts a string exactly when it is one of REQ/SPC/TST in any ASCII case, then one or more '-'-separated non-empty elements over ASCII letters, digits, '_' and the two characters that fold to an ASCII letter (U+017F, U+212A). Every other string is an ordinary error, except strings whose type prefix spells its S with U+017F (long s), for which the call panics.", "quantifier": "every string of Unicode scalar values", "why_tests_cant": "The accepted set is infinite, and the panic is reachable only through Unicode case folding that no ordinary test string exercises.", "anchors": ["artifact-ser/src/name.rs: NAME_VALID_RE, InternalName::from_str"]}
{"id": "C02", "title": "Name identity is ASCII case-insensitive equality", "statement": "Two parsed names are equal exactly when their texts agree up to ASCII case; equality, hash input and order agree with each other, the order is total, the type is determined by the text, and as_str/serialisation returns the user's own spelling and parses back to the same name.", "quantifier": "every pair (and triple) of strings accepted as names", "why_tests_cant": "Consistency of Eq, Hash and Ord is a relation over all pairs and triples; maps and sets break silently when any one pair disagrees.", "anchors": ["artifact-ser/src/name.rs: InternalName Hash/PartialEq/Ord, Name::as_str, Name Serialize/Deserialize"]}
{"id": "C03", "title": "Which strings are subnames", "statement": "SubName::from_str accepts exactly '.' followed by an optional 'tst-' (any case) and one or more word characters (ASCII letters, digits, '_', U+017F, U+212A); it never panics; two subnames are equal exactly when they agree up to ASCII case.", "quantifier": "every string", "why_tests_cant": "Infinite language; tests sample a few strings.", "anchors": ["artifact-ser/src/name.rs: VALID_SUB_NAME_RE, SubName::from_str"]}
{"id": "C04", "title": "Subnames found in text", "statement": "The subnames of an artifact are exactly those x for which the text contains [[x]] with x a valid subname; the first spelling met is the one shown; nothing else is reported and nothing is missed.", "quantifier": "every text", "why_tests_cant": "Leftmost non-overlapping scanning could skip an occurrence next to stray brackets; only a proof over all texts excludes it.", "anchors": ["artifact-ser/src/name.rs: TEXT_SUB_NAME_RE, parse_subnames", "artifact-data/src/artifact.rs: determine_subnames"]}
{"id": "C05", "title": "Parent and auto-partof of a name", "statement": "For every parsed name, parent() and auto_partof() never panic and return valid names. parent() drops the last element, keeps the type and is absent exactly for root names, so repeated parents reach the root after as many steps as there are elements. auto_partof() keeps all elements, moves TST to SPC and SPC to REQ, and is absent exactly for REQ. The two commute.", "quantifier": "every parsed name", "why_tests_cant": "Two .expect calls guard this; a single odd accepted spelling would panic every load.", "anchors": ["artifact-ser/src/family.rs: Name::parent, Name::auto_partof"]}
{"id": "C06", "title": "Collapsed name lists expand to what they denote", "statement": "For every tree of comma separated items, where an item is a text or a text prefix with a bracketed sub-list, expanding any rendering of the tree (blanks inserted anywhere) gives the list of all root-to-leaf concatenations in order; a string with an unclosed bracket, an unopened bracket, or a bracket without prefix is rejected and never silently truncated.", "quantifier": "every bracket tree, every placement of blanks, every string for the rejection part", "why_tests_cant": "Nesting depth and width are unbounded.", "anchors": ["artifact-ser/src/expand_names.rs: expand_names, parse_collapsed"]}
{"id": "C07", "title": "Name sets survive serialisation", "statement": "Serialising a non-empty partof set (a bare string when single, otherwise a sorted list) and reading it back gives the same set with the same spellings, and the written form does not depend on insertion order.", "quantifier": "every non-empty set of parsed names, every insertion order", "why_tests_cant": "Sets of all sizes and all orders.", "anchors": ["artifact-data/src/raw_names.rs: NamesRaw Serialize/Deserialize", "artifact-ser/src/family.rs: Names Serialize/Deserialize"]}
{"id": "C08", "title": "partof is exactly user links plus existing automatic links", "statement": "After loading, q is in the partof of n exactly when the user wrote q there (and q is not n's own automatic link), or q is the parent or the auto-partof of n and q is an artifact of the project.", "quantifier": "every set of loaded artifacts", "why_tests_cant": "Universally quantified over projects; the if-and-only-if excludes spurious as well as missing links.", "anchors": ["artifact-ser/src/family.rs: auto_partofs", "artifact-data/src/artifact.rs: determine_partofs", "artifact-ser/src/lib.rs: strip_auto_partofs"]}
{"id": "C09", "title": "Automatic links are never written and never lost", "statement": "Saving strips the automatic links of an artifact and loading adds them again: for every project (dangling links, cycles and self links included), converting each artifact to its stored form and loading it back reproduces the very same project.", "quantifier": "every project", "why_tests_cant": "Round trip over all projects.", "anchors": ["artifact-ser/src/lib.rs: strip_auto_partofs", "artifact-lib/src/lib.rs: From<Artifact> for ArtifactIm", "artifact-data/src/artifact.rs: determine_partofs"]}
{"id": "C10", "title": "A missing parent is not reported", "statement": "Contrary to the design document (a missing parent is a hard error), an artifact whose parent is not defined loads without any error lint, and an explicit partof naming a non-existent own parent or own auto-partof is dropped without any lint.", "quantifier": "existence of a project; characterised for every project", "why_tests_cant": "The absence of a diagnostic over all projects cannot be observed by a finite test-suite.", "anchors": ["artifact-data/src/project.rs: lint_partof_dne", "artifact-data/src/intermediate.rs: from_raw", "design/data/family.md"]}
{"id": "C11", "title": "parts is the inverse of partof", "statement": "For every artifact a and b of a loaded project, b is listed in parts of a exactly when a is in partof of b.", "quantifier": "every project, including projects with cycles, self links and dangling links", "why_tests_cant": "Relation over all pairs in all projects.", "anchors": ["artifact-data/src/graph.rs: determine_graphs, determine_parts, create_ids"]}
{"id": "C12", "title": "Building the artifacts never panics", "statement": "For every list of loaded artifacts (any names, links, dangling links, cycles, duplicates), assembling the project finds every piece it removes from the intermediate maps: no internal expectation fails and the result has exactly one artifact per distinct name.", "quantifier": "every list of loaded artifacts and every map of code implementations", "why_tests_cant": "The expectations are on map contents computed elsewhere; a single unusual project would crash the tool.", "anchors": ["artifact-data/src/artifact.rs: determine_artifacts, finalize_load_artifact", "artifact-data/src/graph.rs: determine_completed"]}
{"id": "C13", "title": "Completion ratios lie between 0 and 1", "statement": "Every reported spc and tst ratio is at least 0 and at most 1, also when the sums and quotients are rounded by any monotone rounding that keeps small integers, and after the final rounding to three decimals.", "quantifier": "every project, every admissible rounding of intermediate results", "why_tests_cant": "Floating point sums over unbounded graphs; tests cover a few small graphs.", "anchors": ["artifact-data/src/graph.rs: determine_completed, round_ratio", "artifact-lib/src/lib.rs: Impl::to_statistics"]}
{"id": "C14", "title": "Completion is a function of the project, not of the traversal order", "statement": "The completion of every artifact is the same for every topological order the traversal may use, every numbering of nodes and every order of artifacts; it is the unique solution of the recursive averaging equations.", "quantifier": "every acyclic project, every topological order", "why_tests_cant": "There are exponentially many orders; a test sees one.", "anchors": ["artifact-data/src/graph.rs: determine_completed"]}
{"id": "C15", "title": "100 percent means everything below is implemented", "statement": "Before the final rounding, an artifact of an acyclic project has spc = 1 exactly when it and everything below it that counts is implemented: it has something to count, its own implementation entry is full, and every contributing part has spc = 1. Likewise for tst.", "quantifier": "every acyclic project", "why_tests_cant": "An average equals 1 only if all terms do; needs a proof for unbounded graphs.", "anchors": ["artifact-data/src/graph.rs: determine_completed", "artifact-lib/src/lib.rs: Impl::to_statistics"]}
{"id": "C16", "title": "Completion is monotone", "statement": "A change that lowers no artifact's own number of met obligations and raises no artifact's own number of unmet obligations lowers nobody's spc or tst, also after rounding. In particular, marking a not-implemented artifact done, adding a primary link to an artifact without test subnames, and adding a missing subname link lower nothing. Without that condition completion can drop: marking a mostly implemented artifact done, referencing only a subname of an unimplemented artifact, or adding a primary link to an artifact with a test subname can each lower a ratio.", "quantifier": "every acyclic project and every such change", "why_tests_cant": "Quantifies over all pairs of projects related by a change.", "anchors": ["artifact-data/src/graph.rs: determine_completed", "artifact-lib/src/lib.rs: Impl::to_statistics"]}
{"id": "C17", "title": "Links cycles zero the whole project silently", "statement": "If the partof relation has a cycle, every artifact of the project gets completion 0, also artifacts unrelated to the cycle and artifacts marked done, and none of the lints is about cycles: there are projects with a cycle that get no lint at all (C29 says exactly which faults give an error).", "quantifier": "every project with a cycle", "why_tests_cant": "Claims about all cyclic projects and about the absence of a lint.", "anchors": ["artifact-data/src/graph.rs: determine_completed", "artifact-data/src/project.rs: lint_errors"]}
{"id": "C18", "title": "Rounding of reported ratios", "statement": "The reported ratio is within 0.0005 of the exact ratio, is monotone in it, keeps 0 and 1; an artifact that is not complete is displayed as 100 percent exactly when its exact ratio is at least 0.9995. In the binary64 arithmetic that is used, the counts that are divided are exact, and the product with 1000 goes to a nearest whole number, halves up.", "quantifier": "every ratio in [0,1]", "why_tests_cant": "A real-valued domain.", "anchors": ["artifact-data/src/graph.rs: round_ratio"]}
{"id": "C19", "title": "Colours are total and ordered", "statement": "Every completion pair maps to a colour without panicking; better spc or tst never gives a worse colour, and green is given exactly when both are reported as complete. Since reported ratios are rounded to thousandths, green means at least 99.95% of each.", "quantifier": "every pair of ratios, in the text renderer and in the command line renderer", "why_tests_cant": "Real-valued domain, panicking match arms.", "anchors": ["artifact-ser/src/lib.rs: Completed::spc_points, tst_points", "artifact-ser/src/markdown.rs: completed_color, name_color", "artifact-app/src/ls.rs: colors"]}
{"id": "C20", "title": "Source scanning honours skip markers", "statement": "Scanning a source file reports exactly the references outside ART-SKIP..ART-DONE regions, each with its 0-based line number, in order; a skip region not closed extends to the end of that file and never into another file.", "quantifier": "every file content", "why_tests_cant": "All interleavings of references and markers over lines.", "anchors": ["artifact-data/src/implemented.rs: parse_locations, SRC_NAME_RE"]}
{"id": "C21", "title": "Joining source references", "statement": "When no (name, subname) pair is referenced twice, the joined map contains exactly the scanned references and no error is produced; when some pair is referenced twice, an error lint names each location involved, so a duplicate never passes silently.", "quantifier": "every list of references", "why_tests_cant": "Unbounded lists; completeness of duplicate detection.", "anchors": ["artifact-data/src/implemented.rs: join_locations, insert_secondary, duplicate_detected"]}
{"id": "C22", "title": "Source references do not depend on thread schedule", "statement": "For every two arrival orders of the same references the joined maps agree (names compared as names) and duplicates are reported for one order exactly when for the other; the displayed spelling of a name that is only referenced through subnames can however depend on the order.", "quantifier": "every permutation of every list of references", "why_tests_cant": "Schedules: four reader threads deliver in any interleaving.", "anchors": ["artifact-data/src/implemented.rs: join_locations", "artifact-data/src/project.rs: read_project"]}
{"id": "C23", "title": "done wins over code", "statement": "An artifact is reported as done exactly when it has a done field, as implemented in code exactly when it has none and the source references it or one of its subnames, and as not implemented otherwise; a reference to an artifact that does not exist affects no artifact.", "quantifier": "every set of artifacts and references", "why_tests_cant": "All combinations over unbounded maps.", "anchors": ["artifact-data/src/artifact.rs: determine_impls"]}
{"id": "C24", "title": "Text normalisation", "statement": "Cleaning a text removes trailing whitespace only, leaves a final newline exactly for multi-line texts, and is idempotent; so is cleaning an artifact.", "quantifier": "every text", "why_tests_cant": "Infinite domain with Unicode whitespace.", "anchors": ["artifact-ser/src/lib.rs: clean_text, string_trim_right", "artifact-lib/src/lib.rs: ArtifactIm::clean"]}
{"id": "C25", "title": "Markdown files round-trip", "statement": "Writing artifacts as markdown and reading the file back yields the same artifacts (names with spelling, done, partof, cleaned text) for every list of distinct artifacts whose texts contain no header line, no end-of-attributes line, no attribute code block opener and no carriage return at line end, under both attribute styles and every name prefix that does not break the header; the YAML codec is assumed to round-trip. The condition is exact but for one case: the last artifact of the file, if it has no attributes, may end in a line that opens an attribute code block.", "quantifier": "every such list of artifacts, every formatter setting", "why_tests_cant": "Round trip over unbounded documents with line-oriented ambiguities.", "anchors": ["artifact-data/src/raw.rs: Formatter::to_markdown, push_artifact_md, push_attrs, Parser::from_markdown, insert_from_parts"]}
{"id": "C26", "title": "Texts the linter accepts but markdown corrupts", "statement": "There is an artifact that passes every error lint, whose text contains a code block opened by three backticks and 'art', which is changed by writing it as markdown and reading it back; an unclosed such block makes the reader drop lines silently. Artifacts without error lints come back from a markdown file unchanged exactly when no line of their texts opens such a block or ends in a carriage return (but for an opening line at the very end of the last artifact, without attributes).", "quantifier": "witnesses, and every list of artifacts of a project without error lints", "why_tests_cant": "Needs an exact comparison of lint condition and parser, over all texts.", "anchors": ["artifact-data/src/project.rs: lint_artifact_text", "artifact-data/src/raw.rs: ATTRS_CODE_RE, from_markdown"]}
{"id": "C27", "title": "Duplicate artifact names are always reported", "statement": "Joining the artifacts of all files yields an error lint exactly when two of them have equal names (up to case), and then each file involved in the clash is named; without clash every artifact is kept, cleaned, with its own file, whatever the arrival order.", "quantifier": "every list of artifacts and every arrival order", "why_tests_cant": "Unbounded lists and schedules.", "anchors": ["artifact-data/src/raw.rs: join_artifacts_raw"]}
{"id": "C28", "title": "Stored form and loaded form correspond", "statement": "Converting a clean artifact to its stored form and back is the identity (name, file, done, partof, text), and the id reported by a read equals the id the modify operation computes for the same artifact, so a fresh id is never refused.", "quantifier": "every artifact and project", "why_tests_cant": "If the two computations of the id differ on one artifact, that artifact can never be edited.", "anchors": ["artifact-data/src/intermediate.rs: from_raw, into_raw", "artifact-lib/src/lib.rs: hash_im, From<Artifact>, clean", "artifact-data/src/modify.rs: modify_project"]}
{"id": "C29", "title": "Error lints cover the invariants they advertise", "statement": "A project has no error lint of the fatal group exactly when every partof target exists, no partof goes from REQ to SPC or TST nor from SPC to TST, no artifact has both done and subnames, and no text line is a header line or an end-of-attributes line.", "quantifier": "every project", "why_tests_cant": "Completeness of a checker: no violating project slips through.", "anchors": ["artifact-data/src/project.rs: lint_partof_dne, lint_partof_types, lint_artifact_done_subnames, lint_artifact_text, lint_errors"]}
{"id": "C30", "title": "Types never descend along links", "statement": "In a project without error lints, along every chain of partof links the type rank (REQ < SPC < TST) never increases towards the target, hence any cycle stays inside a single type.", "quantifier": "every error-free project and every chain", "why_tests_cant": "Chains are unbounded.", "anchors": ["artifact-data/src/project.rs: lint_partof_types"]}
{"id": "C31", "title": "Dangling soft references are warned about", "statement": "A warning is produced for an artifact exactly when its text contains [[name]] or [[name.sub]] and the artifact or the subname does not exist.", "quantifier": "every project and text", "why_tests_cant": "Soundness and completeness of a scanner over all texts.", "anchors": ["artifact-data/src/project.rs: lint_artifact_text_refs", "artifact-ser/src/name.rs: TEXT_REF_RE"]}
{"id": "C32", "title": "Invalid code references are warned about", "statement": "A code reference is warned about exactly when its artifact does not exist, or is marked done, or the referenced subname is not in the artifact's text.", "quantifier": "every project", "why_tests_cant": "Soundness and completeness over all projects.", "anchors": ["artifact-data/src/project.rs: lint_code_impls"]}
{"id": "C33", "title": "Lint lists are canonical", "statement": "Categorising splits lints into errors and others without loss; sorting removes exactly repeated lints, is idempotent, and gives the same lists for every arrival order.", "quantifier": "every sequence of lints and every permutation of it", "why_tests_cant": "Schedules; unbounded lists.", "anchors": ["artifact-ser/src/lint.rs: Categorized::categorize, sort"]}
{"id": "C34", "title": "Exit status of art check", "statement": "art check exits 0 exactly when every file was read without error, no name or source reference is defined twice, every declared link exists and respects the types, no done artifact has subnames, no text can be taken for a header, and every reference in texts and source leads to something; 2 exactly when only references fail to resolve; 1 when anything else is wrong; 101 (panic) when a text refers to a name whose type is written with the letter U+017F.", "quantifier": "every project outcome", "why_tests_cant": "Decision over all lint lists, including errors found after loading.", "anchors": ["artifact-app/src/check.rs: run"]}
{"id": "C35", "title": "Operations act on the stored artifacts like on a map", "statement": "When a list of create, update and delete operations is accepted, the new set of artifacts is exactly the old set without the updated and deleted ids plus the created and updated artifacts; nothing else changes. An update whose new content coincides with another stored artifact is the one exception: the two collapse into one without any error.", "quantifier": "every stored set, every operation list", "why_tests_cant": "Histories of unbounded length.", "anchors": ["artifact-data/src/modify.rs: perform_operations"]}
{"id": "C36", "title": "Stale ids are refused", "statement": "A modify request that updates or deletes an id not present in the current project, or creates content that is already present, fails with HashMismatch (or is refused earlier) and writes nothing.", "quantifier": "every project and request", "why_tests_cant": "This is the lost-update guarantee; must hold for every history of edits.", "anchors": ["artifact-data/src/modify.rs: modify_project, perform_operations"]}
{"id": "C37", "title": "Requests do not depend on the order of their operations", "statement": "Two orders of the same operations that are both accepted give the same set of artifacts. When no operation is an update that changes nothing, the order decides neither acceptance nor outcome. With such an update it can: an update that changes nothing followed or preceded by a delete of the same id is accepted in one order and refused in the other.", "quantifier": "every request and every permutation of it", "why_tests_cant": "All permutations.", "anchors": ["artifact-data/src/modify.rs: check_overlap, perform_operations"]}
{"id": "C38", "title": "Errors before the backup phase leave the disk untouched", "statement": "modify_project that returns InvalidFromLoad, InvalidPaths, HashMismatch or InvalidFromModify has changed no file.", "quantifier": "every disk, every request", "why_tests_cant": "All failure points.", "anchors": ["artifact-data/src/modify.rs: modify_project"]}
{"id": "C39", "title": "Backups preserve every original at every crash point", "statement": "If no two artifact files differ only in extension and no artifact path is a file, then at every instant of a modify or fmt (any interleaving of the workers, any crash, any failing rename, write or removal) each original artifact file is on disk under its own name or under its backup name, or the complete new project is on disk. Two files that differ only in extension lose one of the two originals.", "quantifier": "every set of files, every schedule of renames, every crash point", "why_tests_cant": "Crash points and interleavings.", "anchors": ["artifact-data/src/modify.rs: create_backups"]}
{"id": "C40", "title": "Successful modify leaves exactly the new project on disk", "statement": "After a successful modify, provided the artifact paths are directories, no two artifact files differ only in extension and the request's paths have no \"..\", every artifact file of the new project holds its formatted artifacts, no backup file remains unless a warning says so, all other files are untouched, and reading the project again gives the artifacts that were returned (in markdown no line of a text may open a block of attributes or end in a carriage return, except that the last artifact of a file, if it has no attributes, may end in such an opening line; stored files must not be excluded).", "quantifier": "every disk and accepted request", "why_tests_cant": "All disks and requests; end-to-end composition.", "anchors": ["artifact-data/src/modify.rs: create_backups, save_project, remove_backups"]}
{"id": "C41", "title": "Files that hold no artifact are destroyed by fmt", "statement": "A .md, .toml or .json file inside the artifact paths that defines no artifact, and any text above the first artifact of a file, is lost by a successful modify or fmt; so is a pre-existing file with the backup extension; and when artifact_paths lists a file directly, that file is deleted after it was saved (only its backup remains).", "quantifier": "existence of such disks; characterised for every disk", "why_tests_cant": "Requires the composition of walking, backing up, saving and cleaning.", "anchors": ["artifact-data/src/modify.rs: modify_project, remove_backups", "artifact-data/src/settings.rs: walk_path"]}
{"id": "C42", "title": "Write locations are confined to the artifact paths", "statement": "An accepted create or update has a file whose path starts with one of the artifact paths and has extension toml, md or json; without \"..\" in it, that is where the file is written. Exclusion is not enforced as documented: a path is refused exactly when it is below an artifact path that lies inside an excluded path, so a file below an excluded directory of an artifact path is accepted; and a path with \"..\" escapes the artifact paths.", "quantifier": "every settings and request", "why_tests_cant": "Universal confinement claim; the exclude logic is inverted only for particular nestings.", "anchors": ["artifact-data/src/modify.rs: check_paths", "artifact-data/src/raw.rs: ArtFileType::from_path"]}
{"id": "C43", "title": "Ids identify content", "statement": "Artifacts with equal stored content have equal ids. What is fed to the hash is equal for two artifacts exactly if their content (own name as spelled, file, partof links up to spelling, done, text) is equal or if they differ by trading the last partof link for a done text; so up to hash collisions ids separate artifacts that agree on being done or on the number of links, but two clean artifacts of different content with the same id exist.", "quantifier": "every pair of clean artifacts", "why_tests_cant": "Injectivity over an infinite domain.", "anchors": ["artifact-lib/src/lib.rs: Hash for ArtifactIm, hash_im"]}
{"id": "C44", "title": "Textual ids round-trip", "statement": "The URL-safe base64 form of a 16 byte id decodes to the same id, and distinct ids have distinct forms; decoding however also accepts shorter texts (filling with zeros) and panics on longer ones. A text of at most 22 characters never panics, and it is an error if it has a character other than letters, digits, - and _.", "quantifier": "every 16 byte id and every text", "why_tests_cant": "2^128 ids, unbounded texts.", "anchors": ["artifact-ser/src/lib.rs: HashIm Serialize/Deserialize"]}
{"id": "C45", "title": "Server requests are atomic", "statement": "For every sequence of requests: a read without reload returns the current state, a successful modify or reload replaces the state by the returned project, and a failing or unparsable request leaves the served project unchanged. Requests handled concurrently are answered as if one after the other. Every request sent is answered at most once, and nothing else is answered. Once a handler has panicked while it held the lock no later request is answered. An interrupt never stops a modification half way, and the disk changes only by a modification that succeeds or that fails while backing up or saving.", "quantifier": "every history of requests and every result of the underlying operations", "why_tests_cant": "Histories.", "anchors": ["artifact-app/src/serve/handler.rs: rpc_read_project, rpc_modify_project, handle_rpc", "artifact-app/src/serve/mod.rs: LOCKED"]}
{"id": "C46", "title": "Loading is deterministic", "statement": "For every two schedules of the reader threads and every two orders in which the walks find the same files, provided fewer readers panic than there are, art check has the same exit status and the final sorted project the same artifacts with the same partof, parts, text, subnames, implementation and ids, and (in exact arithmetic) the same completion; the lints are equal when references to one name are spelled alike. With differently spelled references the lint texts, and in binary64 arithmetic the shown completion, do depend on the schedule.", "quantifier": "every pair of schedules", "why_tests_cant": "Schedules; composition of all loading phases.", "anchors": ["artifact-data/src/project.rs: read_project", "artifact-lib/src/lib.rs: Project::sort"]}
{"id": "C47", "title": "Saving cannot deadlock for small requests and can for large ones", "statement": "With w workers and channels of capacity c, saving n files never deadlocks when n is at most 2c + w. In general whether it deadlocks does not depend on the schedule: it does exactly if after the first c + w files that cannot be written more than c files follow. In particular more than 2c + w files that cannot be written always deadlock.", "quantifier": "every number of files, workers, capacity, every schedule and failure pattern", "why_tests_cant": "Deadlocks are schedule dependent.", "anchors": ["artifact-data/src/modify.rs: save_project"]}
{"id": "C48", "title": "art ls filters", "statement": "art ls with a pattern lists exactly the artifacts for which every selected field matches (an unselected field never excludes); the help text promises any-field matching, and subname-only patterns exclude nothing. The list is sorted by name without duplicates. The completion filters -s and -t have no effect. The command fails exactly for fields that cannot be read or include impl, an invalid pattern or an unknown output type, and never panics.", "quantifier": "every project, pattern oracle and flag set", "why_tests_cant": "All flag combinations times all projects.", "anchors": ["artifact-app/src/ls.rs: filter_artifacts, Flags"]}
{"id": "C49", "title": "Flag strings", "statement": "Parsing a flag string sets exactly the flags of its letters, rejects unknown letters, does not depend on order or repetition; 'A' means inversion and double inversion is the identity; an empty selection falls back to the default.", "quantifier": "every flag string", "why_tests_cant": "Unbounded strings, 2^8 flag sets.", "anchors": ["artifact-app/src/ls.rs: Flags::from_str, from_cmd, invert, resolve_actual, len"]}
{"id": "C50", "title": "Project discovery", "statement": "find_repo returns the nearest ancestor-or-self directory that contains .art, and fails exactly when there is none.", "quantifier": "every directory depth and every set of directories with .art", "why_tests_cant": "Unbounded depth.", "anchors": ["artifact-app/src/dev_prelude.rs: find_repo"]}
{"id": "C51", "title": "Configured paths are relative to the project", "statement": "Any number of leading '{repo}' followed by any number of leading '/' is ignored, so no configured path is absolute. A path without '..' resolves to the project directory followed by its components; one that never goes up more often than down stays inside the project. Other uses of '..' can leave the project, and loading panics exactly when a path would climb above the root directory.", "quantifier": "every configured path string", "why_tests_cant": "Infinite strings with repeated prefixes.", "anchors": ["artifact-data/src/settings.rs: resolve_raw_paths"]}
{"id": "C52", "title": "Walking honours exclusion", "statement": "Walking an artifact directory delivers exactly the files with a known extension none of whose ancestors below the root (or itself) is excluded; excluded directories are not entered; each file is delivered once, and an unreadable entry ends the walk with a reported error. A root that is itself a file is delivered unfiltered, and a missing root is reported.", "quantifier": "every directory tree and exclude set", "why_tests_cant": "Unbounded trees.", "anchors": ["artifact-data/src/settings.rs: walk_path, walk_artifact_paths"]}
{"id": "C53", "title": "The web client keeps at most one request in flight and keeps unsaved edits on failure", "statement": "In every history of user and server events, at most one request is outstanding; a form is opened empty or with the content of the artifact shown; one event leaves an edit as it is, or applies what was typed in it (the field gets the text, a link is added at the end, replaced or taken out at its place, the rest stays), or drops it, and it is dropped only by cancelling it or by the success of a save of it, whose request carries the content the edit had when Save was pressed. That success drops the edit whatever was typed since, so such changes are lost. An error keeps edits, view and project, and the save can be tried again. While a request is outstanding Save and Sync send nothing. If the first request fails, Sync never sends anything again.", "quantifier": "every history of client events", "why_tests_cant": "Histories and races between typing and responses.", "anchors": ["artifact-frontend/src/main.rs: update_model", "artifact-frontend/src/fetch.rs: start_send_update, handle_recv_project", "artifact-frontend/src/edit.rs: handle_edit_artifact"]}
{"id": "C54", "title": "Opening an artifact for editing and saving it unchanged is a no-op", "statement": "Opening any artifact of a loaded project for editing and pressing Save sends an update that after cleaning is the stored artifact with its own id, so a server that accepts it has the same artifacts afterwards. The exception is an artifact that is done with empty text: the request removes the mark and it is no longer done.", "quantifier": "every artifact of every loaded project", "why_tests_cant": "All artifacts; composition of client and server conversions.", "anchors": ["artifact-frontend/src/dev_prelude.rs: ArtifactEdit::from_artifact, to_im", "artifact-data/src/modify.rs: check_overlap"]}
{"id": "C55", "title": "Client routing", "statement": "The empty fragment and 'graph' lead to the graph; otherwise a fragment that contains a name anywhere leads to the first name in it, as long as possible (so edit/req-a/7 leads to REQ-A); otherwise the digits after the first edit/ lead to the edit of that number if it fits a usize; every other fragment leads to NotFound. The routes the client makes for an edit id and for an artifact name (in any of its spellings) lead back to that id and that name. No fragment panics except one whose first name is spelt with a long s.", "quantifier": "every URL fragment", "why_tests_cant": "Infinite strings with unanchored patterns.", "anchors": ["artifact-frontend/src/view.rs: View::from_hash", "artifact-frontend/src/dev_prelude.rs: hash_edit"]}
{"id": "C56", "title": "Shown paths are the path without the project directory", "statement": "For every path below the project directory the shown path is the path relative to it without leading slash. A path elsewhere is shown whole, except that one which merely shares a textual prefix with the project directory is cut too, so two different files can be shown alike.", "quantifier": "every base and path", "why_tests_cant": "Prefix handling on all strings.", "anchors": ["artifact-ser/src/ser.rs: SettingsSer::trim_base"]}
{"id": "C57", "title": "Code locations lookup", "statement": "get_impl returns a location exactly when some reference in the source asks for that name and subname in any spelling, and it is the location of the last such reference; it panics exactly for names spelt with a long s.", "quantifier": "every project and query", "why_tests_cant": "All spellings and all maps.", "anchors": ["artifact-ser/src/ser.rs: ProjectSer::get_impl"]}
{"id": "C58", "title": "API enums round-trip", "statement": "Method names and error kinds written by the server parse back to the same value, and no other text parses.", "quantifier": "every text", "why_tests_cant": "The negative part ranges over all strings.", "anchors": ["artifact-ser/src/lib.rs: ModifyErrorKind::from_str/as_str, Method::from_str/as_str"]}
{"id": "C59", "title": "Source files that make a reader panic hide other files", "statement": "A source file with a reference whose type is written with the letter U+017F ends its reader thread without any lint. After four such files all later source files are ignored, under every schedule: art check has the same exit status and result as if they did not exist, even 0.", "quantifier": "every project, every order and every schedule of the reader threads", "why_tests_cant": "Depends on how many threads have died before a file is taken; needs all schedules.", "anchors": ["artifact-data/src/project.rs: read_project", "artifact-data/src/implemented.rs: load_locations"]}
{"id": "C60", "title": "Loading always ends and misses no file", "statement": "Under every schedule of the walking and reading threads with bounded channels, loading comes to an end, and unless all readers panicked every file found was read and everything found in it and every error was delivered exactly once.", "quantifier": "every number of files, readers, channel capacity and schedule", "why_tests_cant": "Termination and delivery over all interleavings.", "anchors": ["artifact-data/src/project.rs: read_project"]}
{"id": "C61", "title": "One artifact for every header", "statement": "When a markdown file is accepted, its artifacts are exactly its headers outside attribute blocks, in order, with valid and pairwise different names (also up to case), and links that are valid names without duplicates; a repeated name in one file is an error.", "quantifier": "every text, prefix and yaml library", "why_tests_cant": "Unbounded texts.", "anchors": ["artifact-data/src/raw.rs: from_markdown, insert_from_parts"]}
{"id": "C62", "title": "An unclosed attribute block swallows the rest of the file", "statement": "When a line that opens an attribute block is not followed by a closing line, reading the file gives the same result as if it ended with that line: all later artifacts and text are lost without an error.", "quantifier": "every text before and after", "why_tests_cant": "All texts before and after the line.", "anchors": ["artifact-data/src/raw.rs: from_markdown"]}
{"id": "C63", "title": "The table of art ls", "statement": "The table art ls prints has one title for each selected column and one row for each listed artifact, in the order of their names; every row has as many cells as there are titles, and each cell holds the value of its artifact for the column above it, in the colour of the completion of the artifact a name stands for; no text cell contains a line break or more than 60 characters.", "quantifier": "every project, selection of columns and pattern", "why_tests_cant": "Every combination of columns and every project.", "anchors": ["artifact-app/src/ls.rs: display_table, line_style, lookup_name_styles, subname_style"]}
{"id": "C64", "title": "The long form of art ls", "statement": "The long form prints for each listed artifact its name, completion and the selected fields in a fixed order. It never prints subnames, and lists of names are printed with their separators as items of their own: n names take 2n-1 lines.", "quantifier": "every project, selection of fields and pattern", "why_tests_cant": "Unbounded lists of names.", "anchors": ["artifact-app/src/ls.rs: full_style"]}
{"id": "C65", "title": "Which buttons of the web client make it panic", "statement": "Of the buttons and fields the page offers: Save panics exactly if no request is outstanding and the name or a partof in the form is not a valid name (so pressing Save on a new artifact panics); Cancel exactly if the name in the form is spelt with a long s and the original is gone; a fragment exactly if its first name is spelt with a long s; all others never. An answer panics only like Cancel.", "quantifier": "every state of the client and every button; every reachable state and answer", "why_tests_cant": "All states and all texts; the form is not validated.", "anchors": ["artifact-frontend/src/edit.rs: view_edit_page", "artifact-frontend/src/fetch.rs: start_send_update", "artifact-frontend/src/dev_prelude.rs: to_im, get_route_because_editing_removed"]}
{"id": "C66", "title": "Formatting a project that artifact has written changes nothing", "statement": "art fmt never changes the artifacts of a project. After a successful art fmt (or any successful request), reading the project and formatting it again leaves every directory and every file as it was, byte for byte; only files with the backup extension inside excluded paths are not covered.", "quantifier": "every project whose artifact files differ in more than the extension, whose artifact paths are directories and whose texts survive the markdown format; every order of the tasks", "why_tests_cant": "All projects, all requests before the second formatting and all interleavings; tests format a handful of trees.", "anchors": ["artifact-app/src/fmt.rs: run", "artifact-data/src/modify.rs: modify_project, save_project", "artifact-data/src/intermediate.rs: ArtifactIm"]}
{"id": "C67", "title": "Rendering replaces marks and nothing else", "statement": "Rendering a text (in the web client and in the markdown export) replaces references [[NAME]] and [[NAME.sub]], subnames [[.sub]] and dot blocks; no mark is overlooked and all other characters come out unchanged and in order. There is one way to cut a text into marks and characters. A text without [[ and without three back ticks is unchanged. A block never contains a block; an empty block goes on to the next closing fence.", "quantifier": "every loaded project, every text and every name of the artifact", "why_tests_cant": "All texts, all overlaps of marks.", "anchors": ["artifact-ser/src/markdown.rs: REPLACE_TEXT_RE, replace_markdown, replace_markdown_dot"]}
{"id": "C68", "title": "A reference is a link exactly if what it refers to exists", "statement": "A rendered reference is a link to the section of an artifact exactly if an artifact of that name exists, in any case, and has the subname if one is given; otherwise it says not found. These are exactly the references art check warns about. Of a reference to a subname of a missing artifact only the name is shown.", "quantifier": "every loaded project, every reference", "why_tests_cant": "All projects and spellings; the check and the rendering are different code.", "anchors": ["artifact-ser/src/markdown.rs: name_markdown, name_subname_markdown", "artifact-data/src/project.rs: lint_artifact_text_refs"]}
{"id": "C69", "title": "When exporting markdown fails", "statement": "Exporting a loaded project as markdown panics exactly if art check reports the template of code addresses as an error and there is at least one artifact. It never fails otherwise (but for errors of writing).", "quantifier": "every loaded project, all export settings", "why_tests_cant": "All projects, texts and templates.", "anchors": ["artifact-ser/src/markdown.rs: to_markdown, format_code_url_maybe", "artifact-data/src/project.rs: lint_settings", "artifact-app/src/export.rs: export_markdown"]}
{"id": "C70", "title": "The exported markdown document", "statement": "The document is the header of the settings, a table of contents with one link for each artifact if asked for, and one section for each artifact in the order of the names: heading, family, file, place of the implementation, completion and the rendered text. The table of contents is left out by default, but is included by default as soon as the settings have an export table. Lines are shown counted from 0 and linked counted from 1.", "quantifier": "every loaded project, all export settings", "why_tests_cant": "All projects and settings.", "anchors": ["artifact-ser/src/markdown.rs: to_markdown, to_markdown_toc, art_to_markdown, art_to_markdown_family", "artifact-ser/src/md_graph.rs: artifact_part_dot", "artifact-ser/src/lib.rs: SettingsExport"]}
{"id": "C71", "title": "Typing into the editor can stop the web client", "statement": "Showing a text panics exactly if the text refers to a name whose type is spelled with a long s, or the name of the artifact is spelled so and the text has a subname, or the text has an implemented subname and the template of code addresses is broken. The texts of loaded artifacts can always be shown if the template is good.", "quantifier": "every loaded project, every text and name typed", "why_tests_cant": "All texts and names, also invalid ones.", "anchors": ["artifact-ser/src/markdown.rs: replace_markdown", "artifact-frontend/src/view.rs: markdown_html", "artifact-frontend/src/edit.rs: view_edit"]}
{"id": "C72", "title": "What art init does to the disk", "statement": "art init in a directory that has a .art, whatever it is, changes nothing and fails. It succeeds exactly if the directory exists, has no .art, design is not a file, design/purpose.md is not a directory and no operation fails. Whatever happens it makes no other directory than .art and design, writes no other file than .art/settings.toml and design/purpose.md, and removes nothing; an existing design/purpose.md is overwritten. If it fails after it has changed anything, every further art init in that directory is refused.", "quantifier": "every disk, directory and failure of any operation at any point, also after part of a file was written", "why_tests_cant": "All disks and all failures; the tests run it once in an empty directory.", "anchors": ["artifact-app/src/init.rs: run", "artifact-app/src/data/settings.toml", "artifact-app/src/data/purpose.md"]}
{"id": "C73", "title": "After art init, art check passes", "statement": "After a successful art init, if there is no other artifact file below design, reading the project gives exactly the artifact REQ-purpose and no lints, and art check succeeds in every directory of the project that is not inside another project.", "quantifier": "every disk and directory, every schedule of the readers", "why_tests_cant": "All disks and schedules; the two commands share no code.", "anchors": ["artifact-app/src/init.rs: run", "artifact-app/src/check.rs: run", "artifact-data/src/project.rs: read_project", "artifact-data/src/settings.rs: load_settings"]}
{"id": "C74", "title": "Which places the settings name", "statement": "Without a readable settings file of valid TOML in .art, loading gives one error that names the directory of the project, and reads no artifact. Otherwise the artifact paths, code paths and exclusions are exactly the configured ones resolved against the directory of the project, each once; two settings that name the same places, in any order, spelling or number of repetitions, give the same results. A path with more .. than there are directories above the project makes loading panic.", "quantifier": "every disk and settings file, every schedule", "why_tests_cant": "All settings; the order of paths decides the order of reading.", "anchors": ["artifact-data/src/settings.rs: load_settings, resolve_raw_paths", "artifact-data/src/project.rs: read_project"]}
{"id": "C75", "title": "Overlapping paths make loading fail", "statement": "If two configured artifact paths are different and an artifact file with an artifact is found from both, loading the project fails; likewise if a source file with a reference is found from two configured code paths. Two artifacts of one name anywhere in the project, and two references to one place, make art check fail.", "quantifier": "every disk, settings and schedule in which no reader dies", "why_tests_cant": "All trees and settings.", "anchors": ["artifact-data/src/project.rs: read_project", "artifact-data/src/settings.rs: walk_paths", "artifact-data/src/artifact.rs: load_artifacts", "artifact-data/src/implemented.rs: join_locations"]}
{"id": "C76", "title": "How a modify request ends", "statement": "A modify request that fails reports at least one error, and its kind says where the errors are from: those of the load; overlapping ids or invalid paths of the request; artifacts that exist already or do not exist; lints of the project that would result; configured paths that could not be walked or files that could not be backed up; files of the new project that could not be written. A success reports no errors but those of looking for backups to remove, in which case backups stay. On a disk that can be read a request can succeed exactly if it is accepted, the configured paths are directories, no directory has the name of a backup, and each file of the new project is in an existing directory and is not a directory. With overlapping paths and a file without artifacts in both the project loads, but whether a modification succeeds depends on the threads: it fails if the file is found a second time before it was renamed. On a project read from disk no request makes the calling program or a writer of files panic.", "quantifier": "every disk, request and schedule, every failure of the disk at any point", "why_tests_cant": "All schedules and failures; the tests use one healthy disk.", "anchors": ["artifact-data/src/modify.rs: modify_project, create_backups, save_project, remove_backups", "artifact-data/src/settings.rs: walk_paths"]}
{"id": "C77", "title": "What the search graph shows", "statement": "For every search that is a valid expression the graph page of the web client shows a graph, in whatever order its tables are walked. Each artifact whose name is found is a node once; the other nodes are exactly the names linked to a found artifact that are not found themselves, and names that do not exist are marked. The arrows are, each once, exactly the partof links one end of which is found, from the higher to the part, and both ends of each arrow are nodes. The address of the node of an artifact opens that artifact.", "quantifier": "every loaded project, every search, every order of the hash tables", "why_tests_cant": "All projects and orders; the two directions of the links come from different places.", "anchors": ["artifact-frontend/src/graph.rs: graph_html_results", "artifact-ser/src/md_graph.rs: name_dot, connect_names_dot, wrap_dot", "artifact-frontend/src/view.rs: from_hash"]}
{"id": "C78", "title": "What the page of an artifact shows", "statement": "The page of an artifact, and the preview while editing, hands to the markdown library the rendered text in which exactly the graph blocks, each without its leading blank lines, are replaced by the pictures of their graphs; all else is as in the exported text. Rendering fails exactly if the exported text cannot be rendered. This holds for every text in which no line of a graph block but the first starts with three back ticks and a double bracket, if no path of a source file and no address contains a line break. With such a line the picture ends there and the rest of the block becomes text.", "quantifier": "every loaded project, every text", "why_tests_cant": "All texts; the second pass works on the output of the first, whose nodes contain line breaks.", "anchors": ["artifact-frontend/src/view.rs: markdown_html, replace_markdown, ser_markdown", "artifact-ser/src/markdown.rs: replace_markdown"]}
{"id": "C79", "title": "What an export leaves behind", "statement": "An export never changes a file outside the place it was told to write, and with an unknown type it fails and changes nothing. A markdown export succeeds exactly if the project loads, its document exists and the target can be written, and then the target holds exactly that document; in a failure either nothing has changed or the target holds a beginning of the document, or of what comes before the first link that cannot be made. So a template for links that is not valid destroys the previous file and ends in a panic. After a successful html export the target holds every file of the web client and the project as initial data; other files there are kept, and without a file for the initial data in the client or at the target it always fails. A nonempty document exported without header and contents, with the prefix that is used for reading, to a markdown file that is found as an artifact file but held no artifact, makes the next load fail, if the parser does not panic on it.", "quantifier": "every disk, project, target and settings, every failure of writing at any point, every schedule", "why_tests_cant": "All disks and failures; the tests do not run exports.", "anchors": ["artifact-app/src/export.rs: run, export_markdown, export_html", "artifact-app/src/frontend.rs: unpack_frontend", "artifact-ser/src/markdown.rs: to_markdown"]}
{"id": "C80", "title": "How the commands end", "statement": "Outside a project, or in a working directory that does not exist, art check, ls, fmt and export end with status 1 and change nothing. art check and art ls never change the disk. If art check ends with 0 or 2 then it does so in every schedule, art ls ends with 0 exactly if its arguments are valid and with 1 otherwise, and art export does not panic. If art check ends with 1 or with a panic then art fmt ends the same way and changes nothing; if it ends with a panic so do art ls and art export. A project that loads with errors fails art check, yet art ls and a markdown export of it succeed.", "quantifier": "every disk and working directory, every argument, every schedule", "why_tests_cant": "All disks and schedules, across four commands that share no code beyond the load.", "anchors": ["artifact-app/src/lib.rs: run", "artifact-app/src/check.rs: run", "artifact-app/src/ls.rs: run", "artifact-app/src/fmt.rs: run", "artifact-app/src/export.rs: run"]}
{"id": "C81", "title": "A saved form becomes the artifact and nothing else changes", "statement": "If the server accepts what the web client sends for a form, then afterwards the project holds the artifact whose name, file, links, done mark and text stand in the form (normalised as any stored artifact; of links that are spelled differently but name the same artifact, the first), under its new id, and all other artifacts as before; for an edit the version that was opened is gone, for a new artifact nothing is. Reading the disk again gives the same, under the conditions of C40.", "quantifier": "every project, every content of the fields, every schedule; ids that do not collide", "why_tests_cant": "All contents of the form against all projects; the path from the form to the disk crosses client, wire and server.", "anchors": ["artifact-frontend/src/dev_prelude.rs: from_artifact, to_im", "artifact-frontend/src/fetch.rs: start_send_update", "artifact-ser/src/ser.rs: ArtifactOpSer", "artifact-data/src/modify.rs: modify_project, perform_operations"]}
{"id": "C82", "title": "Of two edits of the same version only the first is saved", "statement": "Once a request that edits or deletes an artifact has succeeded, every later request that edits or deletes the version it started from is refused and leaves the disk as it is, whatever requests were saved or refused in between, unless one of them restored exactly that version. So if two people open the same artifact and both change it, the one who saves second cannot overwrite what the first has saved.", "quantifier": "every sequence of requests that meet the conditions of C40; ids that do not collide", "why_tests_cant": "All histories; that nothing is lost depends on what the disk gives back after every request.", "anchors": ["artifact-data/src/modify.rs: modify_project, perform_operations", "artifact-app/src/serve/handler.rs: ModifyProject", "artifact-frontend/src/fetch.rs: start_send_update"]}
{"id": "C83", "title": "A form disappears only when it was cancelled or what it said was saved", "statement": "While any number of pages work on one server, a form of a page disappears only if its user cancels it, or when the answer to a save of this form arrives; and then the server had, after Save was pressed, read the project from the disk and saved it with what stood in the form at that moment, in place of the artifact it was opened on, or in addition for a new one. The page then shows exactly the answered project. A page only ever shows what it was opened with or a project the server held and answered it with, and a form that replaces an artifact was opened on one the page showed. A save that is refused, or lost, or makes the server panic, keeps the form.", "quantifier": "every sequence of opening pages, user actions, answers in any order, lost answers and changes of the disk by others, any number of pages", "why_tests_cant": "All interleavings of users, network and server; the client, the wire format and the server are in different programs.", "anchors": ["artifact-frontend/src/main.rs: update", "artifact-frontend/src/fetch.rs: start_send_update, handle_response", "artifact-app/src/serve/handler.rs: ReadProject, ModifyProject", "artifact-data/src/modify.rs: modify_project"]}
{"id": "C84", "title": "Saving again after a lost answer changes nothing", "statement": "If a save succeeded but its answer was lost, saving the form again is refused and leaves the disk as it is, whatever requests were saved or refused in between: for a new artifact unless it was edited or deleted since, for a changed artifact unless the old version was restored. So no artifact is created twice and no edit is applied twice.", "quantifier": "every sequence of requests that meet the conditions of C40; ids that do not collide", "why_tests_cant": "All histories between the two saves.", "anchors": ["artifact-frontend/src/fetch.rs: start_send_update", "artifact-app/src/serve/handler.rs: ModifyProject", "artifact-data/src/modify.rs: modify_project, perform_operations"]}
{"id": "C85", "title": "What a page offers leads where it says", "statement": "Every page of the web client can be shown, except that of an artifact or form whose text contains a reference that cannot be rendered; then the client panics. The search lists exactly the artifacts whose name is found, each once and in the color of its state; following a link opens the page of that artifact, with its name, file, neighbours, ratios, how it is implemented, and its text, and keeps all forms. The list of forms holds exactly the open forms whose name is found, each once, and following a link opens that form as it is. Errors are shown until they are closed: closing some closes exactly these, and each request that fails adds one.", "quantifier": "every loaded project, every history of a page, every search", "why_tests_cant": "All projects and histories; the links pass through the address of the page and back.", "anchors": ["artifact-frontend/src/nav.rs: view_nav, error_pane, editing_pane, search_pane", "artifact-frontend/src/artifact.rs: view_artifact", "artifact-frontend/src/edit.rs: view_edit", "artifact-frontend/src/main.rs: view, clear_logs"]}
{"id": "C86", "title": "After an interrupted save, move the backups back before anything else", "statement": "If saving is interrupted or fails before it starts to remove backups, then renaming every backup to the artifact file it was made of gives back the disk as it was, but for artifact files the request would have created; this needs that no file stood in the place of a backup before. Once it removes backups, the disk holds the new project, every artifact file that is not part of it is gone, every other file is untouched, and backups are all that is left of the old one. Going on without moving the backups back is not safe: in every save that succeeds there is a moment at which an interruption leaves a project that loads as empty, and the next request that succeeds deletes the backups, so that nothing of the old project is left.", "quantifier": "every project, request, schedule and moment of interruption; disks without artifact files that differ only in extension", "why_tests_cant": "All moments at which a process may be stopped, and all later requests; tests end their processes normally.", "anchors": ["artifact-data/src/modify.rs: modify_project, create_backups, remove_backups, save_project", "artifact-data/src/project.rs: read_project"]}
{"id": "C87", "title": "Artifact files in JSON mean what they say", "statement": "A JSON artifact file is accepted exactly when its text is a JSON document (RFC 8259, nested at most 127 deep) that is an object with artifact names as keys, each with a text or null for done and text, and null, a (possibly collapsed) name or a list of them for partof; unknown fields are ignored, a field given twice is not accepted. Then the project gets exactly these artifacts and no complaint; otherwise it gets none of the file and one error naming it, or the load panics, which needs a name with its type spelled with a long s in quotes in the file. A name that comes twice in one file is no error: the last one silently replaces the others. What is saved is a JSON document that is read back as exactly the saved artifacts, whatever characters their texts contain; so a project in JSON files is read back after every successful request without any condition on its texts.", "quantifier": "every text of a file; every list of artifacts; every project in JSON files, request and schedule", "why_tests_cant": "All texts: the grammar has infinitely many documents and the round trip must hold for all characters.", "anchors": ["artifact-data/src/raw.rs: load_file, ArtifactRaw, TextRaw", "artifact-data/src/raw_names.rs: NamesRaw", "artifact-data/src/modify.rs: save_project", "artifact-ser/src/name.rs: Name"]}
{"id": "C88", "title": "What the server and its pages tell each other arrives", "statement": "The answer to a page is JSON from which the page gets exactly the project, its settings and the lints: every artifact, every link, every code reference with file and line, every ratio; only the order is that of the texts of the names. The same holds for the conversion art export makes through JSON, which never panics, provided that ids and ratios are written so that they can be read back (a ratio that is not a number makes it panic). A form that is saved reaches the server as the operation it means; if the path of a file cannot be read, the whole request is refused and nothing of it is applied. Of any other text sent to the server: if it is accepted, it is operations on valid names with valid links; otherwise it is refused, except that a request in which some string is a name written with a long s makes the server panic.", "quantifier": "every loaded project, settings without repeated paths, lints, form and list of operations", "why_tests_cant": "All projects and all characters in names, paths, texts and messages; two programs with their own types must agree on the format.", "anchors": ["artifact-lib/src/lib.rs: Artifact, ImplCode, Project, ProjectResult, to_ser", "artifact-ser/src/ser.rs: ProjectSer, ArtifactSer, ArtifactOpSer", "artifact-ser/src/lint.rs: Categorized", "artifact-app/src/serve/handler.rs: ReadProject, ModifyProject", "artifact-frontend/src/fetch.rs: start_send_update"]}
{"id": "C89", "title": "What the commands print as JSON can be relied on", "statement": "The output of art ls with type json is one JSON document: a list with one object per listed artifact, in the order of the listing, from which name, file, links, text, ratios, subnames and how it is implemented are read back exactly. The lints that art check prints are two JSON documents under their headings, one for errors and one for warnings; two different sets of lints are never printed alike, whatever characters paths and messages contain.", "quantifier": "every loaded project and ls command; every set of lints", "why_tests_cant": "All texts and messages, including those with quotes, brackets and line ends.", "anchors": ["artifact-app/src/ls.rs: run", "artifact-ser/src/lint.rs: Display for Categorized"]}
{"id": "C90", "title": "A change is felt only by what it is part of", "statement": "When artifacts are added, removed or changed, or references to them in the source, then every artifact below which there is none of the changed ones, before and after, keeps exactly its spec and test completion. It does not matter how the files are edited: where artifacts outside the change are written, in which order and case, plays no role. This needs that links form no cycle; a change that makes a cycle sets the completion of everything to zero (C17).", "quantifier": "every two loads of a project that agree outside the changed artifacts; exact arithmetic", "why_tests_cant": "All projects and all changes: absence of an effect on arbitrary others.", "anchors": ["artifact-data/src/graph.rs: determine_graphs, determine_parts, determine_completed", "artifact-data/src/project.rs: read_project", "artifact-data/src/implemented.rs: join_locations"]}
{"id": "C91", "title": "It does not matter where something is written", "statement": "Moving artifacts to other files, splitting and merging files, reordering them, writing them in another format (markdown, toml, JSON) or their names in another case, and moving references in the source to other files and lines changes neither the exit status of art check nor what is loaded: the same artifacts with the same text, links, parts, subnames, marks, references found or not, and completion.", "quantifier": "every two sets of files that hold the same artifacts and references up to file, order, format and case, in which equally all or not all files can be read", "why_tests_cant": "All ways to lay out a project, and all interleavings of the reader threads.", "anchors": ["artifact-data/src/raw.rs: load_file, join_artifacts_raw", "artifact-data/src/project.rs: read_project", "artifact-data/src/implemented.rs: join_locations, parse_locations", "artifact-ser/src/name.rs: Name"]}
{"id": "C92", "title": "A markdown file is read as what it says", "statement": "A markdown artifact file is accepted exactly if it follows a grammar: anything above the first header is ignored; below each header stand text lines and at most one set of attributes, either the lines above a line of hashes or a block opened by three backticks and art; every header is a valid name that occurs once; attributes are valid YAML and their links valid names. What is read is then, for every header in order, the artifact of that name with those attributes and that text, without blanks at the end. A block that is still open at the end of the file loses all its lines but the first, which becomes text. A file that is not accepted gives an error, unless a header or a link names an artifact with its type spelled with a long s, for which the load panics.", "quantifier": "every text, every name prefix, every YAML reader", "why_tests_cant": "All texts; the meaning of a line depends on all lines above it.", "anchors": ["artifact-data/src/raw.rs: from_markdown, insert_from_parts"]}
{"id": "C93", "title": "Markdown files can be cut and joined at headers", "statement": "A markdown file whose first part ends with a line end and has every block closed, and whose second part starts with a header, is accepted exactly if both parts are accepted as files of their own and have no name in common, and its artifacts are those of the first followed by those of the second. A project with such a file, and one with the two parts in two files instead, give art check the same exit status, the same artifacts with the same links, and the same completion.", "quantifier": "every cut of every markdown file, every project around it, every schedule", "why_tests_cant": "All pairs of texts and projects; compares two loads.", "anchors": ["artifact-data/src/raw.rs: from_markdown, load_file", "artifact-data/src/project.rs: read_project"]}
{"id": "C94", "title": "A page never goes back, and Sync shows the disk", "statement": "A project that arrives at a page was given by the server after the page was last told anything, and is what the page then shows: answers do not overtake each other and an old project never replaces a newer one, whatever other pages do and however long requests take. If a page that waits for nothing is asked to synchronise, the next thing it is told is either the project as it was on the disk at some moment since then, which is what it shows from then on, and is what the disk still holds unless something has touched it since; or an error because that disk could not be loaded, and then it shows what it showed before, with one error more.", "quantifier": "every history of a server with any number of pages, requests and answers under way, and programs that change the disk", "why_tests_cant": "All interleavings of pages, server and file system.", "anchors": ["artifact-frontend/src/fetch.rs: start_fetch_project, handle_recv_project", "artifact-frontend/src/main.rs: update", "artifact-app/src/serve/handler.rs: ReadProject, ModifyProject"]}
{"id": "C95", "title": "What stops the server, and that no request is forgotten", "statement": "As long as no artifact file on the disk defines an artifact whose text has a reference to a name whose type is spelled with a long s, loading gives a project or errors, and every request of a page can be answered and is answered with a project or an error, whatever the disk and the pages do. A request that a page waits for is on its way, or its answer is, or its handler panicked. A handler panics for the first time only because the server loaded such a text; from then on every request is lost, and disk and project stay as they are. Such a text can come from a page: a save that contains it is accepted and written, and the next request that loads the project stops the server.", "quantifier": "every history of a server with any number of pages, every disk and failure of the file system", "why_tests_cant": "All histories; that nothing else stops the server is a statement about all disks and requests.", "anchors": ["artifact-app/src/serve/handler.rs: ReadProject, ModifyProject", "artifact-data/src/modify.rs: modify_project", "artifact-data/src/project.rs: read_project, lint", "artifact-ser/src/name.rs: Name::from_str", "artifact-frontend/src/fetch.rs: start_fetch_project, start_send_update"]}
{"id": "C96", "title": "However often a project is saved, it can be loaded again", "statement": "After any number of requests to the server, accepted or refused, on a disk where backups cannot collide: the artifacts loaded are those at the start changed by the accepted requests in their order, whoever loads them; the disk is one on which the next request is safe again; and once a request has been accepted, loading gives exactly these artifacts and art check reports no error, but for errors in the source files, files or directories that cannot be read then, or an invalid code_url, and but for a text with a reference to a name whose type is spelled with a long s, which stops every later load.", "quantifier": "every disk, every list of requests with plain file names whose markdown texts can be written and whose files do not differ only in the extension, every schedule", "why_tests_cant": "All histories of requests; each starts from what the last one wrote.", "anchors": ["artifact-data/src/modify.rs: modify_project", "artifact-data/src/project.rs: read_project, lint", "artifact-data/src/raw.rs: load_file, to_markdown", "artifact-app/src/check.rs", "artifact-app/src/serve/handler.rs: ModifyProject"]}
{"id": "C97", "title": "The saves of all pages add up", "statement": "With any number of pages open on a server, and nothing else changing the disk: the artifacts change only when the server accepts a save, and then exactly the version the saved form was opened on is replaced by what the form says, or what the form says is added to all others; so what one page saved is never lost by a save of another page. The server's project, and what anybody can load from the disk, is at any time what the accepted saves of all pages have made, in the order they were answered, of what there was at the start, and what a page shows is this for some moment before. As soon as a save was accepted the disk can be loaded, with the exceptions of C96.", "quantifier": "every history of a server with any number of pages, on a disk where backups cannot collide, in which no save stops halfway for a failure of the disk and what is saved has plain file names, texts that can be written, and no files that differ only in the extension", "why_tests_cant": "All interleavings of pages, requests and answers.", "anchors": ["artifact-app/src/serve/handler.rs: ReadProject, ModifyProject", "artifact-data/src/modify.rs: modify_project", "artifact-frontend/src/fetch.rs: start_send_update, handle_recv_project", "artifact-frontend/src/edit.rs"]}
{"id": "C98", "title": "Programs that change a project at the same time undo each other's work", "statement": "Nothing keeps a second program (another server, art fmt) from changing a project while a first one does. A request takes effect on what the program has read: however the disk changed since, after the request succeeds the disk holds exactly what it makes of what was read, and can be loaded. So if two programs read the same disk and then save one after the other, both are told that they succeeded, and what only the first stored is gone and what only the first deleted is back. And every request that succeeds has a moment at which the disk shows no artifacts at all: a program that reads the project then and saves later, again with success, leaves nothing but what its own request stores; art fmt leaves nothing.", "quantifier": "every disk where backups cannot collide, every two requests that succeed, with plain file names, texts that can be written and no files that differ only in the extension", "why_tests_cant": "All requests and all moments at which the second program may read.", "anchors": ["artifact-data/src/modify.rs: modify_project, create_backups, save_project", "artifact-data/src/project.rs: read_project", "artifact-app/src/fmt.rs"]}
{"id": "C99", "title": "A load that fails reports everything that went wrong, and nothing else", "statement": "As long as not all readers are stopped by a name (C59): loading fails, under every schedule, as soon as a directory or file cannot be read, an artifact file is not in its format, a name is defined twice or a reference is given twice, and it reports all of it at once: an error for each failure of a walk; for each source file of which a line cannot be read, each artifact file that cannot be read and each that cannot be parsed, an error that names the file and tells the cause; an error naming each of two files that define the same name and each of two places with the same reference. It reports nothing else, and nothing but errors, and without any of this loading gives a project, unless it panics (C95).", "quantifier": "every collection of files and of errors while walking and reading, every schedule of the readers, every toml and json parser", "why_tests_cant": "All combinations of faults and all schedules of several threads that send errors on shared channels.", "anchors": ["artifact-data/src/project.rs: read_project", "artifact-data/src/implemented.rs: load_locations, parse_locations, join_locations", "artifact-data/src/raw.rs: load_file, join_artifacts_raw", "artifact-ser/src/lint.rs: load_error, Categorized"]}
{"id": "C100", "title": "Exactly which requests to change a project are accepted", "statement": "A request in which every operation changes something is accepted if and only if the project has no errors, no id occurs twice in it, everything it stores goes to a file of a known format that is below a configured path and below none that is inside an excluded path, what it creates is not there and what it changes or deletes is, and nothing is wrong with the artifacts that result: names are distinct, what is linked exists and is not of a lower type, what is marked done has no subnames, no line of a text would be read as a header or as the end of attributes. Otherwise every run of it ends at once with an error and the disk is as before. So with no errors before: an artifact can be deleted if and only if no other links to it explicitly (links that follow from the names do not count), created if and only if its file is in such a place, its name is free and nothing is wrong with it, and changed into a new form if and only if this holds for the new form and the name stays the same, up to spelling, or no other artifact links to it explicitly. A loaded project has no errors exactly if nothing is wrong with its artifacts in this sense and its code_url is valid.", "quantifier": "every project, every request without updates that change nothing, every hash that tells the stored artifacts apart", "why_tests_cant": "All projects and all requests; being accepted depends on the links of all artifacts together.", "anchors": ["artifact-data/src/modify.rs: modify_project, check_overlap, check_paths, perform_operations", "artifact-data/src/artifact.rs: determine_artifacts", "artifact-data/src/lint.rs", "artifact-data/src/project.rs: read_project"]}
{"id": "C101", "title": "Looking for files while they are being renamed or removed", "statement": "A request that is saved looks for the artifact files in one thread while others rename what was found, and at the end for the backups while others remove them. On a disk that can be read, with configured paths that are directories, the request ends as it could if all files had been looked up before the first was renamed or removed, and the disk at any moment is one that could be seen then: whatever the order in which directories are listed and files are taken, every artifact file found at the start is under its backup name with its text, or is where it was and an error is reported, no backup is taken for an artifact file, and nothing else is touched; at the end every backup is removed or a warning is given, and nothing else is touched. Both phases come to an end under every schedule, also if configured paths overlap.", "quantifier": "every disk that can be read, every list of configured and excluded paths (for the artifact files: no two that differ only in the extension), every interleaving of the walking thread with those that rename or remove, every order of the entries of a directory", "why_tests_cant": "All interleavings; a directory is listed while its entries change.", "anchors": ["artifact-data/src/modify.rs: create_backups, remove_backups", "artifact-data/src/settings.rs: walk_paths, walk_path, walk_artifact_paths"]}
