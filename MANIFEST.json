{
 "claims": [
  {
   "property": "C01",
   "status": "proved",
   "theorems": [
    "arith_binary_exact",
    "arith_negate_exact",
    "arith_increment_exact",
    "arith_remainder_always_exact_refuted"
   ],
   "note": "x op y for all longs held in variables (any C constant spelling), all ten operators, unary minus and ++/--; holds in both modes without any floating-point hypothesis. LONG_MIN % -1 is reported as an overflow (refuted theorem), as the statement now says. >> of a negative value is modelled as the arithmetic shift (implementation-defined in C)."
  },
  {
   "property": "C02",
   "status": "proved",
   "theorems": [
    "arith_correct",
    "arith_tree_unique_result",
    "arith_index_correct"
   ],
   "note": "For every text whose longest-match tokenization is derivable in the documented grammar, evaluation equals a separate tree evaluator (values, assignments, text produced) or fails with a message exactly when the tree evaluation fails. Floating point is an abstract parameter; hypothesis conv_safe excludes only undefined double-to-long conversions (see C33)."
  },
  {
   "property": "C03",
   "status": "proved",
   "theorems": [
    "arith_and_skips",
    "arith_or_skips",
    "arith_cond_skips",
    "arith_skip_any_text"
   ],
   "note": "Text-level theorems for well-formed skipped operands; for arbitrary (also malformed) operand text the theorem is about the parse functions in parse-only mode. Malformed numbers in a skipped operand, and ++/-- in POSIX mode, are still reported: they are parse errors."
  },
  {
   "property": "C04",
   "status": "proved",
   "theorems": [
    "arith_total",
    "arith_index_total"
   ],
   "note": "Every text: result Ok, i.e. no fuel exhaustion (termination), no read past the terminating null, no undefined operation, under text_safe (POSIX mode, total conversion, or integers only). Stack depth is not modelled."
  },
  {
   "property": "C05",
   "status": "proved",
   "theorems": [
    "arith_total",
    "arith_index_total"
   ],
   "note": "No value exactly if a message was printed; a value implies the whole text is a sentence of the grammar."
  },
  {
   "property": "C06",
   "status": "proved",
   "theorems": [
    "long_print_read",
    "integer_texts",
    "integer_text_value_unique",
    "arith_assign_read"
   ],
   "note": "Round trip for every long, plus a characterisation of all texts read as integers. wcstol is modelled from the C standard."
  },
  {
   "property": "C07",
   "status": "proved",
   "theorems": [
    "hashtable_refines_map"
   ],
   "note": "All operation sequences from any initial capacity, any hash function respecting key equality; also proves absence of out-of-bounds accesses and loop termination in the model. Memory exhaustion (abort) is not modelled."
  },
  {
   "property": "C08",
   "status": "proved",
   "theorems": [
    "hashtable_refines_map"
   ],
   "note": "Iterate and ToArray are operations of the same history theorem: each returns a permutation of the live entries; writing past count+1 cells would be UB in the model."
  },
  {
   "property": "C09",
   "status": "proved",
   "theorems": [
    "plist_replace",
    "strbuf_replace",
    "plist_insert",
    "plist_remove",
    "plist_append",
    "strbuf_append",
    "buffer_add",
    "strbuf_repeat",
    "buffer_capacity",
    "buffer_reserve",
    "buffer_history",
    "plist_duplicate"
   ],
   "note": "All operations of plist_T, xstrbuf_T and xwcsbuf_T as sequence operations with size_t wrap-around, uninitialised memory and allocation failure modelled; abort only when growth is refused."
  },
  {
   "property": "C10",
   "status": "proved",
   "theorems": [
    "getopt_grammar",
    "getopt_grammar_unambiguous",
    "getopt_permutes",
    "getopt_operands"
   ],
   "note": "Parses whole argument vectors for every table and mode, also when an error is reported."
  },
  {
   "property": "C11",
   "status": "proved",
   "theorems": [
    "getopt_posix",
    "getopt_operands",
    "getopt_grammar"
   ],
   "note": ""
  },
  {
   "property": "C12",
   "status": "partial",
   "theorems": [
    "long_option_resolution_partial",
    "builtin_tables_fine",
    "long_option_exact_wins_refuted"
   ],
   "note": "Refuted for arbitrary tables: an exact name that comes after two names it abbreviates is reported as ambiguous. Proved for tables without such an entry, and every table of the shell is one of them."
  },
  {
   "property": "C13",
   "status": "partial",
   "theorems": [
    "option_argument_partial",
    "option_argument_reset_refuted"
   ],
   "note": "Refuted: an option without argument leaves xoptarg as the previous option set it (its documentation says it becomes NULL). Proved for options with an argument."
  },
  {
   "property": "C14",
   "status": "proved",
   "theorems": [
    "trie_longest_prefix",
    "trie_stored_iff",
    "trie_foreach_enumerates"
   ],
   "note": "For every history of set/remove with keys of any characters (narrow and wide functions share the model); enumeration order included."
  },
  {
   "property": "C15",
   "status": "proved",
   "theorems": [
    "alias_terminates",
    "alias_tables_ok",
    "alias_substitution_refines"
   ],
   "note": "The number of substitutions is at most (characters read) * (longest value + 1)^(number of aliases), for all alias tables built by the alias and unalias built-ins and all interleavings of reading, advancing and substituting in which no line continuation straddles the end of an expansion."
  },
  {
   "property": "C16",
   "status": "partial",
   "theorems": [
    "alias_substitution_refines",
    "alias_spec_total",
    "substitute_alias_word",
    "alias_line_continuation_refuted"
   ],
   "note": "Refuted for a line continuation whose backslash is the last character of an expansion and whose newline is not: the end of the expansion is left inside a word and a later substitution fails an assertion. Proved for every run without such a line continuation: the text, the position, which words are replaced and which are protected agree with a specification that annotates each character with the aliases it comes from."
  },
  {
   "property": "C17",
   "status": "partial",
   "theorems": [
    "pattern_language_partial",
    "pattern_language_refuted"
   ],
   "note": "Refuted for patterns that quote the delimiter of a symbol, e.g. [[\\:alpha:]]. Proved for all others, through both the literal path and the regular expression translation. The hypothesis clear_pattern excludes patterns that quote a delimiter or a character of a [. .], [: :] or [= =] symbol; for these the claim is false."
  },
  {
   "property": "C18",
   "status": "partial",
   "theorems": [
    "prefix_removal_partial",
    "suffix_removal_partial"
   ],
   "note": "The hypothesis clear_pattern excludes patterns that quote a delimiter or a character of a [. .], [: :] or [= =] symbol; for these the claim is false."
  },
  {
   "property": "C19",
   "status": "partial",
   "theorems": [
    "substitution_once_partial",
    "substitution_all_partial",
    "substitution_whole_partial",
    "substitution_whole_refuted"
   ],
   "note": "Refuted for ${x:/*/foo} with empty x; also The hypothesis clear_pattern excludes patterns that quote a delimiter or a character of a [. .], [: :] or [= =] symbol; for these the claim is false. Empty matches are never replaced."
  },
  {
   "property": "C20",
   "status": "proved",
   "theorems": [
    "not_a_pattern"
   ],
   "note": "All strings, including is_matching_pattern's termination."
  },
  {
   "property": "C21",
   "status": "proved",
   "theorems": [
    "splitting_posix"
   ],
   "note": "For all words (with categories), IFS values, locales and both option settings; the specification is shown to determine the fields."
  },
  {
   "property": "C22",
   "status": "proved",
   "theorems": [
    "splitting_lossless"
   ],
   "note": "Concatenation of the fields is the word filtered by 'not a separator'."
  },
  {
   "property": "C23",
   "status": "proved",
   "theorems": [
    "escape_exact",
    "unescape_escape",
    "escape_pattern"
   ],
   "note": "Also: escaping every character gives a pattern that matches just the string."
  },
  {
   "property": "C24",
   "status": "proved",
   "theorems": [
    "quote_as_word_plain",
    "unquote_quote",
    "unquote_exact",
    "quote_expand"
   ],
   "note": "The quoted word is not empty, has no unquoted special or blank character, stands for the string under the quoting rules, and expands (all steps of word expansion) to exactly the one field that is the string; unquote decides the quoting rules. A quoted word may still be an alias name or a reserved word if it consists of unquoted safe characters only. The parser itself is not modelled."
  },
  {
   "property": "C25",
   "status": "partial",
   "theorems": [
    "quote_removal_exact",
    "quote_removal_pattern_partial",
    "quote_removal_pattern_refuted"
   ],
   "note": "Refuted for an unquoted backslash (from an expansion) directly before a quoted character: the escape put before the quoted character is taken by the backslash. Proved: quotation marks are removed exactly; with escaping, all other texts are read with quoted characters literal."
  },
  {
   "property": "C26",
   "status": "proved",
   "theorems": [
    "brace_ranges",
    "brace_expansion",
    "brace_plain",
    "brace_each"
   ],
   "note": "For every word: any reading as nested groups gives the expansion; ranges are determined by the specification; no overflow, always terminates."
  },
  {
   "property": "C27",
   "status": "partial",
   "theorems": [
    "index_selects",
    "index_special",
    "assign_last_refuted"
   ],
   "note": "Proved: the values selected by any pair of indices (or one) from scalars, arrays and concatenated arrays, and the special indices @, * and #. Refuted for assignment by index: ${a[-1]:=x} is an error although every other way to name the same element works. Index texts are evaluated by an arbitrary function of the environment."
  },
  {
   "property": "C28",
   "status": "partial",
   "theorems": [
    "undo_restores",
    "undo_restores_targets",
    "clear_keeps",
    "undo_high_pipe_refuted",
    "undo_leak_refuted",
    "undo_unsaved_refuted",
    "fd_setsize_refuted"
   ],
   "note": "Proved for targets below the descriptor limit, pipe outputs below the shell's range, and as long as no descriptor duplication is refused while saving or restoring; each of these conditions is shown to be necessary by a refutation. undo_restores: immediately after opening, whether or not that succeeded. undo_restores_targets: after anything that leaves the shell's descriptors alone. The close-on-exec flag of restored descriptors is not claimed."
  },
  {
   "property": "C29",
   "status": "partial",
   "theorems": [
    "shell_fds_untouched",
    "shell_target_rejected",
    "shell_source_rejected",
    "run_keeps_shell",
    "shell_fd_closed_refuted"
   ],
   "note": "Opening redirections is proved for all lists. For whole commands (run_keeps_shell) targets must be below the shell's range: { set -m; } 101>&- makes undoing close the shell's own descriptor (refutation)."
  },
  {
   "property": "C30",
   "status": "partial",
   "theorems": [
    "job_discipline",
    "job_discipline_add",
    "current_exists",
    "fg_current_defined",
    "current_becomes_previous",
    "discipline_refuted",
    "discipline_subshell_refuted"
   ],
   "note": "Proved after every command that chooses the current job (adding, removing, reporting, continuing, jobs, fg, pipelines) in all histories; the numbers are valid in all states. False right after a notification and in subshells: refuted with witnesses."
  },
  {
   "property": "C31",
   "status": "proved",
   "theorems": [
    "job_number_least",
    "job_number_kept",
    "notifications_keep_jobs",
    "remove_only_one"
   ],
   "note": "All histories of commands including waits with traps."
  },
  {
   "property": "C32",
   "status": "partial",
   "theorems": [
    "job_status_exact",
    "job_status_sound",
    "status_unique",
    "notification",
    "notification_ignored",
    "job_number_kept",
    "status_fork_refuted",
    "fork_failure_hangs_refuted",
    "reused_pid_refuted"
   ],
   "note": "Exact in all histories in which each job has at least one process and none is continued by fg or bg; stopped and done are always right; after a notification the status is right in any case. False when fork fails for all commands, and with reused process numbers in a subshell: refuted."
  },
  {
   "property": "C33",
   "status": "partial",
   "theorems": [
    "arith_conversion_defined_refuted",
    "arith_total"
   ],
   "note": "Refuted in default mode: 1e30 | 0 converts an out-of-range double (witness over a toy floating-point instance). arith_total proves the remaining part: no undefined operation in POSIX mode or when only integers occur."
  },
  {
   "property": "C34",
   "status": "proved",
   "theorems": [
    "arith_total",
    "arith_index_total",
    "arith_correct"
   ],
   "note": "Read-only variables keep their values on every text, and the set of read-only variables is unchanged; for sentences of the grammar an attempted assignment makes the expansion fail with a message (arith_correct, assign)."
  },
  {
   "property": "C35",
   "status": "proved",
   "theorems": [
    "wide_to_multibyte",
    "multibyte_to_wide",
    "conversion_round_trip"
   ],
   "note": "For stateless encodings; shift states are not modelled."
  },
  {
   "property": "C36",
   "status": "partial",
   "theorems": [
    "printf_appends",
    "printf_error",
    "wprintf_appends_partial",
    "wprintf_any_length_refuted",
    "join_array"
   ],
   "note": "Refuted for wide formatted printing: wb_vwprintf gives up after 20 retries, so an output of about 17.8 million characters or more on a fresh buffer is an error. Proved for byte printing, joining, and wide printing below the limit."
  },
  {
   "property": "C37",
   "status": "proved",
   "theorems": [
    "prediction_greedy",
    "prediction_recorded",
    "prediction_nonempty"
   ],
   "note": "Weights are an abstract type with a strict weak order closed under addition (finite doubles with positive weights are one)."
  },
  {
   "property": "C38",
   "status": "proved",
   "theorems": [
    "alias_definitions"
   ],
   "note": "For every sequence of operands; the specification splits at the first equal sign."
  },
  {
   "property": "C39",
   "status": "partial",
   "theorems": [
    "period_explicit_partial"
   ],
   "note": "The hypothesis clear_pattern excludes patterns that quote a delimiter or a character of a [. .], [: :] or [= =] symbol; for these the claim is false."
  },
  {
   "property": "C40",
   "status": "proved",
   "theorems": [
    "read_assigns",
    "read_determined"
   ],
   "note": "Option parsing, prompts, read errors, null characters and read-only variables are outside the model."
  },
  {
   "property": "C41",
   "status": "partial",
   "theorems": [
    "read_array_partial",
    "read_array_refuted"
   ],
   "note": "Refuted: a single empty remaining word gives an empty array (e.g. IFS=: and the line ':'). Proved in all other cases."
  },
  {
   "property": "C42",
   "status": "partial",
   "theorems": [
    "quoted_word",
    "quoted_one",
    "quoted_values",
    "quoted_variable",
    "quoted_at",
    "quoted_at_alone",
    "quoted_star",
    "at_beside_refuted",
    "at_array_refuted"
   ],
   "note": "Proved for all words whose expansions are all between double quotes. Refuted in two corner cases: a \"$@\" without values beside an unquoted blank leaves an empty field, and an empty positional parameter is lost when an empty array follows it in the same double quotes."
  },
  {
   "property": "C43",
   "status": "proved",
   "theorems": [
    "word_expansion",
    "unquoted_parameter",
    "unquoted_noglob",
    "line_fields"
   ],
   "note": "For all well-formed words in an environment without null characters; the directory search itself (wglob) is an arbitrary function."
  },
  {
   "property": "C44",
   "status": "partial",
   "theorems": [
    "param_table",
    "param_word",
    "subst_whole_refuted"
   ],
   "note": "The table is proved for variables that are not arrays. Refuted beyond the table: ${x:/a/b} with an empty x is an error under set -u, because the colon is taken as a condition."
  },
  {
   "property": "C45",
   "status": "partial",
   "theorems": [
    "tilde_expansion",
    "tilde_quoted",
    "tilde_empty_refuted"
   ],
   "note": "Proved except that a tilde alone with an empty home directory is no field at all (POSIX.1-2024 requires an empty field). Tildes after colons in assignments are not covered."
  },
  {
   "property": "C46",
   "status": "partial",
   "theorems": [
    "expand_total_partial",
    "line_total_partial"
   ],
   "note": "Missing: expansions with pattern operations (the regular expression model is undefined for some patterns)."
  },
  {
   "property": "C47",
   "status": "proved",
   "theorems": [
    "redirections_effect",
    "redirections_total",
    "self_copy_refuted"
   ],
   "note": "For pipes whose output is below the shell's range. Copying a closed descriptor to itself succeeds silently outside the POSIX mode (self_copy_refuted; case eff_self of the specification)."
  },
  {
   "property": "C48",
   "status": "proved",
   "theorems": [
    "shell_fds_hidden",
    "shellfdmin_range"
   ],
   "note": "For nested commands whose redirection targets are below the shell's range."
  },
  {
   "property": "C49",
   "status": "proved",
   "theorems": [
    "pipeline_exit_status",
    "wait_exit_status",
    "stopped_exit_status",
    "fate_unique"
   ],
   "note": "Pipelines with and without job control; wait without traps and without job control; for jobs with at least one process."
  },
  {
   "property": "C50",
   "status": "proved",
   "theorems": [
    "job_spec_name",
    "job_spec_is_name",
    "job_spec_number",
    "job_spec_special",
    "disown_exact"
   ],
   "note": "Numbers below 2^64."
  },
  {
   "property": "C51",
   "status": "partial",
   "theorems": [
    "wait_for_all",
    "wait_for_all_jobctl",
    "wait_trap_refuted"
   ],
   "note": "Proved as stated without job control and traps; with them, that status 0 means that no job runs. A trap that removes the job wait %n waits for is a use after free: refuted."
  },
  {
   "property": "C52",
   "status": "proved",
   "theorems": [
    "reports_exact",
    "mark_exact",
    "changes_noted"
   ],
   "note": "Which jobs, status, mark and order; the wording is not modelled."
  },
  {
   "property": "C53",
   "status": "partial",
   "theorems": [
    "environment_agrees",
    "environment_stays",
    "environment_array_refuted",
    "environment_random_refuted",
    "environment_lineno_refuted"
   ],
   "note": "Proved for every name over all histories in which no array of that name is changed in place (array -d/-i/-s, shift -A) and, for LINENO and RANDOM, if they are not inherited; the remaining cases are refuted with witnesses: in-place array changes do not update the environment, an inherited RANDOM stays exported though the variable is not, an inherited LINENO is stale at start."
  },
  {
   "property": "C54",
   "status": "partial",
   "theorems": [
    "readonly_kept",
    "readonly_assignment",
    "unset_exact",
    "readonly_shift_refuted"
   ],
   "note": "Proved for all commands except shift -A (refuted: it changes read-only arrays) and for variables other than RANDOM and LINENO, whose value changes by itself."
  },
  {
   "property": "C55",
   "status": "proved",
   "theorems": [
    "local_isolated"
   ],
   "note": "The function may not unset its local variable, which would uncover the caller's."
  },
  {
   "property": "C56",
   "status": "proved",
   "theorems": [
    "temporary_visible",
    "temporary_restored"
   ],
   "note": "If no assigned variable is read-only; the command itself may change other variables."
  },
  {
   "property": "C57",
   "status": "proved",
   "theorems": [
    "params_always",
    "function_params",
    "params_restored",
    "set_params",
    "shift_exact",
    "param_number",
    "param_special"
   ],
   "note": ""
  },
  {
   "property": "C58",
   "status": "partial",
   "theorems": [
    "search_path_exact",
    "search_path_refuted"
   ],
   "note": "Proved over all histories without in-place changes (array -d/-i/-s, shift -A, ${x[n]:=y}) of an array of that name; refuted for those: the cached list is not updated."
  },
  {
   "property": "C59",
   "status": "proved",
   "theorems": [
    "array_delete",
    "array_insert",
    "array_element",
    "array_error",
    "shift_array_exact"
   ],
   "note": ""
  },
  {
   "property": "C60",
   "status": "partial",
   "theorems": [
    "getopts_exact",
    "reads_total",
    "getopts_refuses",
    "getopts_index_refuted"
   ],
   "note": "Complete except for the final OPTIND after a missing argument, which is one too large (refuted; getopts_exact says what it is). The variables must be writable and OPTARG exist in one scope at most."
  },
  {
   "property": "C61",
   "status": "proved",
   "theorems": [
    "assignment_exact",
    "target_exists",
    "readonly_assignment"
   ],
   "note": "Reading back: names other than RANDOM, whose getter is kept when a seed is assigned."
  },
  {
   "property": "C62",
   "status": "proved",
   "theorems": [
    "commands_defined"
   ],
   "note": "For the commands modelled; names without an equal sign, as the parser guarantees."
  },
  {
   "property": "C63",
   "status": "partial",
   "theorems": [
    "listed_exact",
    "listing_temporary_refuted"
   ],
   "note": "Which variables are listed; their order and format are not modelled here. typeset without -g and with a temporary assignment lists only the temporary variables (refuted)."
  },
  {
   "property": "C64",
   "status": "partial",
   "theorems": [
    "C64_script_runs_as_structured_partial",
    "C64_fuel",
    "C64_return_in_condition_refuted",
    "C64_return_with_signal_refuted",
    "C64_continue_with_signal_refuted"
   ],
   "note": "refinement to a big-step semantics with uniqueness of the result, for two families of programs (ok_lines): without EXIT traps, or without return/continue; three departures of the code are refutations; termination is not claimed (only that the result, if any, is the right one)"
  },
  {
   "property": "C65",
   "status": "partial",
   "theorems": [
    "C65_end_of_file_unobservable_partial",
    "C65_finally_exit_unobservable_partial",
    "C65_last_pipeline_refuted"
   ],
   "note": "holds for the commands of ok_lines; false for break in the last command of a pipeline in a loop"
  },
  {
   "property": "C66",
   "status": "proved",
   "theorems": [
    "C66_call_contains_jumps",
    "C66_dot_contains_jumps",
    "C66_lists_balanced"
   ],
   "note": "for all commands"
  },
  {
   "property": "C67",
   "status": "proved",
   "theorems": [
    "C67_failure_ends",
    "C67_errexit_ignored_in_conditions",
    "C67_errexit_ignored_in_and_or",
    "C64_script_runs_as_structured_partial"
   ],
   "note": "for all commands; exactly where errexit acts is also part of C64"
  },
  {
   "property": "C68",
   "status": "partial",
   "theorems": [
    "C68_traps_transparent_partial",
    "C64_return_with_signal_refuted",
    "C64_continue_with_signal_refuted"
   ],
   "note": "holds when no jump is pending; false when a signal arrives while the operand of return or continue is expanded"
  },
  {
   "property": "C69",
   "status": "partial",
   "theorems": [
    "C69_exit_partial",
    "C69_return_to_exit_trap_refuted"
   ],
   "note": "holds when no jump is pending; after return (or errreturn) at the top level the EXIT trap is lost"
  },
  {
   "property": "C70",
   "status": "partial",
   "theorems": [
    "C70_pwd_names_directory",
    "C70_failure_changes_nothing",
    "C70_pwd_repaired",
    "C70_cd_P_refuted"
   ],
   "note": "Proved for cd -L, and for cd -P when getcwd works. Refuted: cd -P in a directory that has no name, with PWD set to something not absolute, fails an assertion."
  },
  {
   "property": "C71",
   "status": "partial",
   "theorems": [
    "C71_canonical",
    "C71_cd_goes_there",
    "C71_cdpath",
    "C71_without_links",
    "C71_pwd_normal_partial",
    "C71_pwd_normal_refuted"
   ],
   "note": "Proved except that after cd //.. the new PWD is //.. (refuted), which keeps a dot-dot component."
  },
  {
   "property": "C72",
   "status": "proved",
   "theorems": [
    "C72_cd_back"
   ],
   "note": "Logical cd, PWD in normal form and the directory one may enter."
  },
  {
   "property": "C73",
   "status": "proved",
   "theorems": [
    "C73_pwd"
   ],
   "note": ""
  },
  {
   "property": "C74",
   "status": "partial",
   "theorems": [
    "C74_symbolic",
    "C74_rejected",
    "C74_rejected_refuted"
   ],
   "note": "Rejection proved for strings of characters below 256; refuted otherwise: U+012B, U+012D and U+013D are taken for the operators."
  },
  {
   "property": "C75",
   "status": "proved",
   "theorems": [
    "C75_octal",
    "C75_print_octal",
    "C75_print_symbolic"
   ],
   "note": ""
  },
  {
   "property": "C76",
   "status": "partial",
   "theorems": [
    "glob_sound",
    "glob_sound_mixed_refuted"
   ],
   "note": "Pieces that avoid quoted delimiters of symbols in bracket expressions (see C17). That no directory is passed twice holds if the recursive pieces agree on following links; refuted otherwise."
  },
  {
   "property": "C77",
   "status": "partial",
   "theorems": [
    "glob_complete_partial",
    "glob_complete_refuted"
   ],
   "note": "Proved for fewer than 255 names; refuted beyond that depth. Pieces as in C76."
  },
  {
   "property": "C78",
   "status": "proved",
   "theorems": [
    "glob_unique"
   ],
   "note": "Pieces as in C76."
  },
  {
   "property": "C79",
   "status": "proved",
   "theorems": [
    "glob_ends"
   ],
   "note": ""
  },
  {
   "property": "C80",
   "status": "partial",
   "theorems": [
    "test_value",
    "test_sound",
    "test_negation",
    "test_double_negation_refuted"
   ],
   "note": "Proved for all expressions with plain operands and, for soundness, all argument lists. False for directly nested negations in expressions of five or more words: test ! ! x -a y is an error (test_double_negation_refuted)."
  },
  {
   "property": "C81",
   "status": "partial",
   "theorems": [
    "test_returns",
    "test_returns_refuted",
    "test_bracket"
   ],
   "note": "Proved if every word can be converted to a multibyte string. Refuted otherwise: match_regex passes a null pointer to regcomp."
  },
  {
   "property": "C82",
   "status": "proved",
   "theorems": [
    "test_integers"
   ],
   "note": "For both directions: exact values, and status 2 exactly when an operand is no 64-bit decimal integer."
  },
  {
   "property": "C83",
   "status": "partial",
   "theorems": [
    "test_versions",
    "test_versions_refuted"
   ],
   "note": "Proved for numbers below 2^64 in the POSIX collation order; larger numbers are all equal (test_versions_refuted)."
  },
  {
   "property": "C84",
   "status": "partial",
   "theorems": [
    "version_order",
    "version_order_refuted"
   ],
   "note": "Proved for the POSIX collation order and all words. Refuted for dictionary collation, which is used in most other locales."
  },
  {
   "property": "C85",
   "status": "proved",
   "theorems": [
    "echo_output",
    "echo_arguments",
    "echo_any_text"
   ],
   "note": "Also: exactly one style and division into options and operands for any arguments."
  },
  {
   "property": "C86",
   "status": "proved",
   "theorems": [
    "printf_format"
   ],
   "note": "is_format is a separate grammar."
  },
  {
   "property": "C87",
   "status": "partial",
   "theorems": [
    "printf_output",
    "printf_groups",
    "printf_all_operands_refuted"
   ],
   "note": "Groups proved for formats without %b (whose \\c ends the output) and without %c on empty operands; refuted for %c, which does not take an empty operand, so that later operands are not printed. For widths, precisions and operands of at most 10^9 bytes; floating-point conversions are an arbitrary function."
  },
  {
   "property": "C88",
   "status": "proved",
   "theorems": [
    "printf_output",
    "printf_readback",
    "printf_bad_number"
   ],
   "note": "The C library's formatting of integers is modelled after the C standard."
  },
  {
   "property": "C89",
   "status": "proved",
   "theorems": [
    "printf_lines",
    "printf_output",
    "output_error"
   ],
   "note": "vsnprintf for %ls is modelled after the C standard."
  },
  {
   "property": "C90",
   "status": "partial",
   "theorems": [
    "command_text_reads_back_partial",
    "reads_unique",
    "listing_of_trailing_space_refuted",
    "listing_of_keyword_function_refuted",
    "listing_of_nested_function_refuted",
    "listing_of_large_fd_refuted",
    "listing_of_dollar_backquote_refuted",
    "listing_of_last_backslash_refuted",
    "listing_of_dollar_function_refuted"
   ],
   "note": "Proved for all programs under the stated conditions, each of which is needed: without it the claim is refuted by a program the parser accepts. Missing: alias substitution, here-documents, process redirections, the right operand of =~, the POSIXly-correct mode. Expansions are a parameter with stated assumptions (expansions_ok), shown to hold of a part of the code's expansions in ParseInst.v."
  },
  {
   "property": "C91",
   "status": "partial",
   "theorems": [
    "pipelines_text_reads_back_partial",
    "reads_unique"
   ],
   "note": "Same conditions and omissions as C90."
  },
  {
   "property": "C92",
   "status": "partial",
   "theorems": [
    "function_listing_reads_back_partial",
    "reads_unique",
    "listing_of_nested_function_refuted",
    "listing_of_keyword_function_refuted"
   ],
   "note": "Functions whose name is not a variable name, which are listed with a quoted name, are missing. Same conditions and omissions as C90."
  },
  {
   "property": "C93",
   "status": "proved",
   "theorems": [
    "read_back_text_same",
    "read_back_stable",
    "read_back_value_same"
   ],
   "note": "For all parse trees of the model, whether or not a program gives them."
  },
  {
   "property": "C94",
   "status": "proved",
   "theorems": [
    "parser_is_grammar"
   ],
   "note": "Both directions, by induction on the fuel of the parser and on the derivations. The tokenizer is that of the model; here-documents, process redirections and =~ are outside the model."
  },
  {
   "property": "C95",
   "status": "proved",
   "theorems": [
    "grammar_unambiguous"
   ],
   "note": "Follows from C94 and the determinism of the parser."
  },
  {
   "property": "C96",
   "status": "proved",
   "theorems": [
    "parser_decides"
   ],
   "note": "The parser of expansions is a parameter that must consume a character when it succeeds (takes); takes0 shows it for the instance of the examples. Here-documents and the right-hand side of =~ are the outcome PUnmod."
  },
  {
   "property": "C97",
   "status": "proved",
   "theorems": [
    "token_recognition"
   ],
   "note": "Expansions are a parameter. Alias substitution and the POSIXly-correct mode are not modelled. The text is a list of characters; a NUL ends it."
  },
  {
   "property": "C98",
   "status": "proved",
   "theorems": [
    "parser_reads_meaning"
   ],
   "note": "Scope as for C94: here-documents and the right-hand side of =~ are the outcome PUnmod; no alias substitution; not in POSIXly-correct mode."
  },
  {
   "property": "C99",
   "status": "proved",
   "theorems": [
    "history_in_order"
   ],
   "note": "Histories as lists of entries; the lines of history files are operations with arbitrary numbers."
  },
  {
   "property": "C100",
   "status": "partial",
   "theorems": [
    "history_aborts_only_partial",
    "history_file_zero_refuted",
    "history_delete_twice_refuted"
   ],
   "note": "False: a line '0 text' in the history file violates number > 0 in new_entry; once the numbers have started again, searching a missing number next to that place runs past the end of the list. Proved: these are the only cases (equivalence)."
  },
  {
   "property": "C101",
   "status": "partial",
   "theorems": [
    "history_delete_number",
    "history_delete_exact",
    "history_delete_missing",
    "history_delete_twice_refuted"
   ],
   "note": "A number that is present is always deleted exactly (history_delete_number). Proved except for missing numbers at the place where the numbers start again (see C100), where the shell stops."
  },
  {
   "property": "C102",
   "status": "partial",
   "theorems": [
    "fc_range_partial",
    "fc_range_aborts",
    "fc_range_refuted",
    "fc_lists_last_sixteen"
   ],
   "note": "False: with entries 1 and 3, 'fc -l 1 2' and 'fc 2' run past the end of the list. Proved otherwise; fc_range_aborts characterises the failing cases exactly. -2147483648 as an operand (negation overflows) and numbers as in C100 are excluded by the meaning of operands."
  },
  {
   "property": "C103",
   "status": "proved",
   "theorems": [
    "history_add_line",
    "history_add_text",
    "history_add_blank"
   ],
   "note": "Times and conversion to multibyte strings are not modelled beyond the stored values."
  },
  {
   "property": "C104",
   "status": "proved",
   "theorems": [
    "shared_history",
    "shared_history_memory",
    "shared_history_long_refuted",
    "shared_history_clock_refuted"
   ],
   "note": "Operations are atomic (locks) and the shells have equal parameters; which process IDs are written and when the file is refreshed is arbitrary. The two refuted theorems show that the conditions in the statement are needed: a line of LINE_MAX bytes or more is not written and its number is used again; with an earlier clock the time is clamped. Fewer than 2^62 operations (the revision wraps around)."
  },
  {
   "property": "C105",
   "status": "proved",
   "theorems": [
    "history_file_text"
   ],
   "note": "Process ID records are assumed to contain no newline (they are %jd)."
  },
  {
   "property": "C106",
   "status": "partial",
   "theorems": [
    "edit_commands_safe",
    "edit_put_zero_refuted"
   ],
   "note": "Proved for all states and commands that an assertion fails exactly when no copies of a killed text are put at the beginning of a line; the witness (ESC 0 C-y after C-u in emacs mode) is proved. Prediction and completion are not modelled."
  },
  {
   "property": "C107",
   "status": "proved",
   "theorems": [
    "undo_restores",
    "undo_cancel_undo",
    "undo_all_original",
    "undo_change_drops",
    "undo_replace_refuted"
   ],
   "note": "undo_restores holds for commands that save the line; that vi's r does not save it is shown by undo_replace_refuted."
  },
  {
   "property": "C108",
   "status": "proved",
   "theorems": [
    "kill_then_put",
    "put_pop_cycles"
   ],
   "note": "kill_then_put is for modes other than vi command mode (where the cursor may not stand after the last character) and not overwriting; put_pop_cycles is for all modes."
  },
  {
   "property": "C109",
   "status": "proved",
   "theorems": [
    "history_moves_keep",
    "history_edit_loses_refuted"
   ],
   "note": "The exception in the statement is history_edit_loses_refuted."
  },
  {
   "property": "C110",
   "status": "proved",
   "theorems": [
    "set_restores"
   ],
   "note": "The printed text is split into lines and words and run by the modelled set built-in. Options that would keep commands from being executed (exec) are not modelled as such: commands of the script all run."
  },
  {
   "property": "C111",
   "status": "proved",
   "theorems": [
    "set_letters",
    "hyphen_letters"
   ],
   "note": "Letters that can be set: m needs a terminal."
  },
  {
   "property": "C112",
   "status": "proved",
   "theorems": [
    "option_names",
    "set_then_test",
    "meaning_unique"
   ],
   "note": "Names are given after -o or +o; long options are covered by set_safe only."
  },
  {
   "property": "C113",
   "status": "proved",
   "theorems": [
    "set_safe",
    "set_operands"
   ],
   "note": "The --help option is modelled; its output is not."
  },
  {
   "property": "C114",
   "status": "proved",
   "theorems": [
    "forward_word",
    "end_of_word",
    "forward_emacsword",
    "backward_viword",
    "backward_words",
    "change_word_end",
    "word_commands",
    "cw_command",
    "backward_word_refuted"
   ],
   "note": "Complete for the modelled motions; the exception in the statement is real (backward_word_refuted)."
  },
  {
   "property": "C115",
   "status": "proved",
   "theorems": [
    "find_char_exact",
    "find_char_rev_exact"
   ],
   "note": "Both directions, find and till."
  },
  {
   "property": "C116",
   "status": "proved",
   "theorems": [
    "motions_inside",
    "motion_progress",
    "char_motions",
    "counts_add",
    "word_counts_add",
    "negative_counts",
    "column_command",
    "first_nonblank",
    "words_there_and_back"
   ],
   "note": "For all motion commands modelled."
  },
  {
   "property": "C117",
   "status": "proved",
   "theorems": [
    "ulimit_number",
    "ulimit_then_print",
    "ulimit_rejects",
    "ulimit_usage"
   ],
   "note": "Complete for the modelled part; the text of messages and --help are not modelled."
  },
  {
   "property": "C118",
   "status": "proved",
   "theorems": [
    "ulimit_frame",
    "ulimit_keeps_order"
   ],
   "note": "ulimit_keeps_order for systems without unrepresentable limits."
  },
  {
   "property": "C119",
   "status": "proved",
   "theorems": [
    "soft_restore",
    "limit_words",
    "ulimit_all",
    "hard_restore_refuted"
   ],
   "note": "The exception in the statement is real (hard_restore_refuted). The word unlimited is not translated."
  },
  {
   "property": "C120",
   "status": "proved",
   "theorems": [
    "signal_words",
    "signal_name_number",
    "signal_word_valid",
    "signal_number_safe",
    "signal_abort_refuted"
   ],
   "note": "Exactly the specified words are accepted; printed names are among them. signal_abort_refuted shows the stated exception (assertions compiled in)."
  },
  {
   "property": "C121",
   "status": "proved",
   "theorems": [
    "trap_prints",
    "trap_prints_some",
    "trap_restores",
    "trap_keeps_ok"
   ],
   "note": "trap_keeps_ok: the invariant that the other theorems assume is kept by every call; it holds initially (no_traps_ok). Quoting of commands and re-parsing are the subject of other properties; here lines are pairs of operands."
  },
  {
   "property": "C122",
   "status": "proved",
   "theorems": [
    "trap_sets",
    "trap_ignored",
    "trap_safe",
    "trap_usage",
    "subshell_traps",
    "subshell_set"
   ],
   "note": "Handlers are stated for all signals, with those the shell keeps for itself (SIGCHLD, SIGINT, ... when interactive) given by a separate table in SigSpec.v."
  },
  {
   "property": "C123",
   "status": "proved",
   "theorems": [
    "kill_names",
    "kill_s",
    "kill_default",
    "kill_sends",
    "kill_posix",
    "kill_list_option",
    "kill_exclusive",
    "kill_lower_refuted"
   ],
   "note": "kill_lower_refuted shows the exception in the statement. Sending (the system call, job IDs) is not modelled; the result is the signal and the operands."
  },
  {
   "property": "C124",
   "status": "proved",
   "theorems": [
    "kill_lists_all",
    "kill_lists",
    "kill_lists_app",
    "kill_lists_valid"
   ],
   "note": "What is printed is the list of numbers and names; descriptions are not modelled."
  }
 ]
}