{"id": "C01", "title": "Integer arithmetic is exact or reports an error", "statement": "In $((...)), every binary operator (+ - * / % << >> & ^ |), unary minus and ++/-- on integer operands yields exactly the mathematical result (division truncating toward zero, remainder with the dividend's sign) when that result fits in a long (for %, when the quotient fits too), and otherwise the expansion fails with an error message; shifting a negative number left, a shift width outside 0..63 and division by zero are errors; no operator ever executes a C operation whose behaviour is undefined (signed overflow, out-of-range shift, division by zero).", "quantifier": "all operators and all pairs of long operand values", "why_tests_cant": "the operand space is 2^128 per operator; the overflow guards are wrong only on boundary combinations that sampling misses", "anchors": ["arith.c:do_long_calculation1", "arith.c:do_long_calculation2", "arith.c:long_mul_will_overflow", "arith.c:do_increment_or_decrement", "arith.c:parse_prefix"]}
{"id": "C02", "title": "Arithmetic expressions follow C precedence and associativity", "statement": "Evaluating the text of any arithmetic expression over integer literals, variables, parentheses and all operators gives the value and the variable assignments prescribed by the C grammar's precedence, associativity and truth-value rules.", "quantifier": "all expression trees of unbounded depth, with any variable contents", "why_tests_cant": "the set of expression trees is infinite; tests check a few operator pairs only", "anchors": ["arith.c:parse_assignment", "arith.c:parse_conditional", "arith.c:parse_logical_or", "arith.c:parse_multiplicative", "arith.c:parse_prefix", "arith.c:parse_primary", "arith.c:next_token"]}
{"id": "C03", "title": "Operands skipped by short-circuiting have no effect", "statement": "The operand of &&, || or ?: that is not selected is parsed but never evaluated: it assigns no variable and reads no unset-variable error, whatever text it consists of.", "quantifier": "all skipped operand texts (well formed or not) and all variable states", "why_tests_cant": "quantifies over every possible operand text, including malformed ones", "anchors": ["arith.c:parse_logical_or", "arith.c:parse_logical_and", "arith.c:parse_conditional", "arith.c:evalinfo_T.parseonly"]}
{"id": "C04", "title": "Arithmetic evaluation terminates on every input", "statement": "evaluate_arithmetic and evaluate_index return on every input string; they read no character beyond the terminating null and the number of tokens consumed is bounded by the input length.", "quantifier": "all input strings of any length", "why_tests_cant": "non-termination and over-reading need only one bad string", "anchors": ["arith.c:evaluate", "arith.c:next_token", "arith.c:parse_postfix"]}
{"id": "C05", "title": "A failed arithmetic expansion yields no value", "statement": "If any error was reported while evaluating (syntax error, invalid number, overflow, division by zero, unset parameter under set -u, read-only assignment) then evaluate_arithmetic returns NULL, and it returns a value only when the whole input was consumed.", "quantifier": "all input strings and variable states", "why_tests_cant": "errors may be raised at any nesting depth and must survive every enclosing operator", "anchors": ["arith.c:evaluate_arithmetic", "arith.c:evaluate_index", "arith.c:do_binary_calculation"]}
{"id": "C06", "title": "An integer assigned in arithmetic reads back as the same integer", "statement": "After x=(integer value) is assigned inside an arithmetic expansion, reading x as an arithmetic operand gives the same integer, for every long including the minimum and maximum.", "quantifier": "all long values", "why_tests_cant": "2^64 values; decimal/octal interpretation of the printed form matters", "anchors": ["arith.c:value_to_string", "arith.c:coerce_number", "util.c:xwcstol"]}
{"id": "C07", "title": "The hash table is a map", "statement": "For every sequence of set/remove/clear/resize operations, get returns the value most recently set for an equal key and not removed since, set and remove return the previous entry, and the count equals the number of distinct live keys.", "quantifier": "all operation sequences, all key sets, any hash function consistent with key equality (including constant ones), any initial capacity", "why_tests_cant": "chain corruption and free-list reuse depend on the whole history and on collisions", "anchors": ["hashtable.c:ht_get", "hashtable.c:ht_set", "hashtable.c:ht_remove", "hashtable.c:ht_setcapacity", "hashtable.c:ht_clear"]}
{"id": "C08", "title": "Hash table iteration returns each live entry exactly once", "statement": "Iterating with ht_next from index zero, and ht_tokvarray, return every live entry exactly once and nothing else, and ht_tokvarray never overruns its count+1 sized array.", "quantifier": "all tables reachable by any operation history", "why_tests_cant": "depends on which slots an arbitrary history left empty", "anchors": ["hashtable.c:ht_next", "hashtable.c:ht_tokvarray"]}
{"id": "C09", "title": "Growable lists and buffers implement sequence replacement", "statement": "pl_replace/pl_add/pl_remove/pl_truncate and wb_replace/wb_wccat keep the contents equal to the mathematical splice of the old contents, keep the terminating null, clamp out-of-range indices as documented, and never write outside the allocated capacity.", "quantifier": "all contents, indices, counts and capacities", "why_tests_cant": "off-by-one at arbitrary capacity/length/index combinations", "anchors": ["plist.c:pl_replace", "plist.c:pl_setmax", "plist.c:pl_ensuremax", "plist.c:pl_add", "strbuf.c:wb_replace", "strbuf.c:wb_replace_force", "strbuf.c:wb_wccat"]}
{"id": "C10", "title": "Option parsing permutes but never loses or reorders arguments", "statement": "After option parsing ends, the argument array is a permutation of the original in which options and their arguments precede the operands, the operands keep their relative order, the options keep theirs, and xoptind is the index of the first operand.", "quantifier": "all argument vectors and option tables, both parsing modes", "why_tests_cant": "argument vectors of unbounded length with arbitrary interleavings of options and operands", "anchors": ["xgetopt.c:xgetopt", "xgetopt.c:argshift", "xgetopt.c:search_argv"]}
{"id": "C11", "title": "POSIX option parsing stops at the first operand", "statement": "In POSIX parsing the array is never reordered and parsing stops at the first non-option argument; in every mode, parsing stops after \"--\", which is not an operand, and everything after it is left untouched.", "quantifier": "all argument vectors and option tables", "why_tests_cant": "unbounded argument vectors", "anchors": ["xgetopt.c:search_argv", "xgetopt.c:parse_long_option"]}
{"id": "C12", "title": "Long options resolve to the exact or unique-prefix match", "statement": "A long option \"--name[=value]\" selects the table entry whose name equals it, or the unique entry of which it is a prefix; it is reported ambiguous only if it is a proper prefix of several entries and equal to none, and invalid only if it is a prefix of none.", "quantifier": "all option tables and all argument strings", "why_tests_cant": "depends on table order; only specific tables are tested", "anchors": ["xgetopt.c:parse_long_option", "xgetopt.c:found_long_option"]}
{"id": "C13", "title": "The option argument is that of the option just parsed", "statement": "When xgetopt returns an option, xoptarg is that option's argument if it has one and NULL otherwise, never the argument of an earlier option.", "quantifier": "all argument vectors and option tables", "why_tests_cant": "stale state leaks depend on the sequence of earlier options", "anchors": ["xgetopt.c:xgetopt", "xgetopt.c:found_short_option", "xgetopt.c:found_long_option"]}
{"id": "C14", "title": "A key trie is a finite map with longest-prefix lookup", "statement": "For every history of set/remove, looking up an input string reports the value of the longest stored key that is a prefix of the input, its length, and whether the input is a proper prefix of a stored key; removal leaves all other keys unaffected.", "quantifier": "all operation histories and all keys and inputs", "why_tests_cant": "node insertion and pruning depend on the whole history", "anchors": ["lineedit/trie.c:trie_setw", "lineedit/trie.c:trie_removew", "lineedit/trie.c:trie_getw", "lineedit/trie.c:binarysearchw"]}
{"id": "C15", "title": "Alias substitution always terminates", "statement": "Repeatedly substituting aliases at the start of a command (including aliases that expand to themselves, to each other, or to a text beginning with an alias) stops after finitely many substitutions for every set of alias definitions.", "quantifier": "all alias tables (arbitrarily recursive) and all input texts", "why_tests_cant": "cycles of any length through any definitions must be cut", "anchors": ["alias.c:substitute_alias", "alias.c:substitute_alias_range", "alias.c:contained_in_list", "alias.c:add_to_aliaslist", "parser.c:psubstitute_alias_recursive"]}
{"id": "C16", "title": "An alias is not expanded inside its own expansion, and text after it is preserved", "statement": "A substitution replaces exactly the alias name by its value, leaving all other text unchanged; the recursion guard covers exactly the inserted text however later substitutions shift it.", "quantifier": "all buffers, positions, alias tables and nesting histories", "why_tests_cant": "limit indices must be maintained through arbitrary nested substitutions", "anchors": ["alias.c:substitute_alias_range", "alias.c:shift_aliaslist_index", "alias.c:remove_expired_aliases"]}
{"id": "C17", "title": "Pattern matching agrees with the glob semantics", "statement": "case patterns and ${x#pat}-style matches decide exactly the language of the pattern: ? matches any one character, * any string, [...] one member character, a backslashed character itself, other characters themselves.", "quantifier": "all patterns and all subject strings", "why_tests_cant": "infinite set of pattern/subject pairs; the implementation goes through a literal fast path and a translation to regular expressions", "anchors": ["xfnmatch.c:xfnm_compile", "xfnmatch.c:try_compile_literal", "xfnmatch.c:encode_pattern", "xfnmatch.c:xfnm_wmatch", "xfnmatch.c:match_pattern"]}
{"id": "C18", "title": "Prefix and suffix removal remove the shortest or longest match", "statement": "${x#p}, ${x##p}, ${x%p}, ${x%%p} remove respectively the shortest/longest prefix and the shortest/longest suffix of the value that matches p, and leave the value unchanged when no prefix/suffix matches.", "quantifier": "all patterns and all values", "why_tests_cant": "the literal fast path has many flag combinations and pattern shapes", "anchors": ["xfnmatch.c:wmatch_literal", "xfnmatch.c:wmatch_shortest_head", "xfnmatch.c:wmatch_shortest_tail", "xfnmatch.c:wmatch_longest", "expand.c:match_each"]}
{"id": "C19", "title": "Pattern substitution replaces leftmost-longest matches", "statement": "${x/p/r} replaces the leftmost longest match of p, ${x//p/r} all non-overlapping matches left to right, ${x/#p/r} and ${x/%p/r} a match at the head/tail, and ${x:/p/r} replaces the whole value iff all of it matches, and the value is otherwise unchanged.", "quantifier": "all patterns, values and replacements", "why_tests_cant": "infinite input space; empty matches and star-only patterns take separate paths", "anchors": ["xfnmatch.c:xfnm_subst", "expand.c:subst_each"]}
{"id": "C20", "title": "A word without pattern characters only matches itself", "statement": "If is_matching_pattern reports that a string is not a pattern, then used as a pattern it matches exactly one string, its backslash-unescaped self.", "quantifier": "all strings", "why_tests_cant": "bracket recognition must agree between two independently written scanners", "anchors": ["xfnmatch.c:is_matching_pattern", "xfnmatch.c:is_matching_pattern_bracket", "xfnmatch.c:encode_pattern_bracket"]}
{"id": "C21", "title": "Field splitting follows POSIX IFS rules", "statement": "Splitting an expansion result yields exactly the fields prescribed by POSIX for the current IFS: runs of IFS white space are ignored at both ends, each non-white-space IFS character with adjacent IFS white space delimits a field, and any other run of IFS white space delimits a field; quoted and literal characters never delimit.", "quantifier": "all strings, all quoting categories per character, all IFS values, both settings of emptylastfield", "why_tests_cant": "infinite input space of strings over three character classes", "anchors": ["expand.c:extract_fields", "expand.c:fieldsplit", "expand.c:is_ifs_char", "expand.c:is_ifs_whitespace"]}
{"id": "C22", "title": "Splitting loses no characters", "statement": "The concatenation of the produced fields is the original string with exactly the unquoted IFS separators that delimit removed; fields appear in order and never overlap.", "quantifier": "all strings, categories and IFS values", "why_tests_cant": "same infinite space", "anchors": ["expand.c:extract_fields", "expand.c:fieldsplit"]}
{"id": "C23", "title": "Backslash escaping round-trips", "statement": "unescape(escape(s)) equals s for every string, and so does unescape(escape(s, t)) whenever t contains the backslash.", "quantifier": "all strings s and character sets t", "why_tests_cant": "all strings", "anchors": ["expand.c:escape", "expand.c:unescape"]}
{"id": "C24", "title": "Quoting as a word round-trips", "statement": "The output of quote_as_word, reparsed as a shell word, undergoes no expansion and denotes the original string; unquote(quote_as_word(s)) = s for every string.", "quantifier": "all strings", "why_tests_cant": "all strings, including quotes, backslashes, newlines and expansion characters", "anchors": ["expand.c:quote_as_word", "expand.c:wb_quote_as_word", "expand.c:unquote"]}
{"id": "C25", "title": "Quote removal removes exactly the quotation marks", "statement": "Quote removal deletes exactly the characters that act as quotes; with escaping enabled the result, read as a pattern, treats every originally quoted character literally.", "quantifier": "all strings and category strings", "why_tests_cant": "all strings", "anchors": ["expand.c:quote_removal", "expand.c:should_escape"]}
{"id": "C26", "title": "Brace expansion generates the cross product in order", "statement": "A word with matched braces containing commas expands to every combination of alternatives, left to right, with unmatched or quoted braces literal; numeric ranges {a..b..d} expand to exactly a, a+d, ... not exceeding b and always terminate.", "quantifier": "all words and nesting depths, all range bounds and steps", "why_tests_cant": "unbounded nesting; ranges near the limits of long", "anchors": ["expand.c:expand_brace", "expand.c:generate_brace_expand_results", "expand.c:try_expand_brace_sequence"]}
{"id": "C27", "title": "Index ranges select the documented substring or subarray", "statement": "${x[s,e]} yields characters s..e (1-based, inclusive, negatives counted from the end), clamped to the value's bounds, empty if s > e, for scalars and arrays alike.", "quantifier": "all values and all pairs of index values, including extremes", "why_tests_cant": "2^128 index pairs; sign and clamp interactions", "anchors": ["expand.c:expand_param", "expand.c:trim_wstring", "expand.c:trim_array"]}
{"id": "C28", "title": "Undoing redirections restores the file descriptor table", "statement": "After open_redirections (successful or not) followed by undo_redirections, every user-visible file descriptor refers to the same open file as before (or is closed as before) and no descriptor opened for the redirection remains open.", "quantifier": "all redirection lists, all initial descriptor tables, all points at which a system call may fail", "why_tests_cant": "failure of any system call at any step and arbitrary fd collisions", "anchors": ["redir.c:open_redirections", "redir.c:save_fd", "redir.c:undo_redirections", "redir.c:copy_as_shellfd", "redir.c:parse_and_exec_pipe"]}
{"id": "C29", "title": "User redirections never touch descriptors reserved by the shell", "statement": "A redirection whose source or target is a descriptor the shell uses internally is rejected with an error and leaves that descriptor unchanged.", "quantifier": "all redirection lists and shell descriptor sets", "why_tests_cant": "depends on which descriptors are in use at that moment", "anchors": ["redir.c:is_shellfd", "redir.c:add_shellfd", "redir.c:remove_shellfd", "redir.c:parse_and_check_dup", "redir.c:parse_and_exec_pipe"]}
{"id": "C30", "title": "Current and previous job selection discipline", "statement": "After every job list change, if some job is stopped the current job is stopped; if several are, the previous job is also stopped; current and previous differ; there is a current job iff there is any job and a previous job iff there are at least two.", "quantifier": "all histories of adding, removing, stopping, continuing and finishing jobs", "why_tests_cant": "depends on the complete history of job events", "anchors": ["job.c:set_current_jobnumber", "job.c:find_next_job", "job.c:add_job", "job.c:remove_job", "job.c:apply_curstop"]}
{"id": "C31", "title": "A job keeps its number while it lives and gets the smallest free one", "statement": "Adding a job assigns the smallest unused positive number and never changes the number of another job; removing one affects no other job.", "quantifier": "all job list histories", "why_tests_cant": "depends on the history of additions and removals", "anchors": ["job.c:add_job", "job.c:remove_job", "job.c:trim_joblist", "job.c:get_job"]}
{"id": "C32", "title": "Job status summarises process statuses", "statement": "A job is running iff some process runs, stopped iff none runs and some is stopped, done iff all are done, after any sequence of wait notifications; a finished process never revives.", "quantifier": "all sequences of wait notifications", "why_tests_cant": "arbitrary interleavings of child events", "anchors": ["job.c:do_wait"]}
{"id": "C33", "title": "Arithmetic performs no undefined floating-point conversion", "statement": "In the default (non-POSIX) mode, no arithmetic expansion converts a floating-point value outside the range of long to an integer (which C leaves undefined).", "quantifier": "all input strings and variable contents", "why_tests_cant": "the result of the conversion looks like an ordinary number on most platforms, so a test cannot tell that it is undefined", "anchors": ["arith.c:coerce_integer", "arith.c:do_binary_calculation"]}
{"id": "C34", "title": "Arithmetic never changes a read-only variable", "statement": "Whatever the expression, its assignment and increment operators leave every read-only variable as it was, and an attempt is reported as an error making the expansion fail.", "quantifier": "all input strings (well formed or not) and all variable states", "why_tests_cant": "quantifies over every text and over which variables are read-only; evaluation continues after errors", "anchors": ["arith.c:do_assignment", "arith.c:parse_postfix", "arith.c:parse_prefix", "variable.c:set_variable"]}
{"id": "C35", "title": "Conversion between wide and multibyte strings is exact for every length", "statement": "Converting a wide string to multibyte yields exactly the concatenated encodings of its characters (or fails if one has none), converting a multibyte string to wide yields its decoding (or fails if there is none), converting there and back returns the original string, and no conversion writes outside its buffer or asks for more than linear memory.", "quantifier": "all strings of all lengths, all stateless encodings, all outcomes of memory allocation", "why_tests_cant": "depends on where the growing output buffer's end falls relative to multibyte characters", "anchors": ["strbuf.c:sb_wcsncat", "strbuf.c:wb_mbscat", "strbuf.c:malloc_wcsntombs", "strbuf.c:malloc_mbstowcs"]}
{"id": "C36", "title": "Formatting and joining append exactly the produced text", "statement": "Formatted printing into a buffer appends the whole formatted text whatever its length and leaves the buffer unchanged on error; joining an array of strings gives the strings separated by the padding in a block of exactly the right size.", "quantifier": "all buffers, texts, arrays and paddings", "why_tests_cant": "retry-with-larger-buffer logic has boundary cases for every length", "anchors": ["strbuf.c:sb_vprintf", "strbuf.c:wb_vwprintf", "strbuf.c:joinwcsarray"]}
{"id": "C37", "title": "Command-line prediction proposes the most probable recorded continuation", "statement": "When the line editor learns weighted history lines and is asked to predict the rest of an input, the prediction takes at every step the character with which the greatest total weight of recorded lines continues, until the weight falls below half of the weight of the first predicted character (blanks are always taken) or no recorded line is longer; the input followed by the prediction is a prefix of a recorded line, and something is predicted whenever a recorded line properly extends the input.", "quantifier": "all sequences of recorded lines with weights, and all inputs", "why_tests_cant": "the answer depends on sums of weights over arbitrarily many recorded lines sharing prefixes", "anchors": ["lineedit/trie.c:trie_add_probability", "lineedit/trie.c:trie_probable_key", "lineedit/trie.c:most_probable_child"]}
{"id": "C38", "title": "Alias definitions form a map in which the last definition counts", "statement": "After any sequence of alias and unalias commands, a name has exactly the value and kind given by its last definition that was not removed since; an operand defines an alias only if the text before its first equal sign is a non-empty sequence of name characters.", "quantifier": "all sequences of alias and unalias operands", "why_tests_cant": "the table depends on the whole history of definitions", "anchors": ["alias.c:define_alias", "alias.c:remove_alias", "alias.c:alias_builtin", "alias.c:unalias_builtin"]}
{"id": "C39", "title": "A leading period must be matched explicitly", "statement": "In pathname expansion (without the dotglob option) a pattern matches a file name that begins with a period only if the pattern itself begins with a period, quoted or not; all other names match exactly when the pattern's language contains them, with and without case folding.", "quantifier": "all patterns and file names", "why_tests_cant": "infinitely many patterns; the check is made on the pattern text before compilation and the flag has to survive the literal and regex paths", "anchors": ["xfnmatch.c:xfnm_compile", "xfnmatch.c:xfnm_match", "path.c:wglob_parse_component"]}
{"id": "C40", "title": "The read built-in assigns words of one logical line", "statement": "`read` consumes exactly one logical line of its input (joined over backslash-newline pairs unless in raw mode, backslashes quoting the next character), assigns the words to the variables in order, empty strings to variables without a word, and the last variable gets the unsplit rest of the line without trailing IFS white space when there are more words than variables; success is reported iff a newline was read.", "quantifier": "all inputs, IFS values, raw mode or not, any number of variables", "why_tests_cant": "infinite input space over quoting, separators and numbers of variables", "anchors": ["variable.c:read_builtin", "variable.c:read_with_prompt", "variable.c:unescape_line", "expand.c:extract_fields"]}
{"id": "C41", "title": "read -A collects the remaining words in an array", "statement": "With -A the last variable becomes the array of the words not assigned to earlier variables, one element per word.", "quantifier": "all inputs, IFS values, any number of variables", "why_tests_cant": "infinite input space; the exceptional case needs a single empty word", "anchors": ["variable.c:read_builtin", "variable.c:assign_array"]}
{"id": "C42", "title": "Double quotes keep values whole", "statement": "A word in which every expansion stands between double quotes expands to one field that is the concatenation of the texts and the unchanged values: nothing is split, brace-expanded or taken as a pattern. The exceptions are the expansions with several values: \"$@\" gives one field per value, the text before glued to the first and the text after to the last, and no field if there are no values and no text; \"$*\" gives one field, the values separated by the first character of IFS.", "quantifier": "all words, texts, values, IFS, environments and shell options", "why_tests_cant": "values and texts may contain any characters (blanks, quotes, braces, pattern characters), in any combination of parts; empty values and texts interact", "anchors": ["expand.c:expand_four", "expand.c:expand_multiple", "expand.c:expand_param", "expand.c:merge_expand_four"]}
{"id": "C43", "title": "Word expansion is the composition of its steps", "statement": "The fields of any word are obtained by juxtaposing the fields of its parts (text, escaped and quoted text, expansions), then expanding braces, then splitting by the rules of IFS, then replacing the patterns by the names that match (or removing the quotes); an unquoted parameter is exactly its values split by IFS and expanded as patterns.", "quantifier": "all well-formed words, environments and shell options", "why_tests_cant": "the steps communicate through character categories, and every step could disturb every other", "anchors": ["expand.c:expand_multiple", "expand.c:expand_four", "expand.c:expand_brace_each", "expand.c:fieldsplit_all", "expand.c:glob_all"]}
{"id": "C44", "title": "Conditional expansions follow the POSIX table", "statement": "${n-w}, ${n+w}, ${n=w}, ${n?w} and their variants with a colon yield the value, the word, nothing, an assignment or an error exactly as in the POSIX table for an unset, empty or non-empty variable; the word is expanded only if it is used; an assignment to something that is no name, or that is refused, is an error; under set -u an unset variable is an error.", "quantifier": "all variables, words, environments, quoted or not", "why_tests_cant": "the word is an arbitrary word with side effects, whose evaluation (or not) changes the environment", "anchors": ["expand.c:expand_param"]}
{"id": "C45", "title": "Tilde expansion yields one literal field", "statement": "~user/path expands to the home directory followed by the path, as one field with no further splitting or pathname expansion; if the user is unknown, or any part of the prefix is quoted, the tilde is an ordinary character.", "quantifier": "all user names, paths and home directories", "why_tests_cant": "home directories may contain blanks, quotes and pattern characters", "anchors": ["expand.c:expand_tilde", "expand.c:expand_four"]}
{"id": "C46", "title": "Word expansion never crashes", "statement": "Expanding any well-formed word ends in a list of fields or a reported error: no assertion fails, no index is out of range, and no loop runs forever.", "quantifier": "all words the parser can produce, all environments and options", "why_tests_cant": "arbitrary nesting of expansions, indices and quotes", "anchors": ["expand.c:expand_line", "expand.c:expand_multiple", "expand.c:expand_four", "expand.c:expand_param"]}
{"id": "C47", "title": "Redirections take effect in order and only on their targets", "statement": "If the redirections of a command succeed, the descriptors the command sees are the result of performing each redirection on the result of the ones before it: an opened file at the target, a copy of the source descriptor, a closed target, the two ends of a pipe. Descriptors that are not targets are unchanged, whether or not the redirections succeed; processing always terminates without failing an assertion.", "quantifier": "all redirection lists, descriptor tables and results of system calls", "why_tests_cant": "the effect depends on all earlier redirections and on which descriptors the system happens to return", "anchors": ["redir.c:open_redirections", "redir.c:open_redirection", "redir.c:open_file", "redir.c:parse_and_check_dup", "redir.c:parse_and_exec_pipe", "redir.c:open_heredocument"]}
{"id": "C48", "title": "Descriptors of the shell stay out of the way of programs", "statement": "Whenever a program is executed, the descriptors the shell keeps for itself (saved copies, scripts, the terminal, the history file) are numbered 10 or more and close on exec; so a program inherits only descriptors the user can see.", "quantifier": "all nestings of commands, dot scripts and built-ins that open files, all results of system calls", "why_tests_cant": "depends on every file the shell has opened up to that moment", "anchors": ["redir.c:add_shellfd", "redir.c:copy_as_shellfd", "redir.c:reset_shellfdmin", "redir.c:save_fd"]}
{"id": "C49", "title": "Exit status of pipelines and waited jobs", "statement": "When the shell goes on after a pipeline in the foreground, or after wait for a job, every process of it has ended and the exit status is the one with which the last command ended (the last failing one with pipefail): the exit value, or the signal number plus 384; the shell goes on as soon as the end of every process has been reported.", "quantifier": "all pipelines, all sequences and groupings of notifications including those of other jobs, all earlier histories", "why_tests_cant": "arbitrary interleavings of child events; statuses may arrive in any order and early", "anchors": ["job.c:wait_for_job", "job.c:calc_status_of_job", "job.c:do_wait", "exec.c:exec_commands", "job.c:wait_for_job_by_jobspec"]}
{"id": "C50", "title": "Job specifications name the job they describe", "statement": "%name names the only job whose name begins with it, %?text the only one that contains the text, %n the job numbered n, %% %+ and % the current and %- the previous job; if no job or several match, this is reported and nothing is done.", "quantifier": "all specifications and all reachable job lists", "why_tests_cant": "depends on the set of jobs and their names", "anchors": ["job.c:get_jobnumber_from_name", "job.c:get_job_name", "job.c:disown_builtin", "job.c:jobs_builtin"]}
{"id": "C51", "title": "wait without operands waits for everything", "statement": "wait without operands returns exit status 0 only when no job is left (with job control, when none is running), and without traps it returns as soon as the end of every process has been reported.", "quantifier": "all job lists and sequences of notifications", "why_tests_cant": "arbitrary interleavings of child events", "anchors": ["job.c:wait_builtin", "job.c:wait_builtin_has_job", "sig.c:wait_for_sigchld"]}
{"id": "C52", "title": "Every status change is reported once", "statement": "When the shell reports job status changes, every job whose status has changed since it was last reported is reported exactly once, in the order of the job numbers, with its present status and the mark of the current or previous job; afterwards nothing is left to report.", "quantifier": "all reachable job lists", "why_tests_cant": "depends on the complete history of job events and reports", "anchors": ["job.c:print_job_status_all", "job.c:print_job_status", "job.c:apply_curstop"]}
{"id": "C53", "title": "Programs inherit exactly the exported variables", "statement": "For every name, a program started by the shell finds in its environment the value of the innermost exported variable of that name that has a value (elements of an array joined by colons), and nothing if there is none; this holds after any sequence of assignments, declarations, unsets, function calls and temporary assignments.", "quantifier": "all inherited environments, all command histories, all nestings of functions and temporary assignments", "why_tests_cant": "the environment is updated incrementally at many places; agreement depends on the complete history", "anchors": ["variable.c:update_environment", "variable.c:get_exported_value", "variable.c:varkvfree_reexport", "variable.c:set_array_element", "variable.c:array_builtin", "variable.c:shift_builtin", "variable.c:init_variables"]}
{"id": "C54", "title": "A read-only variable keeps its value", "statement": "Once a variable is read-only, no command changes its value or removes it or makes it writable; assigning to it or unsetting it fails.", "quantifier": "all read-only variables (scalars and arrays) and all later commands", "why_tests_cant": "every command that can change variables has to respect the attribute, in every scope", "anchors": ["variable.c:new_variable", "variable.c:unset_variable", "variable.c:search_array_and_check_if_changeable", "variable.c:typeset_builtin", "variable.c:shift_builtin"]}
{"id": "C55", "title": "Local variables do not leak", "statement": "If a function declares a variable with typeset or local before using it, then whatever it and the functions it calls do to the variable short of unsetting it, the variables of that name of its callers are the same after the function returns as before the call.", "quantifier": "all function bodies, all nestings of calls and temporary assignments", "why_tests_cant": "arbitrary bodies and dynamic nesting", "anchors": ["variable.c:new_local", "variable.c:new_global", "variable.c:open_new_environment", "variable.c:close_current_environment", "exec.c:exec_function_body"]}
{"id": "C56", "title": "Temporary assignments are visible to the command and undone after it", "statement": "During the execution of a command with assignments before it the assigned variables have those values and are exported; afterwards every variable the command itself did not change, and the environment of later programs, is as before.", "quantifier": "all assignment lists, all commands, all states", "why_tests_cant": "restoring depends on all outer scopes and attributes", "anchors": ["variable.c:new_temporary", "variable.c:do_assignments", "variable.c:close_current_environment", "exec.c:exec_simple_command_with_words"]}
{"id": "C57", "title": "Positional parameters belong to the function", "statement": "A function sees its operands as positional parameters; whatever it does with set and shift, the caller's parameters are unchanged when it returns. set replaces the parameters, shift n removes the first n (the last -n) or fails without effect, $n is the n-th one, $# their number, $@ and $* all of them.", "quantifier": "all parameter lists, counts, function bodies and nestings", "why_tests_cant": "arbitrary nesting of calls, temporary scopes and changes", "anchors": ["variable.c:set_positional_parameters", "variable.c:shift_builtin", "variable.c:get_variable", "exec.c:exec_function_body"]}
{"id": "C58", "title": "Searches use the present value of the path variables", "statement": "The list of directories searched for commands, by cd and by dot is always the one the innermost set $PATH, $CDPATH or $YASH_LOADPATH denotes (parts between colons or array elements, without duplicates), after any history of changes and in any scope.", "quantifier": "all values and histories, all nestings", "why_tests_cant": "the lists are cached per scope and must be invalidated at every change", "anchors": ["variable.c:reset_path", "variable.c:decompose_paths", "variable.c:get_path_array", "variable.c:variable_set", "variable.c:array_builtin"]}
{"id": "C59", "title": "array deletes, inserts and sets the elements named", "statement": "array -d removes exactly the elements with the given numbers, counted in the original array from the start or (negative) the end, repetitions and numbers out of range being harmless; array -i inserts the values after the given element; array -s replaces the given element or fails; errors leave the array unchanged.", "quantifier": "all arrays, all lists of numbers in any order", "why_tests_cant": "all combinations of orders, signs and repetitions of indices", "anchors": ["variable.c:array_remove_elements", "variable.c:array_insert_elements", "variable.c:array_set_element", "variable.c:array_builtin"]}
{"id": "C61", "title": "Assignment changes the right scope", "statement": "An assignment changes the variable of the innermost scope that has it and is not temporary, or creates one in the outermost scope; variables of other scopes and names are unchanged (temporary ones of the name are discarded); the variable then reads as the assigned value and is exported if it was or if export is requested.", "quantifier": "all names, values and nestings of scopes", "why_tests_cant": "all nestings of function and temporary scopes", "anchors": ["variable.c:new_global", "variable.c:set_variable", "variable.c:set_array", "variable.c:get_variable"]}
{"id": "C62", "title": "No sequence of commands breaks the invariants of variables", "statement": "Every command on variables terminates without failing an assertion, in every state that can be reached, and leaves the scopes open that were open.", "quantifier": "all command sequences with all nestings", "why_tests_cant": "assertions depend on invariants over all histories", "anchors": ["variable.c:new_global", "variable.c:new_temporary", "variable.c:close_current_environment", "variable.c:lineno_getter", "variable.c:get_variable"]}
{"id": "C63", "title": "Listings show the visible variables", "statement": "set, export -p, readonly -p and typeset -g list each name once, with the variable that an expansion of the name would use.", "quantifier": "all states", "why_tests_cant": "all nestings of scopes with shadowing", "anchors": ["variable.c:make_array_of_all_variables", "variable.c:get_all_variables_rec"]}
{"id": "C60", "title": "getopts reads all options, in order, once", "statement": "Called repeatedly with OPTIND starting at 1, getopts reports exactly the options of the arguments up to the first operand or \"--\" in order (combined options, attached and separate arguments, unknown options and missing arguments, each through the variable and OPTARG), whatever the script does in between short of changing OPTIND or the arguments; then it fails with OPTIND the number of the first operand.", "quantifier": "all option specifications, argument lists, numbers of calls, states and scopes", "why_tests_cant": "the position is kept in a variable between calls; all argument lists and interleavings", "anchors": ["variable.c:getopts_builtin", "variable.c:check_options", "variable.c:set_optind", "variable.c:set_optarg", "variable.c:set_variable_single_char"]}
{"id": "C64", "title": "Control flow is that of the structured commands", "statement": "A script that ends does so with the files and the exit status that a structured semantics gives it, in which and-or lists, pipelines, negation, if, for, while, until and case commands, groups, subshells, functions, eval, dot scripts, break, continue, return, exit, traps, errexit, errreturn and pipefail act on the commands they are written around only.", "quantifier": "all scripts (of the forms listed in the model), all effects of programs, expansions and redirections, all arrivals of signals", "why_tests_cant": "jumps are pending states tested at many places; all nestings of constructs with all outcomes", "anchors": ["exec.c:exec_and_or_lists", "exec.c:exec_pipelines", "exec.c:exec_commands", "exec.c:exec_one_command", "exec.c:exec_if", "exec.c:exec_for", "exec.c:exec_while", "exec.c:exec_case", "exec.c:need_break", "yash.c:parse_and_exec"]}
{"id": "C65", "title": "Knowing which command is the last one is unobservable", "statement": "When the shell knows that a command is the last one (and so does not fork for it, or exits in the middle of executing it), files and exit status are the same as if it did not know.", "quantifier": "all scripts and lists of commands, states and effects of commands", "why_tests_cant": "the knowledge is passed down through all constructs and used at each exit", "anchors": ["exec.c:exec_commands", "exec.c:exec_and_or_lists", "exec.c:maybe_exit", "yash.c:parse_and_exec"]}
{"id": "C66", "title": "Functions and dot scripts contain jumps", "statement": "After a function call (or a dot script) no break, continue or return made in it affects the caller's loops, function or suppression of errexit.", "quantifier": "all functions and scripts, all states", "why_tests_cant": "all bodies, at all nestings of loops", "anchors": ["exec.c:exec_function_body", "exec.c:dot_builtin", "exec.c:save_execstate", "exec.c:restore_execstate", "exec.c:cancel_return"]}
{"id": "C67", "title": "errexit where a status is not tested, and only there", "statement": "With errexit the shell does not go on after a failed pipeline whose status nobody tests (errreturn: it returns), and in a condition of an if or while command the option makes no difference at all, not even in functions called from there.", "quantifier": "all commands, nestings and states", "why_tests_cant": "suppression is saved and restored across all constructs", "anchors": ["exec.c:is_errexit_condition", "exec.c:is_errreturn_condition", "exec.c:apply_errexit_errreturn", "exec.c:exec_condition", "exec.c:exec_pipelines"]}
{"id": "C68", "title": "Traps are transparent", "statement": "The actions of caught signals, executed between commands, do not change the exit status, the loops or the pending jumps of the interrupted commands, and afterwards no signal is pending.", "quantifier": "all trap actions, all states, all arrivals of signals", "why_tests_cant": "signals arrive at arbitrary points, also during actions", "anchors": ["sig.c:handle_traps", "sig.c:sig_handler"]}
{"id": "C69", "title": "The EXIT trap", "statement": "On exit the action of the EXIT trap is executed once, in a state with the exit status as \"$?\" and no loops, and the exit status is not changed by it unless it exits with a status itself.", "quantifier": "all ways to exit, all actions", "why_tests_cant": "exits happen in the middle of all constructs", "anchors": ["yash.c:exit_shell_with_status", "sig.c:execute_exit_trap"]}
{"id": "C70", "title": "$PWD names the working directory", "statement": "If $PWD is an absolute path of the working directory, then it is so after any sequence of cd commands, successful or not; a failing cd changes neither the working directory nor a variable; and when $PWD was unset or not absolute, a successful cd repairs it.", "quantifier": "all file systems with symbolic links, all sequences of cd commands and operands, all values of CDPATH, HOME, PWD and OLDPWD", "why_tests_cant": "the operand is searched, made absolute, canonicalized and made relative again, and the working directory is changed to the relative path but $PWD set to the absolute one", "anchors": ["path.c:cd_builtin", "path.c:change_directory", "path.c:canonicalize_path", "path.c:canonicalize_path_ex"]}
{"id": "C71", "title": "cd interprets its operand component by component", "statement": "cd looks for the operand in the directories of $CDPATH in order, then goes to the path that results from $PWD and the path found by dropping empty and \".\" components and removing each \"..\" with the component before it (failing if that is not a directory); the new $PWD has no such components; without symbolic links this is the directory the system would go to.", "quantifier": "all paths, file systems and values of $CDPATH", "why_tests_cant": "all nestings of components; the canonicalization works in place in a buffer of the size of the input", "anchors": ["path.c:canonicalize_path", "path.c:canonicalize_path_ex", "path.c:change_directory", "path.c:which"]}
{"id": "C72", "title": "cd - goes back", "statement": "After a successful cd, \"cd -\" goes back to the previous working directory, with the previous value of $PWD, and a further \"cd -\" would return again.", "quantifier": "all file systems, states and operands", "why_tests_cant": "whatever the operand was, also through links", "anchors": ["path.c:cd_builtin", "path.c:change_directory"]}
{"id": "C73", "title": "pwd prints a path of the working directory", "statement": "Whatever the value of $PWD, pwd prints an absolute path of the working directory without \".\" and \"..\" components, or fails when there is none to find.", "quantifier": "all file systems, states and values of $PWD", "why_tests_cant": "$PWD may be any string", "anchors": ["path.c:pwd_builtin", "path.c:is_normalized_path", "path.c:is_same_file"]}
{"id": "C74", "title": "umask interprets symbolic modes", "statement": "umask with a symbolic mode leaves permitted to user, group and others exactly what the mode says, given what was permitted before; a string that is not a mode is rejected and the mask stays as it is.", "quantifier": "all symbolic modes (any number of clauses and actions), all masks, all strings", "why_tests_cant": "the language of modes is infinite", "anchors": ["path.c:set_umask", "path.c:copy_user_mask", "path.c:copy_group_mask", "path.c:copy_other_mask"]}
{"id": "C75", "title": "What umask prints can be given to umask", "statement": "An octal operand denotes its value; the output of umask, octal or symbolic, used as an operand later restores the mask, whatever it is by then.", "quantifier": "all masks, all octal numbers", "why_tests_cant": "all pairs of masks", "anchors": ["path.c:set_umask", "path.c:print_umask_octal", "path.c:print_umask_symbolic"]}
{"id": "C76", "title": "Pathname expansion yields only files that match", "statement": "Every pathname that expansion yields names a file (it exists, or the directory lists it) and matches the pattern: the names between its slashes match the pieces of the pattern one by one, a recursive piece (**, ***, .**, .***) standing for any number of directories whose names are not hidden, without passing the same directory twice; with the mark option exactly the directories get a slash. No expansion takes place only if the pattern is invalid.", "quantifier": "all file systems, all patterns, all flags, any order of directory entries", "why_tests_cant": "arbitrary directory trees with links and arbitrary combinations of recursive pieces", "anchors": ["path.c:wglob", "path.c:wglob_search", "path.c:wglob_scandir_entry", "path.c:wglob_parse_pattern"]}
{"id": "C77", "title": "Pathname expansion finds all that match", "statement": "A file that exists and matches the pattern is among the results if the directories in which names have to be matched can be read and no directory is passed twice on the way to it.", "quantifier": "all file systems, all patterns, all files", "why_tests_cant": "several pieces are active at the same time while directories are scanned; that none is lost has to hold for all trees and all depths", "anchors": ["path.c:wglob_search", "path.c:wglob_scandir", "path.c:wglob_search_literal_each", "path.c:wglob_search_literal_uniq", "path.c:wglob_should_recurse"]}
{"id": "C78", "title": "Pathname expansion yields nothing twice", "statement": "No pathname is among the results more than once, even if it matches the pattern in several ways.", "quantifier": "all file systems, all patterns", "why_tests_cant": "a file can match a pattern with several recursive pieces in many ways", "anchors": ["path.c:wglob_search", "path.c:wglob_scandir_entry", "path.c:wglob_search_literal_uniq"]}
{"id": "C79", "title": "Pathname expansion ends", "statement": "Pathname expansion ends for every file system, including one with cyclic links, and never uses information about a directory that has not been obtained, nor a component after the last one.", "quantifier": "all file systems, all patterns, any matching of names", "why_tests_cant": "cyclic and unboundedly deep trees; use of uninitialised memory is not visible in tests", "anchors": ["path.c:wglob", "path.c:wglob_is_reentry", "path.c:wglob_should_recurse", "path.c:wglob_stack_new"]}
{"id": "C80", "title": "The test built-in evaluates expressions with the documented precedence", "statement": "For every expression built from words, unary and binary primaries, !, -a, -o and parentheses whose operands cannot be mistaken for operators, test returns the truth value of the expression, -a binding tighter than -o and ! tighter than both; it returns 2 if evaluating an operand from left to right fails. Conversely, whenever test does not report an error its arguments are an expression with the value returned. With up to four arguments, ! reverses the result for the remaining ones, as POSIX says.", "quantifier": "all expressions of any size and nesting, all operands, all file systems, locales and option settings", "why_tests_cant": "expressions nest without bound and every word may be an operator or an operand depending on its neighbours", "anchors": ["builtins/test.c:test_builtin", "builtins/test.c:test_long_or", "builtins/test.c:test_long_and", "builtins/test.c:test_long_term", "builtins/test.c:test_double", "builtins/test.c:test_triple", "builtins/test.c:is_binary_primary", "builtins/test.c:is_unary_primary", "builtins/test.c:is_term_delimiter"]}
{"id": "C81", "title": "The test built-in returns 0, 1 or 2 for any arguments", "statement": "For any arguments, test terminates without undefined behaviour and returns 0, 1 or 2; [ with a closing bracket as the last argument behaves exactly as test without it, and returns 2 if the bracket is missing.", "quantifier": "all argument lists, all environments", "why_tests_cant": "arguments may be any words in any number; reading beyond the last argument or passing a null pointer is not reliably visible", "anchors": ["builtins/test.c:test_builtin", "builtins/test.c:test_long_term", "xfnmatch.c:match_regex"]}
{"id": "C82", "title": "Integer comparison in test is exact", "statement": "-eq, -ne, -gt, -ge, -lt and -le compare the mathematical values of their operands, decimal integers with optional sign and leading spaces; if an operand is anything else or does not fit into 64 bits the result is an error, never a wrong truth value.", "quantifier": "all pairs of words, all locales", "why_tests_cant": "infinitely many operands, including all overflow boundaries", "anchors": ["builtins/test.c:compare_integers", "builtins/test.c:test_triple"]}
{"id": "C83", "title": "Version comparison compares numbers by value", "statement": "-veq, -vne, -vgt, -vge, -vlt and -vle compare two words as sequences of numbers and other characters, in lexicographic order: numbers by value whatever their leading zeros, above any other character; letters above other characters.", "quantifier": "all pairs of words in locales where strings are ordered by the first differing character", "why_tests_cant": "infinitely many words and numbers", "anchors": ["builtins/test.c:compare_versions"]}
{"id": "C84", "title": "Version comparison is a consistent order", "statement": "-vle is reflexive, transitive and total, and -veq holds exactly if -vle holds in both directions, so that versions can be sorted.", "quantifier": "all triples of words", "why_tests_cant": "transitivity speaks about all triples of words", "anchors": ["builtins/test.c:compare_versions"]}
{"id": "C85", "title": "echo prints its operands", "statement": "echo prints its operands separated by single spaces and followed by a newline; the first letter of $ECHO_STYLE decides which options are recognised and whether escape sequences are interpreted, escapes including up to three octal digits after \\0 and \\c ending all output. If a character has no encoding nothing is printed and the exit status is 1. Doubling the backslashes of a text makes echo print exactly the text in the default style.", "quantifier": "all values of $ECHO_STYLE, all argument lists, all encodings that extend ASCII", "why_tests_cant": "unboundedly many operands and combinations of styles, option words and escapes", "anchors": ["builtins/printf.c:echo_builtin", "builtins/printf.c:echo_parse_escape"]}
{"id": "C86", "title": "printf accepts exactly the documented formats", "statement": "A format is a sequence of ordinary characters, escape sequences, %% and conversion specifications made of flags, a width, a precision and one of diuoxXfFeEgGcsb, with # and 0 only where they are defined. For any other text printf prints nothing but one error message and returns 1; a format without conversions is printed once, whatever the operands.", "quantifier": "all format texts, all operands", "why_tests_cant": "the language of formats is infinite", "anchors": ["builtins/printf.c:printf_parse_format", "builtins/printf.c:printf_parse_percent"]}
{"id": "C87", "title": "printf uses the format again until the operands are used up", "statement": "A format with k conversions is used once for each k operands, in order, missing operands of the last group being empty or zero; the output is the concatenation of what each use prints, printf always terminates, and the exit status is 0 exactly if there were no error messages. If one conversion cannot be printed nothing at all is printed.", "quantifier": "all formats, all operand lists", "why_tests_cant": "any number of conversions and operands", "anchors": ["builtins/printf.c:printf_builtin", "builtins/printf.c:printf_printf"]}
{"id": "C88", "title": "printf prints integers that can be read back", "statement": "The integer conversions take a C integer constant, or a quote and a character meaning its code, and print it with sign or prefix, precision, zero or space padding as C does. What %d and %i print for an integer of the type long is read back as the same integer. An operand that is no integer or too large makes an error message and exit status 1, the output using the nearest limit for too large ones.", "quantifier": "all conversion specifications, all operands", "why_tests_cant": "2^64 values times unboundedly many spellings, widths and precisions", "anchors": ["builtins/printf.c:printf_parse_integer", "builtins/printf.c:printf_printf"]}
{"id": "C89", "title": "printf %s prints operands verbatim", "statement": "printf '%s\\n' with operands prints each operand as it is followed by a newline, even if it begins with a hyphen or contains backslashes or percent signs; %s with a width and a precision pads and cuts at whole characters; %b interprets the escapes of echo. If the output cannot be written the exit status is not zero.", "quantifier": "all operand lists, all encodings that extend ASCII", "why_tests_cant": "unboundedly many operands with arbitrary characters", "anchors": ["builtins/printf.c:printf_printf", "builtins/printf.c:printf_print_escape"]}
{"id": "C90", "title": "The listing of a command is read as the same command", "statement": "The text that the shell prints for a command it has read, on one line or on several, is read again as one command: the same one, except that a reserved word used as a command name is quoted and that chains of || or of && between [[ and ]] are grouped to the right. This holds for commands in which no word ends in an escaped space or in a backslash that escapes nothing, no dollar sign stands for itself right before an expansion, no file descriptor number is out of range, no function is named by a reserved word or a name that ends in a dollar sign, and no function body is a definition of a function with a simple name.", "quantifier": "for all programs the parser accepts, all commands anywhere in them, all locales, both layouts", "why_tests_cant": "The printer and the tokenizer have to agree on every combination of nested commands, separators, quotes and redirections; a test covers a few trees, and a forgotten separator only shows in a combination.", "anchors": ["parser.c: command_to_wcs", "parser.c: print_one_command", "parser.c: read_and_parse", "parser.c: next_token", "parser.c: parse_command"]}
{"id": "C91", "title": "The name of a job is the and-or list it runs", "statement": "The one-line text that is stored as the name of an asynchronous job is read again as exactly that and-or list, under the conditions of C90.", "quantifier": "for all programs the parser accepts, all and-or lists anywhere in them, all locales", "why_tests_cant": "Jobs can run any and-or list with any nesting of compound commands; the text has to be unambiguous for all of them.", "anchors": ["parser.c: pipelines_to_wcs", "parser.c: print_pipelines", "parser.c: print_commands"]}
{"id": "C92", "title": "What typeset -fp prints for a function defines it again", "statement": "For a function whose name is a variable name and not a reserved word, the printed definition is read as one function definition command with that name and the body of the function, under the conditions of C90.", "quantifier": "for all programs the parser accepts, all function definitions anywhere in them, all locales", "why_tests_cant": "Function bodies are arbitrary compound commands with redirections; only a proof over all trees shows that a saved listing restores the functions.", "anchors": ["variable.c: print_function", "parser.c: command_to_wcs", "parser.c: parse_function", "parser.c: try_reparse_as_function"]}
{"id": "C93", "title": "Listing a command that was read from a listing gives the same text and meaning", "statement": "The differences allowed by C90 are invisible: the command read back has the same text as the original, reading back once more changes nothing, and every expression between [[ and ]] has the same truth value, evaluating the same operands.", "quantifier": "for all commands, both layouts, all meanings of the primaries of [[ ]], including errors", "why_tests_cant": "Normal forms of nested expressions are a statement about all trees; a test shows that a few of them are stable.", "anchors": ["parser.c: command_to_wcs", "parser.c: print_double_bracket_expression", "parser.c: parse_double_bracket_ors", "exec.c: exec_double_bracket"]}
{"id": "C94", "title": "The parser accepts exactly the language of the grammar", "statement": "Reading a line of a program gives a list of commands and stops at some place of the text if and only if a grammar of the shell language derives that list from the tokens up to that place: simple commands with assignments, words and redirections in any order the grammar allows, reserved words only where a command may start, pipelines with ! and |, and-or lists with newlines after the operators, lists separated by ; & and newlines, all compound commands with their redirections, the expressions of [[ ]], and both forms of function definitions. Texts with a here-document, a process redirection or the =~ operator are left out.", "quantifier": "for all texts, all locales, all behaviours of the expansions inside words", "why_tests_cant": "The language is infinite in both directions: a test cannot show that nothing outside the grammar is accepted, nor that every derivation is.", "anchors": ["parser.c: read_and_parse", "parser.c: parse_command_list", "parser.c: parse_and_or_list", "parser.c: parse_pipeline", "parser.c: parse_command", "parser.c: parse_simple_command_tokens", "parser.c: parse_compound_command", "parser.c: try_reparse_as_function", "parser.c: parse_double_bracket_ors"]}
{"id": "C95", "title": "A program has one reading", "statement": "The grammar of C94 is unambiguous: from the tokens of a line it derives at most one list of commands and one place where the line ends. In particular else and elif belong to the innermost if, redirections to the innermost command, && and || have the same precedence and group as written, and an operand of [[ ]] is never read in two ways.", "quantifier": "for all texts, all locales, all derivations", "why_tests_cant": "Ambiguity is about the existence of a second derivation of some text; tests show one reading of a few texts.", "anchors": ["parser.c: read_and_parse", "parser.c: parse_if", "parser.c: parse_command", "parser.c: parse_double_bracket_primary"]}
{"id": "C96", "title": "Reading a line of commands always ends", "statement": "For every text the parser comes to one of the outcomes \"commands\", \"syntax error\" or (in the model) \"a construct that is not modelled\" at a depth of recursion of at most ten times the length of the text plus twenty; it never loops without consuming input. It returns commands exactly if the grammar of C94 derives the text, so a text without a derivation is reported as an error and never accepted in part.", "quantifier": "for all texts, all locales, all parsers of expansions that consume at least one character", "why_tests_cant": "Termination and the rejection of everything outside the grammar are claims about infinitely many malformed texts.", "anchors": ["parser.c: read_and_parse", "parser.c: parse_command_list", "parser.c: parse_compound_list", "parser.c: next_token", "parser.c: parse_case_list"]}
{"id": "C97", "title": "Tokens are recognised by the longest match", "statement": "The next token of a text is found after any blanks, line continuations and at most one comment. It is the longest operator spelled by the text, with line continuations allowed between its characters; otherwise it is the word up to the first unquoted blank, newline or operator character. Backslashes, single quotes and double quotes quote as POSIX says; adjacent text is one unit. A word of digits right before < or > is a file descriptor; an unquoted reserved word has its own type. Every text has at most one next token, and a text without one (an unclosed quotation, an erroneous expansion) is an error.", "quantifier": "for all texts, all locales whose ASCII part is that of the C locale, all parsers of expansions that consume at least one character", "why_tests_cant": "Longest match and delimiting are claims about what no longer token exists, over all texts; tests cover a few spellings.", "anchors": ["parser.c: next_token", "parser.c: parse_word", "parser.c: maybe_line_continuations", "parser.c: is_token_delimiter_char", "parser.c: identify_reserved_word_string", "parser.c: skip_to_next_single_quote"]}
{"id": "C98", "title": "The parser reads what the text means", "statement": "For every text the outcome of reading a line is the list of commands which the grammar of C94 derives from the tokens of C97, together with the text after the line. If there is no such list the outcome is a syntax error or (in the model) an unmodelled construct. The specification mentions neither the tokenizer nor the parser.", "quantifier": "for all texts, all locales whose ASCII part is that of the C locale, all parsers of expansions that consume at least one character", "why_tests_cant": "It is an equivalence between a program and a declarative language definition over all texts, including all malformed ones.", "anchors": ["parser.c: read_and_parse", "parser.c: parse_command_list", "parser.c: next_token", "parser.c: parse_word"]}
{"id": "C99", "title": "The command history stays in order", "statement": "After any sequence of added lines, deletions, clearings, renumberings and lines read from history files, the history holds at most $HISTSIZE entries; their numbers are distinct, between 1 and the limit, and increase from the oldest entry to the newest, except that they may start again from the bottom at one place.", "quantifier": "for all values of HISTSIZE and HISTRMDUP, all sequences of operations (including arbitrary lines of history files), all texts", "why_tests_cant": "Numbers start again only after a hundred thousand commands, and files written by several shells can hold numbers in any order; tests cannot reach these combinations.", "anchors": ["history.c: new_entry", "history.c: need_remove_entry", "history.c: add_history", "history.c: parse_history_entry", "history.c: set_histsize"]}
{"id": "C100", "title": "No use of the history stops the shell", "statement": "Adding, deleting and clearing history entries and reading history files never violates an assertion of the shell.", "quantifier": "for all states of the history that can be reached and all operations", "why_tests_cant": "It is about all contents of history files and all states, including those after the numbers have started again.", "anchors": ["history.c: new_entry", "history.c: parse_history_entry", "history.c: parse_removed_entry", "history.c: search_entry_by_number", "history.h: ashistentry"]}
{"id": "C101", "title": "history -d removes exactly the named entry", "statement": "history -d N removes the entry with number N and no other, wherever it is and also when the numbers have started again; history -d -N removes the Nth newest entry; history -d WORD the newest entry that begins with WORD. A number that no entry has changes nothing.", "quantifier": "for all states of the history in order and all operands", "why_tests_cant": "The search starts from either end depending on the numbers; all gaps and positions of the place where the numbers start again have to be covered.", "anchors": ["history.c: history_delete", "history.c: search_entry_by_number", "history.c: get_nth_newest_entry", "history.c: search_entry_by_prefix", "history.c: remove_entry"]}
{"id": "C102", "title": "fc selects the entries between first and last", "statement": "fc and fc -l select exactly the entries from first to last, in reverse order if first is newer than last, reversed once more by -r. Numbers of missing entries stand for their place between the entries, places outside the history for the oldest or newest entry. Without operands fc -l lists the last 16 entries.", "quantifier": "for all states of the history in order, all operands, with and without -l and -r", "why_tests_cant": "The bounds may be missing entries, be given in either order, lie outside the history or across the place where the numbers start again; the combinations are unbounded.", "anchors": ["history.c: fc_builtin", "history.c: fc_search_entry", "history.c: search_result_is_newer", "history.c: entry_is_newer", "history.c: fc_print_entries"]}
{"id": "C103", "title": "A new line replaces its duplicates and at most the oldest entry", "statement": "Adding a line with a visible character appends it with the number after the newest entry (1 after the limit); before, the entries with the same text among the $HISTRMDUP newest are removed. Of the other entries at most the oldest is dropped, and only if the history is full or the entry has the new number. Lines without a visible character change nothing; the lines of a text are added one by one.", "quantifier": "for all states of the history in order, all texts, all values of HISTSIZE and HISTRMDUP", "why_tests_cant": "That nothing else is lost is a statement about every entry of every history.", "anchors": ["history.c: add_history", "history.c: add_history_line", "history.c: remove_duplicates", "history.c: new_entry", "history.c: next_history_number"]}
{"id": "C104", "title": "Shells that share a history file share one history", "statement": "When several shells use the same history file, the history that any of them sees when it next looks, and that a newly started shell sees, is exactly the history of a single shell in which all their additions (with removal of duplicates), deletions, cancellations, clearings and renumberings were made one after another, whatever the order in which the shells act and whenever the file is rewritten: no entry is lost, doubled or renumbered, and numbers, times and texts survive the file. This holds for lines shorter than LINE_MAX bytes and a clock that does not go back; both conditions are needed.", "quantifier": "all sequences of operations by any number of shells, all texts, history sizes, locales, numbers of duplicates removed, moments of refreshing, byte lengths", "why_tests_cant": "the interleavings of shells, refreshes and deletions are unbounded, and an entry is read back through a numeral and time in hexadecimal", "anchors": ["history.c: read_history", "history.c: parse_history_entry", "history.c: parse_removed_entry", "history.c: update_history", "history.c: maybe_refresh_file", "history.c: write_signature", "history.c: write_history_entry", "history.c: refresh_file", "history.c: maybe_init_history", "history.c: add_history", "history.c: remove_duplicates", "history.c: history_delete", "history.c: history_clear_all", "history.c: fc_remove_last_entry"]}
{"id": "C105", "title": "The history file consists of complete lines whatever is added", "statement": "Whatever texts are added to the history, with newlines or without, every record that a shell writes to the history file is one line: splitting the file at newlines gives back exactly the records, so no part of a command is ever read back as another record such as a deletion.", "quantifier": "all sequences of operations by any number of shells, all texts including those with newlines", "why_tests_cant": "a text added could contain anything, including lines that look like deletion or process records", "anchors": ["history.c: add_history", "history.c: add_history_line", "history.c: write_history_entry", "history.c: remove_duplicates", "history.c: refresh_file"]}
{"id": "C106", "title": "Line-editing commands never abort the shell and keep the cursor in the line", "statement": "Whatever line-editing commands are given in whatever order, on whatever line and with whatever counts, no assertion of the editor fails and afterwards the cursor is within the line, in vi command mode on a character. The only exception is putting a killed text zero or a negative number of times at the beginning of a line, which aborts the shell.", "quantifier": "all sequences of commands (typing, motions with any pending operation, put, put-pop, undo, history moves, transpose, replace, mode changes, other edits), all counts, all lines and histories", "why_tests_cant": "states are reached by arbitrary sequences of commands; a test types a few of them", "anchors": ["lineedit/editing.c: exec_motion_command", "lineedit/editing.c: maybe_save_undo_history", "lineedit/editing.c: insert_killed_string", "lineedit/editing.c: cmd_put_pop", "lineedit/editing.c: cancel_undo", "lineedit/editing.c: go_to_history", "lineedit/editing.c: le_invoke_command"]}
{"id": "C107", "title": "Undoing restores earlier lines and cancelling restores the later ones", "statement": "After k editing commands that change the line, undoing k times gives the text and the cursor from before them. Undoing n times and cancelling as many undos gives the line again. Undoing everything gives the line with which editing began. After a new change, what had been undone cannot come back. (Typing, repeated backspaces and vi's r are not saved one by one.)", "quantifier": "all states reachable by editing, all sequences of changing commands, all counts", "why_tests_cant": "undo states depend on the whole sequence of commands, including undos, moves through the history and unsaved typing in between", "anchors": ["lineedit/editing.c: save_undo_history", "lineedit/editing.c: maybe_save_undo_history", "lineedit/editing.c: cancel_undo", "lineedit/editing.c: cmd_undo_all", "lineedit/editing.c: vi_replace_char"]}
{"id": "C108", "title": "Killed texts can be put back exactly, the last 32 of them in turn", "statement": "Killing a part of the line and putting it back at once gives the line again. Putting and then using put-pop j times inserts exactly the text killed j kills ago, going round the last 32 killed texts of this and earlier lines, and leaves the rest of the line as it was.", "quantifier": "all sequences of editing commands on all lines before, all cursor positions, all j", "why_tests_cant": "the ring wraps around after 32 kills and depends on all lines edited before", "anchors": ["lineedit/editing.c: add_to_kill_ring", "lineedit/editing.c: put_killed_string", "lineedit/editing.c: insert_killed_string", "lineedit/editing.c: cmd_put_pop", "lineedit/editing.c: exec_motion_command"]}
{"id": "C109", "title": "Looking at history entries does not lose the line being edited", "statement": "Moving from an edited line to any entries of the history and back, in any order, gives the text of the line as it was. (If another entry is changed on the way, the edits of the first line are lost.)", "quantifier": "all reachable editing states, all sequences of history moves", "why_tests_cant": "depends on which entry the undo history belongs to, for arbitrary earlier edits and moves", "anchors": ["lineedit/editing.c: go_to_history", "lineedit/editing.c: maybe_save_undo_history"]}
{"id": "C110", "title": "The output of set +o restores the options", "statement": "The commands that `set +o` prints, run later in any state of the options, all succeed and give every option that `set` can change the value that it had when they were printed, including which line-editing mode and which treatment of the meta key is in force; options that `set` cannot change and the positional parameters are kept. If job control was on, this needs a terminal.", "quantifier": "all pairs of consistent option states (the one printed and the one it is run in), all locales that keep ASCII lowercase letters", "why_tests_cant": "There are 2^41 states to print times as many to run in, and the commands interact since some options disable others as they are enabled.", "anchors": ["option.c: set_builtin_print_restoring_commands", "option.c: set_shell_option", "option.c: parse_shell_options", "option.c: collect_matching_shell_options"]}
{"id": "C111", "title": "$- has exactly the letters that set has set", "statement": "`$-` consists of the letters whose options have the values that the letters stand for. For every non-empty series of letters that can be set, `set -letters` succeeds and then `$-` has exactly the letters it had and those of the series; `set +letters` succeeds and `$-` then has exactly the letters it had except those of the series.", "quantifier": "all option states, all series of letters of options that can be set", "why_tests_cant": "Letters have either polarity and share one table; that no letter affects another one holds for all states and series, which tests sample.", "anchors": ["option.c: get_hyphen_parameter", "option.c: parse_option_character", "option.c: parse_short_option"]}
{"id": "C112", "title": "Option names mean one option each and abbreviations are safe", "statement": "A name given to `set -o`, `set +o` or `[ -o` means the option whose full name it is, or the opposite of the option if it is its full name after `no`, after cases and characters other than letters and digits are ignored; otherwise it means the one option or opposite that it abbreviates, and nothing if there are several or none. If it means nothing, `set` fails and changes nothing. If it means an option, exactly this option is set, the option it excludes is disabled, and no other changes; after success, `[ -o name ]` gives what was set by that same name.", "quantifier": "all names, all option states, all locales", "why_tests_cant": "Names are any strings; options whose names begin other names or begin with `no` make overlaps that have to be resolved for all of them.", "anchors": ["option.c: normalize_option_name", "option.c: collect_matching_shell_options", "option.c: search_shell_options", "option.c: handle_search_result", "option.c: test_option_unique"]}
{"id": "C113", "title": "set is safe for all arguments", "statement": "Whatever its arguments are, `set` finishes and fails no assertion. At most one of the two editing modes and of the two treatments of the meta key is enabled afterwards, and the mode in force is the enabled one. Options that cannot be set are kept. The positional parameters are kept if `set` fails; if it succeeds they are kept or are the last arguments. `set -- arguments` sets them to exactly the arguments.", "quantifier": "all argument lists, all option states, all locales", "why_tests_cant": "The assertions about the search results hold due to the names in the table and any arguments, including long options that abbreviate both options and --help.", "anchors": ["option.c: parse_shell_options", "option.c: parse_long_option", "option.c: parse_short_option", "option.c: handle_search_result", "option.c: set_builtin"]}
{"id": "C114", "title": "Word motions of line editing lead to starts and ends of words", "statement": "A forward word motion leads to the first start of a word after the cursor (words of the chosen kind: separated by blanks; by blanks and punctuation; runs of alphanumerics or of other non-blank characters as in vi), or to the end of the line without any. An end-of-word motion leads to the first end of a word after the cursor (without any, to the last character or the end of the line); the forward word motion of emacs leads behind the first end of a word at or after the cursor. A backward word motion leads to the last start of a word before the cursor, or to the beginning of the line without any. The exception for words other than vi's: if the line begins with exactly one character outside words and the start sought is index 1, the motion goes to index 0. \"cw\" on a word changes up to the end of that word.", "quantifier": "all lines, all cursor positions, all character classes in which the terminator is in no class and blanks are not alphanumeric, all kinds of words", "why_tests_cant": "The loops restart when the cursor is already at a boundary; which restart happens depends on the arrangement of blanks, punctuation and letters at both ends of the line, and lines are unbounded. The repository's interactive tests do not cover motions.", "anchors": ["lineedit/editing.c: next_bigword_index, next_end_of_bigword_index, previous_bigword_index", "lineedit/editing.c: next_viword_index, next_end_of_viword_index, previous_viword_index", "lineedit/editing.c: next_semiword_index, previous_semiword_index, next_emacsword_index, previous_emacsword_index"]}
{"id": "C115", "title": "Finding a character in the line goes to exactly the requested occurrence", "statement": "The find-character motion with a count n leads to the nth occurrence of the character after the cursor (backward: the nth before it), such that exactly n occurrences lie between the cursor and it, itself included. If there are fewer, the motion fails. The till-character motion stops next to that occurrence, on the side of the cursor.", "quantifier": "all lines, cursors, characters but the terminator, and positive or negative counts", "why_tests_cant": "Counts and lines are unbounded, and the off-by-one cases (cursor on an occurrence, at the ends of the line) are many.", "anchors": ["lineedit/editing.c: find_nth_occurence, exec_find, cmd_till_char, cmd_till_char_rev"]}
{"id": "C116", "title": "Motions stay inside the line and words can be retraced", "statement": "Whatever motion with whatever count is given, the cursor stays between the beginning and the end of the line. Character motions move by exactly the count as far as the line goes. A motion by characters or words with a positive count moves the cursor, or alerts if there is nothing in its direction; a negative count reverses the direction; counts add up. Columns count from 1, negative ones from the end of the line. Going n words forward from the start of a word, without reaching the end of the line, and then n words backward leads back to where one was (for words other than the words of vi, unless one was at index 1 after a single character outside words).", "quantifier": "all lines, cursors, counts (also negative and absent), motions and editing modes", "why_tests_cant": "A position outside the line would be an out-of-bounds access for some combination of line, cursor, count and motion; tests see a few.", "anchors": ["lineedit/editing.c: move_cursor_forward_char, move_cursor_backward_char", "lineedit/editing.c: move_cursor_forward_bigword, move_cursor_forward_viword", "lineedit/editing.c: cmd_go_to_column, cmd_first_nonblank"]}
{"id": "C117", "title": "ulimit sets exactly the number given, without overflow, and prints it again", "statement": "A decimal number given to ulimit is accepted exactly if it fits in unsigned long, its product with the unit of the resource is a representable limit other than the special values, the soft limit would not exceed the hard one and the system permits the change. Then the chosen limits have exactly that product and ulimit prints the number given. A number too large for unsigned long and anything else but the words hard, soft and unlimited is a usage error, as are unknown options, several operands and -a with a resource or an operand; other refusals are failures.", "quantifier": "all operands, options, limits and resources; all widths of the type for limits and values of the special limits; all locales", "why_tests_cant": "The check for overflow divides the wrapped product; that it has no false positive or negative for any number, unit and width needs a proof. Tests cannot change hard limits freely.", "anchors": ["builtins/ulimit.c: ulimit_builtin, print_limit_value", "util.c: xwcstoul"]}
{"id": "C118", "title": "ulimit changes nothing but the limits chosen and keeps soft limits below hard limits", "statement": "Whatever the options and operands are, no limit changes unless ulimit succeeds in setting; then only the chosen limits (the last of -H and -S, both without) of the chosen resource (the last one given, file sizes without) change, the change was permitted by the system, and the soft limit does not exceed the hard one. If all soft limits are within the hard ones, they stay so.", "quantifier": "all options and operands, all limits, all systems", "why_tests_cant": "Options can be repeated and combined without bound, and all limits of the process must be compared.", "anchors": ["builtins/ulimit.c: ulimit_builtin, ulimit_options"]}
{"id": "C119", "title": "Printed soft limits can be given back to ulimit", "statement": "What ulimit -S prints for a resource is accepted by ulimit -S for the same resource, gives the limit rounded down to the unit of the resource, and is printed again. `ulimit -S hard` raises the soft limit to the hard one and `ulimit -H soft` lowers the hard limit to the soft one, always. `ulimit -a` lists for every resource what ulimit prints for it alone. (What ulimit -H prints is not always accepted: a hard limit that is not a multiple of the unit is rounded down below the soft limit.)", "quantifier": "all limits with soft within hard, all resources, all systems without unrepresentable limits and whose kernel lets processes lower limits", "why_tests_cant": "It holds for all values of limits, which a test cannot set; rounding makes particular values different.", "anchors": ["builtins/ulimit.c: print_limit_value, print_all_limits, ulimit_builtin"]}
{"id": "C120", "title": "Signal names and numbers correspond", "statement": "The words accepted as signals are exactly EXIT, decimal numbers of signals of the system (or 0), the names in the table, RTMIN, RTMAX, RTMIN+n and RTMAX-n within the real-time range, the names also with SIG in front; each stands for its signal. The name printed for any signal of the system is such a word for that signal, also with SIG in front, and does not depend on case conversion. Parsing a word never stops the shell, except that a shell compiled with --debug fails an assertion on RTMAX-0.", "quantifier": "all words, all signals, all locales, all tables of signals and real-time ranges", "why_tests_cant": "Tables and real-time ranges differ between systems and words are unbounded.", "anchors": ["sig.c: get_signal_name, get_signal_number, parse_signal_number, get_signal_number_toupper", "siglist.h: signals"]}
{"id": "C121", "title": "The output of trap restores the traps", "statement": "`trap` prints one command for each signal whose trap is set, with an operand that stands for this signal, and changes nothing. Running the printed commands in any (non-subshell) state of the shell succeeds, sets each printed trap to the same command and leaves all other traps and their handlers as they were. `trap -p` with operands prints the traps of the named signals only, and fails iff an operand is no signal.", "quantifier": "all states reachable by the built-in, all states in which the commands are run, all systems", "why_tests_cant": "The sets of traps and their commands are unbounded, and commands such as - or digits would be read as something else.", "anchors": ["sig.c: trap_builtin, print_trap, set_trap, get_signal_name"]}
{"id": "C122", "title": "trap changes the traps of the named signals only, also in subshells", "statement": "Setting, ignoring or resetting traps changes the commands and handlers of exactly the named signals that can be trapped (the shell keeps its own handlers of SIGCHLD and, when interactive, of SIGINT and SIGWINCH, and ignores other signals of interaction and job control instead of resetting them); KILL, STOP and, in a shell that is not interactive, signals ignored on entry never change. The status is failure iff an operand is no signal or is KILL or STOP. On entering a subshell the output of trap stays the same while the handlers of signals with trap commands are reset and ignored signals stay ignored; the first trap set in the subshell removes the inherited commands and keeps the ignored signals.", "quantifier": "all operands, all states reachable by the built-in, all systems, interactive shells or not", "why_tests_cant": "It compares all traps before and after for unbounded lists of operands.", "anchors": ["sig.c: trap_builtin, set_trap, phantomize_traps, banish_phantoms"]}
{"id": "C123", "title": "kill selects the signal named by any listed name, and sends to its operands", "statement": "Every name that kill -l prints can be given as -s NAME, -sNAME, -n NAME or -NAME, with or without --, and selects the signal it was printed for; without options the signal is TERM. A signal sent otherwise is always a signal of the system named by the options, 0 only if given as a number, and the operands are the last arguments, none lost or changed. After -s any word for a signal is accepted in either case, with SIG too unless the shell conforms to POSIX, where this is an error. Options of l and v list, and giving a signal with them is an error. (Names in lower case work after -s, but directly after the hyphen not if they begin with the option letters s or n: kill -stop is -s top.)", "quantifier": "all arguments, all systems' signals, all locales", "why_tests_cant": "The names depend on the system, and option words and operands combine without bound.", "anchors": ["sig.c: kill_builtin, get_signal_number_toupper, print_signal"]}
{"id": "C124", "title": "kill -l names signals by number, exit status or name", "statement": "kill -l lists every signal of the system. With operands it prints for each the name of the signal that the operand stands for: a signal number below 128, an exit status 128+n or 384+n, or a word in either case; for such operands there is no error. Whatever the operands, only names of signals of the system are printed, in number at most the operands, and there is an error iff one of them has no name printed.", "quantifier": "all lists of operands, all systems' signals, all locales", "why_tests_cant": "Statuses and numbers form overlapping unbounded ranges and the signals depend on the system.", "anchors": ["sig.c: kill_builtin, print_signal, get_signal_name", "job.h: TERMSIGOFFSET"]}
