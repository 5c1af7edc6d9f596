# Formal model of yash in Rocq

## Layout

All Coq sources are in `rocq/theories` (logical name `Verif`), one file group per
module of the C sources:

* `<Mod>Model.v`  – transcription of the C code, function by function. Each
  definition has a comment with file and lines in `/repo`, and says what is simplified.
* `<Mod>Spec.v`   – small independent specification (only where the statement needs one).
* `<Mod>Proofs.v` – lemmas and invariants.
* `<Mod>Props.v`  – the theorems claimed in `MANIFEST.json`, each followed by
  a concrete instance (`Example`) showing its hypotheses can be met, and by
  `Print Assumptions`.

Conventions

* A wide character is an `N`, a string a `list N`. Strings exclude the terminating
  null; where the code depends on reading it, the model reads `0` past the end.
* `long` is `Z` with explicit range checks; a C operation whose behaviour would be
  undefined is a distinct outcome of the model, never silently total.
* Locale-dependent classification (`iswspace`, ...) is a record of functions
  quantified over in the theorems.
* Loops that are not structurally recursive use fuel with a distinct out-of-fuel
  outcome, together with a theorem that the fuel supplied always suffices.
* If the code falsifies a property, the theorem is `..._refuted : exists ...` with a
  concrete witness, and the deviation is listed under "Findings".

## Plan per property

| id | modelled | how proved |
|----|----------|-----------|
| C01 | operators of `arith.c` on longs, including every overflow guard | case analysis on `Z`, spec = exact integer result or error, UB outcome unreachable |
| C02 | tokenizer and recursive-descent parser/evaluator of `arith.c` | rendering of an AST with minimal parentheses evaluates to the spec evaluator's result, by induction on the AST |
| C03 | `parseonly` flag of the evaluator | induction on fuel: state unchanged in parse-only mode |
| C04 | same | measure: remaining input decreases; fuel = length suffices |
| C05 | error flag | invariant: error is monotone, final result tests it |
| C06 | decimal printing and `xwcstol` | induction on digits |
| C07, C08 | arrays of slots with chain links, free list, as in `hashtable.c` | representation invariant + refinement to association lists |
| C09 | arrays with capacity; every write bounds-checked in the model | refinement to list splice |
| C10–C13 | `xgetopt.c` as a state machine over argv | invariant on the processed prefix |
| C14 | recursive trie nodes with sorted edges | structural induction, map spec |
| C15, C16 | `alias.c` substitution on a buffer with limit-indexed alias list | lexicographic measure; invariant on limits |
| C17–C20 | both the literal path and the pattern-to-regex translation of `xfnmatch.c`; `regexec` is modelled by its POSIX leftmost-longest specification | declarative glob language |
| C21, C22 | `extract_fields`, `fieldsplit` | declarative split grammar, induction |
| C23–C25 | `escape`, `unescape`, `quote_as_word`, `unquote`, `quote_removal` | induction on strings |
| C26 | brace expansion | induction on brace structure |
| C27 | index trimming | case analysis |
| C42–C46 | all of word expansion in `expand.c` over an abstract environment | words as trees of parts; the loop over characters is simulated by recursion on the parts; then the lemmas on braces, splitting and quoting |
| C28, C29, C47, C48 | descriptor table as a map, system calls answered by an arbitrary list of results and failures | invariant over redirection lists and nested commands |
| C30–C32, C49–C52 | job list, process statuses and current/previous numbers; `waitpid` answered by arbitrary lists of notifications; traps as arbitrary operations | invariants over all histories of commands; following a job through the notifications |
| C60 | `getopts` on top of the variables | position in the arguments as an invariant between calls; declarative reading of argument lists |
| C53–C59, C61–C63 | scopes as a list of tables, process environment as a map; a language of commands on variables with nested calls and temporary assignments | invariants over all command sequences, relations between states kept by commands not about a name |
| C64–C69 | syntax trees executed as in `exec.c` over an arbitrary world, with pending jumps, suppression flags, traps and exit | simulation by a structured big-step semantics, by induction on the fuel; determinism of that semantics |
| C70–C73 | `cd` and `pwd` over an arbitrary file system (a graph of directories with names, links being further edges) | canonicalization as collapsing of a list of components; invariant of $PWD over all sequences of commands |
| C74, C75 | `umask` on mode bits | syntax trees of symbolic modes with their text and meaning per class and right; induction on the tree, and inversion of the parser |
| C76–C79 | `wglob` over an arbitrary function from paths to directory listings and files | declarative matching of name sequences; invariant of the set of active components for soundness, rule induction for completeness, disjointness of the results for different names |
| C80–C84 | `test` and `[` over arbitrary files, collation order, options and regular expressions | grammar and meaning of expressions as separate relations; rule induction for completeness, induction on the fuel for soundness; versions as sequences of tokens with a lexicographic order |
| C85–C89 | `echo` and `printf` over an arbitrary encoding that extends ASCII; integers and strings formatted as C does | grammar of formats and escapes and meaning of conversions as separate relations; induction on the format and on the operands |
| C90–C93 | tokenizer, grammar and printer of commands as mutually recursive functions on parse trees; expansions inside words are a parameter | every tree the parser builds satisfies an invariant on words and tokens; induction on the tree shows that the text of such a tree is tokenized and parsed as its normal form |
| C94, C95 | the parser of C90–C93 against a grammar given as inference rules on sequences of tokens | induction on the fuel (what is accepted is derived) and on the derivations with conditions on the following token (what is derived is accepted) |
| C96 | the same parser with its fuel; the parser of expansions consumes a character | a measure on tokens that decreases with each one taken bounds the fuel; monotonicity of every parsing function in the fuel |
| C97 | `next_token` and `parse_word` against rules for gaps, comments, operators (a table and the longest match) and words (parts and units) | case analysis of the operators with the table; induction on the fuel and on the derivation of a word |
| C98 | C94, C96 and C97 together | the tokens of the specification are those of the tokenizer |
| C99, C100 | the list of history entries from oldest to newest, all operations on it and the lines of history files; a failed assertion is an outcome | invariant: turned around at one place the numbers increase; an entry is missing or the loops stop, by index |
| C101, C102 | searches by number, by distance and by prefix as loops over the list, the comparison of places, and the walk over a range | every search gives a place among the keys (numbers continued after the limit); case analysis of two places |
| C103 | `add_history` on lines and texts | the next number conflicts only with the oldest entry |
| C104, C105 | the history file as a revision and lines; each shell has a list, a revision and a position; an event is one locked operation of a shell: read, maybe refresh, change, write | invariant: the file, read from its start, gives the common list, and the part a shell has read gives its list; what is written is read back (hexadecimal numerals, times); re-adding a list in order evicts nothing |
| C106–C109 | the edit line, the undo history, the kill ring and the moves through the history, all commands as functions on one state; a failed assertion is an outcome | the undo history with its index, entry and saved cursor is a zipper (`past`, `future`) on which saving pushes and undoing moves; the kill ring is the list of the last 32 kills, read backwards from the next index; invariant over all commands; `reach` is any sequence of commands on any sequence of lines |
| C110–C113 | the table of options, the search of names, all of the `set` built-in but its printing of the table, the output of `set +o` and `$-`; a failed assertion is an outcome | names: exact names by computation over the table, abbreviations by an induction over the search that gives the list of candidates without repetition; `set_option` by cases; restoring by an invariant over the table: options already passed have the printed values, since a printed state never has both of two exclusive options on; letters by table facts (distinct letters, one per option); parsing by induction over the arguments |
| C114–C116 | the motion commands inside the line: the index each computes, with the loops of the C code as scans over the line; words are specified by the kinds of characters | each scan is characterised by where it stops; then each motion is the first (last) start or end of a word after (before) the cursor, the restarted loops by a second round that must succeed; finding by induction over the scanned part, counting occurrences; staying inside from those |
| C117–C119 | the ulimit built-in after its options have been separated; limits are a map from resources to pairs of numbers, `rlim_t` has any modulus, the kernel's permission is any predicate | the options by induction (the last one wins); the overflow check by arithmetic modulo the width; the rest by cases; numerals by the lemmas on `wcstol` and decimal printing in NumProofs.v and BraceNum.v |
| C120–C122 | names and numbers of signals, the trap built-in, `set_trap` and the phantom traps of subshells; traps are a map from signal numbers to commands, the table of signals, the real-time range and the signals with handlers of the shell are parameters | names by cases with the lemmas on `wcstol` and decimal printing; traps by induction on the operands with the invariant `traps_ok`; restoring by induction on the printed lines; phantoms by induction on the list of signals |
| C123–C124 | the arguments of the kill built-in up to the signal and the operands, and its list of signals | by induction on arguments and characters; the words for signals are those of C120 |

Further modules (line editing) are added as the model grows.

## Trusted base

Coq 8.16.1's kernel; the transcription of the C code cited in the comments. The
axioms used by each theorem are printed by `Print Assumptions` in the `Props`
files.

### What is modelled

* `hashtable.c`: all functions; memory allocation always succeeds.
* `util.c`: `xwcstol`, `xwcstoi` (wcstol from the C standard), decimal `printf`.
* `arith.c`: all functions, on 64-bit `long`. Floating point is an abstract record
  of operations (`dops`); the theorems hold for every instance in which a defined
  conversion to `long` yields a long. Variables are a map from names to texts plus
  a read-only predicate; variables with special getters (`RANDOM`, `LINENO`) and the
  effect of assigning `LC_*` are not modelled. Recursion depth is not modelled.
* `plist.c`, `strbuf.c`, and the allocation helpers of `util.c` (`add`, `mul`,
  `xmalloce`, `xreallocn`): all list and string buffer operations on arrays with
  uninitialised cells, `size_t` arithmetic modulo 2^64, and an allocator that may
  refuse any request (the shell then aborts). Not modelled: freeing and the `freer`
  callbacks. Conversions are over an arbitrary stateless encoding given by the
  function parameters of the model; `wcrtomb`/`mbrtowc` shift states are not
  modelled. `vsnprintf`/`vswprintf` follow the C standard for an arbitrary text.
* `xgetopt.c`: all functions; the argument array is shorter than `INT_MAX`. The
  option tables of all built-ins are transcribed in `XgetoptTables.v`.
* `lineedit/trie.c`: all functions; probabilities are an abstract ordered type. Node
  memory is a tree; `realloc` of nodes always succeeds.
* `alias.c`: the alias table, `substitute_alias(_range)` and the list of active
  expansions, the operand handling of the `alias`/`unalias` built-ins; from `parser.c`
  `line_continuation`. The parser is abstracted to an arbitrary interleaving of
  reading lines, advancing, substituting a word that ends at a delimiter, and removing
  line continuations. Reference counts are not modelled.
* `xfnmatch.c`: all functions; `match_each` and `subst_each` of `expand.c` for one string.
  `regcomp`/`regexec` are trusted: `Regex.v` specifies the POSIX basic regular
  expressions that the code emits (leftmost-longest). Locale data (classes, ranges,
  equivalence classes, case mapping) is an arbitrary record; the only assumption is that a
  single character is a collating symbol for itself. Multi-character collating elements
  are not modelled, and every character is assumed to be convertible to multibyte.
  The theorems named `..._partial` exclude patterns that quote the delimiters of a symbol
  inside a bracket expression (`clear_pattern`), for which the refutation below applies.
* `expand.c`: field splitting (`extract_fields`, `fieldsplit`) on strings with categories;
  `variable.c`: the `read` built-in after option parsing (`read_one_line` as splitting the
  input at newlines, `unescape_line`, the assignments as a sequence). Read errors, prompts,
  null characters in the input and read-only variables are not modelled.
* `expand.c`: `escape`, `escapefree`, `unescape`, `quote_as_word`, `unquote`, `quote_removal`.
* `expand.c`: brace expansion (`expand_brace_each` and what it calls) on words with categories.
* `expand.c`: `expand_four`, `expand_tilde`, `expand_param`, `expand_word`, `expand_single`,
  `expand_multiple`, `expand_line`, `glob_all`. The environment is an arbitrary state with
  arbitrary functions for variables, assignment, command substitution, arithmetic, home
  directories and directory search (record `world`); what the theorems assume of it is that
  strings contain no null characters (`clean_world`). Evaluation of arithmetic in indices is
  one of those functions. Error messages, interrupts and memory are not modelled. The
  theorems are about words built from parts (`word`), as the parser delivers them: maximal
  runs of text between expansions, quotes balanced.
* `redir.c`: all of it except the expansion of operands, error messages and the contents of
  here-documents (only the descriptor is modelled). The process is a table of descriptors (open
  file, access mode, close-on-exec flag) with the shell's set `shellfds`. Results of system calls
  are taken from an arbitrary list; a result the system cannot give (a descriptor that
  is in use, beyond the limit) is turned into a failure. `ttyfd` is not modelled. Commands are
  a list of redirections around a body (`action`); built-ins that make the shell open a file are
  the action `Keep`.
* `job.c`: the job list, current and previous job, `do_wait`, exit statuses, reports (which jobs,
  status and mark, not the wording), job specifications, and `jobs`, `fg`, `bg`, `wait`, `disown`
  after option parsing; `sig.c`: `wait_for_sigchld`, `handle_sigchld` with what a trap does as an
  arbitrary list of job operations; `exec.c`: the part of `exec_commands` about jobs. Process
  groups, the terminal, `kill`, output errors and names of statuses are not modelled; sending
  the signal in `bg` succeeds. Addresses of jobs are identities, so a use after free is UB.
* `variable.c`: scopes, assignment of all kinds, attributes, `typeset`/`export`/`readonly`/`local`
  per operand, `unset` of variables, `set` of positional parameters, `shift`, `array`, `LINENO`,
  `RANDOM` (numbers arbitrary), the process environment, the search paths, which variables listings
  contain. Hash tables are association lists, the order of visiting entries is arbitrary; the
  conversion of names to multibyte strings is an arbitrary injective partial function. Not modelled:
  functions, effects on the locale, terminal size and command hash table, printing, the
  directory stack. Commands are a tree of operations (`op`): assignments (permanent or around a
  body), function calls around a body, and the built-ins; values are arbitrary.
* `variable.c`: `getopts` (messages not modelled).
* `exec.c`: execution of all commands except `[[` (an arbitrary built-in), `command`, `exec` and
  `$COMMAND_NOT_FOUND_HANDLER`; `break`, `continue`, `return`, `eval`, `.`; `yash.c`: reading and
  executing lines, exit; `sig.c`: `handle_traps`, `set_trap`, the EXIT trap. Words, redirections,
  programs and other built-ins are arbitrary functions on an arbitrary world, which also say which
  signals arrive. Not modelled: interactive shells (so no interrupts), stopped jobs, failing forks,
  syntax errors, read-only functions. Assumed of the world (`os_ok`): a parent
  that has waited for one child sees the files as the child left them, and no signal arrives
  while an expansion fails fatally. Child processes of a pipeline run one after another (each on its
  own copy of the world; how the copies are combined is arbitrary). C66 and C67 hold of all
  programs; the simulation (C64, C65) is about programs of two families (`ok_lines`): those without EXIT traps and those without `return`, `continue`,
  `errreturn`; in both, words of commands that jump are constant, the last condition of an if
  command does not return and the last command of a pipeline does not break out of loops around
  it. Each restriction corresponds to a finding. The simulation is partial correctness: it says
  nothing about executions that do not end.
* `path.c`: `canonicalize_path`, `canonicalize_path_ex`, `change_directory`, `cd` and `pwd` after option
  parsing, `which`, `is_normalized_path`. A file system is an arbitrary set of directories, with the
  directory each name in it leads to, `getcwd`, and the directories one may enter (`fs`). Assumed
  (`fs_ok`): `getcwd` gives a normal path of the working directory, "." is the directory itself,
  and the comparison of files is identity. The file system does not change during a command. Not modelled: `--default-directory`, the directory stack,
  `$YASH_AFTER_CD`, read-only `PWD` and `OLDPWD`, files that are not directories, the rest of `path.c`.
* `path.c`: `umask` after option parsing; the system keeps the nine permission bits of a mask.
* `path.c`: `wglob` and all its functions (Glob*.v), with the models of `xfnmatch.c` and `unescape` for
  the pieces. The file system gives for every path the directory listing and the results of `stat` and
  `lstat`, and does not change during the search; it need not be a tree. Assumed where stated: a name that
  exists is listed in its directory if that is readable (`consistent`, C77); listed names are different,
  not empty and have no slashes (`well_listed`, C76, C78). The hash table and `qsort` give an arbitrary
  order. Not modelled: conversion between wide and multibyte strings (taken to succeed), interrupts.
* `builtins/test.c`: `test_builtin` and everything it calls except `test_file` (the file primaries are an
  arbitrary function of the letter and the file), `isatty`, the option tables, `wcscoll` and the regular
  expression library, which are parameters. `match_regex` of `xfnmatch.c` is modelled. Not modelled: error
  messages, `[[` (`eval_dbexp` and its operators).
* `builtins/printf.c`: all functions. `sb_printf` with a conversion specification is `vsnprintf` for integers,
  `%lc` and `%ls` written after the C standard, failing for fields of more than `INT_MAX` bytes and for
  characters without an encoding; floating-point conversions are an arbitrary function. The encoding
  (`wcrtomb`) has no shift states. Writing to the standard output succeeds or fails as a whole.
* `parser.c`: the tokenizer (`next_token`, `parse_word`), the grammar (`parse_command_list` and below) and
  the printer (`command_to_wcs`, `pipelines_to_wcs` and below); `variable.c`: `print_function` for names
  that are variable names (Parse*.v). The parser works on the text after the current position, with fuel
  for recursion and without error recovery: the first error ends the parse. Expansions in words are an
  arbitrary function from texts to expansions and back, of which `expansions_ok` is assumed: an
  expansion that was read is printed so that it is read again in any context, and whether a dollar sign
  starts an expansion depends on the next character. ParseInst.v gives a function that satisfies this
  (simple parameters, braces without modifiers, command substitutions without nested quotes). Not
  modelled: alias substitution, here-documents, process redirections, the right operand of `=~`,
  arithmetic and parameter expansions with modifiers, the POSIXly-correct mode, line numbers.
* `history.c`: the list and its numbers (`new_entry`, `need_remove_entry`, `remove_entry`,
  `renumber_all_entries`, `set_histsize`), the searches, `add_history`, `remove_duplicates`, the ranges of `fc`
  and `history -d` (Hist*.v). The doubly linked list is a list, an entry is named by its index. The history file
  (HistFile*.v) is its revision and its lines, with `read_history`, `parse_history_entry`, `parse_removed_entry`, `update_history`,
  `write_signature`, `write_history_entry` and `refresh_file`; the locks make operations atomic. Not modelled: `read_line`,
  the raw (signature-less) file, system errors, the list of process IDs and the moment of a refresh (both arbitrary), editing and executing entries, the `histspace` option, error messages.
* lineedit/editing.c: `save_undo_history`, `maybe_save_undo_history`, `exec_motion_command`, `add_to_kill_ring`,
  `set_overwriting`, `restore_overwritten_buffer_contents`, `cmd_self_insert`, `set_mode`, `put_killed_string`,
  `insert_killed_string`, `cmd_put_pop`, `cancel_undo`, `vi_replace_char`, `cmd_emacs_transpose_chars`, `go_to_history`,
  `le_invoke_command`, `le_editing_init` (Edit*.v). There a motion is the index it leads to; which
  index the motion commands compute is in Motion*.v: characters, the four kinds of words, `cw`, columns, first nonblank,
  find and till (character classes are arbitrary; not modelled: the matching of the character to find after a key
  press, `;` and `,`, the counts' `int` range, the alert). Any other command that saves and changes the line is `CEdit`. Not modelled: prediction,
  completion, searching, redo, commands waiting for a motion or a character, display.
* builtins/ulimit.c: `ulimit_builtin`, `print_all_limits`, `print_limit_value` and the table of options (Ulimit*.v), on options already
  accepted by `xgetopt`. Not modelled: messages, descriptions and their translation (also of `unlimited`), `--help`, failed output, resources the system lacks.
* sig.c: `get_signal_name`, `get_signal_number`, `parse_signal_number`, `get_signal_number_toupper`, `set_trap`, `phantomize_traps`,
  `banish_phantoms`, `trap_builtin` after its options, `print_trap` before quoting (Sig*.v), on a system with real-time signals. Not modelled: signal masks, received
  signals and running traps, `sigaction` errors, failed output, the handlers installed by the shell itself (only what `set_trap` leaves to them).
  `kill_builtin` (Kill*.v) up to the signal to send and the operands, and what `-l` prints without descriptions. Not modelled: job IDs, process IDs and sending.
* option.c: `shell_options`, `normalize_option_name`, `collect_matching_shell_options`, `search_shell_options`,
  `search_normal_options` and `handle_search_result` for `set`, `set_shell_option`, `parse_option_character`,
  `parse_short_option`, `parse_long_option`, `parse_shell_options`, `set_builtin_print_restoring_commands`,
  `get_hyphen_parameter`, `test_option_unique` (Opt*.v). Not modelled: options of the command line of the shell, `set` without arguments, `set -o`,
  messages, what the options do elsewhere.

## Findings

Places where the faithful model contradicts what one might expect.

* `LONG_MIN % -1` is reported as an overflow although the remainder 0 fits
  (`arith_remainder_always_exact_refuted`); C01 is stated accordingly.
* Default mode: a bitwise operator on a double outside the range of `long` performs
  an undefined conversion (`arith_conversion_defined_refuted`, C33).
* Variables are read when an operator needs their value, not when they are met:
  `x + (x=5)` uses 5 twice, `x += x++` adds to the incremented value.
* A conditional expression or parenthesised assignment denotes a variable and can be
  assigned to: `(a=b) = 3` assigns `b`, `1 ? x : y = 3` assigns `x`.
* In default mode `$((x))` expands to the text of `x` as it is, and `x=y` copies text.
* Malformed numbers are reported even in operands that are skipped, and so are `++`
  and `--` in POSIX mode.
* After an error evaluation goes on and later assignments still take place (the
  expansion fails as a whole).
* `wb_vwprintf` retries at most 20 times with a growing buffer, so a sufficiently
  long output is reported as an error (`wprintf_any_length_refuted`, C36).
* `xgetopt`: an exact long option name listed after two names it abbreviates is
  reported as ambiguous (`long_option_exact_wins_refuted`, C12; no table of the shell
  has this form, `builtin_tables_fine`). `xoptarg` is not reset for options without
  argument (`option_argument_reset_refuted`, C13).
* Alias substitution: an expansion ending in a backslash, at the end of an input line, is
  joined with the next line. The recorded end of the expansion is then inside a word;
  replacing the word by a shorter text violates the assertion in
  `shift_aliaslist_index` (`alias a='b\'`, `alias bxyz=c`, input `a`, newline, `xyz`;
  `alias_line_continuation_refuted`, C16).
* Patterns: quoting the delimiter of a symbol in a bracket expression has no effect, e.g.
  `[[\:alpha:]]` is a character class (`pattern_language_refuted`, C17).
* `${x:/*/foo}` with empty `x` is empty, not `foo` (`substitution_whole_refuted`, C19): for
  literal patterns with asterisks the anchors are dropped and an empty match is not
  replaced.
* `read -A`: a single empty remaining word gives an array without elements
  (`read_array_refuted`, C41).
* Quote removal for patterns: an unquoted backslash that comes from an expansion takes the
  escape of a quoted character after it; with `x='\\'` the pattern `$x'*'` matches `\abc`
  (`quote_removal_pattern_refuted`, C25).
* `${a[-1]:=x}` is rejected although `${a[-2]:=x}` and `${a[2]:=x}` assign: the end index of
  -1 alone is SSIZE_MAX, which fails the test for a single element (`assign_last_refuted`, C27).
* `$x"$@"` with `x=' '` and no positional parameters gives one empty field; each of them alone
  gives none (`at_beside_refuted`, C42).
* `"$@${a[@]}"` with one empty positional parameter and an empty array gives no field
  (`at_array_refuted`, C42).
* `~` with empty `HOME` gives no field (`tilde_empty_refuted`, C45).
* `${x:/a/b}` with empty `x` is an error under `set -u` (`subst_whole_refuted`, C44).
* Redirections: `101>>|0` puts the saved copy of descriptor 0 at 101 and then overwrites it
  (`undo_high_pipe_refuted`); a file opened for a target beyond the limit of descriptors stays open
  (`undo_leak_refuted`); when a descriptor cannot be saved, the redirection is performed
  all the same and not undone (`undo_unsaved_refuted`); with more than FD_SETSIZE
  descriptors `remove_shellfd` reads outside the set (`fd_setsize_refuted`). All C28.
* `{ set -m; } 101>&-`: the shell opens the terminal at 101 inside the command, and undoing
  the redirection closes it (`shell_fd_closed_refuted`, C29).
* `3>&3` with 3 closed succeeds outside the POSIX mode (`self_copy_refuted`, C47).
* Jobs: after a notification the current job may be one that runs although another is stopped,
  until the shell next chooses (`discipline_refuted`); in a subshell the inherited jobs have no
  current job (`discipline_subshell_refuted`). Both C30.
* If `fork` fails for every command of a pipeline, the job stays "running" and the shell waits for
  it for ever (`status_fork_refuted`, `fork_failure_hangs_refuted`, C32). `fg` and `bg` set the
  status to running before any process has been seen to continue, hence the hypothesis of
  `job_status_exact`.
* In a subshell, a notification about a child whose number equals that of an unfinished process of the parent is
  attributed to the inherited job (`reused_pid_refuted`, C32).
* A trap that removes the job `wait` is waiting for leaves a dangling pointer
  (`wait_trap_refuted`, C51).
* Changing an exported array in place (`array -d/-i/-s`, `shift -A`) does not update the process
  environment (`environment_array_refuted`, C53); changing PATH, CDPATH or YASH_LOADPATH arrays in
  place, including `${PATH[1]:=x}`, does not update the list of directories searched
  (`search_path_refuted`, C58).
* If RANDOM is inherited, the variable becomes the generator and is no longer exported but the
  old value stays in the process environment (`environment_random_refuted`); an inherited LINENO
  is exported with its old value until the first command (`environment_lineno_refuted`). Both C53.
* `shift -A` changes read-only arrays (`readonly_shift_refuted`, C54).
* `x=1 typeset` lists only the temporary variables (`listing_temporary_refuted`, C63).
* If the argument of the last option is missing, `getopts` leaves OPTIND one greater than the number
  of the first operand, so that `shift $((OPTIND-1))` fails (`getopts_index_refuted`, C60).
* A signal caught while the operand of `return` is expanded: the action of its trap is not executed
  and the `return` has no effect (`C64_return_with_signal_refuted`); with `continue` the action
  is lost (`C64_continue_with_signal_refuted`). `handle_traps` executes the action with the jump
  pending. C64, C68.
* `f() { if return 3; then :; fi; }; f` has status 0: `exec_if` looks for a pending jump before a
  condition, not after the last one (`C64_return_in_condition_refuted`, C64).
* `( for i in 1; do : | break; done )` has status 0 instead of 2: the last command of the pipeline
  is executed without resetting the loop counters (`C65_last_pipeline_refuted`, C65).
* `return` at the top level, or `errreturn`: the EXIT trap is not executed
  (`C69_return_to_exit_trap_refuted`, C69).
* Not refutations, as the structured semantics follows the code: a trap set in a subshell of a trap
  action is never executed (`handled_signal` is not reset in the child); `exit` without operand in a
  signal trap uses the status of the last command, not the one before the trap; `break -i` and
  `continue -i` keep a non-zero status, so that errexit applies to them.
* `cd -P` in a directory that has no name any more, with PWD set to something not absolute: the
  assertion that PWD is absolute fails (`C70_cd_P_refuted`, C70). When `getcwd` fails after a successful
  `cd -P`, PWD keeps its old value.
* `cd //..` sets PWD to `//..`: only `/..` is removed (`C71_pwd_normal_refuted`, C71).
* `umask` converts the operator of a symbolic mode to char, so that U+012B, U+012D and U+013D are taken
  for `+`, `-` and `=` (`C74_rejected_refuted`, C74). Copies (`g=u`) refer to the mask before the command,
  not to what earlier clauses have made of it; `meaning` is stated accordingly.
* A recursive piece of a pathname pattern stops at a depth of 255 directories, because the count of
  directories is an unsigned char (`glob_complete_refuted`, C77).
* If a pattern has both pieces that follow links and pieces that do not (`***/**/x`), the second overwrites
  what the first has stored about the directory, so cycles are not noticed: with a link `l` to `.`
  the file is found as `x`, `l/x`, `l/l/x`, and so on (`glob_sound_mixed_refuted`, C76).
* `test a =~ x` with an operand that cannot be converted to a multibyte string passes a null pointer to
  `regcomp` or `regexec` (`test_returns_refuted`, C81).
* `test ! ! x -a y` is an error: in expressions of five or more words `!` may not follow `!`
  (`test_double_negation_refuted`, C80).
* Numbers in versions are compared only up to 2^64-1 (`test_versions_refuted`, C83).
* With a collation order that does not decide by the first different character, as in most locales other
  than POSIX, version comparison is not transitive: `a.10` < `A.5` < `a.9` < `a.10`
  (`version_order_refuted`, C84).
* `printf %c '' a` prints nothing: `%c` does not take an empty operand, and since no operand was used the
  format is not used again (`printf_all_operands_refuted`, C87).
* The listing of a command is not always read as that command (C90–C92). An escaped space at the end is
  trimmed, so `echo a\ ` is listed as `echo a\` (`listing_of_trailing_space_refuted`). A function named by
  a reserved word (`function if { a; }`) is listed as `if() ...`, a syntax error
  (`listing_of_keyword_function_refuted`). A function definition as the body of a function,
  `f() function g { a; }`, is listed as `f() g() ...`, also an error (`listing_of_nested_function_refuted`).
  A file descriptor that is out of range is listed as `-1`, which becomes an operand
  (`listing_of_large_fd_refuted`). A backquoted substitution after a dollar sign is listed with another
  dollar sign in front, so ``$`a` `` becomes `$$(a)` and `$$` is read as the process number
  (`listing_of_dollar_backquote_refuted`). A backslash at the very end of the input quotes the newline of a
  listing (`listing_of_last_backslash_refuted`). `function a$ { b; }` is listed as `function a$() ...`, in which `$(`
  starts a substitution (`listing_of_dollar_function_refuted`).
* The history (C100–C102). A line `0 text` in the history file violates the assertion `number > 0`
  (`history_file_zero_refuted`). Once the numbers have started again from 1, a search for a missing number next to that
  place runs past the end of the list: `history -d 1` twice stops the shell
  (`history_delete_twice_refuted`). With entries 1 and 3, `fc -l 1 2` and `fc 2` do the same, since a place where
  an entry is missing counts as older than its neighbours (`fc_range_refuted`). Without assertions these loops read the
  list head as an entry. `fc -2147483648` negates `INT_MIN` (`fc_search`).
* The history file (C104). A line of LINE_MAX bytes or more gets a number but is not written, so another shell gives
  this number to its next line, whereupon the long line disappears from the first shell, too
  (`shared_history_long_refuted`). An entry that seems to come from the future gets the reader's time
  (`shared_history_clock_refuted`).
* Line editing (C106, C107, C109). `insert_killed_string` asserts that something was inserted: with a count of zero or
  less at the beginning of a line (`ESC 0 C-y` in emacs mode, after killing anything) the assertion fails and the shell
  aborts (`edit_put_zero_refuted`); with assertions off `cursor_on_last_char` would set the cursor to SIZE_MAX. vi's `r`
  does not save the line for undoing, so `rx`, `ry`, `u` undoes both (`undo_replace_refuted`). Editing an entry of the
  history and moving on discards the edits of the line edited before (`history_edit_loses_refuted`).
* Word motions (C114). If the line begins with exactly one character outside words, moving backward to the first word
  goes to index 0 and not to the word: in ` echo x`, `B` from `x` passes `echo` (`backward_word_refuted`). The same holds
  for semiwords and emacs words, not for vi words.
* ulimit (C119). With a hard limit that is not a multiple of the unit, `ulimit -H $(ulimit -H)` is rejected if the soft
  limit is as large (`hard_restore_refuted`).
* Signal names (C120). If compiled with `--debug` (assertions enabled), the operand `RTMAX-0` of `trap` (and `kill -s`, which calls the same function)
  fails the assertion `num < 0` and the shell stops (`signal_abort_refuted`). By default assertions are not compiled in and the word means RTMAX.
* kill (C123). `kill -stop` and other names in lower case beginning with s or n are read as options `-s top`, although `kill -s stop` and `kill -term`
  work (`kill_lower_refuted`).
