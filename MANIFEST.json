{
 "claims": [
  {
   "property": "C01",
   "status": "proved",
   "theorems": [
    "queue_refines_list"
   ],
   "note": ""
  },
  {
   "property": "C02",
   "status": "proved",
   "theorems": [
    "queue_retains_nothing"
   ],
   "note": ""
  },
  {
   "property": "C03",
   "status": "proved",
   "theorems": [
    "intset_contains_correct"
   ],
   "note": ""
  },
  {
   "property": "C04",
   "status": "proved",
   "theorems": [
    "intset_enumeration_correct"
   ],
   "note": ""
  },
  {
   "property": "C05",
   "status": "proved",
   "theorems": [
    "source_answers_correct"
   ],
   "note": "LineCol after any history of LineCol/Pos calls; invalid UTF-8 included"
  },
  {
   "property": "C06",
   "status": "proved",
   "theorems": [
    "pos_of_line_col",
    "line_col_of_pos",
    "pos_in_content"
   ],
   "note": "inverse in both directions, clamping"
  },
  {
   "property": "C07",
   "status": "proved",
   "theorems": [
    "normalize_nls_correct",
    "normalize_nls_identity"
   ],
   "note": ""
  },
  {
   "property": "C08",
   "status": "proved",
   "theorems": [
    "source_queue_refines_list",
    "source_queue_invariants"
   ],
   "note": "fewer than 2^31 queued sources"
  },
  {
   "property": "C09",
   "status": "proved",
   "theorems": [
    "source_queue_refines_list",
    "source_queue_restore"
   ],
   "note": ""
  },
  {
   "property": "C10",
   "status": "proved",
   "theorems": [
    "lexer_token_exact",
    "lexer_special_tokens"
   ],
   "note": "for any regexp behaviour within the FindSubmatchIndex contract (re_contract)"
  },
  {
   "property": "C11",
   "status": "proved",
   "theorems": [
    "lexer_total",
    "lexer_token_exact",
    "lexer_reaches_end"
   ],
   "note": ""
  },
  {
   "property": "C12",
   "status": "proved",
   "theorems": [
    "lexer_call_loses_nothing",
    "lexer_source_loses_nothing",
    "lexer_special_tokens"
   ],
   "note": ""
  },
  {
   "property": "C13",
   "status": "proved",
   "theorems": [
    "lexer_next_of_filter"
   ],
   "note": ""
  },
  {
   "property": "C14",
   "status": "partial",
   "theorems": [
    "next_of_makes_no_changes_refuted",
    "next_error_makes_no_changes_refuted",
    "next_of_eoi_refuted",
    "next_of_no_changes_partial"
   ],
   "note": "the full statement is false of the code: NextOf returns nil, nil (or an error) after having skipped insignificant text, and with an unrelated type set it returns nil at the end of input; the partial theorem says what can change"
  },
  {
   "property": "C15",
   "status": "partial",
   "theorems": [
    "first_sets_exact_partial",
    "first_sets_exact_refuted",
    "first_sets_least"
   ],
   "note": "Refuted: the sets ignore that a nested node may be empty (root = x, b; x = [a]: no b in the set) and count tokens of nodes that stand for no string. Proved: exact when no node stands for the empty string and every node stands for some string; in general the sets are the least ones closed under the definitions read with nested nodes as symbols."
  },
  {
   "property": "C16",
   "status": "partial",
   "theorems": [
    "recursion_exact_partial",
    "recursion_exact_refuted",
    "recursion_reported_real"
   ],
   "note": "Refuted: root = root | $ is accepted (the rule for the end of input replaces the one of the node); root = x, root | a; x = [b] is accepted (x may be empty). Proved: exact, nodes named included, when no node stands for the empty string and each may begin with a token; what is reported is always left recursive."
  },
  {
   "property": "C17",
   "status": "proved",
   "theorems": [
    "undefined_nodes_rejected",
    "unused_nodes_rejected",
    "description_checked"
   ],
   "note": "Exact conditions and exact lists of nodes in errors; description_checked: each description gets one of the verdicts, no crash and no endless loop."
  },
  {
   "property": "C18",
   "status": "partial",
   "theorems": [
    "compiled_accepts_all_partial",
    "compiled_accepts_exactly_partial",
    "compiles",
    "compiled_accepts_all_refuted"
   ],
   "note": "Proved for all definitions whose nested nodes do not begin with the end of input; compiled_accepts_all_refuted is a counterexample to the full statement: `root = x | $; x = $;` loses the rule for the nested node."
  },
  {
   "property": "C19",
   "status": "partial",
   "theorems": [
    "compiled_accepts_only_partial",
    "compiled_accepts_exactly_partial",
    "compiled_accepts_only_refuted"
   ],
   "note": "Proved for definitions where repetitions stand apart (loopsApart); compiled_accepts_only_refuted is a counterexample to the full statement: `root = [{$a}, $b];` accepts a lone a."
  },
  {
   "property": "C20",
   "status": "partial",
   "theorems": [
    "drop_keeps_machine_partial",
    "drop_keeps_strings_partial",
    "drop_keeps_tokens",
    "drop_keeps_strings_refuted"
   ],
   "note": "Proved for all definitions where no rule that skips something is shared (skipsApart); drop_keeps_tokens holds for all definitions. drop_keeps_strings_refuted is a counterexample to the full statement: in `root = {$a, $b}, ([$c], [$d]), $e;` a shared rule is renumbered twice and the result accepts c a b e."
  },
  {
   "property": "C21",
   "status": "proved",
   "theorems": [
    "compiled_tables_sound",
    "grammar_compiles"
   ],
   "note": "For all definitions, including those of the refutation of C20."
  },
  {
   "property": "C22",
   "status": "partial",
   "theorems": [
    "reading_ends_partial",
    "reading_ends_refuted",
    "reading_answer_unique",
    "read_descriptions_well"
   ],
   "note": "Refuted as stated: \"!side $a\" with no semicolon is read for ever. Proved for texts that do not end within a list of arguments of a directive or a regular expression (last token is an operator other than \"=\"): reading and compilation end with a sound grammar or an error, never a panic. The model starts with tokens of the description."
  },
  {
   "property": "C23",
   "status": "partial",
   "theorems": [
    "string_decoding_partial",
    "string_decoding_refuted",
    "single_quoted_verbatim"
   ],
   "note": "Exact for every string body except that \\x## stands for the rune U+00## instead of any byte as documented; the refuted theorem exhibits \"\\x80\"."
  },
  {
   "property": "C24",
   "status": "proved",
   "theorems": [
    "rule_lookup_priority",
    "rule_lookup_unique",
    "side_token_rule"
   ],
   "note": "For every sorted table, state and token."
  },
  {
   "property": "C25",
   "status": "proved",
   "theorems": [
    "hooks_well_nested",
    "hooks_well_nested_prefix"
   ],
   "note": "For every grammar, configuration, hooks, world and fuel."
  },
  {
   "property": "C26",
   "status": "proved",
   "theorems": [
    "tokens_delivered_once",
    "tokens_from_source"
   ],
   "note": "Tokens delivered to node hooks are exactly the tokens taken from the stream, each once and in order; the stream is the source plus end-of-input tokens."
  },
  {
   "property": "C27",
   "status": "partial",
   "theorems": [
    "parse_is_derivation_refuted",
    "parse_is_derivation_partial",
    "parse_is_derivation_deterministic"
   ],
   "note": "Refuted in general: conflict resolution may overwrite a rule of a surviving branch (shared slice), witness in parse_is_derivation_refuted. Proved whenever no rule was overwritten, and outright for grammars without multirules."
  },
  {
   "property": "C28",
   "status": "partial",
   "theorems": [
    "parse_terminates_partial",
    "parse_terminates_unambiguous_partial",
    "parse_bound_irrelevant",
    "parse_terminates_refuted"
   ],
   "note": "Proved for grammars without idle loops (no left recursion, no repetition of something that can be empty), finite sources, node hooks that put nothing into the source and no token hooks; without ambiguous rules termination is unconditional, with them it holds unless an ambiguity was resolved wrongly (the aliasing defect of C27). Refuted in general: '{[a]} b' loops for ever on an unexpected token. Missing: token hooks (they can emit without end)."
  },
  {
   "property": "C29",
   "status": "proved",
   "theorems": [
    "hook_layers_preserve_order",
    "special_tokens_survive"
   ],
   "note": ""
  },
  {
   "property": "C30",
   "status": "proved",
   "theorems": [
    "peek_leaves_stream",
    "peeks_have_no_effect",
    "peek_sees_the_future"
   ],
   "note": ""
  },
  {
   "property": "C31",
   "status": "partial",
   "theorems": [
    "token_hook_error_aborts_refuted",
    "node_hook_error_aborts",
    "token_hook_error_aborts_partial"
   ],
   "note": "Node hook errors: proved. Token hook errors: refuted, an error raised while looking ahead to resolve a conflict is swallowed; proved outside lookahead."
  },
  {
   "property": "C32",
   "status": "partial",
   "theorems": [
    "cancellation_stops_refuted",
    "cancellation_stops_partial",
    "cancellation_returns_error"
   ],
   "note": "Refuted: with the full-source option and no token hooks the context is not checked while the rest of the source is read. Proved for the syntax part: after the cancellation no token is taken and no token hook is called, and the error of the context is returned when another token is needed. (Tokens may still be fetched while looking ahead.)"
  },
  {
   "property": "C33",
   "status": "proved",
   "theorems": [
    "full_source_to_the_end",
    "full_source_is_the_tree"
   ],
   "note": ""
  },
  {
   "property": "C34",
   "status": "partial",
   "theorems": [
    "parse_never_panics_partial",
    "parse_never_panics_refuted",
    "compiled_grammar_ok_partial"
   ],
   "note": "Refuted twice: (1) a \"no token\" result of a lookahead left in the queue is dereferenced (\"a a\" with the grammar \"a | a, b\"); (2) a syntax error in a state where only the end of input is expected indexes the token table by -3. Proved without the two causes: for consistent tables, when each state has a rule for any token or only rules for tokens of the grammar, and either there are no ambiguous rules or lexers always find a token, no parse panics, for all inputs and hooks. compiled_grammar_ok_partial: grammars compiled from descriptions without `$` meet the conditions on grammars."
  },
  {
   "property": "C35",
   "status": "partial",
   "theorems": [
    "indent_balanced_partial",
    "indent_empty_at_once",
    "indent_tokens_refuted"
   ],
   "note": "As many dedents as indents, never more before; kept tokens keep their order: tokens with no text among themselves, and all others. The full statement is false: the end of input token is given out twice, and a token with no text (for example end of file) overtakes spaces held back."
  },
  {
   "property": "C36",
   "status": "partial",
   "theorems": [
    "convert_accepts_partial",
    "convert_error_partial",
    "convert_tokens_partial",
    "convert_accepts_refuted"
   ],
   "note": "Accepted exactly if documented, and conversion of tokens, for definitions where save-position has no arguments and no name of a type is empty. The code ignores arguments of save-position and lets a type be given twice if the first name is empty: convert_accepts_refuted."
  },
  {
   "property": "C37",
   "status": "partial",
   "theorems": [
    "restrict_accepts",
    "restrict_error",
    "restrict_nodes",
    "restrict_enforced_refuted"
   ],
   "note": "The layer itself is proved for all definitions. The parser drops all node hooks of a layer if one of its names is not in the grammar, so a restriction may silently not be enforced: restrict_enforced_refuted."
  },
  {
   "property": "C38",
   "status": "proved",
   "theorems": [
    "registry_first",
    "registration_fails_for_known",
    "layers_resolved",
    "layers_error"
   ],
   "note": ""
  },
  {
   "property": "C39",
   "status": "proved",
   "theorems": [
    "tree_edits_consistent",
    "tree_edit_consistent"
   ],
   "note": "Over every history of edits within the stated preconditions (Replace: see C40)."
  },
  {
   "property": "C40",
   "status": "partial",
   "theorems": [
    "replace_in_place_partial",
    "replace_next_sibling_refuted",
    "replace_root_refuted"
   ],
   "note": "False in general: replacing an element with its next sibling removes both, replacing a root panics. Proved for all other pairs where the new element does not contain the old one."
  },
  {
   "property": "C41",
   "status": "proved",
   "theorems": [
    "walk_order",
    "walk_visits_each_once",
    "every_element_has_a_subtree",
    "walker_stays_finished"
   ],
   "note": "For every visitor, both directions."
  },
  {
   "property": "C42",
   "status": "partial",
   "theorems": [
    "first_last_token",
    "next_prev_token_partial",
    "next_token_empty_node_refuted"
   ],
   "note": "First/last proved in full. Next/Prev return nil when the adjacent subtree has no tokens (refuted); proved exact when every node has a token, and never wrong otherwise."
  },
  {
   "property": "C43",
   "status": "proved",
   "theorems": [
    "element_lists",
    "nth_elements"
   ],
   "note": ""
  },
  {
   "property": "C44",
   "status": "proved",
   "theorems": [
    "selector_pipeline",
    "dedup_correct",
    "filter_step",
    "search_step",
    "filter_combinators",
    "extractor_combinators",
    "list_steps"
   ],
   "note": ""
  },
  {
   "property": "C45",
   "status": "proved",
   "theorems": [
    "tree_hook_builds_tree",
    "tree_hook_walk"
   ],
   "note": "The tree hook for any node, beside any other hooks of layers and tokens: the result is a free-standing tree equal to the tree of the parse (C27), its tokens in document order are those delivered to hooks; elements made before are untouched."
  },
  {
   "property": "C46",
   "status": "partial",
   "theorems": [
    "generated_go_partial",
    "generated_go_layers_refuted",
    "generated_go_names_refuted",
    "generator_total"
   ],
   "note": "Proved in full for grammars without layers whose package and variable names are free in Go; the code violates the claim for every grammar with layers (an unbalanced brace) and for roots named as a Go keyword or \"grammar\", which the refuted theorems show."
  },
  {
   "property": "C47",
   "status": "partial",
   "theorems": [
    "grammar_trees_exactly_partial",
    "parse_trees_conform_partial",
    "grammar_accepts_exactly_partial",
    "parse_trees_conform_refuted"
   ],
   "note": "Proved for definitions in the class `plain` (where C18-C20 hold) and parses in which lookahead has not lost a branch (C27). parse_trees_conform_refuted: `root = [{$a}, $b];` lets the parser accept a lone a."
  },
  {
   "property": "C48",
   "status": "proved",
   "theorems": [
    "verdict_order"
   ],
   "note": "Orders of the three loops over the map of nodes are arbitrary permutations."
  },
  {
   "property": "C49",
   "status": "partial",
   "theorems": [
    "valid_input_accepted",
    "accepted_exactly",
    "description_accepts_exactly_partial",
    "description_tables_checked",
    "predictive_checked",
    "ll1_accepts_exactly_partial"
   ],
   "note": "Proved for grammar tables, for tables compiled from descriptions (description_accepts_exactly_partial: accepted exactly if the input has a tree conforming to the EBNF definitions) and for LL(1) definitions (ll1_accepts_exactly_partial). Missing: definitions with $ and those of the exceptions of C18-C20 and C68."
  },
  {
   "property": "C50",
   "status": "proved",
   "theorems": [
    "state_types_exact",
    "literals_checked"
   ],
   "note": "fullMatch and toUpper stand for the regexp engine and strings.ToUpper: arbitrary functions. External types of tokens never stand for literals: this is what the code does."
  },
  {
   "property": "C51",
   "status": "proved",
   "theorems": [
    "compilation_ends"
   ],
   "note": "From the result of reading (readWell) on; reading itself is C22, C23."
  },
  {
   "property": "C52",
   "status": "partial",
   "theorems": [
    "accepted_description_partial",
    "accepted_any_order_partial",
    "accepted_description_refuted"
   ],
   "note": "The full statement is false of the code (accepted_description_refuted): a string with a wrong escape right after '(' of a layer command is dropped and the text is accepted (parser.go:635 ignores the error); words string and token-name are taken for arguments of directives; a word listed in !literal before is not reserved by !reserved; a type not yet defined may be listed in two groups. accepted_description_partial: texts without these. accepted_any_order_partial: also with the last two, exactly what the code makes of them: the group of a type is that of the last !group that lists it before its definition or of the only one after it, a word is reserved if the first directive that lists it is !reserved."
  },
  {
   "property": "C53",
   "status": "partial",
   "theorems": [
    "correct_description_partial",
    "correct_any_order",
    "correct_description_refuted",
    "description_unique",
    "written_description"
   ],
   "note": "The full statement is false of the code: the limit on types counts types listed before their definitions twice, so the same records in another order are refused (correct_description_refuted). correct_any_order: every order of records and directives, with the limit as the code counts it (valid, field vd_limit); a type that is defined may be put in a group only once (groupsKept)."
  },
  {
   "property": "C54",
   "status": "proved",
   "theorems": [
    "hooks_installed"
   ],
   "note": ""
  },
  {
   "property": "C55",
   "status": "partial",
   "theorems": [
    "unknown_hooks_reported",
    "unknown_layer_hooks_reported_refuted"
   ],
   "note": "Proved for the user's hooks. Hooks of layers with unknown names are dropped without an error together with later ones: refuted."
  },
  {
   "property": "C56",
   "status": "partial",
   "theorems": [
    "indent_layout_partial",
    "indent_layout_unique",
    "indent_first_line_refuted"
   ],
   "note": "Exactly as stated (tokens with no text aside), but for the first line: when it is indented an indent token is put in, where the documentation promises an error."
  },
  {
   "property": "C57",
   "status": "partial",
   "theorems": [
    "indent_accepts_partial",
    "indent_error_partial",
    "indent_types",
    "indent_accepts_refuted"
   ],
   "note": "Proved for definitions with known commands only, at most one space command, and no special type in it. The full statement is false: unknown commands and repeated space commands are accepted; a special type in space makes the setup panic."
  },
  {
   "property": "C58",
   "status": "partial",
   "theorems": [
    "description_trees_partial",
    "description_parse_tree_partial",
    "description_accepts_partial",
    "description_tables_ll1"
   ],
   "note": "End to end: text of a description -> records (C52) -> tables (C18-C20, C27, C51) -> parses (C23, C49). Trees are defined on records by names (DescTreeSpec.v). Conditions: strings of the text are well-formed; repetitions and optional parts are such that the construction is right (refuted otherwise, C19, C20); $ only at the end of nodes that are not nested; for acceptance: no $ at all, no node is empty, the tables are LL(1) (checked by a computation), hooks do not interfere."
  },
  {
   "property": "C59",
   "status": "partial",
   "theorems": [
    "description_tokens_partial",
    "split_unique",
    "documented_split_partial",
    "description_tokens_refuted",
    "spaced_tokens"
   ],
   "note": "Full statement: the lexer of descriptions splits every text into the documented tokens, the longest ones first. Proved for tokens without line feeds in single-quoted strings and right after backslashes; refuted otherwise: the documentation allows any symbols in such strings, the lexer reports an error."
  },
  {
   "property": "C60",
   "status": "partial",
   "theorems": [
    "text_read",
    "text_reading_ends_partial",
    "text_reading_ends_refuted",
    "text_accepted_partial",
    "text_correct_partial",
    "text_accepted_any_order_partial",
    "text_correct_any_order",
    "wrong_text_refused"
   ],
   "note": "C22, C52 and C53 for texts (bytes) of descriptions. Partial for the reasons given there: a text that ends within a directive is read for ever (refuted), wrong escapes in unused strings, words token-name and string as arguments, !group and !reserved conflicts (the ..._any_order theorems say what becomes of those)."
  },
  {
   "property": "C61",
   "status": "proved",
   "theorems": [
    "lexers_first_type",
    "call_determined",
    "new_makes_lexers",
    "split_unique",
    "text_is_split",
    "regexp_of_lexer",
    "trees_ok",
    "trees_cut"
   ],
   "note": "for all histories of calls of all lexers of a parser and queue operations; regular expressions are a parameter (the length of the preferred match), and for regular expressions as trees it is proved that the regexp made by New finds just that"
  },
  {
   "property": "C62",
   "status": "partial",
   "theorems": [
    "first_that_can_partial",
    "first_that_can_refuted"
   ],
   "note": "false as documented: a type that prefers an empty match hides the types after it; holds if no type prefers an empty match"
  },
  {
   "property": "C63",
   "status": "partial",
   "theorems": [
    "error_types_partial",
    "error_types_refuted"
   ],
   "note": "false as documented: New gives types marked as errors their ordinary indexes, so lexers return ordinary tokens; errors are returned only for types from the 65th on"
  },
  {
   "property": "C64",
   "status": "partial",
   "theorems": [
    "queue_accepted_partial",
    "string_accepted_partial",
    "string_queue_made",
    "made_tables_ll1",
    "ll1_string_accepted_partial"
   ],
   "note": "End to end, both ways, from the bytes of the description and of the texts; LL(1) as a condition on the definitions (ll1_string_accepted_partial) or on the tables. Missing: groups of token types (C72 has one direction for them), hooks for tokens, descriptions that are not LL(1) or have $ in them, regular expressions with assertions (a match must not depend on what follows it), !caseless types whose regular expressions do not match upper-case literals."
  },
  {
   "property": "C65",
   "status": "partial",
   "theorems": [
    "syntax_error_right_partial",
    "expected_token_partial",
    "expected_token_refuted",
    "finishable_checked",
    "description_error_partial",
    "queue_error_partial",
    "string_error_partial",
    "made_tables_finishable",
    "ll1_string_error_partial",
    "definitions_finish_partial",
    "text_finishes_partial",
    "ll1_string_error_right_partial",
    "endless_node_refuted"
   ],
   "note": "Proved for LL(1) grammars without useless nodes, from tables and from texts of descriptions (no groups of types, no end-of-input mark); for LL(1) descriptions from conditions on the text alone (ll1_string_error_right_partial). Refuted in general: in a state that has multi-rules only the expected token named is the first type of the description; nodes that stand for no text are accepted in descriptions, and errors in them name something although nothing would do."
  },
  {
   "property": "C66",
   "status": "partial",
   "theorems": [
    "parser_error_value",
    "lexer_error_value",
    "key_errors",
    "layer_errors_partial",
    "layer_token_error",
    "arguments_error_refuted",
    "description_token_errors",
    "description_name_errors",
    "description_list_errors",
    "string_error_value_partial"
   ],
   "note": "Proved for all errors but one: MakeNumberOfArgumentsError does not pass the layer to its format, so that its message never names the layer nor tells the number of arguments given (refuted for all arguments). string_error_value_partial: LL(1) descriptions without groups, hooks that do not touch tokens, texts that can be split into tokens."
  },
  {
   "property": "C67",
   "status": "partial",
   "theorems": [
    "made_parser_ends_refuted",
    "compiled_no_idle_loop_partial",
    "solid_no_idle_loop_partial",
    "texts_finite",
    "made_parser_ends_partial",
    "made_parser_ends_unambiguous_partial"
   ],
   "note": "False when something that may be empty is repeated (made_parser_ends_refuted). Proved for descriptions without such repetitions, without $, without left recursion through empty nodes, with no skippable parts that share states (skipsApart); no token hooks; for ambiguous rules, unless an ambiguity is resolved wrongly."
  },
  {
   "property": "C68",
   "status": "partial",
   "theorems": [
    "definitions_predict_partial",
    "ll1_tables_refuted",
    "ll1_check_ok",
    "ll1_checked",
    "ll1_accepts_exactly_partial",
    "text_predicts_partial",
    "text_check_ok",
    "ll1_string_accepted_partial",
    "ll1_string_error_partial",
    "ll1_string_error_right_partial"
   ],
   "note": "Proved for definitions without $ that meet the conditions of C18-C20, with no part skipped twice (skipsOnce); without the last one the tables may have two rules for a token that lead to the same trees (ll1_tables_refuted), acceptance is not proved for these. C65 also needs that there are tokens and trees for everything the rules use."
  },
  {
   "property": "C69",
   "status": "partial",
   "theorems": [
    "syntax_error_partial",
    "text_syntax_error_partial",
    "read_error_partial",
    "first_wrong_unique",
    "no_syntax_error",
    "syntax_error_refuted"
   ],
   "note": "Proved for tokens whose strings are well-formed and where the names \"token-name\" and \"string\" are not used as arguments of directives. Refuted otherwise: such a name is taken for an argument, and it is a later token that is reported. text_syntax_error_partial: the same from the bytes of a text, also when a place that cannot be split into tokens follows."
  },
  {
   "property": "C70",
   "status": "proved",
   "theorems": [
    "faults_reported",
    "text_faults_reported",
    "one_fault",
    "correct_no_fault",
    "incorrect_has_fault"
   ],
   "note": "An error of reading is returned if and only if it is the first fault by LangFaultSpec.v, for tokens and for bytes, for all descriptions written by the rules."
  },
  {
   "property": "C71",
   "status": "partial",
   "theorems": [
    "concurrent_lookups_refuted",
    "concurrent_lookups_partial",
    "locked_lookups",
    "locked_lookups_complete",
    "lookups_tell_lines",
    "lookups_end",
    "one_line_lookups",
    "alone_same"
   ],
   "note": "The full statement is false of the code: Source.LineCol keeps the last line found in a field and reads it several times, so that a goroutine may get a wrong place or panic (slice bounds) when another one changes it. Proved for schedules where that does not happen (calls under a lock), for sources of one line under every schedule; whatever the schedule calls end and lines told exist."
  },
  {
   "property": "C72",
   "status": "partial",
   "theorems": [
    "groups_read_partial",
    "string_read_partial",
    "lookahead_lost_refuted",
    "first_lexer_error"
   ],
   "note": "Soundness end to end for descriptions with any groups of types: what was read is exactly the text, by the lexers' rules, and is a tree of the description. For ambiguous descriptions the claim about what is left in the queue is false: tokens looked at are lost. Missing: the rest for ambiguous descriptions, hooks for tokens, and the converse (C64 has it for one group)."
  },
  {
   "property": "C73",
   "status": "partial",
   "theorems": [
    "layer_keeps_texts_partial",
    "source_kept_partial",
    "source_kept_refuted"
   ],
   "note": "Holds when tokens come to the layer in text order, in particular when no tokens are replaced before it. The full statement is false: when a token before the layer is replaced (a tab by spaces), the layer may append in place and overwrite source text not read yet."
  },
  {
   "property": "C74",
   "status": "partial",
   "theorems": [
    "emitted_checked",
    "emitted_wrong",
    "emitted_known_partial",
    "emitted_known_refuted"
   ],
   "note": "All histories are checked ones; the error stops the parse if the grammar needs no lookahead. The full statement is false: an error met while looking ahead is lost."
  },
  {
   "property": "C75",
   "status": "partial",
   "theorems": [
    "longest_variant_partial",
    "lookahead_stops",
    "longest_variant_refuted"
   ],
   "note": "Refuted in general: nextBranches reuses the array of branches (parser.go:939-942), so a branch that splits overwrites branches not yet traced and the variant that takes all tokens is lost (longest_variant_refuted, where a valid text is refused). Proved for all lookaheads where no branch is overwritten: the variant chosen takes the longest run of the tokens read, one that finishes the node is preferred, and reading stops only when one variant is left, tokens cannot be read or are not waited for."
  },
  {
   "property": "C76",
   "status": "partial",
   "theorems": [
    "translation_written",
    "success_told",
    "failure_keeps_files",
    "utility_total",
    "description_kept_partial",
    "output_named",
    "description_kept_refuted",
    "package_of_input_refuted",
    "wrong_call_told"
   ],
   "note": "Files written, exit codes and default names are proved for all calls. Refuted: a description in a file named x.go (x.json with -j) is overwritten by its own translation; the package is named after the directory of the output file, not of the input file as the doc comment says. json.MarshalIndent, langdef.ParseBytes and filepath.Abs are parameters."
  },
  {
   "property": "C77",
   "status": "partial",
   "theorems": [
    "right_way_is_followed_partial",
    "right_way_is_followed_refuted"
   ],
   "note": "Proved for lexers that return the next token whatever types are asked for, states that ask for some types of tokens, no token hooks, and lookaheads that do not overwrite their branches. Refuted otherwise: overwritten branches, and lexers that return nothing for unwanted types during a lookahead (the error then says that a token is unexpected where the same token is expected)."
  },
  {
   "property": "C78",
   "status": "proved",
   "theorems": [
    "apart_derivation",
    "apart_terminates",
    "apart_longest",
    "apart_accepts",
    "apart_checked"
   ],
   "note": "C27, C28, C75 and C77 hold with no condition on what happened in the run, if conflicts stand apart (ApartSpec.v). apart_checked: a check of tables by tracing variants (ApartCheck.v). The grammar of the refutations of C75 and C77 is shown not to be in the class."
  },
  {
   "property": "C79",
   "status": "partial",
   "theorems": [
    "calc_session_partial",
    "calc_order_refuted"
   ],
   "note": "Proved for every session whose constants can be folded without changing results; refuted for float64: x/49 is computed as x*(1/49)."
  },
  {
   "property": "C80",
   "status": "partial",
   "theorems": [
    "calc_session_partial",
    "calc_scope_refuted",
    "calc_name_refuted"
   ],
   "note": "Proved for sessions where no called function uses a global variable with the name of an argument of its callers and no function is named func; both conditions are shown to be needed."
  },
  {
   "property": "C81",
   "status": "partial",
   "theorems": [
    "calc_failed_input",
    "calc_answers_partial",
    "calc_endless_refuted"
   ],
   "note": "A failed input changes nothing: proved in full. Every input is answered when functions call only those defined before; a function that calls itself is never answered."
  },
  {
   "property": "C82",
   "status": "partial",
   "theorems": [
    "conf_edits_partial",
    "conf_has_meaning",
    "conf_one_meaning",
    "conf_stays_document",
    "conf_sections",
    "conf_edits_refuted",
    "conf_text_refuted"
   ],
   "note": "Proved for every file without repeated sections and entries and every history; refuted with repeats, and for the text written when values have line ends."
  },
  {
   "property": "C83",
   "status": "partial",
   "theorems": [
    "conf_crash_partial",
    "conf_entries_total",
    "conf_crash_refuted"
   ],
   "note": "The two situations where an edit crashes are characterised, both are shown to happen."
  },
  {
   "property": "C84",
   "status": "proved",
   "theorems": [
    "conf_not_updated"
   ],
   "note": "For every tree and every history."
  },
  {
   "property": "C85",
   "status": "proved",
   "theorems": [
    "set_keeps_text",
    "set_adds_section",
    "remove_keeps_text",
    "sections_keep_text"
   ],
   "note": "For every file without repeated sections and entries, after every history."
  },
  {
   "property": "C86",
   "status": "partial",
   "theorems": [
    "reports_listed_partial",
    "nothing_listed",
    "reports_lost_refuted"
   ],
   "note": "Refuted in full: of two complaints about one place only the later is listed. Proved: order, each place once with its last message, empty exactly when nothing is reported."
  },
  {
   "property": "C87",
   "status": "partial",
   "theorems": [
    "style_passes_partial",
    "spaces_checked",
    "spaces_reported",
    "end_reported",
    "tabs_reported"
   ],
   "note": "Final line end, operators and tabs proved exactly, with messages and places; reports of the checks that look at nodes are parameters."
  },
  {
   "property": "C88",
   "status": "partial",
   "theorems": [
    "indent_size_partial",
    "indent_first_line",
    "indent_tab_refuted"
   ],
   "note": "Refuted in full: a tab at the start of a line counts as one column. Proved for indents without tabs."
  },
  {
   "property": "C89",
   "status": "partial",
   "theorems": [
    "indents_checked_partial",
    "some_indent_wanted",
    "indents_reported",
    "align_reported"
   ],
   "note": "Proved for any lists of nodes; that selectors give the right nodes is not modelled, and the first theorem is for indents without tabs."
  }
 ]
}