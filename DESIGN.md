# Formal model of ava12/llx in Coq

Source under study: `/repo` (Go).  Nothing of it is built or run; the model is a
function-by-function transcription into Gallina, checked by Coq 8.16.1.

## Layout

* `rocq/theories/<X>.v` - model of one part of the code.  Every definition cites file and lines.
* `rocq/theories/<X>Spec.v` - small independent specifications (where not inline).
* `rocq/theories/<X>Proofs.v` - lemmas.
* `rocq/theories/Prop_<X>.v` - the property theorems, an example beside each, `Print Assumptions`.

## Conventions

* Go `int` is modelled by `Z` (no overflow) unless the comment says otherwise; `uint` chunks and
  bytes by `N`/`Z` with explicit width where it matters.
* A slice is a list; where sharing of backing arrays is observable it is modelled explicitly
  (store of arrays + (array, offset, length, capacity) headers).
* Go panics (index out of range, nil dereference) are an explicit outcome of the model.
* Unbounded loops use fuel; running out of fuel is an explicit outcome which theorems exclude.
* External code (regexp engine, user hooks, context) is a universally quantified parameter of the
  theorem, with its contract as visible hypotheses.

## Plan per property

### C01 Deque behaves like a list

Model: Queue.v: record of items list, size mask, head, tail with Z bit operations exactly as in the code; operations return explicit failure for out-of-range slice accesses.

Proof: Representation invariant + abstraction function to list; induction over operation histories; failure proved unreachable.

### C02 Deque keeps no removed items

Model: Same model.

Proof: Extra invariant: free slots hold the zero value.

### C03 Integer set membership

Model: IntSet.v: lowItem, highItem, list of N chunks, N.testbit.

Proof: Abstraction Contains <-> testbit; each operation against Z -> Prop; induction over histories on a store of sets.

### C04 Integer set enumeration and comparison

Model: Same model.

Proof: Sortedness and completeness of the enumeration, extensional equality.

### C05 Line and column of a byte offset

Model: Source.v: bytes as list of N, line start table, cached previous index, binary search with fuel.

Proof: Invariant on the cache; equality with a spec that counts LF and decodes runes; Go's UTF-8 decoder modelled in Utf8.v.

### C06 Byte offset of a line and column

Model: Same model.

Proof: Round trip lemma through rune boundaries.

### C07 Newline normalization

Model: NormalizeNls as an in-place two-cursor loop on a buffer.

Proof: Loop invariant; equality with a two-equation recursive spec.

### C08 Source queue order

Model: source.Queue on top of the deque model.

Proof: Refinement to a list of remaining sources plus (current,pos).

### C09 Snapshot and restore

Model: Snapshot/Restore.

Proof: Equality of abstract states for arbitrary operations in between.

### C10 Lexer tokens are exact slices

Model: Lexer.v: regexp = arbitrary function satisfying the stated FindSubmatchIndex contract (Section variable with hypotheses that appear in the theorem).

Proof: Case analysis of matchToken/fetch.

### C11 Lexer makes progress and terminates

Model: Same.

Proof: Fuel = remaining bytes suffices (fuel exhaustion unreachable).

### C12 Lexer loses no bytes

Model: Same.

Proof: Induction over the loop in fetch.

### C13 NextOf type filter

Model: Same.

Proof: Case analysis.

### C14 NextOf leaves the queue unchanged when it returns nothing

Model: Same.

Proof: Expected to be refuted: concrete witness; the true part proved as _partial.

### C15 FIRST sets are the least solution

Model: LangNodes.v: resolveDependencies with its two phases over an arbitrary order of the map of nodes.

Spec: LangNodesSpec.v: strings of tokens of a node (`produces`), first tokens (`firstToken`).  Proof: the loops keep the sets
within the least solution and end when it is reached (the sum of sizes grows, bounded by the number of tokens).  Refuted in
general: nodes that may be empty, nodes that stand for no string.


### C16 Left recursion is detected

Model: LangNodes.v: ntIsRecursive, findRecursions over the state machines of LangBuild.v.

Spec: `leftCornerOrEmpty`, transitive closure.  Proof: rules of the first state of a node are the heads of its strings
(LangHeads.v); the search finds exactly the nodes that lead to a cycle (LangRecursion.v).  Refuted in general: rules for the end
of input replace each other; nodes that may be empty.


### C17 Unused and undefined nodes

Model: LangNodes.v: findUndefinedNodes, findUnusedNodes.

Spec: `refers`, its reflexive transitive closure from the root.  Proof: invariant of the queue loop.


### C18 Compiled automaton accepts every string of the EBNF

Model: LangBuild.v: BuildStates on chunks with rule tables as finite maps.

Proof: Induction on EBNF derivations.

### C19 Compiled automaton accepts only strings of the EBNF

Model: Same.

Proof: Expected to be refuted ([{a},b] accepts a); proved for the class of expressions without loop at a shared entry state.

### C20 Removing unused states preserves the automaton

Model: dropUnusedStates with sharing of rules (pointers in the code) modelled by numbers of cells.

Proof: Refuted by aliasing (`root = {$a, $b}, ([$c], [$d]), $e;`: the shared rule is renumbered twice).  Proved: the machine is the
same up to the numbers when no rule that skips something is shared (skipsApart, a condition on definitions); in every case
removal does not fail, tokens and nodes of rules are kept, targets stay in range (drop_keeps_tokens).

### C21 Emitted rule tables are sorted and partitioned

Model: BuildGrammar.

Proof: Induction over states: the tables written so far are a partition (LangTables.v); removal of states keeps the shape of
tables even where it spoils targets (LangFair.v).  Spec: TablesSpec.v.

### C22 Grammar description reading terminates

Model: LangText.v: reading of a description from its tokens (the lexer gives the tokens, then the end of the text, then ends
of input for ever; or an error for ever), function by function, and parseText: reading, then compilation (LangCompile.v).
Outcomes are a value, an error, no answer within the given number of steps, a panic.

Proof: refuted: `!side $a` without a semicolon is read for ever (reading_ends_refuted, for any number of steps).  Proved for
texts that do not end within a list of arguments or a regular expression (endsWell): triples over the context, the number of
tokens left bounds the number of steps; what is read is what compilation relies upon (readWell of C51), so that the whole
call ends with a sound grammar or an error (LangTextTotal.v).  The answer does not depend on the number of steps
(LangTextFuel.v).  Spec: LangTextSpec.v.

### C23 String literals and escapes

Model: LangString.v: processStringToken on byte lists.

Proof: by induction on the length of the body: the result of the loop is the meaning given by LangStringSpec.v (digits by
base 16, UTF-8 by bits), errors are exactly the bodies that mean nothing.  Refuted as documented: \x## is the rune U+00##,
not a byte.

### C24 Rule lookup honours the documented priority

Model: Parser.v: findRules/possibleRuleKeys with the binary search.

Proof: Loop invariant, sortedness.

### C25 Hook calls are well nested

Model: Parser engine parametrised by arbitrary world-transforming hooks, with a log of hook calls.

Proof: Invariant over the parse loop: log = serialisation of a stack of partial trees.

### C26 Each token is delivered exactly once and in order

Model: Same.

Proof: Same invariant, token projection.

### C27 Successful parse is a derivation of the grammar automaton

Model: Same; branch slices with Go aliasing.

Proof: Unconditional for grammars without multi-rules; refuted in general by the shared backing array in conflict resolution.

### C28 Parse terminates

Model: Same.

Proof: Refuted in general ({[a]}, b); proved for tables without any-token cycles.

### C29 Token hooks preserve order

Model: pullToken/handleToken with arbitrary token hooks.

Proof: Induction over the queue of pending tokens.

### C30 Peek does not consume

Model: PeekToken/restore.

Proof: Commutation lemma.

### C31 Hook error aborts the parse

Model: Same as C25.

Proof: Log invariant; refuted for errors raised while looking ahead.

### C32 Cancellation stops the parse

Model: Same.

Proof: Loop case analysis.

### C33 Full-source parse consumes everything

Model: Same.

Proof: Loop case analysis.

### C34 Syntax error reporting does not crash

Model: getExpectedToken.

Proof: Refuted ($-only state).

### C35 Indentation layer emits balanced tokens

Model: Indent.v; what the hook sees when it peeks is a part of the input.  Specification: IndentSpec.v (`walk`, `kept`).

Proof: Invariant of the state over streams (IndentProofs.v); `indent_balanced_partial`, `indent_tokens_refuted`.

### C36 Convert layer substitutions

Model: StdLayers.v; specification: StdLayersSpec.v (`convertDef`, `convertSpec`).

Proof: Invariant of the loop over commands (what has been read so far is what the specification says of the prefix);
`convert_accepts_partial`, `convert_error_partial`, `convert_tokens_partial`, `convert_accepts_refuted`.

### C37 Restrict layer forbids nodes in nodes

Model: StdLayers.v; specification: StdLayersSpec.v (`restrictDef`, `forbidden`).

Proof: As for C36; induction on the stack of nodes for the hook; `restrict_enforced_refuted` joins it with Layers.v.

### C38 Hook layer registry

Model: Layers.v (registry as a map, layers of a grammar made by templates).

Proof: Induction over histories of registrations, and over definitions of layers.

### C39 Tree edits keep links consistent

Model: Tree.v: heap of elements with optional links.

Proof: Separation-free heap invariant: links <-> a forest given as child lists.

### C40 Replace puts the new element in the old one's place

Model: Same.

Proof: Refuted for adjacent siblings; proved otherwise.

### C41 Walker visits in document order

Model: Walker over the heap.

Proof: Refinement to preorder of the abstract forest.

### C42 Token navigation

Model: Same.

Proof: First/Last proved; Next/Prev refuted for token-less neighbours, proved otherwise.

### C43 Child indexing

Model: Same.

Proof: Induction over child lists.

### C44 Selector pipeline semantics

Model: Selector as list of steps.

Proof: Induction.

### C45 Tree hook builds the parse tree

Model: TreeHook.v: the hook for any node in the parser (Parser.v) next to any other hooks; the elements (Tree.v) are a part of the
world the other hooks do not touch.  Specification: TreeHookSpec.v (`mirrors`).

Proof (TreeHookProofs.v): calls of hooks in the log act on elements in order; induction over the tree reported to hooks (C27).
`tree_hook_builds_tree`, `tree_hook_walk`.

### C46 Generated Go source denotes the grammar

Model: Gen.v: makeGo and the quoting of strings (`%q`), byte by byte; unicode.IsPrint is a parameter of which only is assumed that
it is false of control characters and the byte order mark.  Specification: GoSpec.v, a scanner (comments, automatic semicolons,
names, numbers, interpreted strings with escapes and the UTF-8 they denote) and a reader of a package of one variable, written
after the language specification of Go: `isGoFile text f` says that the text is a Go source file of package, variable and value f.

Proof (GenProofs.v, GenRead.v, Prop_Gen.v): the scanner on each piece printed, then the reader on the tokens.  Proved for grammars
without layers and names that are free in Go (generated_go_partial); refuted for every grammar with layers (an unbalanced brace) and
for root nodes called as a keyword or as the imported package.  generator_total: when it fails it is because of a name.

### C47 Parse trees are trees of the grammar description

Model: LangBuild.v and Parser.v together.

Spec: LangTreeSpec.v, trees read off the EBNF definitions.  Proof: C18-C20 give the strings accepted by the tables; induction
over runs and over trees; C27 for the parser.  Refuted in general by the same descriptions as C19.

### C48 Compilation does not depend on map order

Model: LangNodes.v with the orders of loops as parameters.

Proof: results are determined by C15-C17 specifications: ascending lists with the same members are equal.

### C49 Valid input of an LL(1) grammar is accepted

Model: Parser.v; LangTypes.v for types of tokens wanted in states.

Spec: PredictSpec.v (LL(1) by the tokens that may come next, lexers that return the next token when its type is wanted).
Proof: a machine with a stack between trees and the parser (Predict.v, PredictTree.v), the parser simulates it
(PredictSim.v, PredictRun.v).  For descriptions: Prop_LangPredict.v puts C15, C18-C20, C47, C50 together; PredictCheck.v has a
computable check of tables, proved sound.

### C50 Lexers are asked for exactly the right types of tokens

Model: LangTypes.v: assignTokenGroups, assignStateTokenTypes; regular expressions are a parameter.

Spec: LangTypesSpec.v (`covers`, `mayBe`).  Proof: the bits of each mask; the types survive the removal of states and the writing
of tables.

### C51 Compilation always ends with a sound grammar or an explained error

Model: LangCompile.v: the steps of parser.go:52-72.

Proof: LangNodes' checks are total (C15-C17), then each later step cannot fail on what they let through.

### C52 Accepted descriptions are written by the rules and mean what they say
Specification (LangDescSpec.v): records, how they are written (`spells`: a relation of tokens and records, the grammar of the
documentation), what they define (`tokensOf`, `layersOf`, `nodeNames`, `definition`), when they are correct (`valid`).  Proof:
reading is split into parsing and interpretation of records (LangDescParse.v); interpretation of directives, templates and types
keeps "what is collected is what the records read say" (LangDescFacts.v, LangDescHead.v), then types and literals are arranged and
nodes are added (LangDescNodes.v, LangDescAll.v).  A text with something that is not a token is refused (LangDescWrong.v).
Refuted in full: four witnesses.  `accepted_any_order_partial` and `correct_any_order` say what becomes of types listed in several !group directives and of
words reserved late (`tokensNow`: the last group, the first directive of a word; `groupsKept`: a type that is defined and in a group stays in it).

### C53 Correct descriptions are accepted
The converse of each step; records are written unambiguously (LangDescUnique.v).  `written_description`: a function that
writes records down, so that hypotheses are easy to meet.

### C54 Which hook handles a token or a node
Layers.v: the loops of newHookLayer over maps are lists of pairs with distinct keys (any order), tables as in Parser.v.
Specification (LayersSpec.v): `pick`, `pickNode` choose by name only.  Proof: tables are invariants of loops, then both ways
of looking up are compared (`hooks_installed`).  Hypothesis `goodNames`: names of types and nodes are distinct.

### C55 Hooks for unknown names are reported
`unknown_hooks_reported` for hooks of the user; `unknown_layer_hooks_reported_refuted` for those of layers (errors are ignored
there, parser.go:271).

### C56 Indent and dedent tokens stand exactly where lines say
Specification (IndentSpec.v): `layout` reads the input as blocks of spaces and side tokens, each before a common token; it tells
where a new line starts, its indentation, how levels move and where tokens are put.  Proof (IndentLayout.v): the hook simulates a
machine on blocks, that computes `layout`; `layout` is a function.

### C57 Definitions of the indent layer are checked
As for C36: invariant of the loop over commands; types of tokens are those of the grammar (Layers.v).

### C58 A parser made from the text of a description accepts what the text says
Specification (DescTreeSpec.v): trees by records; tokens by names of types and texts.  Proof: trees by records are trees by
definitions with indices (DescTree.v), tokens by names are keys of tokens (DescTokens.v); then C52, C27, C23 and C49 are put together.

### C59 Texts of descriptions are split into the documented tokens
Model: the regular expression of langdef/parser.go:168-176 as a tree, Go's leftmost-first semantics as the list of matches in the
order of preference (Regexp.v), the lexer of Lexer.v over it (DescLexer.v).  Specification (DescLexerSpec.v): documented tokens,
longest token, splits of a text.  Proof: continuation-passing equations for the preferred match (RegexpProofs.v); the match at a place
is a space, a comment, the longest token, or a wrong one (DescLexerProofs.v); scans and calls (DescLexerRun.v).

### C60 Texts of descriptions mean what the documentation says
C59 put together with C22, C52 and C53: reading a text is reading the tokens of its split.

### C61 A parser's lexer gives the first defined type that matches
Model: the part of parser.New that makes lexers (ParserNew.v): groups, patterns, types; the joined regexp is described by the preferred
match of each regular expression, a parameter, and tied to leftmost-first matching of trees (ParserRegexp.v).  Specification
(ParserNewSpec.v): `called`, what one call gives; `splitInto`, the split of a text.  Proof: lists of patterns and types are those of the
group; what the regexp captures; one call from C10 - C14's description; histories by induction.

### C62 The first defined type that can match is the one returned
False: `first_that_can_refuted`.  Holds if no type prefers an empty match (`first_that_can_partial`).

### C63 Error token types give errors
False: `error_types_refuted`, types marked as errors are given as tokens.  True of types that lexers cannot know (`error_types_partial`).

### C64 From a text of a description and a text of a source to acceptance
Model (TextParser.v): a parse of Parser.v whose source is a queue of SourceQueue.v and whose lexers are those of ParserNew.v; going back
as in parser.go:523-531.  A state of the source carries the sources it stands for, with a proof that it does (it is erased: nothing
depends on it).  Specification (TextParserSpec.v): the tokens of a queue of texts.  Proof: the queue of tokens is a view of the source in
the sense of C23 and C49, also when texts cannot be split (a mark stands for what cannot be read); then C58 and C61 are put together.
If some text cannot be split, an accepted parse would have the mark as a leaf of its tree; but no tree has such a leaf.

### C65 Syntax errors point at the first wrong token and name one that would have been right
Model: `getExpectedToken` and the errors of Parser.v, which carry the name of what is expected.  Specification (ExpectSpec.v): whole texts,
how texts begin, what could follow; right errors.  Proved for LL(1) grammars, hooks that do not touch tokens, lexers that return any token
that is asked for (`syntax_error_right_partial`): the run of the parser up to the error is an unfinished tree, which can be finished
(`finishable`: no useless nodes), and LL(1) tables have no other way to go on.  From the texts of a description and of sources:
`description_error_partial`, `queue_error_partial`, `string_error_partial`; trees and names are those of the records of the description.
`finishable` is checked by a sound computation (`made_tables_finishable`).  For all grammars, lexers and hooks: what is named is
what some rule of the state is for, if the state has a rule that is the only one for its token (`expected_token_partial`).
False without this: `expected_token_refuted`, in a state that has multi-rules only the first type of the description is named.
From definitions (LangFinish.v, LangFinishTables.v, Prop_LangFinish.v): the final state can be reached from each state `BuildStates` makes, by induction on
chunks; so if there is a token for everything the rules mention and a tree for each node (`supplied`), then `finishable` holds
(`definitions_finish_partial`, `text_finishes_partial`).  With C68, errors of LL(1) descriptions are right by conditions on the text of the
description (`ll1_string_error_right_partial`).  `endless_node_refuted`: langdef accepts `loop = $c, loop;`, and then "$c" is said to be expected where nothing would do.

### C66 Error values tell what went wrong and where
Model (Errors.v): `llx.Error`, its makers, all the functions that make errors, `fmt.Sprintf` for the verbs that are used and for wrong
use of them.  Specification (ErrorsSpec.v): messages are sequences of pieces (words, names, names quoted as in Go, numbers), places of tokens.
Proved: formats made of pieces give the texts of the pieces; then each maker (`parser_error_value`, `lexer_error_value`, `key_errors`,
`layer_errors_partial`, `layer_token_error`, `description_token_errors`, `description_name_errors`, `description_list_errors`).  Quoted names are
those that the model of Go's scanner (GoSpec.v, C57) reads.  Places: by the invariant of sources (C05), after any history of queries.
From the texts of a description and of a source, with C65: `string_error_value_partial`.
False: `arguments_error_refuted`, errors about wrong numbers of arguments never name the layer and never tell the number given
(`MakeNumberOfArgumentsError` does not pass the layer to its format).

### C67 Parsers made from descriptions end on every text
False as it is: `made_parser_ends_refuted`, langdef accepts `root = {['a']}, 'b';` and the parser hangs on the text "c".  Specification
(LangIdleSpec.v): definitions where what is repeated is never empty (`loopsRead`); left recursion through nodes that may be empty
(LangNodesSpec.v).  Proved: for definitions with neither, and without `$`, the tables have no idle loops (`compiled_no_idle_loop_partial`);
if no node may be empty, langdef has refused left recursion itself (`solid_no_idle_loop_partial`).  Proof: nodes are ranked by what they may begin with;
each state made for a definition gets a rational rank, so that any move that reads nothing goes down; the invariant is kept by the construction of
states, by sharing and by removal of unused states (LangIdle.v, LangIdleTables.v).  Lexers made by New, with any groups, leave less of the texts with each
token (`texts_finite`).  With C28: `made_parser_ends_partial`, `made_parser_ends_unambiguous_partial`.

### C68 LL(1) descriptions give LL(1) parsers

`LangLLSpec.v` states the textbook conditions on EBNF definitions (`ll1`): tokens a chunk begins with and tokens that may follow a node, by
derivations (`stringOf`, `firstToken`), and `decided`, a condition for each variant, option, repetition and sequence. `clash` says which tokens of the
grammar may be confused; the theorems use `mayClash`: the same token, or some token of some source is taken for both.
Proof: `LangLL.v` has facts about sentences of decided definitions (at most one part begins with a token). `LangLLBuild.v` proves by induction on chunks
that `BuildStates` (modelled in `LangBuild.v`) makes states where a token has one rule and the rule to skip a part is not taken for its first tokens.
`LangLLTables.v` lifts this to tables of compiled grammars: `comesNext` (tables) is contained in begins/follows (definitions).
`LangLLCheck.v`: `ll1B`, a check of the conditions by rounds of computing first and follow sets, proved sound.
`Prop_LangLL.v`: `definitions_predict_partial`, and C49, C64, C65 from conditions on definitions only.
`ll1_tables_refuted`: for `([$a]), $b` the first state gets both a rule to skip and the copied rule, so two rules fit (they lead to the same trees);
the theorems therefore ask for `skipsOnce`, and for the conditions of C18-C20 (`endless`, `loopsApart`, `skipsApart`).

### C69 Syntax errors of descriptions are reported at the first wrong token

`LangErrorSpec.v`: a sequence of tokens can begin a description (`canBegin`), the first wrong token (`firstWrong`).  Proof: reading looks at nothing after the
token it stops at (`LangErrorLocal.v`, a property of each reading function kept by their composition); what each function has read before it fails can be
completed to something written right (`LangErrorViable.v`, by induction on steps, with the tokens `a`, `=`, `;` and closing brackets); functions that read
what is written right do not fail for its syntax (`LangErrorForward.v`, by induction on how it is written).  So a token after which a description could go on
is not reported.  `syntax_error_partial`, `no_syntax_error`, `text_syntax_error_partial` (from bytes, whatever follows); `syntax_error_refuted`: for `!side token-name =` the error is at `=`, since the name
is taken for a type.

### C70 The error of a description is its first fault
Spec: LangFaultSpec.v. `headFault a r e`: definition `r` of a template or a type that follows records `a` has fault `e`; `leafFault`, `nodeFault`: the same for
names and literals of nodes; `first`, `none`: the first fault of a list of records, no faults; `reported compiles rs e`: the order in which faults are reported.
Nothing of it refers to the model, only to records of descriptions (LangDescSpec.v) and to kinds of errors.
`faults_reported` (Prop_LangFault.v): for a description written by the rules `parseText` returns error `e` if and only if `reported compiles rs e`, whatever
the fuel is, provided it is enough. `text_faults_reported`: the same for bytes of a text. `one_fault`, `correct_no_fault`, `incorrect_has_fault`: the specification
is not empty and not ambiguous: there is one fault to report, and only if the description is not `valid` (C52, C53).
Proof: errors of readers are errors of records (LangFaultRead.v), those are the first faults (LangFaultRun.v, by induction over records, sequences and variants; uses
the runs of C52), the first fault is only one (LangFaultFirst.v).
A type that is defined and is in a group may not be listed in !group (`regrouped`); one that is not defined yet may, and is in the last group then.

### C71 Places of tokens may be asked for by several goroutines
SourceRace.v: LineCol and findLineIndex again, each access to `prevLineIndex` (the only field that changes) is a step; goroutines take steps in any order (`runAll schedule`).
Accesses take effect at once and in the order of the program; Go promises less for data races, so what is refuted here is refuted for Go as well. `alone_same` ties the steps to the
model of C05: a goroutine that runs alone does what `lineCol` does.
`concurrent_lookups_refuted`: a schedule where a goroutine panics, another one where it gets a wrong place (the line is taken from a cache that another goroutine changes
between two reads). `concurrent_lookups_partial`: answers are right if the field is not changed while another goroutine is amid its reads (invariant: what each goroutine relies on).
`locked_lookups(_complete)`: so they are under a lock, and all calls end. For every schedule: `lookups_tell_lines` (lines told exist), `lookups_end` (at most six steps a call),
`one_line_lookups` (sources of one line are safe).

### C72 A parse reads texts piece by piece, whatever the groups of types are
C64 asks for one lexer; here there may be several, and which one reads a token depends on the state of the parser, so the text alone does not tell its tokens.
ParserReadsSpec.v: what a source of tokens must do for it (`readsOf`: possible readings of a source; a token read and put back leaves them as they were). ParserReads.v: a successful parse
then is a reading of what it took (`reads_all`, over histories of parses). TextReadsSpec.v: readings of queues of texts (`readsTo`: each token is found by the first type of some group where the last one ends).
Prop_TextReads.v: lexers made by New over a queue are such a source (`reads_ok`); `groups_read_partial` for queues, `string_read_partial` for ParseString: the tokens put together are the text, and those
shown are those of a tree by the description. The example is a description where a value has signs that are tokens of the other group. Missing: ambiguous descriptions, hooks for tokens; that a text with such a reading is accepted (C64 has it for one group).
For ambiguous descriptions the last sentence is false (`lookahead_lost_refuted`: after a parse of "ay" by `root = 'a' | ('a', 'x')` the queue is left after "y", which was only looked at).
`first_lexer_error`: when no lexer gives a token the error is that of the first lexer that has one.

### C73 Layers do not change the texts of sources and tokens
Source.Content and Token.Content give out slices of the same bytes, so a layer that appends to such a slice may write over text. IndentMem.v: the indent layer of Indent.v again, over memory:
arrays of bytes, slices are (array, offset, length), `appendTo` writes in place when there is room as Go's append does (the worst case: capacity of a slice is to the end of its array); `drive` is
the layer fed by a lexer that reads the source from memory each time, perhaps with tokens replaced by an earlier layer. IndentMemSpec.v: what is kept, tokens in text order. IndentMemProofs.v: the invariant: what is appended
is what already stands there, or a fresh array is made. Theorems: `layer_keeps_texts_partial` (fed with tokens in text order the layer changes no text, and does what Indent.v says, so C35 and C56 hold of it),
`source_kept_partial` (a source whose tokens are not replaced before the layer is never changed), `source_kept_refuted` (a layer that turns tabs into four spaces before it makes the layer write spaces over the word that follows:
indent.go:284-288 copies the text and then appends to the original).

### C74 Tokens emitted by token hooks are checked
ParserEmitSpec.v: types a hook may emit, and histories where each call of a hook that emits tokens is followed by the refusal of the first one of an unknown type, if any (`checked`). ParserEmit.v: all parses have such histories.
Theorems: `emitted_checked`, `emitted_wrong` (what the error tells), `emitted_known_partial` (a parse without lookahead that succeeds got tokens of known types only), `emitted_known_refuted` (with lookahead the error is lost).

### C75 Conflicts are resolved in favour of the variant that takes the longest run of tokens
VariantSpec.v: what rules a state offers for a token, what a rule does with nodes, and a variant: rules tried one after another from the current node, the number of tokens they take and the nodes they leave. LookLongest.v: after each round the branches kept are exactly the variants that take all tokens read (invariant `KC` over the queue of branches, rules still to be tried and the two last branches). Variant.v: the loop, and branches as variants.
Theorems: `longest_variant_partial` (if no branch is overwritten), `lookahead_stops` (when reading stops), `longest_variant_refuted` (lists of branches share an array: with a conflict inside a conflict a branch that takes all tokens is overwritten, and a valid text is refused).

### C76 llxgen writes the translation to the output file and touches no other file

Model (Llxgen.v): main (llxgen.go:37-87), reading of flags as package flag documents it, filepath.Ext and filepath.Split, the default names, os.WriteFile with its
three outcomes (all is written, refused, only some bytes are written); makeGo is that of Gen.v; langdef.ParseBytes, json.MarshalIndent and filepath.Abs are parameters.
Specification (LlxgenSpec.v): calls of the utility in all spellings of flags, the value given last, names of output, package and variable, translations.
Theorems (Prop_Llxgen.v): `translation_written`, `success_told` (exit code 0 means that the output file has the translation of the grammar described), `failure_keeps_files`
(for any arguments), `wrong_call_told` (a wrong call ends with code 2 and touches no file), `utility_total`, `description_kept_partial`, `output_named` (the default output is the description itself iff its name ends with .go, or .json for -j).
Refuted: `description_kept_refuted` (a description in x.go is overwritten by its translation), `package_of_input_refuted` (the doc comment says that the package is named after the directory
of the input; it is the directory of the output).

### C77 An input is accepted if the longest variant is the right one at each conflict

StarSpec.v: lexers that give tokens one by one (`eager`), a way to read an input to its end (`reading`: a variant of the root node, VariantSpec.v, after which only side tokens and ends are left),
conflicts (several rules for a token) and `decided`: at each conflict on the way any other variant of the current node takes fewer tokens than the right one, or as many but does not finish the node.
StarRun.v: runs over stacks of nodes, over more tokens; the rules chosen by a lookahead are the beginning of the right ones (from `longest` and `stopped`, C75). Star.v: the rules applied, the tokens queued and those to come
are always a prefix of the way and what is left of the input (invariant `INV`); hooks do what a dry run does (`apply_dry`); the flag of overwritten branches stays.
Theorems (Prop_Star.v): `right_way_is_followed_partial` (for any large enough fuel: accepted, or branches were overwritten). Refuted: `right_way_is_followed_refuted` ("a b d | a b e | a b c" refuses "a b c";
"pair c" with "pair = a | a b" refuses "a c" with "unexpected c, expecting c" when lexers return nothing for unwanted types).
StarDemo.v: a way to list runs of examples.

### C78 Lookahead is exact when conflicts stand apart
Specification: ApartSpec.v.  `apart` speaks of variants (VariantSpec.v): when two different ways to take the first token of a conflict
can both be continued to take the same tokens, neither meets another conflict with the next token.  `once`: no conflict lists a rule twice.
Proof (Apart.v): branches of the first round differ pairwise (`DV`, a fork in their lists of rules); in later rounds no branch splits,
so that the list of the next round never gets ahead of the list being read (`calm_round`) and nothing is overwritten (`parseFrom_stays`).
Theorems (Prop_Apart.v): `apart_derivation`, `apart_terminates`, `apart_longest`, `apart_accepts` are C27, C28, C75 and C77 without the condition on
the flag of overwritten branches.  `apart_checked` (ApartCheck.v): the condition follows from a computation on tables, for a finite list of
tokens that stand for all others.  Examples: `{ a b | a c d } e` is in the class; the grammar of `right_way_is_followed_refuted` is not.

### C79 The calculator answers each input with the value of its expression
### C80 Names in the calculator mean what the definition says
### C81 The calculator answers every input, and a failed input changes nothing

Model: Calc.v is the hook code of examples/calc (lib.go): the nodes build expressions while a line is parsed, folding
constants as they come; then the expression is computed in a context made of frames.  Numbers and their operations are parameters, so the
theorems hold for every arithmetic.  The hooks run over the tree of a line (`lineTree`), which is the tree that
grammar.llx gives to it.  Specification (CalcSpec.v): abstract syntax of lines, and what a line means as a relation
(`sumOut` … `lineOut`, `sessionOut`) that knows no frames, no folding and no fuel: the variables of a body are its arguments and
the global ones.

`calc_session_partial`: if a session has a meaning, the calculator gives exactly the answers it says, for sessions where numbers can
be read, arguments of a function are different, no function is called "func", no body calls a function that
uses a global variable with the name of an argument of the caller (`scoped`), and either operations are associative enough to fold constants
(`exact`) or constants do not stand where folding would reorder operations (`tidy`).  Proof: folding keeps the meaning of a chain (induction over the
operands), building of nodes gives an expression with the same value (mutual induction over the syntax), computing by induction over
the meaning.  Why each condition is there: `calc_order_refuted` (with float64, x = 49; x / 49 is not 1, because x is multiplied by a rounded 1/49),
`calc_scope_refuted` (arguments of the caller are seen in the callee), `calc_name_refuted` (a function named "func" cannot be defined).
`calc_answers_partial`: if functions call only functions that were defined before, there is a meaning, so every input is answered;
`calc_endless_refuted`: a function that calls itself has no answer (Go's stack overflows).  `calc_failed_input`: in all cases, an input without a value leaves the context as it was.

### C82 Edits of a configuration file do what they say and nothing else
### C83 The configuration editor performs every edit
### C84 A file reported as not changed is not changed

Model: Conf.v is lib.go of examples/conf-edit: the tree as lists whose elements have numbers, records of sections and entries that
hold these numbers where the code holds pointers, and each function that edits both.  strings.TrimSpace is a parameter with two laws
(the trimmed empty text is empty, trimming twice is trimming once).  Specification (ConfSpec.v): the shape of a file
(`document`, from grammar.llx), what it says (`says`: section, entry, value) and what an edit does to the map of values
(`edited`), with no records.

`conf_edits_partial`: for files without repeated sections and entries, after every history of edits that does not crash, the
map of values is the one that the edits ask for.  Proof: the invariant `inv` (ConfInv.v) says that the tree is a document without repeats, its numbers are
different, and the records hold exactly what the tree says; loading establishes it, each edit keeps it.
`conf_has_meaning` and `conf_one_meaning`: each such file has exactly one map.  `conf_stays_document`: the edited tree is
again such a file.  `conf_sections`: sections are there after adding and gone after removing.  Why repeats are excluded: `conf_edits_refuted` ("a = 1", "a=", set a to 2:
the file keeps "a="; two sections [s]: only the first one is removed).  `conf_text_refuted`: line ends in values are written as
they are, so edited files of the same text have different values.
`conf_crash_partial`: an edit crashes only when a section is added after an empty default section, or when the section removed
follows a token on the top level; `conf_crash_refuted` gives both crashes; `conf_entries_total`: entries can always be removed, and always
be set in a section that is there.  `conf_not_updated` (C84) holds for every tree and history.

### C85 Edits of a configuration file leave the other text as it was

Model: `serialize` of Conf.v.  For every state that is reached by loading a file without repeats and editing it: `set_keeps_text` (the text before and after an edit
is a ++ old ++ b and a ++ new ++ b, where old is the value the file had), `remove_keeps_text`, `sections_keep_text`,
`set_adds_section` (setting in a section that is not there is adding the section, then setting).  Proof: by the invariant of C82 the
numbers in the records lead to the places in the tree, so each edit is a replacement in one place.

### C86 The style checker lists every complaint, in the order of the text

Model: Style.v, `collect` and `flatten`; the order of keys of a map and sort.Ints are parameters (a permutation; a sorted permutation).
`reports_listed_partial`: the list is strictly sorted by places and has, for each place, the message reported for it last; `nothing_listed`.
`reports_lost_refuted`: in `int i[1] [2];` the space is a complaint of both brackets, and only the second one is listed.

### C87 The style checker passes a file exactly when it follows the rules

Model: Style.v, tokens as a list.  `spaces_checked` (operators), `style_passes_partial` (final line end, operators, tabs).  `spaces_reported`, `end_reported` and `tabs_reported` say
exactly which complaints are made and about which places (`complaint` of StyleSpec.v).  Missing: the five checks
that look at nodes; what they report is a parameter.

### C88 The style checker measures an indent by columns

`indent_size_partial` for indents without tabs.  `indent_first_line` for the first line, which has no indent token.  `indent_tab_refuted`: a tab at the start of a line counts as one column, since the formula for tab stops
counts columns from 1 and the loop starts from 0.  The width of 8 is read from the formula, the code does not name it.

### C89 The style checker complains about indents and alignment exactly when they are wrong

Model: StyleNodes.v, the loops over items and names; the lists of nodes, which selectors give, are inputs.  `indents_checked_partial` (against `standsAt` and `wantedAt` of
StyleNodesSpec.v, which speak about tokens only; indents without tabs), `some_indent_wanted`, `indents_reported` (which items are told), `align_reported`.
Missing: that the nodes looked at are the right nodes of the tree, and tabs (C88).

## Trusted base

* Coq 8.16.1: the kernel, including its `vm_compute` machine (used for concrete witnesses and examples).
* Axioms: `Print Assumptions` stands at the end of each `Prop_*.v` for each property theorem; every one of them
  prints "Closed under the global context".  No axioms, neither of ours nor of the standard library.  The seven
  `Coq.ssr.ssrunder.Under_rel.*` entries that the checker lists for the whole development are fields of a module type of the
  standard library that is loaded with it; no theorem here uses them.
* Faithfulness of the transcription: each definition of the model cites the lines it models.
* The specifications (`*Spec.v`): they say what the properties mean.

### Modelled code

| code | model |
| --- | --- |
| llx.go, errors.go of lexer, parser, langdef, layers/common: error values | Errors.v |
| internal/queue/queue.go (all) | Queue.v |
| internal/ints/intset.go (all, 64-bit ints) | IntSet.v |
| source/source.go (all) | Source.v, SourceQueue.v |
| lexer/lexer.go, token.go (lexing, token accessors used by it) | Lexer.v |
| grammar/grammar.go (types, constants) | Grammar.v |
| parser/parser.go: lookup of rules (findRules, nodeByName and so on excluded) | Rules.v |
| parser/parser.go, hooks.go, misc.go: the parsing process, hooks, token layers, lookahead | Parser.v |
| langdef/chunks.go, result.go: state machines, tables | LangBuild.v |
| langdef/parser.go:129-150, 351-408: strings of descriptions | LangString.v |
| langdef/parser.go:54-136, 181-349, 410-873: reading of descriptions | LangText.v |
| langdef/parser.go:42-72, 153-179: the lexer of descriptions, ParseString, ParseBytes | DescLexer.v |
| langdef/parser.go:875-1053: checks of nodes, sets of first tokens, left recursion | LangNodes.v |
| langdef/parser.go:1055-1138: types of tokens of states | LangTypes.v |
| langdef/parser.go:52-72: the compilation as a whole | LangCompile.v |
| parser/parser.go:44-100: lexers made by New | ParserNew.v, ParserRegexp.v |
| parser/parser.go:157-177, 523-531, 809-830: parses of queues of sources, ParseString, going back | TextParser.v |
| parser/hooks.go:68-101, 189-207, parser/parser.go: registry of layers, installation of hooks | Layers.v |
| parser/layers/convert, parser/layers/restrict (all) | StdLayers.v |
| parser/layers/indent (all) | Indent.v; over memory with shared slices: IndentMem.v |
| tree/tree.go:836-871: the tree building hook | TreeHook.v |
| cmd/llxgen/llxgen.go:90-232: makeGo | Gen.v |
| cmd/llxgen/llxgen.go:37-117: main, flags, names of files | Llxgen.v |
| examples/conf-edit/internal/lib.go (all but making of the tree and files) | Conf.v |
| examples/style-check/internal/lib.go (reports, checks that look at tokens, size of an indent; loops over items and names) | Style.v, StyleNodes.v |
| examples/calc/internal/lib.go (all but the reading of text) | Calc.v |
| tree/tree.go (elements, edits, navigation, walker, selectors) | Tree.v, TreeNav.v |

### Not modelled

* Go's run time: memory, garbage collection, data races (methods are sequential; but see C71), integer overflow of `int`
  (indexes are below the sizes of things in memory).
* regexp: a parameter (any function from text to groups) with its contract as hypotheses; for the lexer of descriptions, a model of
  its documented leftmost-first semantics (Regexp.v); unicode/utf8: the documented
  behaviour (Utf8.v); strings.ToUpper, regexp full match: parameters.
* User's code (hooks, lexers of other packages, contexts): parameters, any function of its arguments and of a world.
* Places of errors of langdef other than syntax ones (C70 is about which fault is told, with its name) and of standard layers: their models (LangText.v, StdLayers.v) return kinds of errors; the values
  made for tokens are modelled (C66).
* cmd/llxgen: the JSON output and messages printed; unicode.IsPrint and filepath.Abs are parameters.  examples: of style-check, parsing, reading of files, the exit status, the checks reportMultipleSpaces, reportTrailingSpaces and reportLiteralStructs, and the choice of nodes for indents and alignment; of conf-edit, reading and writing of files, the parsing of the text into a tree, checks of names; of calc, the loop of calc.go and
  strconv.ParseFloat, math.Pow (parameters) are not.
