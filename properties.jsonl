{"id": "C01", "title": "Deque behaves like a list", "statement": "After any sequence of Append, Prepend, Fill, First, Last, Peek and Clear calls on a queue, Items, Len, IsEmpty and every value returned by First, Last and Peek are exactly those of the plain list obtained by the same operations (First/Last on an empty queue and Peek outside the list report failure).", "quantifier": "every element type, every finite history of operations starting from New(items) that keeps the item count below 2^31", "why_tests_cant": "the ring buffer wraps, grows and shrinks; a test visits a handful of head/tail/size combinations of an unbounded set", "anchors": ["internal/queue/queue.go:New,Append,Prepend,First,Last,Peek,Fill,Clear,Items,Len,grow,computeSize"]}
{"id": "C02", "title": "Deque keeps no removed items", "statement": "After any history, every slot of the queue's storage that holds no live item holds the zero value, so removed items are not retained.", "quantifier": "every history of queue operations", "why_tests_cant": "absence of retained values must hold in each reachable buffer layout", "anchors": ["internal/queue/queue.go:First,Last,grow,Clear"]}
{"id": "C03", "title": "Integer set membership", "statement": "For a set built by NewSet/FromSlice and any later Add, Remove, Union, Intersect, Subtract (method or function form) and Copy, Contains(x) is true exactly when x is in the mathematical set obtained by the same operations; the function forms and Copy leave their arguments unchanged.", "quantifier": "all integers (negative too), all histories of operations on any number of sets", "why_tests_cant": "chunk allocation depends on the relative ranges of both operands, negative items included; tests sample a few", "anchors": ["internal/ints/intset.go:Add,Remove,Contains,Union,Intersect,Subtract,Copy,allocate,chunkIndex,bitMask"]}
{"id": "C04", "title": "Integer set enumeration and comparison", "statement": "ToSlice returns every member exactly once in strictly increasing order, IsEmpty is true exactly for the empty set, and IsEqual is true exactly when both sets have the same members, whatever histories built them.", "quantifier": "all reachable sets, all pairs of reachable sets", "why_tests_cant": "two sets with equal members may have different storage; all pairs of histories must be covered", "anchors": ["internal/ints/intset.go:ToSlice,IsEmpty,IsEqual,countBits"]}
{"id": "C05", "title": "Line and column of a byte offset", "statement": "Source.LineCol(pos) returns line = 1 + number of line feeds before pos and column = 1 + number of UTF-8 runes between the last line start and pos (pos clamped to the content), independently of the calls made before.", "quantifier": "every content, every offset, every earlier history of LineCol calls on that source", "why_tests_cant": "the implementation caches the previous line and binary-searches from it; correctness is over all call histories", "anchors": ["source/source.go:New,LineCol,findLineIndex"]}
{"id": "C06", "title": "Byte offset of a line and column", "statement": "Source.Pos(line,col) is inverse to LineCol: Pos(LineCol(pos)) = pos for each rune boundary pos inside the content of valid text, out-of-range lines and columns are clamped, and the result is always inside the content.", "quantifier": "every content, every line and column number", "why_tests_cant": "inverse laws over all texts and positions", "anchors": ["source/source.go:Pos,LineCol"]}
{"id": "C07", "title": "Newline normalization", "statement": "NormalizeNls rewrites the buffer to the text where each CR LF pair and each lone CR has become one LF, everything else is unchanged, no CR remains, and a second call changes nothing.", "quantifier": "every byte string", "why_tests_cant": "in-place rewriting with two cursors over all inputs", "anchors": ["source/source.go:NormalizeNls"]}
{"id": "C08", "title": "Source queue order", "statement": "After any history of Append, Prepend, NextSource, Skip, Rewind and Seek, the current source is the one prescribed by the abstract queue, sources are visited in order, empty sources are never current while a non-empty one waits, and IsEmpty/Eof report exactly the abstract state.", "quantifier": "every history of queue operations on any sources", "why_tests_cant": "state space of queue histories is unbounded", "anchors": ["source/source.go:Queue.Append,Prepend,NextSource,Skip,Rewind,Seek,IsEmpty,Eof,ContentPos"]}
{"id": "C09", "title": "Snapshot and restore", "statement": "Restore of a Snapshot taken earlier brings the queue back to the state it had then (same current source, same position, same sources waiting), whatever operations were performed in between.", "quantifier": "every queue state, every operation history between Snapshot and Restore", "why_tests_cant": "aliasing between a snapshot and the live queue shows only for particular histories", "anchors": ["source/source.go:Snapshot,Restore"]}
{"id": "C10", "title": "Lexer tokens are exact slices", "statement": "Every non-special token returned by Next or NextOf has a content equal to the bytes of the current source at the token's position, and the queue position moves to at or after the end of that lexeme and never past the end of the regexp match.", "quantifier": "every regexp behaviour allowed by the regexp contract, every token type table, every source content and position", "why_tests_cant": "the regexp is arbitrary; positions over all inputs", "anchors": ["lexer/lexer.go:matchToken,fetch,Next,NextOf"]}
{"id": "C11", "title": "Lexer makes progress and terminates", "statement": "Each Next/NextOf call terminates, and every returned non-special token consumes at least one byte, so repeated Next calls reach end of input after finitely many calls.", "quantifier": "every source queue, every regexp oracle", "why_tests_cant": "termination over all inputs", "anchors": ["lexer/lexer.go:fetch,matchToken,Next"]}
{"id": "C12", "title": "Lexer loses no bytes", "statement": "Between two consecutive tokens returned by Next, the skipped bytes are exactly lexemes matched with no capturing group (insignificant text); concatenating tokens and skipped lexemes gives back the consumed prefix of the source.", "quantifier": "every source, every regexp oracle", "why_tests_cant": "coverage is a statement over complete token streams", "anchors": ["lexer/lexer.go:fetch,matchToken"]}
{"id": "C13", "title": "NextOf type filter", "statement": "NextOf(types) returns a token only if its type is in the requested set or it is an end-of-file/end-of-input token; when it returns no token the queue position has not moved past a lexeme that was not insignificant.", "quantifier": "every type mask, every source", "why_tests_cant": "all masks and inputs", "anchors": ["lexer/lexer.go:NextOf"]}
{"id": "C14", "title": "NextOf leaves the queue unchanged when it returns nothing", "statement": "As documented, NextOf makes no changes when it returns nil, and returns EoI/EoF tokens at the end of input whatever the requested types.", "quantifier": "every type mask, every source", "why_tests_cant": "documented contract over all inputs", "anchors": ["lexer/lexer.go:NextOf"]}
{"id": "C15", "title": "FIRST sets are the least solution", "statement": "The set of first tokens computed for each node from a grammar description is the least set closed under the EBNF rules: a token is in it exactly when some string derivable from the node starts with it.", "quantifier": "every set of node definitions", "why_tests_cant": "dependency resolution order over arbitrary (map-ordered) graphs", "anchors": ["langdef/parser.go:resolveDependencies", "langdef/chunks.go:FirstTokens"]}
{"id": "C16", "title": "Left recursion is detected", "statement": "A grammar description is rejected for left recursion exactly when some node can derive a string of nodes beginning with itself without consuming a token.", "quantifier": "every set of node definitions", "why_tests_cant": "arbitrary graphs", "anchors": ["langdef/parser.go:findRecursions,ntIsRecursive", "langdef/parser.go:buildStates"]}
{"id": "C17", "title": "Unused and undefined nodes", "statement": "A grammar description is rejected for unresolved or unused nodes exactly when some referenced node has no definition, resp. some defined node is not reachable from the root.", "quantifier": "every set of node definitions", "why_tests_cant": "arbitrary graphs", "anchors": ["langdef/parser.go:findUndefinedNodes,findUnusedNodes"]}
{"id": "C18", "title": "Compiled automaton accepts every string of the EBNF", "statement": "For every chunk of a node definition, each sequence of symbols derivable in the EBNF sense labels a path of the compiled state machine from the node's first state to the final state.", "quantifier": "every EBNF expression and each string derivable from it", "why_tests_cant": "infinitely many expressions and strings", "anchors": ["langdef/chunks.go:BuildStates", "langdef/result.go:addRule,CopyRules,BypassRule"]}
{"id": "C19", "title": "Compiled automaton accepts only strings of the EBNF", "statement": "Each sequence of symbols labelling a path of the compiled state machine from a node's first state to the final state is derivable from the node's EBNF.", "quantifier": "every EBNF expression and path", "why_tests_cant": "infinitely many expressions and paths", "anchors": ["langdef/chunks.go:BuildStates"]}
{"id": "C20", "title": "Removing unused states preserves the automaton", "statement": "Dropping unreachable states and renumbering keeps the state machine of every node the same up to the renumbering.", "quantifier": "every built rule table", "why_tests_cant": "aliasing of shared rule slices appears only for particular tables", "anchors": ["langdef/result.go:dropUnusedStates,CopyRules"]}
{"id": "C21", "title": "Emitted rule tables are sorted and partitioned", "statement": "In the grammar produced from a description, each state's rules and multi-rules occupy disjoint contiguous ranges in ascending token order with at most one entry per token, a multi-rule refers to at least two rules of that token, and all indices are inside the tables.", "quantifier": "every built rule table", "why_tests_cant": "structural invariant over all grammars", "anchors": ["langdef/result.go:BuildGrammar"]}
{"id": "C22", "title": "Grammar description reading terminates", "statement": "Reading any text as a grammar description ends with a grammar or an error.", "quantifier": "every input text", "why_tests_cant": "an input that hangs is one of infinitely many", "anchors": ["langdef/parser.go:fetchAll,fetchOne,parseLangDef"]}
{"id": "C23", "title": "String literals and escapes", "statement": "The text of a quoted literal or string argument is decoded as documented: double-quoted strings process the listed escapes, single-quoted strings are verbatim, and any other escape is reported as an error.", "quantifier": "every string body", "why_tests_cant": "all strings", "anchors": ["langdef/parser.go:processEscapes"]}
{"id": "C24", "title": "Rule lookup honours the documented priority", "statement": "For a state with sorted rules, the rules selected for a token are those of the first of its keys (literal text, token type, any) for which the state has rules; the binary search finds them whenever they exist.", "quantifier": "every sorted rule table, state and token", "why_tests_cant": "binary search over arbitrary tables", "anchors": ["parser/parser.go:findRules,possibleRuleKeys"]}
{"id": "C25", "title": "Hook calls are well nested", "statement": "In every successful parse each node hook instance gets its calls in the order: creation, then NewNode/HandleNode pairs and HandleToken calls for its children in source order, then EndNode exactly once; calls of different instances nest like the syntax tree, and the parser returns the root instance's result.", "quantifier": "every grammar, token stream, hook behaviour", "why_tests_cant": "all parses with arbitrary hooks", "anchors": ["parser/parser.go:parse,pushNode,popNode,handleNodeToken,handleNodeSides"]}
{"id": "C26", "title": "Each token is delivered exactly once and in order", "statement": "Over a successful parse the tokens handed to node hooks (side tokens included when requested) are the fetched tokens, each exactly once per hook layer and in source order.", "quantifier": "every grammar, token stream and hook set", "why_tests_cant": "all parses", "anchors": ["parser/parser.go:parse,popNode,applyRule,handleNodeSides"]}
{"id": "C27", "title": "Successful parse is a derivation of the grammar automaton", "statement": "If a parse succeeds, the tree reported through the hooks is a run of the grammar's state machines on the delivered tokens.", "quantifier": "every grammar, token stream", "why_tests_cant": "all grammars and inputs; ambiguous grammars need lookahead branches", "anchors": ["parser/parser.go:parse,applyRule,nextRule,resolveConflict"]}
{"id": "C28", "title": "Parse terminates", "statement": "Parse of a finite token stream terminates for every grammar accepted by the description compiler.", "quantifier": "every accepted grammar and input", "why_tests_cant": "non-termination appears for particular grammar shapes only", "anchors": ["parser/parser.go:parse,applyRule"]}
{"id": "C29", "title": "Token hooks preserve order", "statement": "The tokens the parser sees are, in order, each fetched token's replacement (nothing, itself or the hook's tokens), passing through the layers in registration order; end-of-input tokens are never dropped by the engine.", "quantifier": "every sequence of tokens, every hook layer behaviour", "why_tests_cant": "arbitrary hooks and streams", "anchors": ["parser/parser.go:pullToken,handleToken"]}
{"id": "C30", "title": "Peek does not consume", "statement": "PeekToken called from a token hook any number of times leaves the token stream seen by the parser the same as without the calls.", "quantifier": "every token stream and peek history", "why_tests_cant": "all histories", "anchors": ["parser/hooks.go:PeekToken,restore"]}
{"id": "C31", "title": "Hook error aborts the parse", "statement": "If a hook returns an error, Parse returns that error and calls no node hook afterwards.", "quantifier": "every grammar, stream, hook", "why_tests_cant": "all parse states", "anchors": ["parser/parser.go:parse,handleToken,resolveConflict"]}
{"id": "C32", "title": "Cancellation stops the parse", "statement": "If the context is cancelled, Parse returns the context's error before handling another token.", "quantifier": "every grammar, stream, cancellation time", "why_tests_cant": "arbitrary cancellation times", "anchors": ["parser/parser.go:parse"]}
{"id": "C33", "title": "Full-source parse consumes everything", "statement": "With the full-source option a successful parse leaves only side tokens unread before the end of input.", "quantifier": "every grammar, stream", "why_tests_cant": "all inputs", "anchors": ["parser/parser.go:parse"]}
{"id": "C34", "title": "Syntax error reporting does not crash", "statement": "Parse returns an error value (never panics) for any input of any accepted grammar.", "quantifier": "every accepted grammar and input", "why_tests_cant": "crash depends on grammar shape", "anchors": ["parser/parser.go:getExpectedToken"]}
{"id": "C35", "title": "Indentation layer emits balanced tokens", "statement": "For every token stream the indentation layer emits as many dedent tokens as indent tokens by the end of input, never more dedents than indents in any prefix, and passes all other tokens through unchanged and in order.", "quantifier": "every token stream and layer configuration", "why_tests_cant": "all streams", "anchors": ["parser/layers/indent/indent.go"]}
{"id": "C36", "title": "Convert layer substitutions", "statement": "A definition of layer convert is accepted exactly if its commands are as documented (known types, each of input-type and output-type at most once, texts converted once each, at least one conversion), otherwise the error names what is wrong. Then the layer handles exactly tokens of the input type (all if there is none): a token whose text is listed is replaced by one token with the configured text, type and position, any other token is left as it is.", "quantifier": "every configuration and token", "why_tests_cant": "all configurations", "anchors": ["parser/layers/convert/convert.go"]}
{"id": "C37", "title": "Restrict layer forbids nodes in nodes", "statement": "A definition of layer restrict is accepted exactly if it is as documented, otherwise the error names what is wrong. Then a restricted node is an error exactly if its closest ancestor that is mentioned in allow-in or forbid-in is a forbidding one, and the error names this ancestor; other nodes are never affected.", "quantifier": "every definition, every node and every chain of ancestors", "why_tests_cant": "all configurations", "anchors": ["parser/layers/restrict/restrict.go"]}
{"id": "C38", "title": "Hook layer registry", "statement": "After any sequence of registrations, a name resolves to the template first registered under it and a second registration of a name fails.", "quantifier": "every registration history", "why_tests_cant": "all histories", "anchors": ["parser/hooks.go:RegisterHookLayer"]}
{"id": "C39", "title": "Tree edits keep links consistent", "statement": "Starting from a consistent forest, each of AddChild, RemoveChild, Detach, Replace, AppendSibling, PrependSibling and AppendChild applied to elements satisfying its precondition keeps all parent, first/last child and prev/next links mutually consistent, and has exactly the intended effect on the lists of children.", "quantifier": "every forest, every element, every edit history", "why_tests_cant": "pointer structures over unbounded histories", "anchors": ["tree/tree.go:AddChild,RemoveChild,Detach,Replace,AppendSibling,PrependSibling,AppendChild"]}
{"id": "C40", "title": "Replace puts the new element in the old one's place", "statement": "Replace(old,new) leaves new at the position old had, for any two elements of a tree.", "quantifier": "every tree and pair of elements", "why_tests_cant": "the failing pairs are adjacent siblings", "anchors": ["tree/tree.go:Replace"]}
{"id": "C41", "title": "Walker visits in document order", "statement": "Walking a tree visits each element of the subtree exactly once, parents before children, siblings left to right (or right to left), except the descendants/siblings the visitor asked to skip.", "quantifier": "every tree, mode and visitor", "why_tests_cant": "all shapes and visitor answers", "anchors": ["tree/tree.go:Walker.Step,Walk"]}
{"id": "C42", "title": "Token navigation", "statement": "FirstTokenElement/LastTokenElement return the first/last token of a subtree and NextTokenElement/PrevTokenElement return the following/preceding token of the whole tree in document order.", "quantifier": "every tree and element", "why_tests_cant": "all shapes, including nodes without tokens", "anchors": ["tree/tree.go:FirstTokenElement,LastTokenElement,NextTokenElement,PrevTokenElement"]}
{"id": "C43", "title": "Lists of related elements and indexing", "statement": "Children, Ancestors, PrevSiblings and NextSiblings return exactly the related elements in the documented order, and the Nth extractor returns the elements of the wrapped extractor's result at those of the given indexes that are within it, in the order of the indexes.", "quantifier": "every tree, element, extractor and list of indexes", "why_tests_cant": "all trees and index lists", "anchors": ["tree/tree.go:Children,Ancestors,PrevSiblings,NextSiblings,Nth"]}
{"id": "C44", "title": "Selector pipeline semantics", "statement": "Applying a selector yields exactly the elements prescribed by composing its steps (extract, filter, search, deep search) in order, without duplicates when uniqueness is requested.", "quantifier": "every selector and tree", "why_tests_cant": "all selectors and trees", "anchors": ["tree/tree.go:Selector"]}
{"id": "C45", "title": "Tree hook builds the parse tree", "statement": "A parse with the tree hook on every node returns a tree whose tokens in document order are the delivered tokens.", "quantifier": "every parse", "why_tests_cant": "all parses", "anchors": ["tree/tree.go:NodeHook,HookInstance", "parser/parser.go"]}
{"id": "C46", "title": "Generated Go source denotes the grammar", "statement": "The Go literal written by llxgen, read back, is the same grammar.", "quantifier": "every grammar", "why_tests_cant": "all grammars, string quoting", "anchors": ["cmd/llxgen/llxgen.go:makeGo"]}
{"id": "C47", "title": "Parse trees are trees of the grammar description", "statement": "For a grammar compiled from a description, the tree that a successful parse reports to node hooks is a tree of the description: the children of each node, side tokens apart, match the EBNF definition of the node; conversely, the tables of the grammar allow each tree of the description.", "quantifier": "every grammar description, every input and parse", "why_tests_cant": "relates the compiler and the parser over all descriptions and inputs", "anchors": ["langdef/chunks.go:BuildStates", "langdef/result.go:BuildGrammar", "parser/parser.go:parse"]}
{"id": "C48", "title": "Compilation does not depend on map order", "statement": "For the same grammar description the checks of nodes give the same verdict whatever order the maps of nodes are walked in: the same state machines when the description is accepted, otherwise the same kind of error that names the same nodes.", "quantifier": "every set of node definitions, every order of the loops", "why_tests_cant": "Go randomizes the order of loops over maps; a test sees a few orders", "anchors": ["langdef/parser.go:findUndefinedNodes,resolveDependencies,findRecursions,buildStates"]}
{"id": "C49", "title": "Valid input of an LL(1) grammar is accepted", "statement": "If a grammar is LL(1) (one token decides), then every input whose tokens are those of some tree of the grammar is accepted, whatever side tokens stand between them; when the whole source is to be parsed, an input is accepted exactly if it has such a tree. Lexers asked only for the types the current state wants do not get in the way.", "quantifier": "every LL(1) grammar, every input without lexical errors, all hooks that do not fail", "why_tests_cant": "completeness of the parser over all grammars and inputs", "anchors": ["parser/parser.go:parse,nextRule,findRules,applyRule", "langdef/parser.go:assignTokenGroups,assignStateTokenTypes"]}
{"id": "C50", "title": "Lexers are asked for exactly the right types of tokens", "statement": "After compilation, a state of the grammar asks lexers for a type of tokens exactly if the type is a side one, or if the state has a rule for this type or for a literal that a token of the type may be (its regular expression matches the whole literal, the type lets literals through, and a case-insensitive type takes upper-case literals only). A description with a literal no type may be is rejected with an error naming such a literal, and this error is given in no other case.", "quantifier": "every grammar description, every state of its grammar, every type of tokens", "why_tests_cant": "ranges over all descriptions, regular expressions and literals", "anchors": ["langdef/parser.go:assignTokenGroups,assignStateTokenTypes (1055-1138)"]}
{"id": "C51", "title": "Compilation always ends with a sound grammar or an explained error", "statement": "For every description whose text has been read, compilation ends (no endless loop, no panic) with a grammar whose tables are sound (indexes in range, keys sorted, one entry per key) or with an error: about a literal no type of tokens may be, undefined, unused, unresolvable or left-recursive nodes, that names the right nodes.", "quantifier": "every set of tokens and node definitions, every order of loops over maps", "why_tests_cant": "termination and absence of panics over all descriptions", "anchors": ["langdef/parser.go:52-72"]}
{"id": "C52", "title": "Accepted descriptions are written by the rules and mean what they say", "statement": "If a grammar description is accepted then its text is written by the rules of the documentation (records, lists, items, variants, directives, layers; only node and layer definitions after the first node) and is correct (templates known, regular expressions compile, types and nodes defined once, types not defined are external, types used are known and are not side or error ones, literals forbidden by !literal are not used); the grammar then has exactly the token types (name, regular expression, group, flags), literals, layers and nodes that the text defines, in the documented order, and nodes are compiled from the definitions as written.", "quantifier": "every text of a description, every regular expression engine, every order of walking maps", "why_tests_cant": "ranges over all texts", "anchors": ["langdef/docs.go", "langdef/parser.go:parseDescription and everything it calls"]}
{"id": "C53", "title": "Correct descriptions are accepted", "statement": "A description that is written by the rules and is correct is read without an error whatever the order of its records is, and the answer is that of the compilation of what it says; one that is written by the rules and is not correct is refused with an error. A text can be read as records in one way only.", "quantifier": "every text of a description, every regular expression engine, every order of walking maps", "why_tests_cant": "ranges over all texts", "anchors": ["langdef/docs.go", "langdef/parser.go:parseDescription and everything it calls"]}
{"id": "C54", "title": "Which hook handles a token or a node", "statement": "For each set of hooks (of the user, of each layer), a token is handled by the hook for its literal text if there is one, otherwise by the hook for its type, otherwise by the one for any token; a node by the hook for its name, otherwise by the one for any node (for the user's set, otherwise by the default one). The user's set comes first, then those of layers from the last one to the first one; sets without hooks are skipped.", "quantifier": "every grammar with distinct names, every set of hooks of the user and of layers, every token and node", "why_tests_cant": "ranges over all grammars and sets of hooks", "anchors": ["parser/parser.go:New, newHookLayer, installHooks", "parser/hooks.go:68-101,189-207", "parser/parser.go:getNodeHook"]}
{"id": "C55", "title": "Hooks for unknown names are reported", "statement": "Making a parser with hooks for a type, a literal or a node the grammar does not have fails with an error naming such a thing; with known names only it does not fail.", "quantifier": "every grammar and set of hooks of the user or of a layer", "why_tests_cant": "ranges over all grammars and sets of hooks", "anchors": ["parser/parser.go:New, newHookLayer"]}
{"id": "C56", "title": "Indent and dedent tokens stand exactly where lines say", "statement": "The indent layer accepts an input exactly if each line with a common token starts with spaces only and its indentation is that of the line before, extends it, or equals one of the open indentations (the first such line having no indentation); then one indent token stands before the spaces that start a deeper line, one dedent token for each closed indentation before those of a less deep line, and nothing else is put in; otherwise the parse fails with an error naming a token of the input.", "quantifier": "every grammar, accepted definition of the layer and stream of tokens", "why_tests_cant": "ranges over all layouts of lines, comments and spaces", "anchors": ["parser/layers/indent/indent.go"]}
{"id": "C57", "title": "Definitions of the indent layer are checked", "statement": "A definition of the indent layer is accepted exactly if it has the commands space, on-indent and on-dedent, each once, with names of token types of the grammar (one name for on-indent and on-dedent); otherwise the error names the command that is wrong and tells what is wrong with it.", "quantifier": "every grammar and list of commands", "why_tests_cant": "ranges over all definitions", "anchors": ["parser/layers/indent/indent.go:Setup"]}
{"id": "C58", "title": "A parser made from the text of a description accepts what the text says", "statement": "When a parser is made from the text of a grammar description, every tree it reports is a tree of the node defined first, built by the definitions as they are written: tokens stand where types or literals by those names are, nested nodes where node names are, parts in brackets are taken at most once, parts in braces any number of times, side tokens are anywhere. If the description is LL(1) and well-formed, a source is accepted if and only if its tokens are the tokens of such a tree.", "quantifier": "every text of a description accepted, every source, hooks and lexers that answer in accordance with the types of the description", "why_tests_cant": "ranges over all descriptions and all sources", "anchors": ["langdef/parser.go:Parse", "langdef/docs.go", "parser/parser.go:ParseTokens", "parser/parser.go:New"]}
{"id": "C59", "title": "Texts of descriptions are split into the documented tokens", "statement": "The text of a grammar description is split into tokens as the documentation says: spaces and comments are skipped, the longest token at each place is taken, its text and position are those of the place; after the last token the end is reported, and if something that starts no token is met, an error with its position is returned. There is only one such split of a text, and tokens with spaces between them are split back into themselves.", "quantifier": "every text (any bytes) and number of calls", "why_tests_cant": "ranges over all texts", "anchors": ["langdef/parser.go:init (llxLexer)", "langdef/docs.go", "lexer/lexer.go:Next"]}
{"id": "C60", "title": "Texts of descriptions mean what the documentation says", "statement": "ParseString and ParseBytes always return a grammar or an error. They return a grammar exactly if the text is spaces, comments and tokens that make up correct records, and the grammar is the one the records define; a text with anything else in it is refused.", "quantifier": "every text (any bytes)", "why_tests_cant": "ranges over all texts", "anchors": ["langdef/parser.go:ParseString, ParseBytes, Parse", "langdef/docs.go"]}
{"id": "C61", "title": "A parser's lexer gives the first defined type that matches", "statement": "Every lexer of a parser made by New works with the token types of one group of the grammar. In every history of calls and queue operations, a call made where some text is left tries the types in the order of their definitions, takes the first whose regular expression matches there, and gives a token with the index and name of the type, the text its regular expression prefers and the position of the text; no byte is ever skipped. If that type is not wanted, nothing is returned and nothing moves; if it is out of the range of types known to lexers, or nothing (or only an empty text) matches, an error is returned and nothing moves. Calls never panic. The tokens of a text are its only split, and put together they are the text.", "quantifier": "every grammar, every regular expressions without capturing groups, every history of queue operations and lexer calls, every set of wanted types", "why_tests_cant": "ranges over all grammars, texts and histories", "anchors": ["parser/parser.go:New", "lexer/lexer.go:NextOf", "langdef/docs.go:95-110"]}
{"id": "C62", "title": "The first defined type that can match is the one returned", "statement": "If some type of the group can match a non-empty text at a position, the lexer returns a token of the first defined such type, when it is wanted.", "quantifier": "every grammar, text and position", "why_tests_cant": "ranges over all grammars and texts", "anchors": ["langdef/docs.go:109", "parser/parser.go:New", "lexer/lexer.go:matchToken"]}
{"id": "C63", "title": "Error token types give errors", "statement": "When a lexer matches a token of a type marked as an error type, it returns an error that contains the text of the token.", "quantifier": "every grammar, text and position", "why_tests_cant": "ranges over all grammars and texts", "anchors": ["langdef/docs.go:156", "grammar/grammar.go:ErrorToken", "parser/parser.go:New"]}
{"id": "C64", "title": "From a text of a description and a text of a source to acceptance", "statement": "Take a parser made by langdef.ParseString and parser.New from a text of a description, and parse texts with WithFullSource. A parse succeeds exactly if every text is split into tokens by the regular expressions of the description (the first defined type that matches, no byte skipped) and there is a syntax tree by the rules of the description that has exactly these tokens in this order, up to side tokens. In particular a text with a part that no token type matches is never accepted.", "quantifier": "every description without groups of types that is LL(1) and has no end-of-input mark, every regular expressions without assertions, every queue of texts, every hooks that do not fail and do not touch tokens", "why_tests_cant": "ranges over all descriptions and all texts", "anchors": ["langdef/parser.go:ParseString", "parser/parser.go:New", "parser/parser.go:Parse", "parser/parser.go:ParseString", "lexer/lexer.go:NextOf", "source/source.go:Queue"]}
{"id": "C65", "title": "Syntax errors point at the first wrong token and name one that would have been right", "statement": "If a parse fails with \"unexpected token\", then the tokens before the one the error is about are the beginning of some valid input, with that token they are not, and any token that is what the error says is expected could have come there instead. If it fails with \"unexpected end of input\", then the input is the beginning of a valid one and is not valid itself, and what the error says is expected could have come next. If it fails with \"remaining source\", then the tokens before the one the error is about are a valid input, and no valid input begins with them and this token.", "quantifier": "every grammar, every lexers, every text", "why_tests_cant": "ranges over all grammars and all texts", "anchors": ["parser/parser.go:getExpectedToken", "parser/parser.go:parse", "parser/errors.go:unexpectedTokenError", "parser/errors.go:unexpectedEofError", "parser/errors.go:remainingSourceError"]}
{"id": "C66", "title": "Error values tell what went wrong and where", "statement": "Every error made by the package has a code that tells its kind, and, if it is about a token or a character of a source, the name of the source, the line and the column where the token starts (lines are counted by line feeds, columns by runes), whatever positions were asked for before; its message consists of the fixed words of its kind and the arguments of the error (names quoted as Go strings, numbers in decimal, texts of tokens cut after 7 bytes if longer than 10), each in its place, then of the place, if the source has a name. For a wrong text given to ParseString: the place is where the first wrong word of the text starts, and the word and what could come instead are named.", "quantifier": "every error of parsers, lexers, hook layers and descriptions, every history of position queries, every text", "why_tests_cant": "ranges over all sources, positions, histories of queries and arguments (names with any bytes)", "anchors": ["llx.go:NewError", "llx.go:FormatError", "llx.go:FormatErrorPos", "parser/errors.go", "lexer/lexer.go:wrongCharError", "langdef/errors.go", "parser/layers/common/errors.go"]}
{"id": "C67", "title": "Parsers made from descriptions end on every text", "statement": "Take a parser made by langdef.ParseString and parser.New from a description that langdef accepts. Whatever texts it is given, a parse returns: it does not go on for ever without reading anything. (Left recursion is refused by langdef; each token returned by a lexer leaves less of the texts.)", "quantifier": "every accepted description (with any groups of types), every queue of texts, every node hooks that add no sources", "why_tests_cant": "ranges over all descriptions and all texts; a hang is the absence of an event", "anchors": ["langdef/parser.go:ParseString", "langdef/chunks.go:BuildStates", "langdef/parser.go:findRecursions", "parser/parser.go:New", "parser/parser.go:parse", "lexer/lexer.go:NextOf"]}
{"id": "C68", "title": "LL(1) descriptions give LL(1) parsers", "statement": "Take a description in which, for every definition, the next token tells what to do: variants begin with different tokens, what is optional or repeated does not begin with a token that may come right after it (the textbook LL(1) conditions on EBNF definitions, with tokens that may be confused - a literal and a type whose regular expression matches it - counted as the same). Then the tables langdef makes are such that in each state at most one rule fits the next token. So a parser made from the description accepts a text if and only if it is a sentence of the description, and its syntax errors are right; there is no need to look at the tables.", "quantifier": "every accepted description whose definitions meet the conditions, every text", "why_tests_cant": "ranges over all sets of definitions (of any depth, with any mutual references) and all inputs", "anchors": ["langdef/chunks.go:BuildStates", "langdef/chunks.go:groupChunk", "langdef/chunks.go:variantChunk", "langdef/parser.go:buildStates", "langdef/parser.go:buildGrammar", "parser/parser.go:parse"]}
{"id": "C69", "title": "Syntax errors of descriptions are reported at the first wrong token", "statement": "When langdef refuses a description because a token is not expected (or a directive is not known), the token of the error is the first wrong one: what precedes it begins some correct description, and with it there is no way to go on. When it reports an unexpected end, the text begins some correct description but is not one. A description that is written right is never refused for its syntax.", "quantifier": "every sequence of tokens (of any length), every set of regular expressions that compile", "why_tests_cant": "ranges over all texts, and 'no way to go on' ranges over all continuations of a text", "anchors": ["langdef/errors.go:unexpectedTokenError", "langdef/errors.go:eofError", "langdef/errors.go:unknownDirectiveError", "langdef/parser.go:fetch", "langdef/parser.go:parseContext.Parse", "langdef/parser.go:parseLayerDef", "langdef/parser.go:parseGroup", "langdef/docs.go"]}
{"id": "C70", "title": "The error of a description is its first fault", "statement": "A description that is written right but is wrong in what it says (a template, type of tokens or node defined twice, a template that is not known, a wrong regular expression, a defined type of tokens put in a group while it is in one, too many types of tokens, a type that is listed but not defined and not external, a type that is not known or is a side or error one used in a node, a literal that is not listed while !literal is used) is refused, and the error tells the first fault: faults of templates, types and groups come first, in the order of the text, then faults of the whole set of types, then faults of nodes, from left to right. The error has the name (or the token) of that fault. A description with no faults is never refused when it is read.", "quantifier": "every description written by the rules (any number of records of any depth), every set of regular expressions that compile", "why_tests_cant": "ranges over all descriptions with any number of faults in any order", "anchors": ["langdef/errors.go", "langdef/parser.go:parseTokenDef", "langdef/parser.go:parseTemplateDef", "langdef/parser.go:fetchRegexp", "langdef/parser.go:parseNodeDef", "langdef/parser.go:parseVariant", "langdef/parser.go:parseContext.Parse"]}
{"id": "C71", "title": "Places of tokens may be asked for by several goroutines", "statement": "Tokens are documented as immutable and lexers as safe for concurrent use. So goroutines that hold tokens of the same source (or lex the same source through their own queues) may ask for lines and columns at any time: whatever the order in which their steps are interleaved, each gets the right answer and none panics.", "quantifier": "every source, every number of goroutines, every sequence of offsets each of them asks for, every interleaving of their accesses to memory", "why_tests_cant": "ranges over all interleavings of any number of goroutines; a test sees a few of them, and wrong answers need rare ones", "anchors": ["source/source.go:Source.LineCol", "source/source.go:Source.findLineIndex", "source/source.go:Pos.LineCol", "lexer/token.go:Token.LineCol", "lexer/lexer.go:matchToken"]}
{"id": "C72", "title": "A parse reads texts piece by piece, whatever the groups of types are", "statement": "Take a parser made by langdef.ParseString and parser.New from a text of a description whose token types are in any groups, so that which lexer reads the next token depends on what the parser waits for. If a parse succeeds, then the text was cut into tokens with no byte skipped, read twice or left out, each of them found by the first type of some group that matches where the previous token ends; these tokens without side ones are exactly, in order, those of a tree by the rules of the description. With WithFullSource nothing but side tokens is left after the tree and the tokens put together are the text; without it the queue of sources is left right after the last token of the tree.", "quantifier": "every description, every groups of its types, every queue of texts, with or without WithFullSource and WithSides, every hooks for nodes that do not touch sources", "why_tests_cant": "ranges over all descriptions, groups and texts; tokens that are put back and read again by another lexer are where bytes may be lost", "anchors": ["parser/parser.go:Parse", "parser/parser.go:ParseString", "parser/parser.go:fetchToken", "parser/parser.go:New", "lexer/lexer.go:NextOf", "source/source.go:Queue"]}
{"id": "C73", "title": "Layers do not change the texts of sources and tokens", "statement": "The bytes of a source, and those of tokens given out, stay what they are while a text is read through the indent layer: whatever the layer does with indentations of lines, no text already given to a source or put in a token changes, so each word of the text is read as it was written.", "quantifier": "every source, every sequence of tokens, every definition of indent layers, every tokens that layers or hooks before it put in place of those of the source", "why_tests_cant": "depends on how slices share memory, on the room left after each of them, and on which tokens come before; tests compare results of short texts only", "anchors": ["parser/layers/indent/indent.go:adjustIndent", "parser/layers/indent/indent.go:handleSpace", "parser/layers/convert/convert.go", "lexer/token.go:Token.Content", "source/source.go:Source.Content"]}
{"id": "C74", "title": "Tokens emitted by token hooks are checked", "statement": "A token hook may emit tokens of types of the grammar and the special ones (end of file, end of input) only. If a hook emits any other one, the parse stops with the emit wrong token error for the first such token, so a parse that succeeds has got from hooks no tokens of unknown types.", "quantifier": "every grammar, every source of tokens, every layers of token hooks", "why_tests_cant": "ranges over all hooks and histories; the token may be emitted at any depth of layers, at any time, also while the parser looks ahead", "anchors": ["parser/parser.go:IsValidType", "parser/parser.go:handleToken", "parser/hooks.go:TokenHook", "parser/errors.go:EmitWrongTokenError"]}
{"id": "C75", "title": "Conflicts are resolved in favour of the variant that takes the longest run of tokens", "statement": "When several rules fit a token, all ways to go on with the current node are traced token by token, and the one chosen takes the longest run of the tokens read: no other sequence of rules from this point takes more of them. Among those that take the same run, one that finishes the node is preferred to one that cannot go on. Tokens are read until at most one way takes them all, or no more tokens can be read.", "quantifier": "every grammar (nested and repeated conflicts included), every stack of nodes, every sequence of tokens, every hooks for tokens", "why_tests_cant": "there are exponentially many ways to go on, each conflict splits them again, and the choice must be the best over all of them for every sequence of tokens", "anchors": ["README.md", "parser/parser.go:resolveConflict", "parser/misc.go:parsingBranch", "parser/misc.go:Split"]}
{"id": "C76", "title": "llxgen writes the translation to the output file and touches no other file", "statement": "Called as its usage says, llxgen writes the translation (Go or JSON) of the grammar described by the input file to the output file and exits with 0; it exits with 0 only then; if the description can't be read, has an error or can't be translated then it exits with another code and leaves all files as they were. No other file is changed, the description is kept. The output is named after the input and the package after the directory unless names are given.", "quantifier": "every list of arguments, every content of files, every grammar and every outcome of writing", "why_tests_cant": "all spellings of arguments, all names of files and points where writing fails", "anchors": ["cmd/llxgen/llxgen.go:main", "cmd/llxgen/llxgen.go:makeGo"]}
{"id": "C77", "title": "An input is accepted if the longest variant is the right one at each conflict", "statement": "If an input can be read to its end by rules of the grammar, and wherever several rules fit, the right variant (the rules up to the end of the current node) takes more tokens than any other one, or as many as another one that does not finish the node, then the parse succeeds, however many tokens of lookahead it takes.", "quantifier": "every grammar with well-formed tables, every input with such a way to read it, every set of hooks that do not fail", "why_tests_cant": "grammars and inputs are unbounded, and so is the number of tokens of lookahead", "anchors": ["parser/parser.go:resolveConflict", "parser/parser.go:nextRule", "parser/parser.go:parse", "README.md:94-100"]}
{"id": "C78", "title": "Lookahead is exact when conflicts stand apart", "statement": "If no two ways to take the first token of a conflict both go on until one of them meets another conflict, then lookahead never loses a variant: every successful parse is a derivation of the grammar, every parse of a finite source ends, the variant chosen at each conflict takes the longest run of tokens, and every input for which the longest variant is the right one is accepted. Whether conflicts stand apart can be checked on the tables of the grammar.", "quantifier": "every grammar with well-formed tables where conflicts stand apart, every source, every set of hooks", "why_tests_cant": "the number of tokens of lookahead and of conflicts in an input is not bounded", "anchors": ["parser/parser.go:resolveConflict", "parser/parser.go:nextRule", "parser/misc.go:Split"]}
{"id": "C79", "title": "The calculator answers each input with the value of its expression", "statement": "For each input of a session the example calculator returns the value that the expression has by the usual rules (precedence, left-to-right sums and products, right-to-left powers, variables and functions as last set by the inputs before), or the error of the first operation that fails.", "quantifier": "every session: every list of expressions, assignments and function definitions, every arithmetic of numbers given as parameters", "why_tests_cant": "expressions nest to any depth and the answer depends on the whole history of inputs", "anchors": ["examples/calc/internal/lib.go:Compute", "examples/calc/internal/lib.go:chain.HandleNode", "examples/calc/internal/lib.go:update", "examples/calc/internal/lib.go:power.EndNode"]}
{"id": "C80", "title": "Names in the calculator mean what the definition says", "statement": "Arguments of a function are local to its body, a name in a body that is not an argument is a global variable, and any name can be given to a variable or a function.", "quantifier": "every session of the calculator, every choice of names", "why_tests_cant": "names can be chosen in any way, calls nest to any depth", "anchors": ["examples/calc/internal/lib.go:runContext.variable", "examples/calc/internal/lib.go:function.call", "examples/calc/internal/lib.go:funcDef.HandleToken"]}
{"id": "C81", "title": "The calculator answers every input, and a failed input changes nothing", "statement": "Each input gets a value or an error, and an input that gets an error leaves all variables and functions as they were.", "quantifier": "every session of the calculator", "why_tests_cant": "calls of functions by functions are not bounded", "anchors": ["examples/calc/internal/lib.go:Compute", "examples/calc/internal/lib.go:funcCall.Compute", "examples/calc/internal/lib.go:assignment.Compute"]}
{"id": "C82", "title": "Edits of a configuration file do what they say and nothing else", "statement": "After any sequence of edits (set an entry, remove an entry, remove a section, add a section) the file has exactly the values asked for: an entry that was set has the new value, an entry or a section that was removed is gone, every other entry has the value it had.", "quantifier": "every configuration file, every sequence of edits, every names and values", "why_tests_cant": "edits act on a shared tree through records of pointers into it, and any edit can spoil the records used by later ones", "anchors": ["examples/conf-edit/internal/lib.go:Conf.SetEntry", "examples/conf-edit/internal/lib.go:Conf.RemoveEntry", "examples/conf-edit/internal/lib.go:Conf.RemoveSection", "examples/conf-edit/internal/lib.go:Conf.AddSection", "examples/conf-edit/internal/lib.go:Parse", "examples/conf-edit/internal/lib.go:Section.AddEntryNode", "examples/conf-edit/internal/lib.go:Section.SetEntry"]}
{"id": "C83", "title": "The configuration editor performs every edit", "statement": "No edit of a file that was parsed crashes the editor, whatever edits came before.", "quantifier": "every configuration file, every sequence of edits", "why_tests_cant": "whether an edit crashes depends on the shape of the tree left by all edits before it", "anchors": ["examples/conf-edit/internal/lib.go:Conf.AddSection", "examples/conf-edit/internal/lib.go:Conf.RemoveSection", "examples/conf-edit/internal/lib.go:Section.SetEntry"]}
{"id": "C84", "title": "A file reported as not changed is not changed", "statement": "If after loading and editing Updated() is false then the tree is the one that was parsed, so nothing is lost when the file is not saved.", "quantifier": "every tree, also with repeated sections and entries, every sequence of edits", "why_tests_cant": "the flag is kept apart from the tree by each kind of edit, in several places", "anchors": ["examples/conf-edit/internal/lib.go:Conf.Updated", "examples/conf-edit/internal/lib.go:Section.AddEntryNode", "examples/conf-edit/internal/lib.go:Section.SetEntry", "examples/conf-edit/internal/lib.go:Section.RemoveEntry", "examples/conf-edit/conf-edit.go:main"]}
{"id": "C85", "title": "Edits of a configuration file leave the other text as it was", "statement": "Setting an entry that is there replaces the text of its value only; an entry that is not there becomes one new line; removing an entry takes its line away; adding a section adds its header and at most an empty line; removing a section takes away its text and at most the separator before it. All other bytes of the file, comments and spaces too, are written as they were read.", "quantifier": "every configuration file without repeats, every sequence of edits before, every edit that does not crash", "why_tests_cant": "the text is gathered from the whole tree, which any earlier edit has changed", "anchors": ["examples/conf-edit/internal/lib.go:Serialize", "examples/conf-edit/internal/lib.go:Section.SetEntry", "examples/conf-edit/internal/lib.go:Section.RemoveEntry", "examples/conf-edit/internal/lib.go:Conf.AddSection", "examples/conf-edit/internal/lib.go:Conf.RemoveSection"]}
{"id": "C86", "title": "The style checker lists every complaint, in the order of the text", "statement": "Complaints are listed line by line, then column by column, and every complaint made by a check is in the list; the list is empty exactly when no check complained.", "quantifier": "every sequence of complaints, every order in which a map gives its keys", "why_tests_cant": "the order of keys of a map differs from run to run, and complaints of different checks may fall on one place", "anchors": ["examples/style-check/internal/lib.go:reports.report", "examples/style-check/internal/lib.go:reports.flatten", "examples/style-check/internal/lib.go:Check"]}
{"id": "C87", "title": "The style checker passes a file exactly when it follows the rules", "statement": "No complaint is listed exactly when the file ends with a line end, a space stands before each opening brace, after each comma and each closing brace and at no other side of an operator, there are no tabs between tokens, and the rules about nodes (single spaces, alignment, literal structs, indents, trailing spaces) are kept.", "quantifier": "every sequence of tokens", "why_tests_cant": "both directions speak about all files", "anchors": ["examples/style-check/internal/lib.go:inspectCode", "examples/style-check/internal/lib.go:reportNoFinalNl", "examples/style-check/internal/lib.go:reportIncorrectSpaces", "examples/style-check/internal/lib.go:reportTabs"]}
{"id": "C88", "title": "The style checker measures an indent by columns", "statement": "The indent of an item is the column where the text of its line starts, a tab going to the next tab stop; the item counts as first on its line exactly when nothing but the indent stands before it there.", "quantifier": "every sequence of tokens before the item", "why_tests_cant": "speaks about all mixtures of tabs and spaces", "anchors": ["examples/style-check/internal/lib.go:reportIncorrectIndents"]}
{"id": "C89", "title": "The style checker complains about indents and alignment exactly when they are wrong", "statement": "No complaint about indents is made exactly when every definition starts its line with the indent of its container (none in the file, 4 more than the line of the struct in a struct); within a container every definition that does not start its line is told, up to the first wrong indent, which is told too. A struct is told exactly at its first name that is not in the column of the first one.", "quantifier": "every list of containers with items, every list of structs with names", "why_tests_cant": "the loops stop early, which matters for all lists of items", "anchors": ["examples/style-check/internal/lib.go:reportIncorrectIndents", "examples/style-check/internal/lib.go:reportInconsistentStructAlign"]}
