{"id": "C01", "title": "String stream delivers exactly the text", "statement": "After any sequence of Next/Peek/SkipSpaces/Match/Position/PositionLookup/Cursor calls on NewCharstreamFromString(text), the runes handed out by the consuming calls, concatenated in order, are exactly the first Cursor() runes of text; Peek, Position, PositionLookup and Cursor never move the cursor; Peek predicts the next Next; once the text is exhausted Next answers EOF forever and the cursor never passes the end.", "quantifier": "every text and every finite sequence of stream calls with any arguments", "why_tests_cant": "any finite test visits a handful of histories; the claim is about all of them", "anchors": ["charstream.go: CharstreamString.Next/Peek/SkipSpaces/Match/Position/PositionLookup/Cursor"]}
{"id": "C02", "title": "SkipSpaces takes the maximal whitespace run", "statement": "SkipSpaces, on a plain or a prepended stream in any state, returns exactly the longest prefix of the remaining text made of Unicode White_Space runes and moves the stream just past it; afterwards the next rune is not whitespace or the stream is at EOF.", "quantifier": "every stream (any nesting of prepends) in every state", "why_tests_cant": "the set of streams and texts is infinite", "anchors": ["charstream.go: SkipSpaces (both streams)", "space.go: IsWhiteSpace"]}
{"id": "C03", "title": "Match is exact prefix matching with minimal read-ahead", "statement": "Match(w) succeeds iff w is a prefix of the remaining text and then consumes exactly w; when it fails it consumes, and returns, exactly the longest common prefix of w and the remaining text plus the first differing rune if there is one; Match of an empty slice succeeds and consumes nothing.", "quantifier": "every stream state and every pattern", "why_tests_cant": "every pattern and every remaining text must be covered", "anchors": ["charstream.go: Match (both streams)"]}
{"id": "C04", "title": "Position() is the true line and column", "statement": "In every state reachable by any call sequence, Position() of a string stream is nil exactly at EOF and otherwise is (1 + number of newlines before the cursor, distance from the last newline), and calling it does not disturb later answers.", "quantifier": "every text, every call history", "why_tests_cant": "the line table is updated lazily by several calls, so the answer depends on the whole history", "anchors": ["charstream.go: CharstreamString.Position", "charstream.go: positionMap.update/lookup"]}
{"id": "C05", "title": "PositionLookup maps every consumed index to its true line and column", "statement": "For every index below the cursor PositionLookup returns the line/column of that rune, and nil for negative indexes and for indexes at or beyond the cursor (index 0 is always L1:1).", "quantifier": "every text, call history and index", "why_tests_cant": "depends on the whole history of the line table", "anchors": ["charstream.go: CharstreamString.PositionLookup", "charstream.go: positionMap.lookup"]}
{"id": "C06", "title": "Prepending just-read runes rewinds the stream", "statement": "If w was just read from a stream, then wrapping the stream with w behaves, for every later sequence of Next/Peek/SkipSpaces/Match/Cursor calls and any nesting of such wraps, exactly like the stream did before w was read.", "quantifier": "every stream, every just-read w, every later call sequence, every nesting depth", "why_tests_cant": "equivalence of two stateful objects over all future call sequences", "anchors": ["charstream.go: newCharstreamPrepend, CharstreamPrepend.*"]}
{"id": "C07", "title": "Concurrent consumers share out the text exactly once", "statement": "When any number of goroutines call Next on one shared string stream, under every schedule the runes delivered, in delivery order, are exactly the text, each rune going to exactly one caller, followed by EOFs.", "quantifier": "every number of goroutines, every schedule", "why_tests_cant": "schedules cannot be enumerated by tests", "anchors": ["charstream.go: CharstreamString (lock), Next/next"]}
{"id": "C08", "title": "Concurrent Position calls are safe", "statement": "CharstreamString is documented thread-safe: under every schedule of goroutines that call only Position, Peek and Cursor (all read operations) between consuming calls, later Position answers are still the true line/column.", "quantifier": "every schedule of read-locked calls", "why_tests_cant": "a race needs a particular interleaving inside update()", "anchors": ["charstream.go: CharstreamString.Position (RLock) and positionMap.update"]}
{"id": "C09", "title": "Character and literal terminals match exactly what they spell", "statement": "Evaluating a char, chars or string terminal on any stream succeeds exactly when the text that the leading-space mode allows it to look at (after skipping the whitespace that is not part of the literal) starts with the literal; the node carries exactly the literal; on success the used runes are the skipped whitespace plus the literal, on failure nothing is used and everything read is reported as unused.", "quantifier": "every literal, every text, every stream state, every leading-space mode", "why_tests_cant": "infinite literals x texts x modes, including literals that begin with or are whitespace", "anchors": ["rule_terminal_char.go: Eval", "rule_terminal_chars.go: Eval", "rule_terminal_string.go: Eval"]}
{"id": "C10", "title": "A range terminal only matches runes inside its range", "statement": "A node produced by 'b'-'e' carries a single rune c with b <= c <= e.", "quantifier": "every range, every text, every mode", "why_tests_cant": "must hold for every rune of Unicode", "anchors": ["rule_terminal_range.go: Eval"]}
{"id": "C11", "title": "Evaluation never panics", "statement": "EvalRule, EvalEmbed, Eval and EvalRaw never panic with an out-of-range slice or index, whatever the grammar, text, leading-space mode and stream state.", "quantifier": "every grammar, rule, text, mode, stream state", "why_tests_cant": "panics hide in rare combinations of look-ahead lengths", "anchors": ["rule_*.go: Eval", "rule.go: mostGreedy, EvalResult.charsUsed", "grammar.go: EvalRaw, EvalEmbed"]}
{"id": "C12", "title": "Returned trees are derivation trees of the grammar", "statement": "Every node returned by evaluating a rule is shaped by that rule: terminals carry their literal, a group has one child produced by its body, an option zero or one, a repetition between min and max children (max 0 = unbounded) each produced by its body, a choice exactly one child produced by one of its alternatives, a concatenation one child per element in order, a block open/content/optional close; names and annotations are the rule's.", "quantifier": "every grammar, rule, text, mode, stream state", "why_tests_cant": "all grammars and all texts", "anchors": ["rule_*.go: Eval"]}
{"id": "C13", "title": "Read accounting", "statement": "For every evaluation: the unused runes never outnumber the read runes; evaluation only moves the underlying stream forward, never past the end, and never changes its text.", "quantifier": "every grammar, rule, text, mode, stream state", "why_tests_cant": "all grammars and all texts", "anchors": ["rule.go: EvalResult", "rule_*.go: Eval"]}
{"id": "C14", "title": "CharsRead is what was read", "statement": "The CharsRead of every evaluation is exactly the runes taken from the stream, CharsUnused is a suffix of CharsRead, and when no node is produced everything read is unused.", "quantifier": "every grammar, rule, text, mode, stream state", "why_tests_cant": "all grammars and all texts", "anchors": ["rule.go: EvalResult", "rule_concatenate.go: Eval", "rule_repetition.go: Eval", "rule_block.go: Eval", "rule_choice.go: Eval"]}
{"id": "C15", "title": "Evaluation implements the ordered/greedy grammar semantics", "statement": "Evaluating a rule yields what the textbook semantics of the notation yields: concatenation matches its elements one after the other on the text following the previous element, repetition iterates greedily, choice picks the longest alternative of the first matching group, option tries its body, block scans to the first close; the produced tree, the used text and acceptance agree with that semantics, and evaluation terminates whenever the semantics assigns a result.", "quantifier": "every grammar, rule, text and mode", "why_tests_cant": "language equality over all grammars and texts", "anchors": ["rule_*.go: Eval"]}
{"id": "C16", "title": "Choice takes the strictly greediest alternative of the first matching group", "statement": "When a choice produces a node, its child comes from the first group that has a match, and it used strictly more runes than every other match of that group; earlier groups had no match.", "quantifier": "every choice rule, text, mode", "why_tests_cant": "all alternatives and texts", "anchors": ["rule_choice.go: Eval"]}
{"id": "C17", "title": "Unordered alternatives are unordered", "statement": "Reordering the '|' alternatives inside one group does not change the outcome of the choice.", "quantifier": "every choice rule, every permutation of a group, every text", "why_tests_cant": "permutations x texts", "anchors": ["rule_choice.go: Eval", "README.md: Choice Rule"]}
{"id": "C18", "title": "Ambiguity is reported", "statement": "If two alternatives of the chosen group tie for the most runes, the evaluation the user asked for reports an error instead of silently accepting.", "quantifier": "every grammar containing a choice, every text", "why_tests_cant": "an inner ambiguity may be swallowed by an enclosing rule only for some texts", "anchors": ["rule_choice.go: Eval", "rule_option.go: Eval", "rule_repetition.go: Eval", "README.md: Choice Rule"]}
{"id": "C19", "title": "Blocks deliver the text up to the first unescaped close", "statement": "A block <open escape close> on a text that starts with open yields a content child that is the text up to the first close not preceded by an escape, with the escape removed in front of an escaped close; it fails iff there is no such close.", "quantifier": "every text, every choice of three distinct runes", "why_tests_cant": "all texts", "anchors": ["rule_block.go: Eval", "README.md: Block Construct"]}
{"id": "C20", "title": "Excluded text never appears unescaped inside a block", "statement": "If the block text matches an exclude rule at a position before the close that is not escaped, the block does not match.", "quantifier": "every block, every text", "why_tests_cant": "all texts and exclude sets", "anchors": ["rule_block.go: Eval", "rule.go: mostGreedy"]}
{"id": "C21", "title": "Evaluation terminates", "statement": "EvalRule returns for every grammar accepted by NewGrammarFromString and every text.", "quantifier": "every accepted grammar, every text", "why_tests_cant": "non-termination cannot be observed by a test", "anchors": ["rule_repetition.go: Eval", "rule_reference.go: Eval", "grammar.go: EvalRaw, EvalEmbed"]}
{"id": "C22", "title": "Stickiness is inherited downwards", "statement": "In every returned tree the Sticky flag of a node equals the result's Sticky flag, and all descendants of a sticky node are sticky; string and block nodes are never sticky.", "quantifier": "every grammar, rule, text, mode", "why_tests_cant": "all grammars and texts", "anchors": ["rule_*.go: Eval (Sticky)"]}
{"id": "C23", "title": "Annotations on references toggle", "statement": "Evaluating a reference gives exactly the node of the referenced rule with the Tokenized/Virtual/NonData flags of the node toggled by the annotations on the reference, and the same read/unused runes; a reference to an undefined rule gives an error and no node.", "quantifier": "every grammar, reference, text", "why_tests_cant": "all grammars and texts", "anchors": ["rule_reference.go: Eval"]}
{"id": "C24", "title": "EvalEmbed partitions the sample", "statement": "EvalEmbed returns, and its children in order, each text node contributing its runes and each match the runes it used, spell exactly the sample; no two text nodes are adjacent and none is empty.", "quantifier": "every grammar, rule, sample", "why_tests_cant": "all samples", "anchors": ["grammar.go: EvalEmbed"]}
{"id": "C25", "title": "Whole-grammar evaluation accounts for the whole text", "statement": "When Eval/EvalRaw succeeds, the runes used by the returned top-level nodes are, in order, the whole text.", "quantifier": "every grammar, every text", "why_tests_cant": "loss happens only for particular look-ahead lengths", "anchors": ["grammar.go: EvalRaw"]}
{"id": "C26", "title": "Whole-grammar evaluation is deterministic", "statement": "The outcome of Eval/EvalRaw depends only on the grammar and the text, not on Go's random map iteration order.", "quantifier": "every grammar, text and every map iteration order", "why_tests_cant": "iteration order is random and outside the tester's control", "anchors": ["grammar.go: EvalRaw (range over rootRules and resultsMatched)"]}
{"id": "C27", "title": "Trivial inputs are rejected", "statement": "EvalRaw on an exhausted stream returns an error; on a grammar without root rules it returns an error for every text; EvalRule/EvalEmbed with an undefined rule name return an error and no node; a successful EvalRaw returns at least one node.", "quantifier": "every grammar, text", "why_tests_cant": "all grammars and texts", "anchors": ["grammar.go: EvalRaw, EvalRule, EvalEmbed"]}
{"id": "C28", "title": "RemoveVirtualNodes removes exactly the virtual subtrees", "statement": "After RemoveVirtualNodes no virtual node remains (below the receiver for a Node, anywhere for an AST); every node not below a virtual node is kept, in order, with its fields unchanged; the operation is idempotent.", "quantifier": "every tree", "why_tests_cant": "all trees", "anchors": ["node.go: RemoveVirtualNodes", "ast.go: RemoveVirtualNodes"]}
{"id": "C29", "title": "RemoveNonDataNodes removes exactly the non-data subtrees", "statement": "Same for NonData; moreover removing virtual and non-data nodes commutes.", "quantifier": "every tree", "why_tests_cant": "all trees", "anchors": ["node.go: RemoveNonDataNodes", "ast.go: RemoveNonDataNodes"]}
{"id": "C30", "title": "Merging sticky nodes is a complete tokenization", "statement": "After AST.MergeStickyNodes no node is sticky, the operation is idempotent, non-sticky nodes are kept in order, and every maximal run of adjacent sticky siblings becomes one leaf whose text is the concatenation of their texts.", "quantifier": "every tree", "why_tests_cant": "all trees", "anchors": ["node.go: MergeStickyNodes", "ast.go: MergeStickyNodes"]}
{"id": "C31", "title": "Merging sticky nodes preserves the text", "statement": "Text() of an AST is the same before and after MergeStickyNodes.", "quantifier": "every tree", "why_tests_cant": "all trees", "anchors": ["node.go: MergeStickyNodes, Text"]}
{"id": "C32", "title": "RemoveRedundantNodes normalises without losing anything", "statement": "After RemoveRedundantNodes every strict descendant is named or a leaf, no unnamed empty node remains, an only child is named; the sequence of named nodes and the non-whitespace text are unchanged; the operation is idempotent.", "quantifier": "every tree produced by evaluation/merging (a node has runes or children, not both)", "why_tests_cant": "all trees", "anchors": ["node.go: RemoveRedundantNodes"]}
{"id": "C33", "title": "Text() only adds separators", "statement": "Text() of a node is the in-order concatenation of its leaves' runes with single spaces inserted between some of them: no rune is lost, reordered, duplicated or invented except those separators, and none is inserted next to whitespace.", "quantifier": "every tree", "why_tests_cant": "all trees", "anchors": ["node.go: Text", "ast.go: Text"]}
{"id": "C34", "title": "Tokenized nodes are never merged", "statement": "A node marked Tokenized is not merged with its left sibling by MergeStickyNodes.", "quantifier": "every tree with a tokenized node", "why_tests_cant": "all trees", "anchors": ["node.go: MergeStickyNodes", "README.md: Token annotation"]}
{"id": "C35", "title": "Virtual text disappears, other text stays", "statement": "With simplification level LevelNoVertual the result text contains no rune of a virtual node and all non-whitespace runes of the other nodes.", "quantifier": "every grammar/text/tree", "why_tests_cant": "all trees", "anchors": ["grammar.go: Eval", "node.go: MergeStickyNodes, RemoveVirtualNodes"]}
{"id": "C36", "title": "Simplification never grows the tree", "statement": "Each simplification step leaves the node count and token count no larger than before.", "quantifier": "every tree", "why_tests_cant": "all trees", "anchors": ["node.go", "ast.go: CountNodes, CountTokens"]}
{"id": "C37", "title": "Rule definitions are always parsed to a verdict", "statement": "ParseRule/AddRule/NewGrammarFromString return (a rule or an error) for every input string: no endless loop, no panic.", "quantifier": "every string", "why_tests_cant": "all strings", "anchors": ["grammar.go: parse, parseOne", "rule_*.go: in*"]}
{"id": "C38", "title": "Accepted definitions are well formed", "statement": "Every rule returned by the definition parser has the arities the evaluator and printer rely on: a choice has at least two alternatives and no empty group, a concatenation at least two elements, a chars literal at least two runes, a repetition has max = 0 or min <= max < 2^32, references are identifiers other than EOF.", "quantifier": "every definition string", "why_tests_cant": "all strings", "anchors": ["grammar.go: parse", "rule_*.go: in*"]}
{"id": "C39", "title": "Accepted grammars are closed", "statement": "If NewGrammarFromString succeeds, every name referenced by any of its rules is defined, so evaluation never meets an undefined rule; if some referenced name is undefined it fails.", "quantifier": "every grammar text", "why_tests_cant": "all texts", "anchors": ["grammar.go: NewGrammarFromString, Validate, AddUsage"]}
{"id": "C40", "title": "Names are unique and valid", "statement": "An accepted grammar has no two rules with the same name; a duplicate or invalid name (not a letter followed by letters, digits, underscores) makes the definition fail and leaves the existing definition in place.", "quantifier": "every grammar text / sequence of AddRule calls", "why_tests_cant": "all histories", "anchors": ["grammar.go: ParseRule", "rule.go: validateRuleName"]}
{"id": "C41", "title": "Root rules are the unreferenced rules", "statement": "After a successful Validate, whole-grammar evaluation starts from exactly the defined rules that no rule references.", "quantifier": "every history of AddRule and Validate calls", "why_tests_cant": "all histories", "anchors": ["grammar.go: Validate"]}
{"id": "C42", "title": "A rejected rule leaves the grammar unchanged", "statement": "If AddRule returns an error the grammar behaves afterwards as if the call had not been made.", "quantifier": "every grammar and definition string", "why_tests_cant": "all histories", "anchors": ["grammar.go: AddRule, ParseRule, AddUsage"]}
{"id": "C43", "title": "Rule records carry the source line", "statement": "In a grammar built by NewGrammarFromString each record's line is the 1-based line number of its definition.", "quantifier": "every grammar text", "why_tests_cant": "all texts", "anchors": ["grammar.go: NewGrammarFromString, ParseRule"]}
{"id": "C44", "title": "Printing a rule gives its definition back", "statement": "Parsing the String() of a rule yields the same rule.", "quantifier": "every rule the parser can produce", "why_tests_cant": "all rules", "anchors": ["rule_*.go: String", "grammar.go: parse"]}
{"id": "C45", "title": "A definition is parsed to its end", "statement": "When ParseRule succeeds, the whole definition string except a trailing comment has been turned into the rule.", "quantifier": "every definition string", "why_tests_cant": "all strings", "anchors": ["grammar.go: parse ('/' case)"]}
{"id": "C46", "title": "Unicode escapes denote their code point", "statement": "\\uXXXX denotes the rune with that hexadecimal value, for all four-digit hexadecimal strings in either case, and anything else after \\u is rejected.", "quantifier": "every four-rune continuation", "why_tests_cant": "65536 values x letter cases", "anchors": ["rule_terminal_char.go: parseUnicodeEscape"]}
{"id": "C47", "title": "Repetition bounds are read as written", "statement": "{r}* is 0.., {r}+ is 1.., {r}<n> is n.., {r}<n,m> is n..m (0 or nothing = unbounded), blanks allowed between the digits' places; m < n and values >= 2^32 are rejected.", "quantifier": "every pair of numbers and spelling", "why_tests_cant": "all numbers", "anchors": ["rule_repetition.go: inRepetition, inRepeatSpec"]}
{"id": "C48", "title": "Accepted ranges are non-empty", "statement": "A range literal 'b'-'e' accepted by the parser has b <= e.", "quantifier": "every pair of runes", "why_tests_cant": "all pairs of runes", "anchors": ["rule_terminal_range.go: inRange"]}
{"id": "C49", "title": "Evaluation depends on the remaining text only", "statement": "Two streams with the same remaining text give the same tree (up to positions), CharsRead, CharsUnused and Sticky and are left with the same remaining text, whatever was read before and however the streams are layered.", "quantifier": "every grammar, rule, mode and pair of stream states", "why_tests_cant": "all stream histories", "anchors": ["charstream.go", "rule_*.go: Eval"]}
{"id": "C50", "title": "A grammar text is accepted or blamed at its first bad line", "statement": "NewGrammarFromString accepts exactly the texts in which every line that is not blank or a comment is a readable definition of a fresh valid name and every referenced name is defined; otherwise, if some line is bad, the error names the first such line by its 1-based number and says what is wrong with it; if all lines are good the error is about an undefined name.", "quantifier": "every grammar text", "why_tests_cant": "all texts, all kinds of errors on all lines", "anchors": ["grammar.go: NewGrammarFromString"]}
{"id": "C51", "title": "Later definitions have no effect on complete rules", "statement": "If every name referenced by the rules defined so far is defined, adding any definitions (also failing ones) or validating afterwards changes nothing about EvalRule of the rules that were there.", "quantifier": "every call history and text", "why_tests_cant": "all histories", "anchors": ["grammar.go: ParseRule, AddRule, Validate, EvalRule"]}
{"id": "C52", "title": "Grammars that one rune of look-ahead decides are evaluated exactly", "statement": "In a grammar that is LL(1) in the textbook sense (alternatives start with different runes, at most one of them may match nothing, what follows an optional part cannot start like it), evaluation of any rule on any text gives the unique outcome of the textbook semantics: the tree, the number of runes used, what was read and what is unused; it never reports an ambiguity.", "quantifier": "every LL(1) grammar, rule, mode and text", "why_tests_cant": "all grammars of the class and all texts", "anchors": ["rule_concatenate.go: Eval", "rule_repetition.go: Eval", "rule_choice.go: Eval", "rule_option.go: Eval", "rule_block.go: Eval"]}
{"id": "C53", "title": "In LL(1) grammars EvalRule decides the language of the rule", "statement": "In an LL(1) grammar whose rules do not go round in circles, EvalRule answers with a match of the whole sample if and only if the sample is in the language of the rule, read as a context-free grammar (any alternative, any number of iterations within the bounds, options present or absent, blocks up to the first close).", "quantifier": "every LL(1) grammar without circles, rule and text without white space", "why_tests_cant": "all grammars of the class and all texts", "anchors": ["grammar.go: EvalRule", "rule_*.go: Eval"]}
{"id": "C54", "title": "Leaves carry the position of their first rune", "statement": "The leaves of an evaluated tree stand one after the other in the text it covers, separated by white space only, and the Position of each leaf is the line and column of its first rune.", "quantifier": "every grammar, rule, mode, text and starting index", "why_tests_cant": "all texts, all line structures, all re-readings", "anchors": ["rule_terminal_char.go: Eval", "rule_terminal_chars.go: Eval", "rule_terminal_string.go: Eval", "rule_terminal_range.go: Eval", "rule_block.go: Eval", "charstream.go: Position, PositionLookup"]}
{"id": "C55", "title": "Text separates exactly what does not stick together", "statement": "The Text of a node with runes is its runes (nothing for the end-of-file mark); the Text of an inner node is the texts of its children, with one space before a child exactly when the node is not a block, both sides are non-empty and not white at the joint, and the child and its left neighbour are not both sticky.", "quantifier": "every tree", "why_tests_cant": "all shapes of trees and all runes at the joints", "anchors": ["node.go: Text", "ast.go: Text"]}
{"id": "C56", "title": "Every level of Eval does exactly its steps", "statement": "Eval returns what EvalRaw returns, simplified by level: raw unchanged; basic (and any unknown number) merges sticky nodes and removes redundant ones; no-virtual also drops virtual subtrees; data-only also drops non-data subtrees; top nodes that are non-data are not reduced; errors are passed on. A reduced tree is determined: a sole unnamed child is absorbed, unnamed inner children are spliced, unnamed children without text are dropped.", "quantifier": "every grammar, stream, map order, level and tree", "why_tests_cant": "all trees and all levels", "anchors": ["grammar.go: Eval", "ast.go: RemoveRedundantNodes", "node.go: RemoveRedundantNodes"]}
{"id": "C57", "title": "Counts count", "statement": "CountNodes, CountTokens and CountStickyNodes are the numbers of all nodes, of leaves and of sticky nodes of the tree.", "quantifier": "every tree", "why_tests_cant": "all shapes of trees", "anchors": ["node.go: CountNodes, CountTokens, CountStickyNodes", "ast.go: CountNodes, CountTokens, CountStickyNodes"]}
{"id": "C58", "title": "EvalRule answers for the start of the sample", "statement": "EvalRule gives the outcome of the textbook semantics for the named rule at the start of the sample, skipping leading white space where the rule allows it.", "quantifier": "every grammar, rule name and sample", "why_tests_cant": "all grammars and samples", "anchors": ["grammar.go: EvalRule"]}
{"id": "C59", "title": "StringTree draws the tree", "statement": "Node.StringTree draws every node of the tree once, in document order, each on its own line (continued by the newlines in its text) behind branches that show its depth and whether siblings follow, with its position, name, type if asked for, annotations and, for leaves, its text; AST.StringTree draws the head, the number of nodes and the trees below. Two trees drawn alike agree in shape and in everything drawn, whatever runes the texts contain. Every tree that Eval and EvalRule return is drawn completely.", "quantifier": "every tree and configuration", "why_tests_cant": "all shapes of trees and all texts, including texts that look like drawings", "anchors": ["node.go: header, StringTree", "ast.go: StringTree", "charstream.go: Position.String"]}
{"id": "C60", "title": "Serialize lists the whole grammar", "statement": "Serialize names the rules that no rule refers to, lists for every other rule its users (one for each reference, in the order of the definitions) and then every rule once, in the order of the definition lines, with the line number in at least four digits, the name in one column, '!' before a rule that is virtual, '[T]' after exactly the rules that refer to no rule, and the rule as String prints it; the output depends on the grammar only.", "quantifier": "every grammar read from a text or built by calls, and every map iteration order", "why_tests_cant": "all grammars and all iteration orders of the maps", "anchors": ["grammar.go: Serialize, StringRuleRelation, Validate, addRuleUsage"]}
{"id": "C61", "title": "The command line shows the data of every text", "statement": "Given a readable grammar file and accepted rules, the tool prints the listing of the grammar and then, for every -text and every -file in order, the drawing of the tree of that content, without virtual, non-data and redundant nodes, or the error of the first that cannot be read or evaluated, after which it stops. A file is treated like a text with the same content. The trees shown are those of Eval at the data-only level.", "quantifier": "every list of arguments, file contents, map order", "why_tests_cant": "all combinations of arguments, contents and outcomes", "anchors": ["main/xbnf.go: main", "ast.go: RemoveVirtualNodes, RemoveNonDataNodes, RemoveRedundantNodes, StringTree"]}
{"id": "C62", "title": "Rules from -rule count like lines of the file", "statement": "Running with -xbnf f -rule r1 -rule r2 works with the same grammar as running with a file that has r1 and r2 as further lines, and -rule alone works without a file (the help calls -xbnf optional).", "quantifier": "every grammar file and every list of rules", "why_tests_cant": "all grammars and rules", "anchors": ["main/xbnf.go: main", "grammar.go: AddRule, Validate, NewGrammarFromFile"]}
{"id": "C63", "title": "A failing evaluation names a part of the grammar", "statement": "An evaluation that gives no node gives an error; the error names a terminal, repetition, block, choice or undefined reference that the rule leads to through its operands and references, wrapped in the concatenations and choices on the way; the innermost cause is kept.", "quantifier": "every grammar, rule, mode and text", "why_tests_cant": "all grammars and texts, every way to fail", "anchors": ["rule_terminal_*.go: Eval", "rule_concatenate.go: Eval", "rule_choice.go: Eval", "rule_repetition.go: Eval", "rule_block.go: Eval", "rule_reference.go: Eval"]}
{"id": "C64", "title": "Error messages are chains of descriptions", "statement": "The message of an error is the descriptions of the concatenations and choices on the way, each followed by a colon, and then the message of the innermost cause: what is missing and where, which reference is undefined, how many repetitions were found, which text is not allowed, or which results tie.", "quantifier": "every error", "why_tests_cant": "all nestings of rules", "anchors": ["rule.go: desc", "rule_*.go: desc, Eval"]}
{"id": "C65", "title": "Errors point at the right place", "statement": "When a message says that something is missing at a line and column, that is the line and column of a place between the start of the evaluation and the furthest rune read, and what is described does not stand there; a message that says EOF is given only when the evaluation has seen the end of the text; a text called not allowed stands in the part read; ErrIdx lies in the part read.", "quantifier": "every grammar, rule, mode, text and starting index", "why_tests_cant": "all texts, all line structures, all re-readings", "anchors": ["rule_terminal_*.go: Eval", "rule_eof.go: Eval", "rule_block.go: Eval", "charstream.go: Position, PositionLookup, Cursor"]}
{"id": "C66", "title": "Eval says why a text is refused", "statement": "When EvalRaw reports that nothing matches, its error holds exactly one error for every root rule, and no root rule matches what is left after the matches found before; when it reports an ambiguity, two different root rules match the same number of runes and none matches more; the text of the error is determined by grammar and text.", "quantifier": "every grammar, text and map iteration order", "why_tests_cant": "all grammars, texts and orders", "anchors": ["grammar.go: EvalRaw, desc"]}
{"id": "C67", "title": "The outline shows the structure of a rule", "statement": "StringWithIndent writes one piece for every part of a rule, in the order of its text, each behind as many margins as it is deep (also in the further lines of a piece), and Serialize(true) puts that outline below every rule; the outline shows everything that matters about the rule.", "quantifier": "every rule and margin, every grammar", "why_tests_cant": "all nestings of rules", "anchors": ["rule_*.go: StringWithIndent", "grammar.go: Serialize"]}
{"id": "C68", "title": "A printed result can be read back", "statement": "Two evaluation results are printed alike exactly when they have the same runes read and unused and trees that look alike, or no tree and the same error text, whatever runes they contain; every result of EvalRule can be printed like that. Merging the sticky nodes of a result changes nothing but its tree.", "quantifier": "every result and configuration without inner texts", "why_tests_cant": "all results, including runes that look like the layout", "anchors": ["rule.go: EvalResult.StringTree, EvalResult.MergeStickyNodes"]}
{"id": "C69", "title": "The error is the reason", "statement": "When an evaluation gives no node, its error is the one reason why the rule does not match: for a concatenation the reason of the first element that fails after all before it matched; for a choice without a match the reason of the first alternative that got furthest; for a tie the two trees; for a repetition the reason why the iteration after the last one fails, or the number of iterations when the text ends; for a block the reason of its open rule, the longest exclude at the first place where one matches, or the missing close. ErrIdx is the index where that part stopped reading, and the innermost cause is kept.", "quantifier": "every grammar, rule, mode, text and starting index", "why_tests_cant": "all grammars and texts, all ways to combine partial matches", "anchors": ["rule_terminal_*.go: Eval", "rule_concatenate.go: Eval", "rule_choice.go: Eval", "rule_repetition.go: Eval", "rule_block.go: Eval", "rule_group.go: Eval", "rule_reference.go: Eval"]}
{"id": "C70", "title": "A refused definition is refused where it goes wrong", "statement": "When ParseRule refuses the text of a definition there is exactly one place up to which the text is the beginning of some definition and behind which it is not, and the error of the parser is one that fits this place: an unfinished bracket, quote or block only at the end of the text (or behind a comment), a rune that no rule starts with, a choice without alternatives on both sides, a range without a second end, an escape without four hexadecimal digits, a repetition count that is too large or whose maximum is below the minimum, and so on.", "quantifier": "every text of a definition", "why_tests_cant": "all texts, all nestings, all ways to go wrong", "anchors": ["grammar.go: parse, parseOne, ParseRule", "rule_terminal_*.go: in*", "rule_group.go: inGroup", "rule_option.go: inOption", "rule_repetition.go: inRepetition", "rule_choice.go: inChoice", "rule_block.go: inBlock"]}
{"id": "C71", "title": "The messages of the grammar functions say what is wrong and where", "statement": "NewGrammarFromString fails exactly when there is something to complain about; its message begins with the number of the first line that has something wrong and the name defined there, and says whether the equals sign is missing, the name is bad, the name is already defined (and in which line), or what is wrong with the text; without a bad line it names a rule that is mentioned and not defined. Different errors of the parser read differently.", "quantifier": "every text of definitions, every map order", "why_tests_cant": "all texts and line structures", "anchors": ["grammar.go: NewGrammarFromString, ParseRule, AddRule, Validate", "rule.go: validateRuleName"]}
{"id": "C72", "title": "The shipped JSON grammar reads JSON", "statement": "With the grammar in main/samples/json Eval accepts exactly the texts that are JSON values (with white space in front of tokens, decimal numbers without exponent), the tree it gives is the tree of the value and tells the value, and the text of the tree is a JSON text of the same value.", "quantifier": "every text, every map order, every sufficient fuel", "why_tests_cant": "all values of any nesting and size, all ways to lay them out", "anchors": ["main/samples/json", "grammar.go: Eval, EvalRaw, EvalRule", "rule_*.go: Eval", "ast.go: Text, MergeStickyNodes, RemoveRedundantNodes"]}
{"id": "C73", "title": "Eval comes back", "statement": "Eval and EvalRaw return for every grammar and every text (if every root rule does): the number of rounds is bounded by the length of the text.", "quantifier": "every grammar, every text, every map order", "why_tests_cant": "non-termination cannot be observed; all texts and map orders", "anchors": ["grammar.go: EvalRaw, Eval", "charstream.go: newCharstreamPrepend", "rule_*.go: Eval"]}
{"id": "C74", "title": "Rule names carry no meaning", "statement": "Renaming the rules of a grammar, definitions and references alike, by any renaming that keeps different names different, changes the answers of Eval, EvalRaw, EvalRule and EvalEmbed in nothing but the names shown in trees and errors: same matches, same positions, same errors, same number of steps.", "quantifier": "every grammar, every injective renaming, every text, mode, level and map order", "why_tests_cant": "all grammars and renamings; a name compared with a reserved word or sorted somewhere would only show for particular names", "anchors": ["rule_reference.go: Eval", "grammar.go: EvalRule, EvalEmbed, EvalRaw, Eval", "rule_*.go: Eval", "ast.go: RemoveVirtualNodes, RemoveNonDataNodes, RemoveRedundantNodes"]}
{"id": "C75", "title": "Marks do not influence matching", "statement": "The marks of a rule (virtual, non-data, tokenized) influence neither whether and what EvalRule, EvalEmbed and EvalRaw match nor the errors; only the marks of the nodes differ. (They are there for the later reductions of the tree.)", "quantifier": "every grammar, every assignment of marks, every text, mode and map order", "why_tests_cant": "all grammars and all assignments of marks", "anchors": ["rule_*.go: Eval", "rule_reference.go: Eval", "grammar.go: EvalRule, EvalEmbed, EvalRaw"]}
{"id": "C76", "title": "Parentheses and named parts do not change what is matched", "statement": "Putting a part of a rule in parentheses, giving a part a rule of its own, and undoing either, changes neither what Eval matches nor the leaves of the trees, the runes read, the place of the error or what is left of the text; only inner nodes and the wording of errors change.", "quantifier": "every grammar, every such rewriting at any number of places, every text, mode and map order", "why_tests_cant": "all grammars and rewritings", "anchors": ["rule_group.go: Eval", "rule_reference.go: Eval", "rule_concatenate.go: Eval", "rule_option.go: Eval", "rule_repetition.go: Eval", "rule_choice.go: Eval", "rule_block.go: Eval", "grammar.go: EvalRaw"]}
{"id": "C77", "title": "Layout does not matter", "statement": "If no terminal of a grammar takes white space, two texts that differ only in the kind and amount of white space where both have some are matched in the same way: EvalRule and EvalRaw give the same trees (the contents of blocks differ like the texts), the match ends at the same place, and a text is refused with the other, for the same reason.", "quantifier": "every such grammar, every pair of such texts, every mode and map order", "why_tests_cant": "all grammars and all layouts; the kinds of white space interact with ranges, escapes and the three ways of skipping", "anchors": ["charstream.go: SkipSpaces", "rule_terminal_*.go: Eval", "rule_concatenate.go: Eval", "rule_repetition.go: Eval", "rule_choice.go: Eval", "rule_block.go: Eval", "grammar.go: EvalRule, EvalRaw"]}
{"id": "C78", "title": "What has not been looked at has no influence", "statement": "The answer of an evaluation (tree with positions, error, CharsRead, CharsUnused) depends on nothing behind the rune after the last one taken from the text: every text that agrees up to and including that rune (or ends at the same place) gives the same answer after the same number of steps. If the text was not taken to its end anything may be appended.", "quantifier": "every grammar, rule, mode, pair of texts, number of steps", "why_tests_cant": "all texts that could follow", "anchors": ["charstream.go: next, Peek, SkipSpaces, Match, Position, PositionLookup, CharstreamPrepend", "rule_*.go: Eval", "rule.go: mostGreedy"]}
{"id": "C79", "title": "What EvalRule reports as read decides its answer", "statement": "A text that agrees with the text given to EvalRule in the runes reported as CharsRead and one more gives the same answer.", "quantifier": "every grammar, rule and pair of texts", "why_tests_cant": "all texts that could follow; wrong accounting shows only for particular look-ahead", "anchors": ["grammar.go: EvalRule", "rule_*.go: Eval", "rule.go: EvalResult"]}
{"id": "C80", "title": "Strings of bytes are handled as their runes", "statement": "NewGrammarFromString, AddRule, ParseRule and EvalRule, which split, trim and index Go strings byte by byte before they convert them, give for every string of bytes (also if it is not UTF-8) what they would give if the string were decoded first; decoding gives code points only. Decoding a string that is UTF-8 and writing the runes again gives the string back.", "quantifier": "every byte string, every history of calls, every rule", "why_tests_cant": "all byte strings, invalid sequences included, at every place where the code cuts a string", "anchors": ["grammar.go: NewGrammarFromString, AddRule, ParseRule, EvalRule", "rule.go: validateRuleName", "charstream.go: NewCharstreamFromString"]}
{"id": "C81", "title": "The order of the definitions does not matter", "statement": "Two grammar texts with the same definitions, in any order and between any empty lines, comments and white space around names and bodies, are both accepted or both refused; accepted, they give the same rules and root rules, and EvalRule, EvalEmbed, EvalRaw and Eval give the same answers, errors and positions included.", "quantifier": "every pair of such grammar texts, every text, rule and map order", "why_tests_cant": "all permutations of all grammars", "anchors": ["grammar.go: NewGrammarFromString, ParseRule, Validate, EvalRule, EvalEmbed, EvalRaw, Eval", "rule_reference.go: Eval"]}
{"id": "C82", "title": "What was read is the beginning of the string", "statement": "The runes that EvalRule reports as CharsRead, written as a string (as the messages do), are the beginning of the string of bytes it was given.", "quantifier": "every byte string, grammar and rule", "why_tests_cant": "all byte strings", "anchors": ["grammar.go: EvalRule", "charstream.go: NewCharstreamFromString", "rule.go: EvalResult"]}
{"id": "C83", "title": "The text of a match is matched in the same way", "statement": "If EvalRule matches a text to its end, the text that Node.Text gives for the tree (with one space wherever Text puts a separator) is matched by the same rule to its end too, and gives the same tree.", "quantifier": "every grammar, rule and matched text", "why_tests_cant": "all grammars and texts; the separators of Text and the skipping of white space by the rules are decided by the same flags in different places", "anchors": ["node.go: Text", "grammar.go: EvalRule", "rule_*.go: Eval", "charstream.go: SkipSpaces"]}
{"id": "C84", "title": "Sharing arrays between slices does not show", "statement": "CharsRead, CharsUnused, the Chars of nodes, prepended text and the text itself are slices of arrays that other slices may look at, and append writes into the array if there is room. However much room append leaves, EvalRule, EvalEmbed, EvalRaw and every Eval give the answer that they would give if every slice had an array of its own, and they write into no array that was there before the call.", "quantifier": "every heap, every behaviour of append, every grammar, rule, stream, text and map order", "why_tests_cant": "what append does depends on capacities chosen by the runtime; overwriting shows only for particular lengths", "anchors": ["rule_*.go: Eval (append)", "rule.go: EvalResult, mostGreedy", "charstream.go: SkipSpaces, Match, newCharstreamPrepend", "grammar.go: EvalRule, EvalEmbed, EvalRaw"]}
{"id": "C85", "title": "Merging tokens in place does not show", "statement": "MergeStickyNodes appends to the Chars of a node where they are, and Text hands out the Chars of a leaf. The Chars of the nodes that EvalRaw returns each have an array of their own, made during the call; on such trees merging and the other passes give, however much room append leaves, the trees that they would give if every slice had an array of its own. So does Eval with every simplification level, and it writes into no array that was there before the call.", "quantifier": "every heap, every behaviour of append, every grammar, stream, level and map order; every tree", "why_tests_cant": "what append does depends on capacities chosen by the runtime; overwriting shows only for particular lengths and sharing", "anchors": ["node.go: MergeStickyNodes, Text, RemoveRedundantNodes, RemoveVirtualNodes, RemoveNonDataNodes", "ast.go", "grammar.go: Eval, EvalRaw", "rule_*.go: Eval (nodes)"]}
{"id": "C86", "title": "The shipped arithmetic grammar reads arithmetic expressions", "statement": "EvalRule on the rule expr of main/samples/arithmetic/arithmetic.xbnf finds the longest text in front of the sample that is a sum of products of numbers, names and parenthesised sums, with white space allowed in front of every token, and returns the tree of that sum, in which products bind more strongly than sums; if no text in front is a sum, it returns no tree. A text is the text of one sum at most.", "quantifier": "every sample", "why_tests_cant": "the language is infinite and nested; the tests evaluate a handful of expressions", "anchors": ["main/samples/arithmetic/arithmetic.xbnf", "grammar.go: EvalRule", "rule_*.go: Eval"]}
{"id": "C87", "title": "The shipped arithmetic grammar reads expressions line by line", "statement": "EvalRaw with the root rule exprs of main/samples/arithmetic/arithmetic.xbnf reads a text page by page: a page is the longest sum there and the rows below it, a row being white space that ends with a newline or carriage return and then, not indented, the longest sum; it returns the trees of the pages if nothing remains and a no-match error otherwise, and it returns. Sums written below each other are read as these sums.", "quantifier": "every text, stream and map order", "why_tests_cant": "the language is infinite; what is read depends on where one sum ends and the next starts", "anchors": ["main/samples/arithmetic/arithmetic.xbnf", "grammar.go: EvalRule, EvalRaw", "rule_*.go: Eval"]}
{"id": "C88", "title": "The shipped property grammar reads properties line by line", "statement": "Eval with the root rule property of main/samples/property/property.xbnf, as the test uses it, reads a text entry by entry: white space, then a name up to the end of the line, or a name, an equals sign or colon, white space and a value up to the end of the line, and white space behind it. It returns for each entry the tree with the name, or with the name and the value, if nothing remains, and a no-match error otherwise, and it returns. There is one such reading. Entries written on lines of their own are read as these entries.", "quantifier": "every text, stream and map order, the levels 1 and 2", "why_tests_cant": "the language is infinite; what is read depends on which of two blocks closes and on white space in front of them", "anchors": ["main/samples/property/property.xbnf", "main/samples/property/property_test.go", "grammar.go: EvalRule, EvalRaw, Eval", "rule_block.go: Eval", "rule_*.go: Eval"]}
{"id": "C89", "title": "The data-only level keeps the data of JSON", "statement": "Eval with the JSON grammar of main/samples/json at the level that removes virtual and non-data nodes returns for each value of the text one tree, with a node for every part of every array and object, in which brackets, commas, colons and quotes are gone and all other texts are left in their order.", "quantifier": "every text, stream and map order", "why_tests_cant": "values nest without bound; what is dropped depends on the texts below a node", "anchors": ["main/samples/json/json.xbnf", "grammar.go: Eval", "ast.go: RemoveNonDataNodes, RemoveRedundantNodes", "node.go: RemoveNonDataNodes, RemoveRedundantNodes"]}
{"id": "C90", "title": "EvalEmbed finds the JSON values in a text", "statement": "EvalEmbed with the rule value or json of the JSON grammar of main/samples/json goes through a text from left to right and returns a node whose children are, in order, the values that stand in the text, each with the tree of its value, and text nodes with exactly the runes in between, white space in front of a value included. It returns on every text, and there is one way to cut a text up like this.", "quantifier": "every text", "why_tests_cant": "values nest without bound and may start at any rune; what a value takes depends on the rule it starts with", "anchors": ["main/samples/json/json.xbnf", "grammar.go: EvalEmbed", "rule_terminal_string.go: Eval", "rule_concatenate.go: Eval", "rule_*.go: Eval"]}
{"id": "C91", "title": "NOT_SKIP skips nothing", "statement": "A rule evaluated in the mode NOT_SKIP, which blocks use for their escapes, excludes and closes and EvalEmbed for its matches, passes over no white space in front of what it matches: the first rune of the tree is the first rune of the text, unless nothing is matched. So EvalEmbed keeps all white space in front of its matches as text.", "quantifier": "every grammar, rule, stream and text", "why_tests_cant": "depends on which parts of a rule match without taking text", "anchors": ["rule.go: NOT_SKIP", "rule_concatenate.go: Eval", "rule_*.go: Eval", "grammar.go: EvalEmbed"]}
{"id": "C92", "title": "Without white space in front the modes agree", "statement": "On a text that does not start with white space a rule gives the same tree, the same count of runes read and unused and the same stickiness in the modes SUGGEST_SKIP, SUGGEST_NOT_SKIP and NOT_SKIP. So on such a text the first part that EvalEmbed returns is what EvalRule returns.", "quantifier": "every grammar, rule, mode, stream and text", "why_tests_cant": "the mode is handed down through all parts of a rule", "anchors": ["rule.go: SUGGEST_NOT_SKIP, SUGGEST_SKIP, NOT_SKIP", "rule_repetition.go: Eval", "rule_concatenate.go: Eval", "rule_terminal_string.go: Eval", "grammar.go: EvalRule, EvalEmbed"]}
{"id": "C93", "title": "EvalEmbed has no memory", "statement": "Each part that EvalEmbed returns and that is no text is the match of the rule at a place of the sample, and the parts behind it are what EvalEmbed returns for the sample from the end of this match on.", "quantifier": "every grammar, rule, sample and match", "why_tests_cant": "the loop carries a stream on which all runes read ahead have been put back again and again", "anchors": ["grammar.go: EvalEmbed", "charstream.go: newCharstreamPrepend", "rule_*.go: Eval"]}
{"id": "C94", "title": "Evaluations have one answer", "statement": "For a fixed iteration order of the maps Eval, EvalRaw, EvalRule, EvalEmbed, the evaluation of a rule and a run of the command line have at most one answer: whatever bound on the number of steps an answer is found with, it is the same one, and larger bounds keep it.", "quantifier": "every grammar, rule, stream, level, sample, arguments and pair of bounds", "why_tests_cant": "bounds are a device of the model; a test has no bounds", "anchors": ["grammar.go: Eval, EvalRaw, EvalRule, EvalEmbed", "rule_*.go: Eval", "main/xbnf.go: main"]}
{"id": "C95", "title": "Simplified trees stay as they are", "statement": "Simplifying what Eval returned at some level once more, at the same level or at one that asks for less, changes nothing; at every level but the raw one no node of it is sticky, and none carries a mark that the level drops.", "quantifier": "every tree, grammar, stream and pair of levels", "why_tests_cant": "the passes undo the preconditions of each other for some inputs only; trees are unbounded", "anchors": ["ast.go: MergeStickyNodes, RemoveVirtualNodes, RemoveNonDataNodes, RemoveRedundantNodes", "node.go: RemoveRedundantNodes", "grammar.go: Eval"]}
{"id": "C96", "title": "Levels of simplification one after the other", "statement": "Simplifying a tree on some level and then on a higher one gives the same tree as simplifying it on the higher level at once.", "quantifier": "every tree that evaluation can give and pair of levels", "why_tests_cant": "which nodes are reduced away depends on what the earlier passes left; trees are unbounded", "anchors": ["ast.go: RemoveVirtualNodes, RemoveNonDataNodes, RemoveRedundantNodes", "node.go: RemoveRedundantNodes", "grammar.go: Eval"]}
{"id": "C97", "title": "Levels that have nothing to drop", "statement": "When no rule and no reference of the grammar carries the mark of virtual rules, Eval answers the same at the level that drops virtual nodes as at the one that drops nothing; when none carries the mark of non-data rules, it answers the same at the level for data only as at the one that drops virtual nodes.", "quantifier": "every grammar without the mark, stream, order of the roots and number of steps", "why_tests_cant": "marks are switched by references, moved by merging and lost by reducing; trees and grammars are unbounded", "anchors": ["ast.go: RemoveVirtualNodes, RemoveNonDataNodes, MergeStickyNodes", "rule_reference.go: Eval", "grammar.go: Eval"]}
