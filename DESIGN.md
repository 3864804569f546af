# Formal model of cnsgfk/xbnf in Coq 8.16

The code under study is the Go package in `/repo` with its command line tool:
streams, rule evaluation, AST simplification, definition parser, grammar
bookkeeping, printing and drawing. Everything below is a hand translation into
total Gallina functions, function by function, plus theorems about them.
Nothing was run: the translation follows the text of the code, and
`RepoTests.v` and `RepoSamples.v` replay the expectations of the repo's own tests
on the model, including those of the grammars shipped in `main/samples`; all of
them hold.

## How to read the development

1. `properties.jsonl` has the English claims, `MANIFEST.json` the theorems for
   each claim.
2. `theories/Props*.v` contain the theorems, each with a concrete case
   (`Example`) and `Print Assumptions`; proofs there are `exact lemma`, or the
   short evaluation of a witness.
3. `theories/Spec*.v` contain the vocabulary of the statements. These files do
   not use helpers of the model other than its data types, except that `readAs`
   and `unreadable` (SpecGrammar.v) are what ParseRule answers in an empty
   grammar; C38 and C44-C49 say independently which texts those are.
4. The model is in `Base`, `Stream`, `Conc`, `Node`, `Rule`, `Parse`,
   `Grammar`, `Refuse`, `Print`, `Show`, `Message`, `Complain`, `Detail`,
   `Cli`, `Bytes`.
5. Everything else (`*Facts.v`, `*Dec.v`, `Eval*.v`, ...) is proof.

A theorem whose name ends in `_refuted` says that the English claim is false of
the code, with a witness. A theorem whose name ends in `_partial` proves the
claim under a hypothesis that the claim does not have. A property with a
refutation has status `partial`: the full claim stays in the properties file,
the refutation shows that it cannot be proved, and the partial theorems (where
possible, an exact description of the behaviour) say what does hold. In a
property with status `proved` a refutation is about a stronger reading than the
statement, or shows that one of its conditions is needed; the note in
`MANIFEST.json` says which.

## What is modelled

| file | Go code |
|---|---|
| `Base.v` | `space.go`; runes (`Z`), `outcome` (Ok / Panic / OutOfFuel), UTF-8 replacement of unencodable runes |
| `Stream.v` | `charstream.go`: line table, string stream, prepend stream, all exported operations |
| `Conc.v` | `charstream.go:281-414` as a small-step machine: any number of goroutines on one string stream, RWMutex, every access to shared fields a step |
| `Node.v` | `node.go`, `ast.go`: trees, Text, counts, MergeStickyNodes, RemoveVirtualNodes, RemoveNonDataNodes, RemoveRedundantNodes |
| `Rule.v` | rule and result types, every `Eval` of `rule_*.go`, `mostGreedy`, annotations |
| `Parse.v` | `grammar.go` `parse`/`parseOne`, all `in*` functions |
| `Grammar.v` | grammar state, ParseRule, AddRule, AddUsage, Validate, NewGrammarFromString, GetRule/GetRecord, EvalRule, EvalEmbed, EvalRaw, Eval |
| `Print.v` | the `String()` methods of the rules |
| `Show.v` | Position.String, Node.header, Node.StringTree, AST.StringTree, Serialize, StringRuleRelation, the `StringWithIndent` methods |
| `Message.v` | the `desc` methods of the rules, Grammar.desc, the texts of the errors of every `Eval` and of EvalRaw |
| `Refuse.v` | the functions of `Parse.v` once more with their errors (proved to erase to those of `Parse.v`) |
| `Complain.v` | the texts of the errors of the parser, validateRuleName, ParseRule, AddRule, Validate, NewGrammarFromString |
| `Slices.v` | the `Eval` methods, SkipSpaces, Match, mostGreedy, EvalRule, EvalEmbed, EvalRaw with slices on a heap of arrays and `append` with arbitrary spare room |
| `SliceAst.v` | Text, MergeStickyNodes, RemoveRedundantNodes, RemoveVirtualNodes, RemoveNonDataNodes and Eval on the same heap |
| `Bytes.v` | Go strings as bytes: `[]rune`, `string`, TrimSpace, Split and indexing in NewGrammarFromString, AddRule, ParseRule, validateRuleName, EvalRule |
| `Detail.v` | EvalResult.StringTree, EvalResult.MergeStickyNodes |
| `Cli.v` | `main/xbnf.go` main |

Every definition cites the file and lines it models; simplifications are named
in the comment next to it.

## What is not modelled

* The parsing of command line flags (package `flag`), the help text, and the
  exit code.
* Reading files: a file system is a function from names to contents
  (`option (list Z)`); NewGrammarFromFile is NewGrammarFromString after that.
* The texts of messages about strings that are not UTF-8 (everything else about
  such strings is in `Bytes.v`), and the width of `int`.
* Dead code: `ast.go:8-40` RuleName and Sticky, `rule.go:99-120` output, input
  and virtual, `Position.is` (used by tests only).
* Concurrency outside `charstream.go`: the grammar's lock calls are commented
  out in the code, so sharing a Grammar while changing it is outside its
  contract. Memory is sequentially consistent in `Conc.v`; with the mutex held
  around every access this is what the Go memory model gives, and for the one
  function where accesses race (Position) the claim is refuted anyway.

## Modelling conventions

* A rune is a `Z`; EOF is -1. Go `int` is unbounded `Z`/`nat` (no arithmetic in
  the code gets near 2^63; the only bounded parse, `ParseUint(_,10,32)`, is
  modelled with its bound).
* Strings are lists of runes (`[]rune(s)`). Theorems about texts assume
  `runesOk` (all runes >= 0), which holds for every Go string. `Bytes.v` models
  strings as bytes where the code cuts them before converting them; C80 proves
  that both views agree.
* Slices are lists. Every slice expression that can panic is an explicit check
  yielding `Panic`. `Slices.v` is the evaluator with Go slices
  (arrays shared, `append` in place); C84 and C85 prove that the lists show the same.
* A stream object is a value: a list of prepend layers on top of one string
  stream. Go wraps the *same* mutable object, so `Eval` returns the new state of
  the object it was given; local wrappers are popped on return.
* The definition parser uses only Next, Peek and SkipSpaces, so it is modelled
  over the list of runes still to be read (`base_stream_is_list` in
  `ParseFacts.v` relates the two).
* Unbounded loops and recursion through references use fuel; `OutOfFuel` is a
  separate outcome, never a normal-looking value. "Terminates" means that some
  fuel gives `Ok`; more fuel never changes an `Ok` answer (`EvalFuel.v`,
  `ParseMono.v`). The parser's own fuel is computed from the length of the
  definition and is proved to suffice (C37).
* Map iteration order is an explicit argument (one order per `range`), and the
  theorems quantify over all of them (`legal`).
* Error values are an inductive type. The errors of the evaluators and drivers
  keep everything that enters their text, which `Message.v` computes. `Parse.v` and `Grammar.v` keep the kind of an error only;
  `Refuse.v` and `Complain.v` have the rest.

## Layers of the evaluation proofs

`eval` (model, on streams) -> `sem` (`SpecEval.v`: same control flow on texts,
no streams; lock-step proof in `SemFacts.v`) -> `Ev` (`SpecEv.v`: textbook
ordered/greedy relation on texts; `EvFacts.v`, `EvDet.v`, `EvalSem.v`). The step
from `sem` to `Ev` needs that none of the look-ahead cases listed in
`SpecEval.v` (`SUnsafe`) occurs; C14 and C15 refute the claims without it.
`SpecLL`/`LLFacts`/`LLDec`/`LLMain` give a decidable class of grammars (LL(1)
with a side condition) where the side condition holds for every text and where
`Ev` decides the context-free language of the grammar (`SpecLang`).
`LLKnown` extends the class by rules whose outcomes are known exactly; with it
the shipped JSON grammar (`RepoSamples.v` has its text) is followed from texts to
trees: `JsonLex` (outcomes of the lexical rules), `JsonSafe`, `JsonLang`,
`JsonValue` (texts of values and outcomes), `EraseFacts`, `JsonTree`
(simplification), `JsonText` (values, texts and trees), `SpecJsonData`, `JsonData`, `JsonDataDrive` (the data-only level), `SpecEmbedJson`, `JsonEmbed` (values inside other text, with EvalEmbed; `SpecFirm`, `FirmFacts` have the general statement about white space in front of matches, `SpecSteady`, `SteadyFacts` the one about texts without it, `SpecAfresh`, `AfreshFacts` the one about what follows a match; `StepFacts`: the bounds on steps do not show; `SpecStill`, `StillFacts`: simplifying twice; `SpecBones`, `RaiseFacts`, `BonesFacts`, `SpecMarks`, `MarksFacts`: simplifying on a higher level afterwards; `SpecSpare`, `SpareFacts`: levels without anything to drop), `JsonDriver` (EvalRule,
EvalRaw, Eval). The shipped arithmetic grammar is followed in the same way: `SpecArith` (expressions,
their texts and trees), `ArithLex`, `ArithSafe`, `ArithLang`, `ArithNum`,
`ArithExpr`, `ArithRule`; then its root rule through the drivers: `SpecLines`
(sums on lines), `ArithLook` (how far each rule looks), `ArithLines`, `ArithDrive`.
The shipped property grammar: `SpecProperty` (entries on lines), `SureFacts` (outcomes that are certain, for every kind of rule), `PropRules` (its lexical rules and blocks), `PropLine` (one entry), `PropDrive`
(drivers, simplified trees). `SpecEnds` and `RawEnds` say when the rounds of EvalRaw end.
`SpecRename`/`RenameFacts` are about renaming rules and changing marks,
`SpecRefactor`/`RefactorFacts` about parentheses and named parts.
`SpecLayout` (two texts cut into common runes and exchanged runs of white space), `LayoutFacts`, `LayoutRaw` and `LayoutDec` are about layout;
`SliceFacts`, `SliceEval` and `SliceDrive` relate slices on a heap to lists; `SliceFresh` shows which arrays the nodes of a result use, `SliceMerge` that the passes over trees stay within them; `RereadFacts` compares a text with the Text of its tree; `BytesFacts` and `BytesRule` relate bytes and runes; `LookFacts` and `LookEval` compare two streams that are alike up to the place reached, step by step through the evaluator, and `LookRule` draws the conclusions for texts;
`RawExact` gives the converse of C25 and C66: when the rounds end, EvalRaw answers.

## Properties

| id | title | status | theorems in | method |
|---|---|---|---|---|
| C01 | String stream delivers exactly the text | proved | `PropsStream.v` | invariant over call lists; the delivered runes are a prefix of the text |
| C02 | SkipSpaces takes the maximal whitespace run | proved | `PropsStream.v` | SkipSpaces = longest white prefix |
| C03 | Match is exact prefix matching with minimal read-ahead | proved | `PropsStream.v` | Match against longest common prefix |
| C04 | Position() is the true line and column | proved | `PropsStream.v` | invariant: line table = newline indexes read |
| C05 | PositionLookup maps every consumed index to its true line and column | partial | `PropsStream.v` | exact domain of right answers, witness for the wrong ones |
| C06 | Prepending just-read runes rewinds the stream | proved | `PropsStream.v` | every call depends on remaining text and cursor only |
| C07 | Concurrent consumers share out the text exactly once | proved | `PropsConc.v` | induction over schedules of the small-step machine |
| C08 | Concurrent Position calls are safe | partial | `PropsConc.v` | witness schedule; linearisation without Position |
| C09 | Character and literal terminals match exactly what they spell | proved | `PropsRule.v` | case analysis against text-level specs |
| C10 | A range terminal only matches runes inside its range | partial | `PropsRule.v` | witness; exactness without skipped white |
| C11 | Evaluation never panics | proved | `PropsDriver.v`, `PropsGrammar.v`, `PropsRule.v` | induction on fuel, outcome never Panic |
| C12 | Returned trees are derivation trees of the grammar | proved | `PropsRule.v` | induction on fuel, relation derives |
| C13 | Read accounting | proved | `PropsRule.v` | stream refinement |
| C14 | CharsRead is what was read | partial | `PropsEval.v` | witness; lock-step with sem, SUnsafe excluded |
| C15 | Evaluation implements the ordered/greedy grammar semantics | partial | `PropsEval.v` | witness; eval = textbook relation Ev outside SUnsafe |
| C16 | Choice takes the strictly greediest alternative of the first matching group | partial | `PropsChoice.v` | selection lemma |
| C17 | Unordered alternatives are unordered | partial | `PropsChoice.v` | witness; permutation of alternatives |
| C18 | Ambiguity is reported | partial | `PropsChoice.v` | witness; choice alone |
| C19 | Blocks deliver the text up to the first unescaped close | partial | `PropsBlock.v` | scanning spec upToClose |
| C20 | Excluded text never appears unescaped inside a block | partial | `PropsBlock.v` | witness; induction on Ev |
| C21 | Evaluation terminates | partial | `PropsBlock.v`, `PropsEnds.v` | witness; well-founded measure (noCircles), fuel bound for bounded grammars |
| C22 | Stickiness is inherited downwards | proved | `PropsRule.v` | induction on the tree |
| C23 | Annotations on references toggle | proved | `PropsRule.v` | case analysis |
| C24 | EvalEmbed partitions the sample | partial | `PropsDriver.v` | loop invariant; witnesses |
| C25 | Whole-grammar evaluation accounts for the whole text | partial | `PropsDriver.v`, `PropsExact.v` | loop invariant; witness |
| C26 | Whole-grammar evaluation is deterministic | partial | `PropsDriver.v` | loop invariant over orders; witness |
| C27 | Trivial inputs are rejected | proved | `PropsDriver.v` | case analysis |
| C28 | RemoveVirtualNodes removes exactly the virtual subtrees | proved | `PropsNode.v` | structural induction on document order |
| C29 | RemoveNonDataNodes removes exactly the non-data subtrees | proved | `PropsNode.v` | structural induction |
| C30 | Merging sticky nodes is a complete tokenization | proved | `PropsNode.v` | functional relation merged |
| C31 | Merging sticky nodes preserves the text | partial | `PropsNode.v` | witness; structural induction |
| C32 | RemoveRedundantNodes normalises without losing anything | partial | `PropsNode.v` | witness; structural induction |
| C33 | Text() only adds separators | proved | `PropsNode.v` | structural induction |
| C34 | Tokenized nodes are never merged | partial | `PropsNode.v` | witness; next to non-sticky |
| C35 | Virtual text disappears, other text stays | partial | `PropsNode.v` | witness; structural induction |
| C36 | Simplification never grows the tree | proved | `PropsNode.v` | structural induction |
| C37 | Rule definitions are always parsed to a verdict | proved | `PropsParse.v` | fuel measure of the parser |
| C38 | Accepted definitions are well formed | proved | `PropsParse.v` | soundness of the parser for the notation |
| C39 | Accepted grammars are closed | proved | `PropsGrammar.v` | grammar invariant |
| C40 | Names are unique and valid | proved | `PropsGrammar.v` | grammar invariant |
| C41 | Root rules are the unreferenced rules | partial | `PropsGrammar.v` | history invariant; witness |
| C42 | A rejected rule leaves the grammar unchanged | partial | `PropsGrammar.v` | case analysis; witness |
| C43 | Rule records carry the source line | proved | `PropsGrammar.v` | line invariant |
| C44 | Printing a rule gives its definition back | partial | `PropsParse.v` | parser completeness on printed rules; witnesses |
| C45 | A definition is parsed to its end | partial | `PropsParse.v` | parser consumption; witnesses |
| C46 | Unicode escapes denote their code point | partial | `PropsParse.v` | case analysis; witness |
| C47 | Repetition bounds are read as written | proved | `PropsParse.v` | case analysis |
| C48 | Accepted ranges are non-empty | partial | `PropsParse.v` | case analysis; witness |
| C49 | Evaluation depends on the remaining text only | proved | `PropsEval.v` | stream refinement |
| C50 | A grammar text is accepted or blamed at its first bad line | proved | `PropsGrammar.v` | induction over lines |
| C51 | Later definitions have no effect on complete rules | proved | `PropsGrammar.v` | induction on fuel, agreement of grammars |
| C52 | Grammars that one rune of look-ahead decides are evaluated exactly | partial | `PropsLL.v` | FIRST/FOLLOW class, decision procedure proved |
| C53 | In LL(1) grammars EvalRule decides the language of the rule | partial | `PropsLL.v` | language relation, strict class |
| C54 | Leaves carry the position of their first rune | partial | `PropsPlace.v` | lock-step with positions; witnesses |
| C55 | Text separates exactly what does not stick together | proved | `PropsNode.v` | structural induction |
| C56 | Every level of Eval does exactly its steps | proved | `PropsDriver.v`, `PropsNode.v` | functional relations for each step |
| C57 | Counts count | proved | `PropsNode.v` | structural induction |
| C58 | EvalRule answers for the start of the sample | partial | `PropsDriver.v` | corollary of C14/C15 |
| C59 | StringTree draws the tree | proved | `PropsShow.v` | parsing the drawing back (faithfulness) |
| C60 | Serialize lists the whole grammar | partial | `PropsSerial.v` | ledger and line invariants; witnesses |
| C61 | The command line shows the data of every text | partial | `PropsCli.v` | loop induction; witness |
| C62 | Rules from -rule count like lines of the file | partial | `PropsCli.v` | comparison of two histories; witness |
| C63 | A failing evaluation names a part of the grammar | partial | `PropsError.v` | induction on fuel; witness |
| C64 | Error messages are chains of descriptions | partial | `PropsError.v` | induction on the error; witness |
| C65 | Errors point at the right place | partial | `PropsError.v` | lock-step with positions and errors; witness |
| C66 | Eval says why a text is refused | partial | `PropsError.v`, `PropsExact.v` | loop induction; lock-step with the text semantics; witnesses |
| C67 | The outline shows the structure of a rule | partial | `PropsDetail.v` | margins distribute over the pieces |
| C68 | A printed result can be read back | proved | `PropsDetail.v` | counted runes are self-delimiting; C59 |
| C69 | The error is the reason | partial | `PropsError.v`, `PropsWhy.v` | lock-step with the text semantics; the relation of reasons is functional |
| C70 | A refused definition is refused where it goes wrong | proved | `PropsRefuse.v` | the parser with errors erases to the parser; induction on fuel over all its functions |
| C71 | The messages of the grammar functions say what is wrong and where | partial | `PropsRefuse.v` | line invariant; relations for the wording |
| C72 | The shipped JSON grammar reads JSON | partial | `PropsJson.v` | exact outcomes of the lexical rules, class LL with known rules, induction on values and texts; witnesses |
| C73 | Eval comes back | partial | `PropsEnds.v` | lock-step with rounds on texts; a state that comes back is never left |
| C74 | Rule names carry no meaning | proved | `PropsRename.v` | the answer commutes with the renaming, lock-step |
| C75 | Marks do not influence matching | proved | `PropsRename.v` | the same with marks erased |
| C76 | Parentheses and named parts do not change what is matched | partial | `PropsRefactor.v` | simulation by induction on fuel and on the rewriting; witnesses |
| C77 | Layout does not matter | partial | `PropsLayout.v` | two texts cut into common runes and exchanged runs; induction on the textbook relation; rounds |
| C78 | What has not been looked at has no influence | proved | `PropsLook.v` | every step of the evaluator keeps two streams alike up to the place reached; combinators for such steps |
| C79 | What EvalRule reports as read decides its answer | partial | `PropsLook.v` | the same with exact CharsRead; witness |
| C80 | Strings of bytes are handled as their runes | proved | `PropsBytes.v` | decoding commutes with cutting in front of a byte that continues nothing; trimming from the right finds the same runes as decoding from the left |
| C81 | The order of the definitions does not matter | proved | `PropsOrder.v` | acceptance, rules and roots expressed by the set of definitions; evaluation uses lookups only |
| C82 | What was read is the beginning of the string | partial | `PropsBytes.v` | round trip of UTF-8 and C14; witness |
| C83 | The text of a match is matched in the same way | partial | `PropsReread.v` | Text and the text it came from differ in layout only (C77); witness |
| C84 | Sharing arrays between slices does not show | proved | `PropsSlices.v` | relation between slices and lists, ghost record of how far each array is visible, private slices; lock-step through all evaluators |
| C85 | Merging tokens in place does not show | proved | `PropsSliceAst.v` | the evaluator gives every node an array got in this call, disjoint from those got before it; frame rule for passes that write in the arrays of their own tree |
| C86 | The shipped arithmetic grammar reads arithmetic expressions | partial | `PropsArith.v` | exact outcomes of the lexical rules; every match is the longest text of its kind and a shorter one is followed by something that goes on; induction on the length of the text; witnesses |
| C87 | The shipped arithmetic grammar reads expressions line by line | partial | `PropsArithRoot.v` | how far every rule looks behind its match, so that no step is unsafe; induction on the length of the text; witnesses |
| C88 | The shipped property grammar reads properties line by line | partial | `PropsProperty.v` | both outcomes of every rule on every text given in closed form, with a statement that nothing unsafe happens; run lengths; passes computed on the known shape of the tree; witnesses |
| C89 | The data-only level keeps the data of JSON | partial | `PropsJsonData.v` | passes computed on the known shape of the tree, induction on the value; witness |
| C90 | EvalEmbed finds the JSON values in a text | partial | `PropsEmbedJson.v` | the outcome of every rule without skipping compared with the one with skipping, by the first rune; induction on the cut; witness |
| C91 | NOT_SKIP skips nothing | partial | `PropsFirm.v` | induction on the textbook semantics: until text has been used the mode stays; witnesses |
| C92 | Without white space in front the modes agree | partial | `PropsSteady.v` | induction on the textbook semantics: on a text without white space in front the skipping and the non-skipping outcome agree; witnesses |
| C93 | EvalEmbed has no memory | partial | `PropsAfresh.v` | the loop compared on two streams with the same remaining text (C49), induction on its steps; witness |
| C94 | Evaluations have one answer | proved | `PropsStep.v` | more steps give the same outcome or one where there was none (EvalFuel.v), carried through the loops of the drivers |
| C95 | Simplified trees stay as they are | proved | `PropsStill.v` | reducing keeps the marks of the nodes it keeps (induction on trees), so that the other passes have nothing to do; idempotence of reducing |
| C96 | Levels of simplification one after the other | partial | `PropsRaise.v` | reducing keeps the named nodes with text, their nesting and the leaves outside named nodes with a mark (induction on trees); witnesses |
| C97 | Levels that have nothing to drop | proved | `PropsSpare.v` | induction on the trees of a grammar and on merging: no node has the mark; dropping by tests that agree on a tree is the same |

## Testing the theorems

In a scratch copy every definition of the model is edited as a realistic bug
would edit the program; all proofs that break are replaced by a temporary axiom,
so that one run shows every theorem that depends on the edit
(`Print Assumptions`). `seeded/LOG.jsonl` has one line per attempt (637 so
far): the definition, the edit, the claim it breaks, the theorems that failed
and those that were tightened after a survivor.

## Trusted base

* Coq's kernel (8.16.1) including its `vm_compute` machine, which closes the
  witnesses and examples.
* `Print Assumptions` prints "Closed under the global context" for every theorem
  in the `Props*.v` files (413 of them are listed in `MANIFEST.json`): no
  axiom, of our own or of the standard library, is used by any of them. (The
  seven `Coq.ssr.ssrunder.Under_rel.*` entries that a check of the loaded
  libraries lists are parameters of a module type of the standard library that
  comes with loading `lia`; no theorem depends on them.)
* The reading of the Go code by hand, as cited at every definition.
* Go library behaviour where cited: `utf8.DecodeRune`, `DecodeLastRune`, `EncodeRune`, `strings.TrimSpace`, `SplitN`, `Split`,
  `ReplaceAll`, `strconv.ParseUint`, `ParseInt`, `fmt.Sprintf` with `%d`,
  `%04d`, `%04X`, `%-*s`, `sort.Ints`, map semantics, `sync.RWMutex`.
* No functors, module types, plugins, admitted proofs or switched-off checks.
