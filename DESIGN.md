# Formal model of pandatix/go-abnf in Rocq/Coq 8.16.1

## Trusted base

* Coq's kernel (8.16.1) and the VM used by `vm_compute`.
* `Print Assumptions` is run after every theorem in `theories/Prop*.v`.
  The target is "Closed under the global context" for all of them; any
  exception is listed in the table at the end of this file.
* The model: Gallina definitions transcribed by hand from the Go source. Each
  definition carries a comment naming the Go file and lines, and states every
  simplification. The correspondence between Go and Gallina is *not* machine
  checked; the Go code is not built or run.
* The specification (`Spec.v`): the language of an ABNF rule after RFC 5234 and
  RFC 7405, as an inductive relation between syntax and byte strings.

## Conventions of the model

* bytes and runes are `Z`; strings used as names, numerals or keys are Coq
  `string`; input is `list Z`; positions are `nat`; Go `int` counts are `Z`
  (no wrap-around except where a definition says so).
* Go maps whose iteration order is observable are lists whose order is the
  iteration order; statements quantify over the order.
* loops and recursion that are not structural take a fuel argument and return an
  explicit out-of-fuel value; theorems either prove that enough fuel exists or
  are stated for results that are not out-of-fuel.
* Go panics (nil map write, division by zero, nil dereference) are explicit
  result values.
* mutable heap objects interned by a key are identified with their key.

## Layout

Definitions of the model are in the first files of a row, proofs in the following
ones; the theorems to read, their concrete cases and `Print Assumptions` are in the
`Prop*.v` file.

| files | models | theorems |
|---|---|---|
| `Syntax.v` | AST of `abnf.go`, core rules of `rules.go`, `GetRule` | `PropTerm.v` |
| `Spec.v` | specification: languages, UTF-8 (no code is modelled here) | |
| `Utf8.v`, `Num.v`, `Term.v` | `unicode/utf8`, `utils.go` numerals and bounds check, terminal matching | `PropTerm.v` |
| `Printer.v`, `PrintInj.v`, `PrintText.v` | `String` methods of `abnf.go`, `Grammar.String`, `PrettyPrint` | `PropPrint.v` |
| `ReadSpec.v` | specification: what an ABNF text says, after RFC 5234/7405 (no code) | |
| `AbnfDen.v`, `AbnfUnique.v`, `AbnfRead.v`, `AbnfForward.v`, `AbnfEval.v` | the grammar ABNF of `rules.go` and the evaluator on its trees | `PropRead.v` |
| `Slots.v`, `Lower*.v` | slot lowering and its budget (`sppf.go`) | `PropGll.v` |
| `Gll.v`, `GllUniv.v`, `Bsr*.v`, `Sppf*.v` | the GLL engines of `sppf.go` and `bsr.go` | `PropGll.v` |
| `Cost.v`, `CostProof.v`, `CostLow.v` | how often the loops of the engines run (`sppf.go`, `bsr.go`) | `PropCost.v` |
| `QueryCost.v`, `QueryCostProof.v`, `QueryCostLow.v` | how often the closures of the forest queries are called (`sppf.go`) | `PropQueryCost.v` |
| `LowerSize.v`, `CounterCost.v` | size of lowered grammars, cost of counters, the two budgets (`sppf.go`, `bsr.go`) | `PropBudget.v` |
| `RecogCost.v`, `RecogCostProof.v`, `RecogCostLow.v` | steps of the recognizer (`recognize.go`) | `PropRecogCost.v` |
| `RegexCost.v`, `RegexCostProof.v`, `RegexCostLow.v` | nodes of `regex.go` as pointers, steps of building, simplifying and rendering them | `PropRegexCost.v` |
| `AnaCost.v`, `AnaCostProof.v`, `AnaCostLow.v` | steps of `dag.go`, of the costs of `ast.go`, calls of the check of `generate.go` | `PropAnaCost.v` |
| `Names.v`, `NamesProof.v` | `utils.go:137-152`, `dag.go:102-138`, `regex.go:22-54`, `transition_graph.go:38-95` on any string as rulename | `PropNames.v` |
| `Spell.v`, `SpellProof.v` | `grammar.go:19-40`, `generate.go:21-43, 162-247`, `ast.go:78-168`, `sppf.go:78-129, 668-691`, `bsr.go:557-589` on any string as rulename | `PropSpell.v` |
| `Part.v`, `PartProof.v`, `PartRecog.v` | no code of its own: `part`, the rules a root needs, and the same calls on both grammars | `PropPart.v` |
| `AstOrder.v` | (proof only) `ast.go:94-166` in two orders, and on a part of the rules | `PropAstOrder.v`, `PropPart.v` |
| `RuleOrder.v` | (proof only) `leftrec.go` and `dag.go:180-237` on two lists of the same map | `PropRuleOrder.v` |
| (none) | `grammar.go:80-106, 162-194` as modelled by `ParseAbnf.v` and `Eval.v` | `PropJoin.v` |
| (none) | `grammar.go:80-106`, `rules.go:516-1866` as modelled by `ParseAbnf.v` and `Syntax.v` | `PropLayout.v` |
| (none) | `grammar.go:80-106, 162-194` as modelled by `ParseAbnf.v` and `Eval.v` | `PropSame.v` |
| `Evaluate.v` | `Parse`, `EvaluateABNF` and `evalForest` (`grammar.go:108-131`) | `PropEvaluate.v` |
| (none) | ParseABNF with the parsers, IsValid and Generate, as modelled before | `PropText.v` |
| `BsrQueryCost.v`, `BsrQueryCostProof.v`, `BsrQueryCostSim.v`, `BsrTower.v` | calls made by `bsr.go:315-553`, `codegen.go:657-867` | `PropBsrQueryCost.v` |
| `Between.v`, `Marked.v`, `Apart.v`, `RecogUpper.v`, `MarkCore.v`, `RecogLower.v` | (proof only) grammars that differ in `%s` | `PropBetween.v` |
| `TreeSpec.v` | specification: derivation trees (no code) | |
| `Tree.v`, `TreeProof.v`, `TreeSound.v`, `TreeComplete.v`, `TreeLang.v`, `TreeCount.v` | `Forest.Tree/Nodes/Ambiguous/NumTrees` (`sppf.go`) | `PropTree.v`, `PropNodes.v` |
| `BsrTree.v`, `BsrCount.v`, `BsrTable.v`, `BsrTreeProof.v` | `BSRForest.Tree/Ambiguous/NumTrees` (`bsr.go`), the same of `Result` in the emitted file (`codegen.go`) | `PropBsrTree.v` |
| `BsrTreeSim.v` | (no code) the queries over two representations of slots | `PropCodegenTree.v` |
| `BsrOrder.v` | (no code) final states of two runs of the engines | `PropOrder.v` |
| `BsrSppf.v` | (no code) unfoldings of a BSR set against those of the SPPF nodes | `PropEngines.v` |
| (no new model) | `GenerateGoParserFromABNF` (`codegen.go`); which rules can be written | `PropFromAbnf.v`, `PropWritten.v` |
| `Mermaid.v` | `ToMermaid`, `mapNodes`, `elemToString` (`transition_graph.go`), `Depgraph.Mermaid` (`dag.go`) | `PropMermaid.v` |
| `Front.v` | where a left-to-right derivation can stand, on the grammar (specification and its agreement with the slots) | `PropReport.v`, `PropHint.v` |
| (in `PropComments.v`) | `slotComment`, `symStr`, `sanitizeComment` (`codegen.go`), labels (`sppf.go`) | `PropComments.v` |
| (no new model) | the fuzz targets and invariants of the test suite, as compositions | `PropInvariants.v` |
| `Deps.v`, `Errors.v`, `Furthest.v` | `getDependencies`, `SemvalABNF`, `newParseError`, furthest failure | `PropSem.v` |
| `Tape.v` | entropy sources of `fuzz.go`, `ast.go` | `PropTape.v` |
| `Eval.v`, `EvalProof.v` | evaluator part of `grammar.go` | `PropEval.v`, `PropRedefine.v` |
| (no new model) | the grammar ABNF of `rules.go` read by itself (`grammar_test.go:243`) | `PropSelf.v` |
| `ErrText.v` | the `Error` methods of `errors.go`, `regex.go`, `sppf.go` | `PropErrText.v` |
| `Pap.v` | functional options (`option.go` and others), commands of `cmd/pap` | `PropPap.v` |
| `Dag.v`, `Cycle.v` | `dag.go` | `PropDag.v` |
| `LeftRec.v` | `leftrec.go` | `PropLeftRec.v` |
| `Recog.v`, `RecogProof.v`, `RecogComplete.v`, `RecogGlue.v`, `RecogCheck.v` | `recognize.go`, `Grammar.IsValid` | `PropRecog.v` |
| `Generate.v` | `generate.go` | `PropGenerate.v` |
| `AstSpec.v` | specification: sizes of derivations, reachable names (no code) | |
| `Ast.v`, `AstProof.v`, `AstCost.v`, `AstVisit.v`, `AstTerm.v` | `ast.go` | `PropAst.v` |
| `RegexSpec.v` | specification: languages of characters, meaning of nodes, a reader of regular-expression texts (no code) | |
| `Regex.v`, `RegexRead.v`, `RegexSimp.v`, `RegexBuild.v` | `regex.go` | `PropRegex.v` |
| `GraphSpec.v` | specification: paths of a graph and what they spell (no code) | |
| `Graph.v`, `GraphRun.v`, `GraphClone.v`, `GraphRep.v`, `GraphRepeat.v`, `GraphBuild.v`, `GraphTotal.v`, `GraphAlloc.v`, `GraphSimple.v` | construction part of `transition_graph.go` | `PropGraph.v`, `PropAlloc.v`, `PropSimple.v`, `PropOnce.v`, `PropServed.v`, `PropRenumber.v`, `PropRenumberWalk.v`, `PropLimits.v` |
| `GraphLabel.v`, `Walk.v`, `WalkProof.v` | labels of built graphs; `NewGenerator`, `walk`, `Generate` of `fuzz.go`, `nodeEmit` of `transition_graph.go` | `PropWalk.v` |
| `NearMiss.v` | `NearMiss`, `nearMissCandidates`, `numvalRange` of `fuzz.go` | `PropNear.v` |
| `Reader.v`, `ReaderProof.v` | the reader of `transition_graph.go` in the mode CoverageAllTrails (`prepare` … `Scan`, lines 299-629) | `PropReader.v` |
| `Compact.v`, `CompactProof.v` | the mode CoverageCompact (`buildCompact`) | `PropCompact.v` |
| `GoScope.v` | specification: scopes and types of the emitted statements (no code) | |
| `Codegen.v`, `CodegenStmt.v`, `CodegenProof.v`, `CodegenGlue.v`, `CodegenScope.v` | emission functions and runtime of `codegen.go` | `PropCodegen.v` |
| `Check.v`, `Occ.v` | executable checks that discharge hypotheses in cases (no code) | |

## Per property plan

For every property of `properties.jsonl`: what is modelled and how it is proved.

* C01-C04 (`IsValid`): `reachAlt/Concat/Rep/Elem/LeftRec` with memo, in-progress
  and growing tables, `String()` keys and an oracle for every map range. Soundness
  by induction on fuel with the invariant "every set in memo/growing is included
  in the true end set". Completeness, left recursion included, by induction on the
  height of derivations relative to the live seeds, for grammars whose groups are
  not themselves left recursive and counts the loop cannot cut; the general
  statements are refuted by concrete grammars (key collisions, groups cached during
  seed growing, the `len+2` cap, the early break of the counting loop, the nil-map
  panic after a split component). Termination holds for every grammar.
* C05-C08 (GLL engines): slot grammar as a pushdown machine; soundness by an
  invariant over descriptors, GSS edges and pops; completeness by induction on
  derivations at a closed work list; termination by counting descriptors.
* C09, C10 (lowering): state-passing model of `lowerer`; language equality by
  induction on derivations both ways, under the hypothesis that the dedup keys
  identify the expressions; refuted without it.
* C11-C13 (forest queries): models of `Tree`, `NumTrees`, `Ambiguous` on the
  node table. The unfoldings of the root (a pack chosen at each node) are proved
  sound and complete for the derivation trees of `TreeSpec.v`, up to the number of
  occurrences shown for a repetition; first packs point to older nodes, so `Tree`
  is well founded on cyclic forests too. Exactness of counts is refuted for bounded
  repetitions, since forest nodes do not carry the count.
* C14: `newParseError` by induction on the scanned prefix.
* C15, C16: digit strings of any length, by induction and positional arithmetic.
* C17: `semvalAlternation`, `getDependencies` by structural induction.
* C18: `DecodeRune` model against the UTF-8 encoding function.
* C19: list model of the map, all orders; for ASCII names (C84 for the others).
* C20, C21, C45: Tarjan as written (index 0 is also "unvisited"), graph invariant
  proof; IsDAG refuted on self loops.
* C22, C23: structural induction / least fixpoint.
* C24, C25, C46: the nodes have a language of characters; building a rule gives a node
  for the rule's language (induction on fuel, with the memo invariant) and simplifying
  keeps it. The text is read by an independent reader of RE2 syntax (`RegexSpec.v`)
  in exactly one way, and the result means what the node means (induction on the node
  with the precedence of its context). Counts up to the limit of package regexp
  (a parameter) and no range of a single surrogate; refuted otherwise. Not modelled:
  the limit of package regexp on the product of nested counts, flags, and matching of
  text that is not UTF-8. The length limit is exact for every grammar.
* C26-C28: `ast.go` with the table of minimum costs computed in any map order, and
  generation over an arbitrary decision source (the tape is one). Output in the
  language by induction on fuel. Ending: at the fixpoint the cost of a definition is
  that of its rule, so the cheapest choices only enter strictly cheaper rules;
  below the depth option by induction on the distance to it. Acceptance: a finite
  cost gives a finite derivation, and a derivation of at most 2^30 bytes and rules
  bounds the cost; the visit closes under references. `int` products wrap as in Go;
  the text of error messages is not modelled.
* C29, C30, C49: `generate.go` over an arbitrary stream of non-negative draws, any
  options. Output in the language for grammars whose terminals render; the check of
  `checkCanGenerateSafely` ends always and accepts exactly the rules that have a word
  (invariant: rules on the path have no derivation shorter than the one looked for).
  Go's `int` does not wrap around in the repetition counts; ErrTooLargeNumeral and the
  joined error texts are not modelled (only which rule a cyclic error names).
* C31, C32: `transition_graph.go` construction over an explicit heap of nodes; every
  part built is a closed region of the heap whose runs from entry to end points are
  the words of the part, regions of different parts are disjoint, and buffered rules
  stay untouched. Clones are isomorphic copies of the nodes reachable from the entry
  points. The count kept bounds the size of the region. Node identifiers (UUIDs) are
  taken to be distinct. A clone allocates one node for each original it adds to its map
  and one more for each entry point already there; no node is twice among the entry
  points, so the nodes allocated are at most twice the count.
* C33: walks over an arbitrary decision source. Every walk ends: past the step bound
  each step brings the node nearer to an end point (distances of the backward search).
  What was emitted is spelled by a path, so by C31 it is a word, for terminals that
  render and rules with a word.
* C36, C50, C51: candidates are checked by IsValid, so what is returned is no word
  where IsValid is exact (C02). Each candidate is the base changed as its label says
  (the texts of labels are not modelled, their arguments are). No word has the byte
  0xFF, and a candidate ends with it, so one is always found.
* C34: the trails ahead of a state of the backtracking search are a list; each step of
  `nextLeaf` takes its head, and the levels end since a trail has no more edges than
  the graph. The reader answers any sequence of calls of Next and Scan as that list
  would. Membership of the productions by C31 as for C33.
* C52, C53: both searches give trees of parents, climbing them gives paths from an entry
  and to an end; each edge and node found by both is on a walk taken. The cursors of
  values are invariantly values already emitted, and a walk is emitted again until all
  its nodes are exhausted. A measure of values left bounds the number of productions.
* C35: the states of the frontier (node, emission, position) are those a path from an
  entry point reads the prefix to. Safe direction for every graph whose nodes have no
  empty word; exact when each terminal has all choices of one octet per position and no
  node is a dead end.
* C54: carried with the invariants of C31: each part's nodes reach its end points and
  end points are reached, kept by links, unions, clones, chains and loops. It gives the
  absence of dead ends used by C35, and a word for C33.
* C37, C47: arithmetic on byte lists.
* C38, C39, C41: evaluator over rule definitions, with the global core table as
  explicit state.
* C40: the printed form of a definition that can be written at all is a text that
  says it again, without `%s` (induction on the text, `PrintText.v`); with C55 (one
  meaning per text) equal prints come from definitions equal up to `%s`. The round
  trip goes through the evaluator by C56. Refuted for `%s` and the empty grammar.
  `PropWritten.v` decides which rules can be written.
* C55: denotation of each nonterminal of the ABNF grammar as a predicate on spans
  (`AbnfDen.v`), then unique ends given the next byte (`AbnfUnique.v`); texts and
  trees are converted in both directions.
* C56: the evaluator on the tree of a text performs the definitions the text is taken for
  (`text_taken` in ReadSpec.v): those it says, except that `=` is taken for `=/` where these
  characters stand in a comment around it. Without such comments it is what the text says;
  with them that is refuted.
* C57: `parse_abnf` (ParseAbnf.v) composes the model of the GLL engine on the ABNF
  meta-grammar, the forest queries, the evaluator and `SemvalABNF`. `C57_rejects`,
  `C57_accepts` hold for every option; `C57_reads` and
  `C57_round_trip` for the default core-rule option and every text, in terms of what it is
  taken for (C56); `C57_reads_partial` in terms of what it says (refuted for `=/` in a
  comment next to an operator). Uses AbnfLocal.v: no part of
  an ABNF text can be divided in two ways, and PropTree.v
  `C13_undivided_not_ambiguous`: then `Forest.Ambiguous` is false.
* C42-C44: the emission functions of `codegen.go` return statements of a small language
  (`Codegen.v`) with an evaluator; the runtime part of the file (`add`, `create`,
  `pop`, `record`, `Parse`, `Valid`) is modelled beside it. Each emitted case does what
  `process` of `bsr.go` does on the same slot (`CodegenStmt.v`, `CodegenProof.v`), so
  the runs agree step by step. `GoScope.v` is a specification of what the Go compiler
  demands of the variables (scope, types, use of locals and imports); `CodegenScope.v`
  proves it for the emitted cases. Not modelled: text layout, comments other than those of the cases (C68), go/format, the
  fixed text of the file that does not depend on the grammar (its queries are: C61).
* C58-C60: one model of the three queries over an index of elements (`BsrTree.v`),
  instantiated for `BSRForest` and for the `Result` of the emitted file. The index keeps
  the elements in the order buildIndex ranges over the map, which is any permutation of
  the set. The set of a parse corresponds to the node table of the SPPF engine run in a
  matching order (`BsrTable.v`), so soundness and completeness of unfoldings carry over;
  counting and cycle detection are proved for any index (`BsrCount.v`).
* C61: the queries of the two files are one definition over two representations of
  slots; slot numbers code valid slots one to one, tables agree through the code
  (`BsrTreeSim.v`), and the sets are permutations of each other by C42 and C62.
* C62: a final state of the engine is closed under its steps, and every run stays within
  any closed state (`BsrOrder.v`), so two runs end with the same set; the SPPF engine by
  its simulation. Counts, being numbers of unfoldings, agree; without ambiguity every
  reachable node has one way, so the trees agree. Holds for every grammar.
* C63: the walk of `Nodes` sees every reachable node once (`PropNodes.v`).
* C64: unfoldings of the BSR set map onto unfoldings of the SPPF nodes, children for
  children (`BsrSppf.v`); the map is one to one unless two elements of a node have equal
  children. Intermediate nodes carry their slot and the last child gives the pivot, so
  only complete slots of productions of one or two symbols can collide; `twin_free` says
  on the grammar that they do not, and `twin_freeb` decides it for an input.
* C65: the fuzz targets on the grammar of ABNF. It is not left recursive and its counts
  are small, so the hypotheses of C02 hold for every input (checked by computation on
  the grammar); C29 and C57 give the rest. The draws are any sequence of non-negative
  numbers: which of them a seed of math/rand gives is not modelled.
* C66: composition of C02, C05, C06, C42 and C24; of C29 and C02; of C57 and the
  independence of `String` from `%s`.
* C67: `generate_from_abnf` is ParseABNF followed by GenerateGoParser. Texts only say
  well-formed rules (`PropWritten.v`), so the hypotheses of C42 and C44 hold of every
  grammar ParseABNF returns. Formatting (`go/format`) and the package clause are not
  modelled; cmd/abnf-gen adds flags and files around this function.
* C68: the text of the comment of each case of the emitted switch, from the labels of the
  nonterminals (recovered from the dedup keys). Printed forms of rules that can be
  written are printable ASCII.
* C69: the text of both drawings is modelled as a string; it is read back by cutting it into
  lines. The map of nodes is visited in any order; IDs are any distinct texts of hexadecimal
  digits and hyphens (UUIDs). `mapNodes` is proved to end on every heap. The fuzz targets are
  composed from C31, C34, C57 and C67, for every option of `TransitionGraph`.
* C70: `reaches g e w t` (`Front.v`) says on the grammar that a left-to-right derivation of
  `e` reads `w` and wants the terminal `t` next; `fails_iff` shows it agrees with the slots
  of C48 when lowering keeps elements apart. Order independence comes from C48 alone.
* C71: `error_text` is the text of `ParseError.Error`; bytes are enumerated by computation,
  the text is cut at the digits. `%q` is modelled for printable ASCII only, which is where
  the code uses it.
* C72: words of the rules used below `rulelist` have CR and LF only in pairs (checked rule
  by rule on the model's grammar of ABNF), so no derivation gets past a bare line feed; the
  CR of the intended text is wanted there, since every byte of a sentence is wanted by a
  terminal at its place.
* C73: over the definition loop of C38 with the option set; the specification is a fold over
  the definitions of one name. Entries are looked up by name, so the map order drops out.
* C74: each command is its code between reading the input and printing; the theorems compose
  C57 (reading), C40 (printing), C30 (generating), C24 and C25 (regular expressions) and C69
  (drawings). Two runs of `generate` with the same seed are compared through C48: reading
  gives the same map whatever the orders. Not modelled: parsing the command line
  (urfave/cli; a flag is given or not, with its value), files and standard input, signals
  and the version text of `main.go`, `cmd/abnf-gen/main.go` around C67.
* C75: an option is a constructor with its value; applying a list is the fold of the loops in
  the code. The specification says "the last one given, else the default".
* C76: `Cost.v` repeats the functions of both engines and counts the iterations of their
  loops (descriptors, alternatives, symbols, edges, pops, continuations); map lookups and
  insertions count one, a terminal match its characters. Packs that `addPack` compares are
  counted apart. The upper bounds
  are sizes of the universe of descriptors, edges and pops times the work each can cause;
  the constant is fixed by grammar and rule before the input is chosen. The lower bound
  takes the packs every run must add on s = s s / "a" and sums the scans. Not modelled: the
  costs of hashing, of growing slices and maps, of garbage collection; the queries over a
  finished forest are C79.
* C77: C57 on texts that define each rule of ABNF once, with the sixteen core rules and the
  names of ABNF compared by computation; String and PrettyPrint print such texts by C40.
  Lowering reads a grammar through `GetRule` only, so it does not see the order of the rules.
* C78: the errors of the evaluator and the validation carry what the code stores in them; the
  validation is followed to the place where it stops. Texts are compared by their constant
  beginnings and ends.
* C79: `QueryCost.v` repeats the walks of `Tree.v` and counts the calls of the closures. A
  walk spends one call per child of a pack of a node it sees first, so calls plus the links
  of the nodes seen before never exceed one plus those seen after. For `Tree`: the first pack
  of a node has children allocated before it, so the nodes on a path with one span are
  distinct and at most 2S+1 (S slots); spans divide along packs. The family of the refutation
  is lowered by induction on its height. Not modelled: the cost of arithmetic on the big
  integers of `NumTrees`.
* C80: `size` counts the concatenations, repetitions, groups, options and values of the
  grammar and the core rules; bounds count for nothing. The dedup keys of lowering are
  listed in advance, so nonterminals and slots are bounded by their number. The times are
  those of C76 with the constants worked out from `size`. The lower bound for counters:
  each descriptor seen costs a step, and every count from 0 to N is seen.
* C81: `RecogCost.v` repeats the recognizer of `Recog.v` and counts the iterations of its
  loops, the copies of sets included. Every key that is computed pays for the loops of its
  body, which run over at most n + 1 positions each; a key is computed once, since a memo
  entry is never removed. The lower bound follows the levels of one repetition exactly. The
  cost of the analysis of left recursion, which does not see the input, is not counted.
* C82: `RegexCost.v` models the nodes of `regex.go` as places of a heap, so that what is shared
  is shared, and counts nodes, bodies of simplify, elements appended there and calls of render;
  the results of simplify are values. A simulation relates each step to the step of `Regex.v`
  on trees, which settles the claim of its comment that sharing and copying are the same. The
  cost of the search for cycles (`dag.go`), of sorting ranges and of writing bytes is not counted.
* C83: counts calls of strongconnect (the counter of `dag.go:200` itself), passes of the loop of
  NewASTGenerator (the fuel that is enough) and, in `AnaCost.v`, calls of ruleCycleVisit and of
  checkCanGenerateSafelyAlt. That passes are linear is
  Knuth's argument: a reference costs more than the rule it names, so pass t settles the t-th
  cheapest rule; products must not overflow (counts up to 2^33).
* C84: `Names.v` models strings.EqualFold on any byte string against an ASCII name (runes by
  DecodeRune; U+017F folds to s, U+212A to k, the ASCII letters by case, no other rune to ASCII) and
  strings.ToLower, unicode.ToLower being any function with the right values on ASCII, U+017F and
  U+212A. Every other file compares names as ASCII: `C84_ascii_names` shows it is the same for ASCII
  names. The names a grammar holds are ASCII (`lex_grammar`). The other entry points
  under such a rulename: C89.
* C85: `BsrQueryCost.v` repeats the walks of `BsrTree.v` and counts the calls of countSym,
  countInter, countElem, of symAmb, interAmb, elemAmb, and of collectElem, collectChild. Building
  the index, the loop over the productions of a nonterminal in each call and the size of the integers
  are not counted. A Result that comes from an exhausted budget is left out.
* C86: lowering keys are the same with and without `%s`, so lowering two grammars that
  differ in `%s` only runs in lockstep and gives slot grammars equal up to terminals
  (`Between.v`); derivations carry over from the one with more `%s`. Marking all strings, or
  none, gives a grammar that is told apart (`Marked.v`), where C09 applies.
* C87: the soundness argument of C01 with the derivations of the grammar without `%s`
  (`RecogUpper.v`): they do not depend on `%s`, so a memo entry shared by two elements alike but
  for `%s` is sound for both.
* C88: the completeness argument of C02 with the derivations of the grammar marked `%s`
  throughout (`MarkCore.v`, `RecogLower.v`), core rules included since they share keys with the
  strings of the grammar. Sets found are bounded above by C87 and below by these derivations. A
  memo hit gives only the lower bound, which suffices: rules grown together are stored together
  and never while they grow, so no seed is in reach of what is stored.
* C89: `Spell.v` writes the first call of each entry point for any byte string; all later names
  are the grammar's. IsValid: under a name that is not ASCII the first key is no key of the grammar,
  so the argument of C02 applies to the alternatives of the rule with nothing in progress. Generate:
  the set of known rules holds the name given, which folds like the ASCII one. The parsers: the
  slot grammar is that of the grammar with the rule added under the name, up to the rule name kept
  for display (`ruleName`), and that grammar has the same words; so the parsers return, within their
  budgets, by the arguments of C07, C08 and C10. Not shown: what their forests hold beyond the verdict. Names in
  errors of visitAlt are those of `Ast.v`, which drops "reachable from".
* C90: on a name that the part and the grammar give the same rule, lowering, generation, cycle
  search and graph construction make the same calls, and those lead only to such names. IsValid: the
  components found in the grammar, kept for those names only, are the classes of the part, as left
  corners lead from them to such names only; the argument of C02 then applies to the part. Core rules
  count as written in every part, so a redefinition of one that another core rule names must be in
  it. NewASTGenerator: its costs are found in rounds over all the rules, and agree on those names
  by the argument of C91.
* C91: the costs a run ends with are a lower bound of every table met by a run in another order, as
  one more pass would not lower them and costs grow with those of the rules named; so two runs
  end with the same costs, and the visit and the walk read nothing else. Costs grow so only if no
  product wraps, hence the bound on counts.
* C92: Rulemap is modelled by the list of its rules; this shows that the list is read as a map. Apart
  from IsValid it is C90 for a part that holds all the rules. IsValid: the nullable names are a least
  fixpoint, reached in every order; the graph of left corners is then the same map and Tarjan's search and the
  recognizer make the same calls. Only the error SemvalABNF names depends on the order (`C92_case_error`).
* C93: `C93_text` says what a text followed by another says; `C93_union`, `C93_swap` and `C93_clash` follow from
  C57 (the grammar ParseABNF returns is the one the definitions give) and from lists of definitions put together.
  With WithRedefineCoreRules it is not stated (C39). `C93_case` has a text that is only valid followed by another.
* C94: the evaluation of the one tree of a text gives what its definitions give (C55, C56), so equal definitions give equal
  results; `C94_bytes` is by induction on what a text is (ReadSpec.v), and `C94_refuses` follows from C57.
* C95: C57 determines the rules and, being the first wrong definition, the error; C70 the parse error; with
  WithRedefineCoreRules it is C73. Which error the validation returns depends on the order (`C95_validation_refuted`).
  `C73_validated_partial` (same file) adds the validation to C73.
* C96: `evaluate_abnf` is stated on the input the forest was parsed from; with C05, C11 and C55 the tree is
  the one ParseABNF takes. `duplicateMap` (`generate.go:249-253`) is the copying of a list, which is not
  modelled as a step; the wrappers of `transition_graph_fuzz.go` only pass the inputs of the fuzzer on.
* C97: C57 gives the rules up to their order, C67 that they are well formed, C92 that their order does not
  matter, and C02, C05, C06 and C29 the verdicts.
* C98: the invariant of C31 (parts are closed and disjoint regions of the heap) gives that an edge appended
  without a look at Nexts is new; clones of distinct nodes are distinct; where parts overlap (loops of
  repetitions, the last copy of a chain) the code looks first. A clone may have the empty node several times
  as end point (end points that no entry point reaches); every repetition drops the copies. `PropOnce.v` draws
  the consequences for graphs built: the reader of C34 serves each trail once and each choice of emissions along
  it once, the covering set of C53 is bounded by the nodes, and a drawing of C69 has one line an edge.
* C99: the list served in the proof of C34 is the concatenation of the levels 1, 2, ..., and the index vectors
  of a trail are met once each; that trails do not repeat is C98.
* C100: canReach is the least set closed under its rule, whatever the order of the passes, so two preparations
  differ at most in the order in which canReach lists its members; the rest of the code only asks for membership.
  The code tells nodes apart by random IDs, the model by addresses; that the IDs are distinct is assumed.
* C101: the functions of the reader are shown one by one to commute with an injective renaming of the nodes;
  counters indexed by nodes or edges agree on renamed indices.
* C102: the same for NewGenerator and walk; the fuel of the collecting loop may differ, but neither run needs more
  than it has (C33).
* C103: over a limit, each step lowers the distance to an end point (C33), and distances are below the number of
  nodes that reach one; bytes and segments are counted along the induction over the walk.

## Where the code does not do what the property says

Each line is a theorem about the model (`*_refuted`); the witness is in its proof.

* C01, C02: memo keys are `String()` texts, which drop `%s`; `"x"` and `%s"x"` share
  an entry (recognize.go:133). C87 says what holds of C01 without the restriction, C88 of C02.
* C88: `"A"` of HEXDIG and a `%s"A"` of the grammar share an entry as well.
* C02: a left-recursive group is memoized while the seed of its rule still grows
  (recognize.go:146-151); the counting loop stops at `len(input)+2`
  (recognize.go:88-89) and when nothing new is seen (recognize.go:116).
* C03, C04: `index == 0` also means "not visited" in the component search; a rule
  left recursive directly and through another one is split off, and growing it
  writes to a nil map (recognize.go:184-187). Depends on the iteration order.
* C21: a rule referring to itself is not a cycle for `IsDAG`.
* C05, C06, C09: dedup keys of the lowering drop `%s` as well. The theorems ask
  `told_apart` (`Spec.v`): no two groups, options or counted repetitions of the grammar (or
  the core rules) alike but for `%s`; one string may still be used both ways. C86 says
  what holds without it.
* C11-C13: a symbol node of a repetition does not record how many occurrences are
  left, so packs made for one count are shared with another: `Tree` may return a tree
  with a wrong number of occurrences, `NumTrees` counts it, `Ambiguous` sees it.
* C24: an undefined rule is taken as the empty text; `3*1""` likewise.
* C25: `%xD800-D800` is written as U+FFFD; `1001%x78` as `x{1001}`, which package
  regexp rejects.
* C26: a surrogate inside a range is written as U+FFFD; `5*3"x"` is written five times.
* C27: the product in `mulClamp` wraps (ast.go:369-380), so `a = "xxxx" /
  4611686018427387904("xxx" a)` is accepted and never ends.
* C28: `1073741824"x"` is rejected as non-productive; `%xD800` is accepted although it
  derives nothing.
* C29: a prose-val is written as nothing, a surrogate in a range as U+FFFD, a reversed
  bound as its minimum.
* C30: `17*"x"` with the default options divides by zero (generate.go:55); generation
  may go on for ever although the check passed.
* C31: with deflateNumVals `%x61.62` becomes two alternatives; the theorem for that
  option says exactly which language results.
* C32: `cloneTG` runs again for each entry point, also when its clone exists, so more
  nodes are allocated than `countReachable` reserved (at most twice as many,
  `C32_allocations_twice_partial`); the product in `reserveClones` may wrap.
* C33: a surrogate inside a range is written as U+FFFD; a node with an empty range, and
  a rule without words, give the empty word.
* C34: a path with a node that is not a terminal (rules not deflated) gives no
  production; a surrogate inside a range is written as U+FFFD.
* C35: octets of a multi-byte range are mixed by position, so `%xFF-100` is said to
  continue C3 with 80, and C3 80 is accepted. With deflateNumVals an empty range leaves
  a dead end; without it there is no reply after some prefixes.
* C36: IsValid rejects the word `x` of `5["x"]` (see C02), and NearMiss returns it.
* C38, C39: `=/` on core rules and redefinition of core rules.
* C40: `String` drops `%s`; the empty grammar prints as a text that is not ABNF.
* C43: the emitted `Parse` looks at `aborted` only when it takes a descriptor
  (codegen.go:874-882), so a budget exhausted by the last one gives a verdict, which may
  be a wrong no.
* C44: for a prose-val and for a series with a value outside Unicode the match is
  `return`, followed by statements reading the undeclared `j`; a call of a nonterminal
  without productions leaves `v` unused.
* C56: `=/` inside a comment next to a defining operator makes the rule an
  incremental one (grammar.go:205).
* C41: repeat counts saturate at the largest int.
* C45: the component of the first visited rule.
* C58: on a cyclic set the tree may miss leaves, since a node being visited is dropped:
  `a = a / "x"` reads `x` as a(a()) (bsr.go:531-533). `Forest.Tree` has no such case. A
  terminal that matches nothing is shown as an empty leaf, which `Forest.Tree` drops
  (bsr.go:527).
* C59, C60: `"x" / "x"` counts as two trees and as ambiguous, since elements carry their
  production; `Forest` counts one.
* C61: the Result of a parse that ran out of budget (see C43) counts no tree where
  `BSRForest` counts one.
* C62: with several trees, which one `Tree` returns depends on the order Go ranges over
  its maps: over the element map for `BSRForest`, over the popped nodes for `Forest`.
* C64: `a = "x" / "x"` has NumTrees 1 for ParseForest and 2 for ParseBSR; Ambiguous
  differs in the same way (addPack, sppf.go:252-270, drops equal children).
* C65: FuzzRegex tolerates ErrRuleNotFound and ErrHandlingProseVal, but a generated text
  such as `A=0A;` is a valid grammar and Regex answers ErrCyclicRule (regex_fuzz.go:20-27).
* C66: on `a = (a "x") / "y"` and `yx` the engines disagree with IsValid; `3["x"]`
  generates the empty text and IsValid refuses it (see C02). `String` ranges over a map,
  so with two rules it need not return the same text twice (grammar.go:46-52).
* C67: the parser emitted from the text `a = 2%s"x" / 2"x"` refuses `XX`: the two
  repetitions print alike and share a nonterminal (sppf.go:150).
* C68: only terminals go through `sanitizeComment`; the label of a group holding a quoted
  line feed (a grammar built by hand) ends the comment early, and the rest of the string
  is compiled as code (codegen.go:384-430).
* C69: labels drop characters up to the space, so `"x "` and `"x"` have the same label
  (`C69_labels_refuted`); `Depgraph.Mermaid` writes the rule as it is defined and its
  dependencies in lower case, so no path of two lines is drawn for the core rules
  (`C69_depgraph_refuted`).
* C70: with `a = 2%s"x" / 2"x"` on `Xy` the failure at offset 1 is not seen
  (`C70_report_refuted`, same cause as C09); with `a = "x"` on `xy` the report is
  `unexpected "x"` at offset 0 although the parser read the `x`: only failed terminals move
  the offset, not input left over (`C70_reached_refuted`, errors.go:42-44).
* C71: a quoted string with a line feed (a grammar built by hand) is listed as it is, so the
  error text has two lines (`C71_one_line_refuted`).
* C73: `bit = "x"`, `BIT = "y"`, `Bit =/ "z"` with the option: the map is keyed by spelling,
  so two rules remain and the iteration order decides which is extended
  (`C73_spelling_refuted`, grammar.go:170-190).
* C74: `--deflate-rules=false` (and the two others) deflates: the flag is tested with
  `IsSet`, its value is not read (`C74_flags_refuted`, `C74_flag_values_ignored`,
  commands/transition_graph.go:55-63). `generate` panics on `a=17*"x"` with no flag
  (`C74_generate_panics_refuted`, see C30). What `validate` prints ends with the line feed of
  `Println` after the last CRLF, so every command refuses it at its last byte
  (`C74_output_refused`, commands/validate.go:45). Without `--seed` at most 256 texts can
  come out (`C74_unseeded`, commands/utils.go:20-29).
* C76: `ParseForest` is documented as O(n^3) time (sppf.go:14-15, 665-667, grammar.go:111).
  `addPack` scans the packs of the node for a duplicate (sppf.go:252-269), and a node can
  have n of them: on s = s s / "a" no multiple of n^3 bounds the comparisons, n^4 does
  (`C76_forest_time_refuted`, `C76_forest_time_partial`). `ParseBSR` looks up a map and is
  cubic; so is the space of both.
* C79: extraction is documented as polynomial over the forest (sppf.go:22-23). `Tree` writes
  out what the forest shares: on a = aa aa, aa = aaa aaa, ..., the last rule = "" and the
  empty input, no polynomial in the size of the forest bounds it (`C79_tree_refuted`). For
  one grammar it is linear in the input (`C79_tree_linear`).
* C80: `WithMaxForestNodes` is documented to cap the time and memory of `ParseForest` on
  adversarial input, which with `WithMaxSlots` makes it safe on untrusted grammars
  (sppf.go:636-645, 664-667). Counters of repetitions live in descriptors, which no budget
  counts: `a = N*N["x"]` takes at least N steps on the empty input with 4 slots and 24 nodes
  allowed (`C80_counter_steps`, `C80_budget_time_refuted`). The comment that m*n lowers to
  about n nonterminals (sppf.go:641-645) is out of date: it is one (`C80_lowering_size`).
* C81: the comment of `reachRep` (recognize.go:79-85) says that its break keeps an unbounded
  repetition over an element with large reach-sets at O(n^2). `*(1*"a" / "b")` on a's then as
  many b's reaches one new position in each round and takes a cubic number of steps
  (`C81_repetition_cubic`, `C81_repetition_quadratic_refuted`).
* C82: simplify (regex.go:226: "linear over the DAG") flattens a concatenation into the one
  around it by copying its parts (regex.go:253), so a = aa aa, aa = aaa aaa, ... makes 2^n parts
  before render looks at the budget, and render's loops go on over them once it is exceeded
  (regex.go:400-409). WithMaxRegexLen therefore does not fail fast (regex.go:18-19), even where
  the text is short: `a %x110000` is written in 18 bytes (`C82_linear_refuted`).
* C83: the check before Generate (generate.go:162-247) keeps no result and checks every
  alternative even when one is known to be safe, so a = aa / aa, aa = aaa / aaa, ... costs 2^n calls
  before the one byte is generated (`C83_check_polynomial_refuted`). The first rule of the map has index 0, which
  is also the mark of a rule not yet seen (dag.go:190, 212), so it may be searched twice (`C83_case`).
* C84: GetRule folds U+017F to s (strings.EqualFold) but RuleContainsCycle looks its key up with
  strings.ToLower, which leaves U+017F alone: under such a name every rule is said to have no cycle
  (`C84_long_s_cycle`), and Regex and TransitionGraph with deflated rules then recurse for ever
  on a cyclic rule instead of giving ErrCyclicRule, whatever their budgets (`C84_ends_refuted`).
* C89: a left-recursive rule that IsValid gets wrong under its own name (a group that is
  left recursive) it can get right under a name with U+017F, as that name is searched outside the
  component (`C89_valid_refuted`). A recursive rule lowered under such a name takes one more slot, so
  the budget of slots can be exceeded under one name only (`C89_slots_refuted`).
* C90: TransitionGraph with rules deflated runs SemvalABNF on all the rules
  (transition_graph.go:68-72), and so fails for a rule that the root does not reach.
* C91: with a count above 2^33 the product with a cost can overflow to 0 for one cost and to a
  negative for a smaller one (ast.go:369-380); NewASTGenerator then accepts or refuses the grammar
  depending on the order in which Go iterates over the map.
* C85: `BSRForest.Tree`, like `Forest.Tree` (C79), writes out what the set shares: no polynomial
  in the number of elements bounds it (`C85_tree_refuted`); for one grammar it is linear
  in the input (`C85_tree_linear`).
* C78: the error for a numeral above 10FFFF shows it without its leading zeros (utils.go:85,
  in `C78_case`); errors of grammars built by hand can print alike (`C78_texts_refuted`).
* C103: the limits steer the walk, they do not bound it: with maxLength 3, `1*(%s"x" %s"y")` gives `xyxy`; with
  maxReps 1 the edge from x to y is taken twice (fuzz.go:141-155, 333-351).
