{"id": "C01", "title": "IsValid accepts only words of the language", "statement": "Whenever Grammar.IsValid(rule, input) returns (true, nil), the bytes of input belong to the language RFC 5234/7405 assigns to that rule (case-insensitive quoted strings, %s strings exact, num-vals as UTF-8 of the code points, repetition counts inside their bounds).", "quantifier": "every grammar, rule name and byte string, every map iteration order", "why_tests_cant": "memoisation, in-progress cut-offs and seed growing interact through string keys; only an argument over all grammars and inputs rules out a false accept", "anchors": ["recognize.go: recognizer.reachAlt/reachConcat/reachRep/reachElem/reachLeftRec/computeElem", "grammar.go: Grammar.IsValid"]}
{"id": "C02", "title": "IsValid accepts every word of the language", "statement": "If input belongs to the language of the rule then Grammar.IsValid(rule, input) returns (true, nil), left-recursive rules, nullable elements and large minimum counts included.", "quantifier": "every grammar, rule name and byte string", "why_tests_cant": "a false reject needs a particular combination of recursion, nullability, count and visiting order; finite corpora cannot cover it", "anchors": ["recognize.go: recognizer.*", "leftrec.go: leftRecursiveSCCs, nullableRules, leftCornerDeps", "grammar.go: Grammar.IsValid"]}
{"id": "C03", "title": "IsValid always returns", "statement": "Grammar.IsValid terminates on every grammar and every input and does not panic.", "quantifier": "every grammar (left recursive, cyclic, nullable), every input, every map iteration order", "why_tests_cant": "non-termination and nil-map panics depend on the shape of the recursion and on Go's randomised map order", "anchors": ["recognize.go: reachElem, reachLeftRec", "dag.go: cycle.find, cycle.strongconnect"]}
{"id": "C04", "title": "IsValid does not depend on map iteration order", "statement": "Two calls of IsValid on the same grammar, rule and input give the same verdict whatever order Go iterates its maps in.", "quantifier": "every grammar and input, every pair of map iteration orders", "why_tests_cant": "Go randomises the order, so a test observes a handful of the factorially many schedules", "anchors": ["recognize.go: recognizer.*", "dag.go: cycle.find"]}
{"id": "C05", "title": "ParseForest validity is membership", "statement": "When ParseForest(input, g, rule) returns a forest, Forest.Valid() is true exactly when input belongs to the language of rule.", "quantifier": "every grammar, rule and input, including left-recursive, ambiguous and cyclic grammars and arbitrarily large repetition bounds", "why_tests_cant": "GLL correctness (descriptor scheduling, GSS pops replayed on late edges) is an all-executions invariant", "anchors": ["sppf.go: gll.parse/process/create/pop, compileSlots, ParseForest, Forest.Valid"]}
{"id": "C06", "title": "ParseBSR validity is membership", "statement": "When ParseBSR(input, g, rule) returns a set, BSRSet.Valid() is true exactly when input belongs to the language of rule; in particular it agrees with ParseForest.", "quantifier": "every grammar, rule and input", "why_tests_cant": "same as for the forest engine: the BSR engine is a second GLL implementation whose completeness depends on the replay of recorded pops", "anchors": ["bsr.go: bsrParser.parse/process/create/pop/record, BSRSet.Valid, ParseBSR"]}
{"id": "C07", "title": "The GLL engines always terminate", "statement": "ParseForest and ParseBSR return for every grammar and every input: they never loop, whatever the recursion.", "quantifier": "every grammar, rule, input and budget", "why_tests_cant": "termination on infinitely ambiguous or hidden-left-recursive grammars is a well-foundedness argument over all descriptors", "anchors": ["sppf.go: gll.parse", "bsr.go: bsrParser.parse"]}
{"id": "C08", "title": "Forest node budget is a hard bound", "statement": "With WithMaxForestNodes(n), n > 0, ParseForest either returns ErrForestTooLarge or a forest with at most n nodes; ParseBSR likewise never returns a set with more than n elements.", "quantifier": "every grammar, input and budget", "why_tests_cant": "the bound must hold at every point of every execution", "anchors": ["sppf.go: gll.findNode, ParseForest", "bsr.go: bsrParser.record, ParseBSR"]}
{"id": "C09", "title": "The slot lowering preserves the language", "statement": "The slot grammar the GLL engines run on derives from the start symbol exactly the language of the ABNF rule; every counted repetition n*m accepts exactly between n and m copies, for any n and m.", "quantifier": "every grammar, rule, repetition bound and input", "why_tests_cant": "sharing of lowered sub-expressions through textual keys is only correct if the keys identify the expressions", "anchors": ["sppf.go: compileSlots, lowerer.rule/alts/rep/elem/group/option, gll.addRepAlts, gll.capRC"]}
{"id": "C10", "title": "The slot budget is a hard bound", "statement": "Lowering with a slot budget either fails with ErrGrammarTooLarge or yields a slot grammar within the budget, and lowering always terminates on recursive grammars.", "quantifier": "every grammar and budget", "why_tests_cant": "resource bounds must hold for adversarial grammars", "anchors": ["sppf.go: slotBuilder.reserve, compileSlots"]}
{"id": "C11", "title": "Forest.Tree is a derivation of the input", "statement": "For a valid forest, Tree() is a well-formed derivation tree: the root is the requested rule spanning the whole input, children lie inside their parent in order, the leaves tile the input, and each node expands by one of its rule's alternatives with repetition counts respected.", "quantifier": "every grammar, input, ambiguous or cyclic forest", "why_tests_cant": "tree extraction picks one packed alternative per node; well-foundedness and correctness must hold for any forest", "anchors": ["sppf.go: Forest.Tree, emitSymbol, collect, collectChild", "bsr.go: BSRSet.Tree"]}
{"id": "C12", "title": "NumTrees counts derivations", "statement": "Forest.NumTrees() is the number of distinct derivation trees of the input (-1 when infinite); BSRSet.NumTrees() returns the same number.", "quantifier": "every grammar and input", "why_tests_cant": "counting over a shared packed forest is correct only if packing never merges or splits derivations", "anchors": ["sppf.go: Forest.NumTrees", "bsr.go: BSRSet.NumTrees"]}
{"id": "C13", "title": "Ambiguous means two derivations", "statement": "Forest.Ambiguous() and BSRSet.Ambiguous() are true exactly when the input has more than one derivation tree.", "quantifier": "every grammar and input", "why_tests_cant": "false positives and negatives depend on node sharing across contexts", "anchors": ["sppf.go: Forest.Ambiguous", "bsr.go: BSRSet.Ambiguous"]}
{"id": "C14", "title": "ParseError points inside the input", "statement": "A ParseError built for an input carries an offset between 0 and len(input), a line equal to one plus the number of line feeds before the offset, and a column equal to one plus the number of bytes since the last line feed.", "quantifier": "every input and offset", "why_tests_cant": "off-by-one behaviour at boundaries (empty input, offset at end, CRLF) for all inputs", "anchors": ["errors.go: newParseError, describeByte", "sppf.go: gll.noteFail, Forest.ParseError"]}
{"id": "C15", "title": "Numeric bounds check is exact", "statement": "For a num-val literal whose digits are legal in its base, the semantic validation accepts it exactly when its numeric value is at most U+10FFFF, however many digits or leading zeros it has.", "quantifier": "every base and every digit string of any length", "why_tests_cant": "digit-wise comparison for three bases over unbounded strings", "anchors": ["utils.go: checkBounds"]}
{"id": "C16", "title": "Num-val conversions never lie", "statement": "Converting a num-val literal to a rune yields its exact value when it fits in 31 bits and the maximum 32-bit value otherwise, and writing a code point as a literal in any base and reading it back is the identity.", "quantifier": "every base, digit string and code point", "why_tests_cant": "unbounded digit strings; overflow at the 31/64-bit boundaries", "anchors": ["utils.go: int32ToNumval, numvalToUint64, numvalToInt32, numvalToRune, baseRadix"]}
{"id": "C17", "title": "SemvalABNF accepts exactly the semantically valid grammars", "statement": "SemvalABNF returns nil exactly when every referenced rule exists, every bounded repetition has min <= max and every num-val is within U+10FFFF, at any nesting depth.", "quantifier": "every grammar, any nesting depth", "why_tests_cant": "structural induction over unbounded nesting", "anchors": ["grammar.go: SemvalABNF, semvalAlternation"]}
{"id": "C18", "title": "Terminal matching is exact on bytes", "statement": "A quoted string matches exactly the UTF-8 encodings of its characters up to ASCII case (exactly them when %s), a num-val range exactly the encodings of the code points in range, a series exactly the encoding of its code points; malformed UTF-8 is never matched.", "quantifier": "every terminal and every byte string at every position", "why_tests_cant": "quantifies over all byte strings, including every malformed encoding", "anchors": ["recognize.go: computeElem", "sppf.go: gll.matchTerm", "bsr.go", "grammar.go: sensequal, runeMin, runeMax"]}
{"id": "C19", "title": "GetRule resolves names case-insensitively, user rules first", "statement": "GetRule(name, rulemap) returns a rule whose name equals name up to ASCII case, a user rule in preference to a core rule, and nil only if there is none in either; for grammars with case-insensitively distinct names the result does not depend on iteration order.", "quantifier": "every name, rulemap and iteration order", "why_tests_cant": "map iteration order", "anchors": ["utils.go: GetRule, getRuleIn"]}
{"id": "C20", "title": "RuleContainsCycle is exact", "statement": "RuleContainsCycle(rule) returns true exactly when some rule reachable from rule through references lies on a reference cycle (self references included).", "quantifier": "every grammar, rule and map iteration order", "why_tests_cant": "correctness of an SCC algorithm over all graphs and visiting orders", "anchors": ["dag.go: RuleContainsCycle, ruleContainsCycle, ruleCycleVisit, cycle.find, cycle.strongconnect"]}
{"id": "C21", "title": "IsDAG is exact", "statement": "IsDAG() is true exactly when the dependency graph has no cycle.", "quantifier": "every grammar and map iteration order", "why_tests_cant": "all graphs, all visiting orders", "anchors": ["dag.go: Grammar.IsDAG, Depgraph, cycle.strongconnect"]}
{"id": "C22", "title": "Dependency graph is exact", "statement": "The dependency list of a rule contains exactly the rule names occurring in its definition at any depth, each once.", "quantifier": "every rule definition", "why_tests_cant": "unbounded nesting", "anchors": ["dag.go: DependencyGraph, getDependencies, appendDeps"]}
{"id": "C23", "title": "Nullability analysis is exact", "statement": "The internal nullability analysis marks a rule exactly when it derives the empty string, for grammars whose repetition bounds are consistent.", "quantifier": "every grammar, every map iteration order", "why_tests_cant": "least fixpoint over arbitrary recursion", "anchors": ["leftrec.go: nullableRules, altNullable, repNullable, elemNullable"]}
{"id": "C24", "title": "Regex denotes the rule's language", "statement": "When Grammar.Regex(rule) succeeds, the regular expression it builds denotes exactly the language of the rule, for every rule without recursion, and the simplifications applied do not change the denoted language.", "quantifier": "every acyclic grammar and every input", "why_tests_cant": "language equivalence over all strings", "anchors": ["regex.go: Regex, reBuilder.*, simplify, normalizeRanges"]}
{"id": "C25", "title": "Regex text means the expression", "statement": "The text returned by Regex, read with regular-expression syntax (alternation binds weakest, then concatenation, then quantifiers), denotes the same language as the expression that was rendered.", "quantifier": "every expression", "why_tests_cant": "operator precedence and escaping for arbitrary nesting", "anchors": ["regex.go: render, renderClass, quantifier, regescape, classEscape"]}
{"id": "C26", "title": "ASTGenerator output is in the language", "statement": "ASTGenerator.Generate(tape) returns a word of the language of the rule for every tape (and every random source), for grammars without prose-vals.", "quantifier": "every grammar, every tape, every depth and length option", "why_tests_cant": "the tape space is infinite", "anchors": ["ast.go: ASTGenerator.Generate, genAlt, genConcat, genRep, genElem"]}
{"id": "C27", "title": "ASTGenerator always terminates", "statement": "Generation terminates for every tape on every grammar NewASTGenerator accepts, recursive grammars included.", "quantifier": "every grammar and every tape", "why_tests_cant": "termination for infinitely many decision sequences", "anchors": ["ast.go: NewASTGenerator, cheapestConcat, costAlt, costConcat, costElem"]}
{"id": "C28", "title": "NewASTGenerator rejects exactly what it cannot generate", "statement": "NewASTGenerator succeeds exactly when the start rule exists and every rule reachable from it is defined and derives at least one finite string (prose-vals counted as empty).", "quantifier": "every grammar", "why_tests_cant": "fixpoint analysis over arbitrary recursion", "anchors": ["ast.go: NewASTGenerator, costAlt, costConcat, costElem, addClamp, mulClamp"]}
{"id": "C29", "title": "Grammar.Generate output is in the language", "statement": "Whenever Grammar.Generate(seed, rule, options...) returns a value, it is a word of the language of the rule.", "quantifier": "every grammar, seed and option set", "why_tests_cant": "all random choice sequences", "anchors": ["generate.go: Generate, generateAlt, generateKeepGoing"]}
{"id": "C30", "title": "Grammar.Generate does not crash", "statement": "Grammar.Generate never panics on a validated grammar.", "quantifier": "every grammar, seed, rep-max and threshold option", "why_tests_cant": "arithmetic corner cases in unbounded option space", "anchors": ["generate.go: generateAlt, checkCanGenerateSafely"]}
{"id": "C31", "title": "Transition graph spells the language", "statement": "In the transition graph of a rule, the strings spelled along paths from an entry point to an end point are exactly the words of the language (empty word included when the empty entry is an end point).", "quantifier": "every acyclic rule with rule deflation, every option set, every path", "why_tests_cant": "infinitely many paths through loops", "anchors": ["transition_graph.go: altGraph, concatGraph, concatTransitionGraphs, repGraph, chainTransitionGraph, cloneTransitionGraph, elemGraph"]}
{"id": "C32", "title": "Transition graph node budget is a hard bound", "statement": "With WithMaxNodes(n) a returned transition graph was built with at most n nodes, clones included.", "quantifier": "every grammar and budget", "why_tests_cant": "nested bounded repetitions multiply sizes", "anchors": ["transition_graph.go: reserve, reserveClones, countReachable"]}
{"id": "C33", "title": "Graph Generator output is in the language", "statement": "Generator.Generate(tape) terminates and returns a word of the graph's language for every tape and option set.", "quantifier": "every graph and tape", "why_tests_cant": "the tape space is infinite; termination must hold for looping graphs", "anchors": ["fuzz.go: NewGenerator, Generator.Generate, walk, nearestToEnd"]}
{"id": "C34", "title": "Reader enumerates the trails", "statement": "A TransitionGraph reader in the all-trails mode is exhausted after finitely many productions, and each production is spelled by an entry-to-end path of the graph that uses no edge twice; every such path is produced.", "quantifier": "every transition graph", "why_tests_cant": "combinatorial enumeration with in-place backtracking", "anchors": ["transition_graph.go: TransitionGraphReader.Next, advancePath, nextLeaf, bump, pushFirst, allowedAt"]}
{"id": "C35", "title": "ExpectedNext is exact", "statement": "ExpectedNext(prefix) reports accept exactly when prefix is a word, and a next byte exactly when prefix followed by that byte can be completed to a word.", "quantifier": "every graph and every byte prefix", "why_tests_cant": "all prefixes, all multi-byte code point boundaries", "anchors": ["fuzz.go: ExpectedNext, nodeEmissions"]}
{"id": "C36", "title": "NearMiss returns non-words", "statement": "When NearMiss reports success, the returned bytes are rejected by the grammar for that rule.", "quantifier": "every grammar, base and tape", "why_tests_cant": "all mutation choices", "anchors": ["fuzz.go: NearMiss, nearMissCandidates"]}
{"id": "C37", "title": "Tape decisions are in range and complete", "statement": "Every decision read from a tape among n options is an index below n, an exhausted tape answers 0, and each of the n options is reachable by some tape.", "quantifier": "every tape and every n", "why_tests_cant": "all tapes and all n, byte-width boundaries", "anchors": ["fuzz.go: tapeSource.intn, indexedSource.intn"]}
{"id": "C38", "title": "Rule definitions merge as RFC 5234 says", "statement": "Evaluating a rule list, '=' defines a rule exactly once (a second definition with a name equal up to case is an error), '=/' appends its alternatives after those of the existing rule and is an error when no such rule exists; nothing else changes the rule map.", "quantifier": "every sequence of rule definitions", "why_tests_cant": "all definition histories", "anchors": ["grammar.go: feval.rulelist, feval.rule"]}
{"id": "C39", "title": "Parsing a grammar has no side effect on other grammars", "statement": "ParseABNF(input, options...) does not change the core rules, nor the language of any other grammar parsed before or after.", "quantifier": "every input, option set and call history", "why_tests_cant": "needs all call histories", "anchors": ["grammar.go: feval.rulelist", "utils.go: GetRule", "rules.go: coreRules"]}
{"id": "C40", "title": "Printing preserves meaning", "statement": "The text printed by Grammar.String / Rule.String determines the definition: two definitions that print the same have the same language, and the printed text reads back as the same definition.", "quantifier": "every grammar", "why_tests_cant": "unbounded nesting", "anchors": ["abnf.go: String methods"]}
{"id": "C41", "title": "Repeat bounds are read correctly", "statement": "The repeat prefix of an element ('', n, *, n*, *m, n*m) is evaluated to the bounds it denotes.", "quantifier": "every digit string", "why_tests_cant": "unbounded digit strings", "anchors": ["grammar.go: parseRepeat, feval.repetition"]}
{"id": "C42", "title": "The generated parser behaves as the interpreter", "statement": "The parser source emitted by GenerateGoParser performs, on every input, the same steps as ParseBSR and so computes the same set and verdict.", "quantifier": "every grammar and input", "why_tests_cant": "two implementations must agree on all inputs", "anchors": ["codegen.go: assignSlots, emitProcess, emitCall, emitTerminal, emitMatch, emitCharVal, emitSeries"]}
{"id": "C43", "title": "The generated parser reports an exhausted budget", "statement": "A parse by the generated parser that exceeded MaxElements returns its too-large error, never a verdict.", "quantifier": "every grammar, input and budget", "why_tests_cant": "depends on which step exhausts the budget", "anchors": ["codegen.go: runtime boilerplate (Parse, record)"]}
{"id": "C44", "title": "The generated source is well scoped", "statement": "Every variable used in the emitted parser is declared before use in its block, and every declared variable is used (otherwise the Go compiler rejects the file).", "quantifier": "every grammar", "why_tests_cant": "all grammar shapes", "anchors": ["codegen.go: emitProcess, emitCall, emitTerminal, emitMatch, emitSeries"]}
{"id": "C45", "title": "Left recursion detection is exact", "statement": "A rule is treated as left recursive exactly when it can reach itself through left corners (skipping what can vanish), and the rules grown together with it are exactly those mutually left recursive with it.", "quantifier": "every grammar and map iteration order", "why_tests_cant": "graph algorithm over all graphs and orders", "anchors": ["leftrec.go: leftRecursiveSCCs, leftCornerDeps", "dag.go: cycle.strongconnect"]}
{"id": "C46", "title": "Regex length bound is hard", "statement": "With WithMaxRegexLen(n), n > 0, Regex returns an error or a text of at most n bytes.", "quantifier": "every grammar and bound", "why_tests_cant": "bound for all grammars", "anchors": ["regex.go: Regex"]}
{"id": "C47", "title": "Covering decision bytes are local", "statement": "In the indexed tape source the k-th decision depends only on its own stride of the tape: changing bytes outside that stride does not change the decision.", "quantifier": "every tape, index and edit", "why_tests_cant": "all edits", "anchors": ["fuzz.go: indexedSource.intn"]}
{"id": "C48", "title": "The reported failure is the furthest one", "statement": "The position a forest reports is the furthest position at which any left-to-right derivation attempt tried a terminal that did not match (0 if there is none), and the expected list holds exactly the printed forms of the terminals that failed there, each once, whatever the order the engine explores in.", "quantifier": "every grammar, rule, input, budget and map iteration order", "why_tests_cant": "the set of attempted terminals ranges over all partial derivations of all inputs, and the engine visits them in an order that depends on Go map iteration", "anchors": ["sppf.go:536-577", "sppf.go:698-705"]}
{"id": "C49", "title": "The generation check accepts exactly the rules that have a word", "statement": "checkCanGenerateSafely ends on every grammar, and on a validated grammar whose terminals match something it accepts a rule exactly when the language of the rule is not empty.", "quantifier": "every grammar and rule name", "why_tests_cant": "all recursion patterns, groups, options and repetitions of unbounded grammars", "anchors": ["generate.go:162-247"]}
{"id": "C50", "title": "NearMiss labels are true", "statement": "When NearMiss succeeds, the returned bytes differ from the word Generate gives for the same tape, by exactly the change the label names: a character of a range replaced by the one just below or above the range, one byte replaced, a non-empty suffix removed, one byte appended, or one byte removed.", "quantifier": "every grammar, graph, option set and tape", "why_tests_cant": "all mutation choices on all traces; offsets of multi-byte segments", "anchors": ["fuzz.go: nearMissCandidates, numvalRange, walk (trace)"]}
{"id": "C51", "title": "NearMiss always succeeds", "statement": "On a grammar for which IsValid is exact, NearMiss ends without panicking and reports a near miss for every tape.", "quantifier": "every grammar, graph, option set and tape", "why_tests_cant": "absence of a failing tape cannot be tested; it follows from no word containing the byte 0xFF", "anchors": ["fuzz.go: NearMiss, nearMissCandidates"]}
{"id": "C52", "title": "Compact reader covers the graph", "statement": "A TransitionGraph reader in the compact mode produces finitely many strings, each emitted along an entry-to-end path; together they visit every node and every edge lying on an entry-to-end path through terminals, and every such node emits each of its variations in some production.", "quantifier": "every transition graph, map order and sequence of calls", "why_tests_cant": "greedy cover over two searches and per-node cursors; all graphs, cyclic ones included", "anchors": ["transition_graph.go: TransitionGraphReader.buildCompact, Next, Scan"]}
{"id": "C53", "title": "Compact reader is bounded", "statement": "The number of productions of the compact mode is at most the number of edges plus the number of nodes plus the number of node variations (plus two for the empty node).", "quantifier": "every transition graph", "why_tests_cant": "the bound is over all graphs; the comment in the code claims it roughly", "anchors": ["transition_graph.go: buildCompact"]}
{"id": "C54", "title": "Transition graphs have no dead ends", "statement": "In a transition graph built from a grammar whose rules, groups and (when deflated) value sets are not empty there is an entry-to-end path, every node lies on one, every end node ends one, and the empty end comes with the empty entry.", "quantifier": "every grammar, option set and start rule for which the construction succeeds", "why_tests_cant": "unbounded grammars, clones, loops and thresholds; a dead end shows only for particular nestings", "anchors": ["transition_graph.go: transitionGraph builders, cloneGraph, concatGraphs"]}
{"id": "C55", "title": "The ABNF grammar of rules.go reads each text in one way", "statement": "The grammar ABNF of rules.go accepts exactly the texts that are a non-empty sequence of rules and filler lines as RFC 5234/7405 write them; an accepted text has exactly one derivation tree, and says exactly one list of definitions.", "quantifier": "every byte string", "why_tests_cant": "unambiguity and exactness are over all texts; comments, folded lines and trailing blanks interact", "anchors": ["rules.go: ABNF grammar (rulelist, rule, elements, c-wsp, c-nl, ...)"]}
{"id": "C56", "title": "Reading ABNF gives what the text says", "statement": "Evaluating the derivation tree of an ABNF text performs the definitions the text says, in order; ParseABNF returns the grammar these define, or the error of the first that cannot be performed, and a parse error exactly for texts that are not ABNF.", "quantifier": "every byte string, option set and map order", "why_tests_cant": "unbounded texts, and end-to-end agreement of parser, evaluator and validator", "anchors": ["grammar.go: ParseABNF, evaluate, getRule, getAlternation, getConcatenation, getRepetition, getElement"]}
{"id": "C57", "title": "ParseABNF end to end", "statement": "ParseABNF refuses with a parse error exactly the texts that are not ABNF; on an ABNF text it never reports an ambiguity and never panics, and returns the grammar of the definitions of the text, the error of the first definition that cannot be performed, or (when validation is on) a semantic error exactly when a name is undefined, bounds are reversed or a number is not a code point. Printing the grammar with its rules in any order and parsing it again succeeds and gives the same rules.", "quantifier": "every byte string, every map iteration order of the parser, evaluator and validator, validation on or off", "why_tests_cant": "unbounded texts and map orders; composition of the GLL engine, the forest queries, the evaluator and the validator on the library's own grammar", "anchors": ["grammar.go: ParseABNF", "semantic.go: SemvalABNF", "forest.go: Ambiguous, Tree"]}
{"id": "C58", "title": "BSRForest.Tree is a derivation of the input", "statement": "For a valid BSR forest, Tree() is a derivation tree of the input by the requested rule; it is nil exactly for inputs outside the language, and it is returned without panicking whatever order the element map is ranged over in.", "quantifier": "every grammar, input, map iteration order of the parse and of buildIndex", "why_tests_cant": "unbounded grammars and inputs, cyclic sets, all orders of the element map", "anchors": ["bsr.go: BSRForest.Tree, startElems, emitSym, collectElem, collectChild, buildIndex"]}
{"id": "C59", "title": "BSRForest.NumTrees counts derivation trees", "statement": "NumTrees() is the number of distinct derivation trees of the input, -1 when there are infinitely many and 0 when there is none.", "quantifier": "every grammar, input and map iteration order", "why_tests_cant": "exact counting over all inputs, cyclic sets and orders", "anchors": ["bsr.go: BSRForest.NumTrees"]}
{"id": "C60", "title": "BSRForest.Ambiguous is exact", "statement": "Ambiguous() is true exactly when the input has two distinct derivation trees; when it is false on a valid forest, Tree() returns the only one.", "quantifier": "every grammar, input and map iteration order", "why_tests_cant": "all inputs, and agreement of three queries", "anchors": ["bsr.go: BSRForest.Ambiguous, Tree"]}
{"id": "C61", "title": "The queries of a generated parser answer like BSRForest's", "statement": "NumTrees(), Ambiguous() and Tree() of the Result returned by a generated parser give the answers BSRForest gives for the same grammar and input.", "quantifier": "every grammar the generator accepts, input, budget and map iteration order", "why_tests_cant": "the generated file numbers slots and lays out tables on its own; agreement is over all grammars and inputs", "anchors": ["codegen.go: queryBoilerplate, emitQueryTables"]}
{"id": "C62", "title": "Two parses of the same input answer the same", "statement": "Two calls of ParseForest, or two calls of ParseBSR, on the same grammar and input give the same verdict, number of trees, ambiguity and set of nodes, whatever order Go ranges over the maps in and whatever budgets they are given as long as both return a forest; when the input is not ambiguous they also return the same tree.", "quantifier": "every grammar, input, pair of map iteration orders and budgets", "why_tests_cant": "Go randomises map iteration: all pairs of schedules of the worklist engine", "anchors": ["sppf.go: parse, create, pop", "bsr.go: parse, create, pop, buildIndex"]}
{"id": "C63", "title": "Forest.Nodes counts the reachable nodes", "statement": "Forest.Nodes() is the number of distinct nodes reachable from the root of the forest (0 when the input is rejected), terminates on cyclic forests, and is the same for two parses of the same input whatever order Go ranges over its maps in.", "quantifier": "every grammar, input, budget and map iteration order", "why_tests_cant": "all graphs of nodes, including cyclic ones, that parses produce", "anchors": ["sppf.go: Nodes"]}
{"id": "C64", "title": "ParseForest and ParseBSR agree on NumTrees and Ambiguous", "statement": "On the same grammar and input the two GLL engines give the same number of trees and the same ambiguity verdict.", "quantifier": "every grammar, input, budget and pair of map iteration orders", "why_tests_cant": "the test compares nine small grammars on short inputs; the relation is about every grammar and input", "anchors": ["invariants_test.go: Test_I_Engines_Agree", "sppf.go: addPack, NumTrees, Ambiguous", "bsr.go: NumTrees, Ambiguous"]}
{"id": "C65", "title": "The fuzz targets hold on the grammar of ABNF", "statement": "For every source of draws and every byte string: what ABNF.Generate returns for a rule, ABNF.IsValid accepts for that rule; ParseABNF returns a grammar, a syntax error or an error about the rules, never ErrMultipleSolutionsFound, ErrNoSolutionFound, a size error or a panic, with any option; a text generated from rulelist is never a syntax error; Regex of a grammar so generated and read gives an expression, ErrRuleNotFound or ErrHandlingProseVal.", "quantifier": "every sequence of draws, option, rule name, byte string and map iteration order", "why_tests_cant": "fuzzing samples seeds and byte strings", "anchors": ["generate_fuzz.go: FuzzGeneratedValid", "grammar_fuzz.go: FuzzParseABNF, FuzzGeneratedABNF", "regex_fuzz.go: FuzzRegex", "rules.go: ABNF"]}
{"id": "C66", "title": "The engines agree on validity, generation is accepted, String is stable", "statement": "IsValid, ParseForest, ParseBSR, the parser GenerateGoParser emits and, when it exists, the expression Regex writes give the same answer on every grammar and input; what Generate returns IsValid accepts; printing what ParseABNF reads from a printed grammar gives the same text.", "quantifier": "every grammar, rule, input, sequence of draws and map iteration order", "why_tests_cant": "the invariants are tested on nine small grammars, short inputs and forty seeds", "anchors": ["invariants_test.go: Test_I_Engines_Agree, Test_I_Generate_IsValid, Test_I_String_Idempotent"]}
{"id": "C67", "title": "From the text of a grammar to a generated parser", "statement": "GenerateGoParserFromABNF returns a parse error exactly when ParseABNF does, ErrRuleNotFound exactly when the root names no rule of the grammar the text says, ErrGrammarTooLarge only when the grammar does not fit the budget; otherwise it emits a file that compiles and whose Parse accepts exactly the language of the root rule in that grammar. It never panics.", "quantifier": "every byte string, root name, option of validation, map iteration order and input of the emitted parser", "why_tests_cant": "the tests generate parsers for a handful of grammars and compare a few inputs", "anchors": ["codegen.go: GenerateGoParserFromABNF, GenerateGoParser", "cmd/abnf-gen/main.go: run", "grammar.go: ParseABNF"]}
{"id": "C68", "title": "The comments of a generated parser stay comments", "statement": "The comment written on the line of each case of the generated parser contains no line feed or other control character, so nothing of the grammar is compiled as code through it.", "quantifier": "every grammar, root and slot", "why_tests_cant": "the tests compile generated parsers of grammars read from texts, whose labels are printable; grammars may also be built from Go values", "anchors": ["codegen.go: emitProcess, slotComment, symStr, sanitizeComment", "sppf.go: reserve, sgNT.label"]}
{"id": "C69", "title": "Drawings show the graph", "statement": "ToMermaid returns for every transition graph the library builds, and its text has one line per node reachable from the entry points, shaped and classed by whether it is an end point and an entry point, one line per edge, the empty node when it is an entry point, and nothing else; Depgraph.Mermaid has one line per dependency, and its lines compose as dependencies do. Labels tell elements apart. The transition graph fuzz targets never panic and always end.", "quantifier": "every grammar, rule, option, map iteration order and assignment of IDs; every byte string and rule name for the fuzz targets", "why_tests_cant": "the tests only check that drawing does not panic on a few graphs; the text depends on the order of a map", "anchors": ["transition_graph.go: ToMermaid, mapNodes, elemToString", "dag.go: Depgraph.Mermaid", "transition_graph_fuzz.go"]}
{"id": "C70", "title": "Error reports in terms of the grammar", "statement": "The offset of a rejected input's report is the furthest position where some left-to-right derivation of the root rule, having read the input so far, wants a terminal that does not stand there; the expected list is exactly the printed forms of the terminals wanted there; and the whole report is the same for every map iteration order. For ParseABNF the expected list is never empty and the offset is never before the end of a prefix that is itself an ABNF text.", "quantifier": "every grammar, rule, input, budget and map iteration order", "why_tests_cant": "a report is defined by all partial derivations over all inputs; the tests compare a handful of messages, each run in one map order", "anchors": ["sppf.go: fail, Forest.ParseError", "errors.go: ParseError, newParseError", "grammar.go: ParseABNF"]}
{"id": "C71", "title": "The text of an error report", "statement": "What a report says was found is the byte at its offset, written as an ABNF terminal that no other byte has, or EOF exactly at the end of the input; the line ending hint is given exactly when that byte is a line feed not preceded by a carriage return; the text of two reports is equal only if offset, line and column are; the text is a single line of printable ASCII.", "quantifier": "every grammar, rule, input, offset and budget", "why_tests_cant": "a few reports are compared as strings; injectivity and the absence of control characters range over all grammars and bytes", "anchors": ["errors.go: ParseError.Error, describeByte, newParseError"]}
{"id": "C72", "title": "Bare line feeds are hinted at", "statement": "An ABNF text in which a line feed stands alone where CR LF would have continued some ABNF text is refused by ParseABNF with a report at exactly that line feed, its line, %x0D among what was expected, and the line ending hint. In particular every ABNF text with its carriage returns removed is refused at its first line end with the hint.", "quantifier": "every ABNF text, every continuation after the bare line feed, every option and map iteration order", "why_tests_cant": "one or two inputs with bare line feeds are tested; the hint depends on the furthest failure being at the line feed for every text", "anchors": ["errors.go: newParseError", "grammar.go: ParseABNF", "rules.go: the grammar of ABNF"]}
{"id": "C73", "title": "Redefining core rules", "statement": "With WithRedefineCoreRules, a text that defines core names (spelled as they are) reads as: for each name what is written since its last =, or, if it is only extended, the core rule with what =/ adds; the shared core rules change exactly by what =/ adds before the first = of a name; other names behave as without the option; no core rule that no =/ names is touched, whatever the spelling. The result does not depend on the order maps are iterated in.", "quantifier": "every list of definitions, every ABNF text, every map iteration order", "why_tests_cant": "tests define one or two core names; the result depends on sequences of definitions and on the order of a Go map", "anchors": ["grammar.go: feval.rulelist", "option.go: WithRedefineCoreRules", "utils.go: GetRule"]}
{"id": "C74", "title": "The command line tool", "statement": "pap validate prints, for an input that is an ABNF text, a text that defines the same rules (case-sensitivity prefixes apart) followed by a line feed, and fails exactly when the text defines no legal grammar or, unless validation is off, no valid one. pap generate prints a sentence of the named rule followed by a line feed, the same one for the same seed whatever order Go maps are iterated in. pap regex prints an expression matching exactly the sentences of the rule. pap transition-graph prints a drawing of the graph built with the flags' values. An input that is no ABNF text makes every command fail with a parse error.", "quantifier": "every input, every flag value, every seed and random source, every map iteration order", "why_tests_cant": "tests run a handful of inputs; the claim composes reading, validating, printing, generating and drawing over every text, and determinism ranges over map orders", "anchors": ["cmd/pap/commands/validate.go", "cmd/pap/commands/generate.go", "cmd/pap/commands/regex.go", "cmd/pap/commands/transition_graph.go"]}
{"id": "C75", "title": "Options", "statement": "Every field an option list sets ends as the value of the last option given for that field, or its documented default if none is given; lists of options that agree in that sense are interchangeable.", "quantifier": "every list of options, of every kind", "why_tests_cant": "tests give one option at a time", "anchors": ["option.go", "generate.go: GenerateOption", "transition_graph.go: TGOption", "ast.go", "fuzz.go: GenOption", "sppf.go", "regex.go"]}
{"id": "C76", "title": "Worst-case cost of the engines", "statement": "For each grammar and rule there is a constant K such that ParseForest and ParseBSR run at most K*(n+1)^3 iterations of their loops on every input of n bytes, and leave at most K*(n+1)^2 descriptors, stack edges, pops and forest nodes and K*(n+1)^3 packs or BSR entries.", "quantifier": "every grammar, rule, input, budget and map iteration order; the constant is fixed before the input", "why_tests_cant": "an asymptotic bound over all inputs; a benchmark measures a few lengths of a few grammars, and the quartic term is invisible at those lengths", "anchors": ["sppf.go: ParseForest, addPack, create, pop, process", "bsr.go: ParseBSR", "grammar.go: Parse"]}
{"id": "C77", "title": "ABNF reads itself", "statement": "A text that defines each rule of the hardcoded grammar ABNF once, in any order and layout (comments next to a defining operator not containing =/), is read by ParseABNF to exactly the rules of ABNF, validated or not. String and PrettyPrint of ABNF print such texts whatever the map order. A grammar with the rules of ABNF in any order gives the same parse result as ABNF on every input.", "quantifier": "every such text, every map iteration order, every input", "why_tests_cant": "Test_U_ABNFParseItself reads the one text that one iteration order of the map happens to give", "anchors": ["rules.go", "abnf.go: ABNF", "grammar.go: ParseABNF, String, PrettyPrint", "grammar_test.go: Test_U_ABNFParseItself"]}
{"id": "C78", "title": "Errors name the culprit", "statement": "When SemvalABNF returns an error, the error names a reference without a rule, a repetition with its maximum under its minimum, or a numeral above 10FFFF that is in the grammar; when ParseABNF refuses the definitions of a text, the message names the first definition at fault and says what is wrong with it. Errors that differ in kind, rule name or limit have different messages.", "quantifier": "every grammar, every text, every map order; every pair of errors", "why_tests_cant": "tests check that some error is returned; which of many possible culprits is named depends on the map order", "anchors": ["errors.go", "grammar.go: SemvalABNF", "utils.go: checkBounds", "regex.go: ErrRegexTooLarge", "sppf.go: ErrForestTooLarge"]}
{"id": "C79", "title": "Cost of the forest queries", "statement": "Nodes, Ambiguous and NumTrees make at most one call per link of the forest plus one, hence at most K*(n+1)^3 for a constant K of the grammar; Tree makes at most K*(n+1) calls, and a number of calls polynomial in the size of the forest.", "quantifier": "every grammar, rule, input, budget and map iteration order; the constants are fixed before the input", "why_tests_cant": "an asymptotic bound over all inputs and all grammars; the blow-up of Tree needs a family of grammars, and each small member looks fast", "anchors": ["sppf.go: Forest.Nodes, Forest.Ambiguous, Forest.NumTrees, Forest.Tree, collect, collectChild", "sppf.go:21-23 (documented bound)"]}
{"id": "C80", "title": "Cost of bounded repetitions, and what the budgets cap", "statement": "Lowering a rule gives a number of nonterminals and slots linear in the size of the grammar, whatever the bounds of its repetitions, so WithMaxSlots above that number never errs. The loops of both engines take at most a power of the size of the grammar, the largest finite bound and the length of the input, with explicit constants; node budgets above explicit numbers of the size and the length are never hit. Setting both budgets caps the time spent on an untrusted grammar of a given size.", "quantifier": "every grammar, rule, input, map order and setting of the two budgets", "why_tests_cant": "the bound of a repetition is an unbounded number written with few digits; a test fixes one", "anchors": ["sppf.go:145-179", "sppf.go:581-607", "sppf.go:636-645", "sppf.go:664-667", "bsr.go:557-589", "README.md:58", "README.md:140"]}
{"id": "C81", "title": "The cost of IsValid", "statement": "The work of IsValid after the analysis of left recursion is polynomial in the size of the grammar and the length of the input, with an explicit polynomial, whatever the bounds of the repetitions and the left recursion; of lower degree without left recursion. An unbounded repetition over an element with large reach-sets takes O(n^2).", "quantifier": "every grammar, rule, input and map order", "why_tests_cant": "a test measures some inputs of some grammars; the bound is for all, and the inputs that show the cubic growth must be built", "anchors": ["recognize.go:9-16", "recognize.go:44-121", "recognize.go:123-208", "recognize.go:210-292"]}
{"id": "C82", "title": "The cost of Regex", "statement": "Building the expression is linear in the size of the grammar, and simplifying it is linear over the shared nodes; sharing nodes by pointers gives the text that copying them would. With WithMaxRegexLen, Regex fails fast: its work is bounded by the grammar and the budget.", "quantifier": "every grammar, rule, budget and map order", "why_tests_cant": "a test measures some grammars; the bound is for all, and a grammar whose text is short while its simplification is exponential must be built", "anchors": ["regex.go:12-54", "regex.go:122-158", "regex.go:226-331", "regex.go:360-417", "README.md:142"]}
{"id": "C83", "title": "The cost of the analyses", "statement": "The analyses made before the work are cheap: the search for cycles explores each rule once, the costs of NewASTGenerator settle in at most one pass per rule and one more, and the check before Generate is polynomial in the size of the grammar.", "quantifier": "every grammar, rule and map order", "why_tests_cant": "a test measures some grammars in some map order; the bounds are for all orders, and a small grammar whose check is exponential must be built", "anchors": ["dag.go:83-178", "dag.go:188-237", "ast.go:99-122", "ast.go:300-380", "generate.go:162-247"]}
{"id": "C84", "title": "Names given by the caller", "statement": "A rulename given by the caller finds a rule only if it is the rule's name up to case (RFC 5234 2.1), and under every name that finds a rule RuleContainsCycle, Regex and TransitionGraph answer for that rule what they answer under its own name, and end.", "quantifier": "every grammar, every byte string as rulename, every map order, option and value of unicode.ToLower on the other runes", "why_tests_cant": "a test gives some names; the two runes that fold to an ASCII letter must be thought of, and a call that never ends shows no result", "anchors": ["utils.go:137-152", "dag.go:102-138", "regex.go:22-54", "transition_graph.go:38-95"]}
{"id": "C85", "title": "Cost of the queries on a BSR set", "statement": "NumTrees and Ambiguous of BSRForest, and of the Result of an emitted parser, call their closures a number of times linear in the number of elements, so at most cubic in the input; Tree takes a number of calls linear in the input, and polynomial in the number of elements.", "quantifier": "every grammar, input, budget, map order of the parse and of the query", "why_tests_cant": "a bound for all inputs and grammars; the exponential case needs a grammar built for it", "anchors": ["bsr.go:315-396", "bsr.go:399-472", "bsr.go:477-553", "codegen.go:657-867"]}
{"id": "C86", "title": "The GLL engines err by case only", "statement": "Whatever the grammar, ParseForest, ParseBSR and the parser emitted by GenerateGoParser accept every input derived when all quoted strings are taken case-sensitively, and accept only inputs derived when all are taken case-insensitively.", "quantifier": "every lexically well-formed grammar, rule, input, budget and map order", "why_tests_cant": "it bounds the effect of the shared nonterminals for every grammar, including those that mix both kinds of strings in alike groups and repetitions", "anchors": ["sppf.go:65-225", "sppf.go:668-692", "bsr.go:557-589", "codegen.go:45-58"]}
{"id": "C87", "title": "IsValid errs on the accepting side by case only", "statement": "Whatever the grammar, whenever IsValid answers true the input is derived from the rule when every quoted string is taken case-insensitively.", "quantifier": "every lexically well-formed grammar, rule, input and map order", "why_tests_cant": "it bounds the effect of the shared memo entries for every grammar, including left-recursive ones and those that mix both kinds of strings", "anchors": ["grammar.go:19-40", "recognize.go:38-230"]}
{"id": "C88", "title": "IsValid errs on the refusing side by case only", "statement": "Whatever the grammar, an input derived from the rule when every quoted string, those of the core rules included, is taken case-sensitively is accepted by IsValid; so IsValid is exact on every input on which the case-sensitive and the case-insensitive readings agree.", "quantifier": "every lexically well-formed grammar, rule, input and map order", "why_tests_cant": "it bounds the effect of the shared memo entries for every grammar, including left-recursive ones and those that mix both kinds of strings", "anchors": ["grammar.go:19-40", "recognize.go:38-230"]}
{"id": "C89", "title": "The entry points answer for the rule GetRule finds, whatever the spelling of its name", "statement": "For every rulename that GetRule finds, including those with U+017F for s or U+212A for k, IsValid, ParseForest and ParseBSR give the verdict of the rule found, the parsers return within their budgets, and Generate and NewASTGenerator do what they do for its ASCII name.", "quantifier": "every lexically well-formed grammar, rulename, input, budget and map order", "why_tests_cant": "rule names that fold to ASCII without being ASCII are compared in four ways (EqualFold, ToLower, canon, byte equality of memo keys); tests use ASCII names", "anchors": ["grammar.go:19-40", "recognize.go:123-153", "generate.go:162-247", "ast.go:78-168", "sppf.go:78-129", "bsr.go:557-589"]}
{"id": "C90", "title": "Only the rules that the root reaches matter", "statement": "If g' holds only rules of g, and all those of g that the root or a name written in g' or in a core rule names, then ParseForest, ParseBSR, GenerateGoParser, Generate, RuleContainsCycle and Regex return the same for the root of g and of g', errors included; NewASTGenerator gives the same error or the same generator in all its output; TransitionGraph does if both grammars are valid; and IsValid accepts exactly the words if g' meets what that asks of a grammar.", "quantifier": "every grammar without redefinition, closed part of it, root, input, budget, option and map order", "why_tests_cant": "compares every grammar with every closed part of it; memo maps, budgets and component search could each be disturbed by some rule far from the root", "anchors": ["grammar.go:19-40", "recognize.go:123-292", "generate.go:21-247", "regex.go:22-210", "sppf.go:78-256", "bsr.go:557-589", "codegen.go:45-64", "transition_graph.go:38-95", "dag.go:23-186", "ast.go:94-166"]}
{"id": "C91", "title": "ASTGenerator does not depend on map iteration order", "statement": "Whatever the orders in which Go iterates over the map of rules in each pass, NewASTGenerator returns the same error or the same start rule and the same minimum costs, and two generators of two runs write the same text for the same tape, seed or draws, and consume as much.", "quantifier": "every grammar, root, pair of orders of every pass, option, source of choices", "why_tests_cant": "Go picks the order; a run shows a few of the orders, and reproducibility from a tape must hold for all of them", "anchors": ["ast.go:94-166", "ast.go:168-286", "ast.go:288-380"]}
{"id": "C92", "title": "The order in which rules are written does not matter", "statement": "For two lists of the same rules without redefinition, IsValid, ParseForest, ParseBSR, GenerateGoParser, Generate, NewASTGenerator, RuleContainsCycle and Regex return the same, SemvalABNF refuses both or neither, and TransitionGraph returns the same or is refused for both; IsValid moreover does not depend on the orders in which nullableRules iterates.", "quantifier": "every grammar without redefinition, permutation of its rules, name, input, option and iteration order", "why_tests_cant": "compares every grammar with every permutation of it under every map order; tests have one text and the orders Go happens to pick", "anchors": ["leftrec.go:18-159", "dag.go:180-237", "recognize.go:123-292", "grammar.go:19-40", "grammar.go:389-409", "ast.go:94-166"]}
{"id": "C93", "title": "ABNF texts can be put one after the other", "statement": "If ParseABNF reads two texts and no rule of the one is named as a rule of the other, it reads the one followed by the other as the rules of both, validating them all together: it accepts if both were validated, and otherwise exactly if the rules of both together are sound; in the other order it gives the same rules. If they share a name it returns ErrDuplicatedRule for a name they share.", "quantifier": "every pair of texts ParseABNF reads, options without WithRedefineCoreRules, iteration order and sufficient budget", "why_tests_cant": "ranges over all pairs of accepted texts; the suite parses single fixed files", "anchors": ["grammar.go:80-106", "grammar.go:162-194", "grammar.go:196-218", "grammar.go:19-40"]}
{"id": "C94", "title": "The layout of ABNF texts does not matter, within CR LF and ASCII", "statement": "What ParseABNF returns, with every option, depends only on the definitions a text is taken for: two texts taken for the same definitions give the same result, and lines of blanks and comments may be put before, between and after definitions. An input with a byte above 126 or a control byte other than tab, CR, LF, with CR or LF alone, or not ending in CR LF, is refused with a parse error, wherever that is, in comments too.", "quantifier": "every text, option, core table, iteration order and sufficient budget", "why_tests_cant": "ranges over all layouts of all grammars and all inputs with such a byte; tests have some fixed files", "anchors": ["grammar.go:80-106", "grammar.go:162-216", "rules.go:516-1866"]}
{"id": "C95", "title": "ParseABNF does not depend on map iteration order", "statement": "Two calls of ParseABNF on the same input return the same rules, or the same parse error, or the same error about the definitions, or are both refused by the validation, whatever orders Go iterates its maps in. With WithRedefineCoreRules too, also for the core rules afterwards, if redefined core names are spelled as in the RFC.", "quantifier": "every input, iteration orders of the parser, the evaluator and the validation, and sufficient budgets", "why_tests_cant": "map orders are random per run and tests see only those that happen; the claim compares all of them on all inputs", "anchors": ["grammar.go:80-106", "grammar.go:162-194", "sppf.go:700-705", "errors.go:109-139", "utils.go:137-143"]}
{"id": "C96", "title": "Parse then EvaluateABNF is ParseABNF without its validation", "statement": "For every input, Parse against the grammar of ABNF followed by EvaluateABNF returns what ParseABNF without validation returns, with ErrNoSolutionFound in place of the parse error, whatever the options; it does not panic. On a forest of another grammar it may panic, and if the root has no child named rule it returns an empty grammar without error. WithValidation has no effect on it.", "quantifier": "every input, option, core table, iteration order and sufficient budget; every forest for the empty grammar", "why_tests_cant": "equality of two entry points on all inputs; the suite does not call EvaluateABNF on forests of other grammars nor with WithValidation", "anchors": ["grammar.go:108-131", "grammar.go:162-194", "grammar.go:275-303", "option.go:8-40"]}
{"id": "C97", "title": "From the text of a grammar to the verdicts on inputs", "statement": "Two ABNF texts whose definitions give the same rules, in whatever order and split over = and =/ in whatever way, are both accepted by ParseABNF, with the same rules, or both refused by its validation. If ParseABNF accepts a text, ParseForest and ParseBSR on what it returns find valid, and IsValid accepts, exactly the words of the rules its definitions give, and Generate writes such words.", "quantifier": "every pair of texts; every text, root, input, iteration order and sufficient budget, for grammars within the conditions of C02, C05, C06 and C29", "why_tests_cant": "relates all texts to all inputs; tests have fixed texts with a few inputs", "anchors": ["grammar.go:80-106", "grammar.go:162-194", "sppf.go:668-691", "bsr.go:557-589", "recognize.go:123-292", "generate.go:21-43"]}
{"id": "C98", "title": "No edge, entry point or end point twice in a transition graph", "statement": "In every transition graph the library returns, no entry point and no end point is listed twice, the empty node included, and no node lists a successor twice; every edge leads to a node of the graph. So the edges are at most the square of the nodes, and with the budget of C32 at most four times the square of the limit of nodes.", "quantifier": "every well-formed grammar, root, option set and map order; the bound by the limit under the conditions of C32", "why_tests_cant": "the code appends to Nexts without looking for the node when concatenating and when deflating characters; that it never repeats an edge depends on the parts of all grammars being disjoint, which tests on a few graphs do not show", "anchors": ["transition_graph.go:948-1034", "transition_graph.go:1036-1192", "transition_graph.go:1194-1266", "transition_graph.go:1300-1340"]}
{"id": "C99", "title": "The reader lists trails by length, every combination once", "statement": "On every transition graph the library builds, the reader in the mode CoverageAllTrails serves the trails in the order of their length, each trail once, and for each trail every combination of the emissions of its nodes once. A trail has at most one node more than the graph has edges.", "quantifier": "every well-formed grammar, root, option set, map order, and sequence of calls of Next and Scan", "why_tests_cant": "tests compare sets of productions of a few graphs; order and multiplicity are promised by the comment for all graphs, and depend on no edge being listed twice", "anchors": ["transition_graph.go:259-275", "transition_graph.go:307-346", "transition_graph.go:440-629"]}
{"id": "C100", "title": "What a reader serves does not depend on map iteration order", "statement": "The loop of prepare that finds the nodes from which an end point is reached ranges over a Go map, in an order that changes from run to run and from pass to pass. Whatever these orders, the reader answers every sequence of calls of Next and Scan in the same way, and the covering set of buildCompact is the same list in the same order.", "quantifier": "every transition graph, built by the library or not, every two families of orders of the passes over the map, every sequence of calls", "why_tests_cant": "the order of a Go map is random, so a run samples one order out of factorially many", "anchors": ["transition_graph.go:376-438", "transition_graph.go:553-629", "transition_graph.go:636-858"]}
{"id": "C101", "title": "What a reader serves does not depend on the IDs of nodes", "statement": "Node IDs are random UUIDs. Two transition graphs that differ only in what their nodes are called, with the same elements and with edges, entry points and end points in the same order, are served alike: every sequence of calls of Next and Scan has the same answers, and the covering sets are the same list in the same order.", "quantifier": "every transition graph, built by the library or not, every renaming that keeps nodes apart, every map order for each of the two graphs, every sequence of calls", "why_tests_cant": "IDs are drawn at random, so that a test sees one naming out of all; a dependence on the order of IDs would show as a rare difference between runs", "anchors": ["transition_graph.go:28-33", "transition_graph.go:354-359", "transition_graph.go:376-629", "transition_graph.go:636-858"]}
{"id": "C102", "title": "What a graph generator draws does not depend on the IDs of nodes", "statement": "Given two transition graphs that differ only in what their nodes are called, NewGenerator refuses both because of the same element or accepts both; and if it accepts, walk draws the same decisions from every source, with the same bytes, the same trace and the same state of the source left. So Generate gives the same output for the same tape on graphs built twice, whatever the UUIDs drawn.", "quantifier": "every transition graph, built by the library or not, every renaming that keeps nodes apart, every options, source and tape", "why_tests_cant": "IDs are drawn at random, so that a test sees one naming out of all", "anchors": ["fuzz.go:110-128", "fuzz.go:182-267", "fuzz.go:275-372"]}
{"id": "C103", "title": "What the limits of a graph generator promise", "statement": "WithMaxLength bounds the number of bytes of a production, WithMaxReps how many times an edge is taken, WithMaxSteps the number of steps. Precisely: past a limit the walk takes the shortest way to an end point, so a production has at most maxLength bytes and those of the nodes on such a way, and a walk emits at most maxSteps times and once per node of such a way.", "quantifier": "every well-formed grammar, rule, options, limits, source of decisions", "why_tests_cant": "tests draw some tapes on some graphs with the default limits, which are never met", "anchors": ["fuzz.go:141-163", "fuzz.go:280-372"]}
