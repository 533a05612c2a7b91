{"id": "C01", "title": "Tokenizing a JSON text yields exactly its tokens", "statement": "If the input is a JSON text (any legal layout of whitespace, any nesting), repeatedly stepping the tokenizer returns, in order, exactly the tokens of that text, each with its exact source bytes and the right kind (integer vs. number, plain vs. escaped string), and then reports end-of-input forever.", "quantifier": "every JSON value, every whitespace layout, every legal spelling of numbers and strings, every nesting depth", "why_tests_cant": "The set of JSON texts is infinite; tests sample a few documents and one file.", "anchors": ["jsontokenizer.go: jsonTokenizer.Step", "jsontokenizer.go: jsonTokenizer.Reset"]}
{"id": "C02", "title": "Every token the tokenizer accepts is lexically legal and contiguous", "statement": "For arbitrary input bytes (not only JSON), when a step succeeds the returned bytes are precisely the input between the reported token start and the new position, only JSON whitespace was skipped before them, and the bytes are a legal JSON lexeme of the reported kind.", "quantifier": "every byte string, every start position", "why_tests_cant": "Quantifies over all byte strings, including malformed ones.", "anchors": ["jsontokenizer.go: jsonTokenizer.Step"]}
{"id": "C03", "title": "The tokenizer always makes progress and never runs past the input", "statement": "For arbitrary bytes, a successful step either reports end-of-input or strictly advances the position; the position never exceeds the input length; a failing step leaves the position where it was. Consequently a full scan performs at most len(input)+1 steps before ending or failing.", "quantifier": "every byte string, every start position, every number of steps", "why_tests_cant": "Termination for all inputs is not a testable statement.", "anchors": ["jsontokenizer.go: jsonTokenizer.Step", "jsontokenizer.go: jsonTokenizer.Position"]}
{"id": "C04", "title": "Seeking replays tokens exactly", "statement": "Seeking back to a position obtained earlier and stepping returns the same token, bytes and end position as before, whatever was stepped in between; seeking to the reported start of a token and stepping re-reads that same token; and the outcome of a step depends only on the bytes from the position onward.", "quantifier": "every byte string, every reachable position, every intervening sequence of steps", "why_tests_cant": "Needs all inputs and all interleavings of seek and step; the matcher's slot mechanism silently depends on it.", "anchors": ["jsontokenizer.go: jsonTokenizer.Seek", "jsontokenizer.go: jsonTokenizer.Position", "fastMatcher.go: FastMatcher.literalFromSlot"]}
{"id": "C05", "title": "Unescaping inverts JSON string escaping", "statement": "For every sequence of Unicode scalar values and every legal way of spelling each one in a JSON string (literally in UTF-8, with a short escape, with \\uXXXX in either hex case, or with a surrogate pair), decoding the string literal yields exactly the UTF-8 encoding of that sequence.", "quantifier": "every Unicode string and every legal escaped spelling of it", "why_tests_cant": "Unbounded set of strings and spellings.", "anchors": ["fastlitescape.go: unescapeJsonString", "fastlitescape.go: decodeUnicodeEscape", "fastlitparse.go: fastLitParser.ParseEscString"]}
{"id": "C06", "title": "Unescaping is memory safe on arbitrary bytes", "statement": "For arbitrary bytes handed to the unescaper with the scratch buffer the matcher allocates (as long as the input), no index or slice goes out of range and the output is never longer than the input.", "quantifier": "every byte string", "why_tests_cant": "A single crafted byte string would crash the process; tests try a handful.", "anchors": ["fastlitescape.go: unescapeJsonString", "fastlitparse.go: fastLitParser.ParseEscString"]}
{"id": "C07", "title": "Only legal escapes are accepted", "statement": "The unescaper accepts a string body only when every backslash starts a legal JSON escape, and a surrogate escape is accepted only as the first half of a high/low pair written as two consecutive \\u escapes.", "quantifier": "every byte string", "why_tests_cant": "Rejecting all illegal spellings cannot be enumerated.", "anchors": ["fastlitescape.go: unescapeJsonString", "fastlitescape.go: decodeUnicodeEscape", "fastlitescape.go: combineUTF16Surrogates"]}
{"id": "C08", "title": "Integer literals are read with their mathematical value", "statement": "A JSON integer literal whose value fits in a signed 64-bit integer is read as exactly that value; a literal that does not fit is not silently read as some other integer.", "quantifier": "every JSON integer literal, of any number of digits", "why_tests_cant": "There are unboundedly many literals; the boundary cases are not in the test data.", "anchors": ["fastlitparse.go: fastLitParser.ParseInt", "fastlitparse.go: fastLitParser.Parse"]}
{"id": "C09", "title": "The predicate tree computes the boolean formula in any reporting order", "statement": "When every leaf of a compiled predicate tree is reported once (skipping leaves already settled by short-circuiting), the tree's result is the value of the boolean formula, whatever order the leaves are reported in.", "quantifier": "every tree shape, every truth assignment, every order in which leaves are reported", "why_tests_cant": "Field order in documents is arbitrary, so all n! orders over all tree shapes matter.", "anchors": ["bintree.go: binTreeState.MarkNode", "bintree.go: binTreeState.checkNode", "bintree.go: binTreeState.resolveRecursive"]}
{"id": "C10", "title": "A short-circuited result is never wrong and never changes", "statement": "If the tree reports itself resolved after only some leaves were reported, its result equals the formula's value under every possible outcome of the remaining leaves, and no later report of an unresolved leaf changes it.", "quantifier": "every tree, every partial assignment, every completion", "why_tests_cant": "Early exit decides documents without reading them fully; all completions must be covered.", "anchors": ["bintree.go: binTreeState.IsResolved", "bintree.go: binTreeState.IsTrue", "bintree.go: binTreeState.MarkNode", "fastMatcher.go: FastMatcher.matchObjectOrArray"]}
{"id": "C11", "title": "Reporting unresolved leaves never panics", "statement": "Starting from a fresh (or reset) tree, any sequence of reports that only touches leaves currently unresolved never triggers the 'cannot resolve same state node twice' panic, neither directly nor through propagation to ancestors.", "quantifier": "every tree, every sequence of reports", "why_tests_cant": "The panic is raised from the middle of a recursive propagation; needs an invariant over all histories.", "anchors": ["bintree.go: binTreeState.MarkNode", "bintree.go: binTreeState.checkNode"]}
{"id": "C12", "title": "Finalizing treats unreported leaves as false", "statement": "Finalizing a partially reported tree always resolves the root, never panics, and gives the formula's value with every unreported leaf taken as false; results already decided are kept.", "quantifier": "every tree, every partial assignment reachable by reports", "why_tests_cant": "Covers every combination of missing fields.", "anchors": ["bintree.go: binTreeState.Resolve"]}
{"id": "C13", "title": "Loop iterations touch only the loop body", "statement": "While a loop body is being evaluated (stall index set to the body), resetting the body and reporting leaves inside it changes no state outside the body, resets the body completely, and leaves the enclosing formula's state as if the loop were still unreported.", "quantifier": "every tree with loop nodes, every sequence of iterations and reports, arbitrary nesting", "why_tests_cant": "Interleavings of nested iterations and resets are unbounded.", "anchors": ["bintree.go: binTreeState.ResetNode", "bintree.go: binTreeState.SetStallIndex", "bintree.go: binTreeState.MarkNode", "fastMatcher.go: FastMatcher.matchLoop"]}
{"id": "C14", "title": "Merged expressions keep independent results", "statement": "When several expressions are compiled together, the merged tree is resolved only when each expression is resolved, each expression's own result equals its own formula's value, and the overall result is their disjunction.", "quantifier": "every list of expressions, every assignment and reporting order", "why_tests_cant": "Combination count explodes; tests only use one expression per matcher.", "anchors": ["bintree.go: binTreeState.checkNode (nodeTypeNeor)", "transform.go: Transformer.transformMergePiece", "fastMatcher.go: FastMatcher.ExpressionMatched"]}
{"id": "C15", "title": "Tree validation accepts exactly well-laid-out trees", "statement": "The tree validator accepts every tree laid out in pre-order with consistent parent and child links, and any tree it accepts has that layout (so evaluating it is safe).", "quantifier": "every array of tree nodes", "why_tests_cant": "All arrays of nodes, including inconsistent ones, must be classified.", "anchors": ["bintree.go: binTree.Validate", "bintree.go: binTree.validateItem"]}
{"id": "C16", "title": "Compilation always produces a valid predicate tree of the right formula", "statement": "For every list of expressions that compiles, the produced tree passes validation, has exactly NumBuckets nodes, contains one subtree per non-constant expression at the advertised bucket, and each such subtree has the and/or/not/loop structure of its expression.", "quantifier": "every expression list of any size and nesting", "why_tests_cant": "Expressions are unbounded trees; bucket arithmetic errors show only for particular shapes.", "anchors": ["transform.go: Transformer.Transform", "transform.go: Transformer.transformOne", "transform.go: Transformer.newBucket"]}
{"id": "C17", "title": "Compilation is total on well-scoped expressions", "statement": "Compiling a well-scoped expression (every loop variable bound, every and/or non-empty) never panics.", "quantifier": "every well-scoped expression", "why_tests_cant": "Panics depend on how field paths and loop variables of different sub-expressions relate.", "anchors": ["transform.go: Transformer.Transform", "transform.go: Transformer.getContext", "transform.go: Transformer.findFieldRefsBestRoot", "expression_utils.go: fetchExprFieldRefsRecurse"]}
{"id": "C18", "title": "Field-reference collection is complete and duplicate free", "statement": "Collecting the field references of an expression returns each distinct field the expression mentions exactly once, including those nested in function arguments and loop bodies, and excludes exactly the references to variables bound inside the expression.", "quantifier": "every expression", "why_tests_cant": "Unbounded nesting of functions and loops.", "anchors": ["expression_utils.go: fetchExprFieldRefs", "expression_utils.go: fetchExprFieldRefsRecurse"]}
{"id": "C19", "title": "Matching a document decides the filter (no loops)", "statement": "For every JSON object document and every loop-free filter built from and/or/not, comparisons, existence tests and functions over fields, matching the document's bytes returns the filter's truth value on the document, with comparisons on absent fields taken as false.", "quantifier": "every document, every whitespace layout, every filter in the fragment", "why_tests_cant": "This is the product's contract; both documents and filters are unbounded.", "anchors": ["fastMatcher.go: FastMatcher.Match", "transform.go: Transformer.Transform", "jsontokenizer.go: jsonTokenizer.Step"]}
{"id": "C20", "title": "ANY / EVERY / ANY-AND-EVERY decide quantification over arrays", "statement": "Matching a loop over an array field returns, respectively, whether some element, every element, or at least one and every element satisfies the body; nested loops compose; a loop over an absent or non-array field is false.", "quantifier": "every array length, every element, every body, every nesting", "why_tests_cant": "Array lengths and nesting are unbounded.", "anchors": ["fastMatcher.go: FastMatcher.matchLoop", "transform.go: Transformer.transformLoop"]}
{"id": "C21", "title": "Each compiled expression reports its own result", "statement": "After matching with several expressions, asking whether expression i matched returns the truth value of expression i on the document, for every i.", "quantifier": "every list of expressions, every document, every index", "why_tests_cant": "Multi-expression matching is untested and must hold for all lists.", "anchors": ["fastMatcher.go: FastMatcher.ExpressionMatched", "fastMatcherDef.go: MatchDef"]}
{"id": "C22", "title": "A reset matcher behaves like a fresh one", "statement": "After any history of Match calls on arbitrary documents, Reset followed by Match(doc) returns the same result, error and status as a freshly created matcher would.", "quantifier": "every history of documents, including malformed ones", "why_tests_cant": "State leaking between documents depends on the history.", "anchors": ["fastMatcher.go: FastMatcher.Reset", "fastMatcher.go: FastMatcher.Match", "fastMatcher.go: FastMatcher.MatchWithStatus"]}
{"id": "C23", "title": "Layout and member order do not matter", "statement": "Two documents with the same value up to insignificant whitespace and order of object members are matched identically.", "quantifier": "every pair of equivalent documents, every filter", "why_tests_cant": "All permutations and layouts; the matcher reads in document order and exits early.", "anchors": ["fastMatcher.go: FastMatcher.Match", "fastMatcher.go: FastMatcher.matchObjectOrArray"]}
{"id": "C24", "title": "Unreferenced fields cannot influence the result", "statement": "Adding, removing or changing members of a document that no field path of the filter reaches does not change the result.", "quantifier": "every document, every unreferenced change, every filter", "why_tests_cant": "Skipping logic must be right for every possible skipped value.", "anchors": ["fastMatcher.go: FastMatcher.skipValue", "fastMatcher.go: FastMatcher.leaveValue", "fastMatcher.go: FastMatcher.matchObjectOrArray"]}
{"id": "C25", "title": "Skipping a value lands exactly after it", "statement": "Skipping any JSON value, of any kind and depth, from its first token leaves the tokenizer exactly at the end of that value, consuming nothing beyond it.", "quantifier": "every JSON value, every layout, every following bytes", "why_tests_cant": "Depth is unbounded; an off-by-one shifts every later field.", "anchors": ["fastMatcher.go: FastMatcher.skipValue", "fastMatcher.go: FastMatcher.leaveValue"]}
{"id": "C26", "title": "Matching never crashes", "statement": "Match on an arbitrary byte string returns a result or an error; it never panics.", "quantifier": "every byte string, every compiled filter", "why_tests_cant": "Robustness over all malformed inputs.", "anchors": ["fastMatcher.go: FastMatcher.Match", "fastMatcher.go: FastMatcher.leaveValue", "fastMatcher.go: FastMatcher.matchObjectOrArray"]}
{"id": "C27", "title": "Matching always terminates", "statement": "Match terminates on every byte string, malformed or not, for every compiled filter.", "quantifier": "every byte string, every compiled filter", "why_tests_cant": "Termination over all inputs cannot be tested.", "anchors": ["fastMatcher.go: FastMatcher.Match", "fastMatcher.go: FastMatcher.matchLoop", "fastMatcher.go: FastMatcher.matchAfter"]}
{"id": "C28", "title": "Absent fields make comparisons false, negations true", "statement": "A comparison on a field absent from the document is false, its negation is true, EXISTS is false and NOT EXISTS is true, everywhere in a filter including inside loop bodies.", "quantifier": "every filter position, every document lacking the field", "why_tests_cant": "Absence interacts with short-circuiting and loops in unboundedly many ways.", "anchors": ["bintree.go: binTreeState.Resolve", "fastMatcher.go: FastMatcher.matchOp", "fastMatcher.go: FastMatcher.matchLoop"]}
{"id": "C29", "title": "Loop iterations are independent", "statement": "The outcome of a loop body on one array element depends only on that element and the fields outside the loop, not on the elements visited before.", "quantifier": "every array, every body", "why_tests_cant": "Depends on combinations of present and missing fields across elements.", "anchors": ["fastMatcher.go: FastMatcher.matchLoop", "fastMatcher.go: FastMatcher.literalFromSlot"]}
{"id": "C30", "title": "Constant sub-expressions keep their truth value", "statement": "A TRUE or FALSE constant inside a filter evaluates to that constant.", "quantifier": "every filter containing constants, every document", "why_tests_cant": "Every position of the constant matters.", "anchors": ["transform.go: Transformer.transformOne", "transform.go: Transformer.Transform", "fastMatcher.go: FastMatcher.Match"]}
{"id": "C31", "title": "Present empty containers are treated as present", "statement": "A field whose value is an empty array or object exists, and is compared like any other array or object.", "quantifier": "every filter and document with empty containers", "why_tests_cant": "Interacts with which other paths the filter mentions.", "anchors": ["fastMatcher.go: FastMatcher.matchObjectOrArray", "fastMatcher.go: FastMatcher.matchExec"]}
{"id": "C32", "title": "Comparison is antisymmetric", "statement": "Comparing a with b and b with a gives opposite signs and the same validity, for all value types including mixed numeric kinds, strings, booleans, null, times, arrays and objects.", "quantifier": "every pair of values", "why_tests_cant": "64-bit and IEEE value spaces and all type pairs.", "anchors": ["fastval.go: FastVal.Compare", "fastval.go: FastVal.compareInternal", "fastval.go: FastVal.reverseCompare", "fastval.go: FastVal.Collate"]}
{"id": "C33", "title": "Integer comparison is mathematical", "statement": "Comparing two integers held in any mix of signed and unsigned 64-bit representations gives the order of their mathematical values.", "quantifier": "every pair of signed/unsigned 64-bit integers", "why_tests_cant": "2^128 pairs; the interesting ones are at zero and at the 2^63 boundary.", "anchors": ["fastval.go: FastVal.compareNumerics", "fastval.go: FastVal.compareUint", "fastval.go: FastVal.AsUint"]}
{"id": "C34", "title": "Equality agrees with comparison and is an equivalence", "statement": "Two values are reported equal exactly when comparison says 0 and is valid; equality is symmetric; it is reflexive and transitive on values of one type.", "quantifier": "every pair / triple of values", "why_tests_cant": "Quantifies over all values including NaN, infinities and near-equal floats.", "anchors": ["fastval.go: FastVal.Equals", "fastval.go: FastVal.compareFloat"]}
{"id": "C35", "title": "Cross-type collation is a total preorder", "statement": "The fallback ordering between values of incomparable types is reflexive, total and transitive, so sorting-style filters (<, <=, >, >=) are consistent across types.", "quantifier": "every triple of values of every type", "why_tests_cant": "All type triples.", "anchors": ["fastval.go: FastVal.Collate"]}
{"id": "C36", "title": "Integer arithmetic functions are exact modulo 2^64", "statement": "ADD, SUB, MULT, DIV, MOD, negation and absolute value on integers give the mathematically expected integer when it is representable, and the two's-complement wrap otherwise.", "quantifier": "every pair of 64-bit integers", "why_tests_cant": "2^128 operand pairs.", "anchors": ["fastval_math.go: FastValMathAdd", "fastval_math.go: FastValMathSub", "fastval_math.go: FastValMathMul", "fastval_math.go: FastValMathDiv", "fastval_math.go: FastValMathMod", "fastval_math.go: FastValMathNeg", "fastval_math.go: FastValMathAbs"]}
{"id": "C37", "title": "Arithmetic functions never crash", "statement": "Evaluating an arithmetic function on any values from a document never panics; unsupported operands give an invalid value.", "quantifier": "every pair of values", "why_tests_cant": "A single document value (a zero divisor) is enough to crash; all values must be covered.", "anchors": ["fastval_math.go: FastValMathDiv", "fastval_math.go: FastValMathMod", "fastMatcher.go: FastMatcher.resolveFunc"]}
{"id": "C38", "title": "Compacting an expression preserves its meaning", "statement": "The compacted expression has the same truth value as the original on every document, and compacting twice changes nothing more.", "quantifier": "every expression, every document and environment", "why_tests_cant": "All expressions times all documents.", "anchors": ["expression_compact.go: CompactExpression"]}
{"id": "C39", "title": "JSON expression syntax round-trips", "statement": "Writing any expression in the documented JSON array syntax and parsing it gives back the same expression.", "quantifier": "every expression expressible in the syntax", "why_tests_cant": "Unbounded expression trees.", "anchors": ["expression_json.go: ParseJsonExpression", "expression_json.go: parseJsonSubexpr"]}
{"id": "C40", "title": "Parsing a JSON expression never crashes", "statement": "Parsing any decoded JSON value as an expression returns an expression or an error, never a panic.", "quantifier": "every JSON value", "why_tests_cant": "All malformed inputs.", "anchors": ["expression_json.go: parseJsonSubexpr", "expression_json.go: parseJsonFunc"]}
{"id": "C41", "title": "Expression statistics count what is there", "statement": "The statistics of an expression count each field, value, AND, OR, loop and nested loop occurring in it, functions and all operands included, and its maximum loop depth, exactly.", "quantifier": "every expression", "why_tests_cant": "Unbounded trees.", "anchors": ["expressionstats.go: ExpressionStats"]}
{"id": "C42", "title": "Removing members removes exactly the named members", "statement": "For every JSON object and list of names, the output text is the compact rendering of the object with all members of those names removed (at any depth, values not searched inside removed members), the removed values are returned verbatim, and the count is right.", "quantifier": "every JSON object, every layout, every list of names", "why_tests_cant": "Trailing commas, nesting and value kinds combine without bound.", "anchors": ["jsonComposer.go: MatchAndRemoveItemsFromJsonObject", "jsonComposer.go: jsonObjComposer.Write"]}
{"id": "C43", "title": "Removing nothing only strips whitespace", "statement": "When no member has a listed name the output is the input without insignificant whitespace, and nothing is reported removed.", "quantifier": "every JSON object and layout", "why_tests_cant": "All documents.", "anchors": ["jsonComposer.go: MatchAndRemoveItemsFromJsonObject"]}
{"id": "C44", "title": "Member removal never overruns its destination", "statement": "With a destination as long as the source, member removal never writes out of bounds, for arbitrary source bytes, and reports a length no greater than the source length.", "quantifier": "every byte string, every list of names", "why_tests_cant": "Memory safety over all inputs.", "anchors": ["jsonComposer.go: MatchAndRemoveItemsFromJsonObject", "jsonComposer.go: jsonObjComposer.Write"]}
{"id": "C45", "title": "The two matchers agree", "statement": "The reference (slow) matcher and the fast matcher return the same result for the same expressions and document.", "quantifier": "every expression list and document both support", "why_tests_cant": "Differential testing samples; agreement must hold for all.", "anchors": ["slowmatcher.go: SlowMatcher.Match", "fastMatcher.go: FastMatcher.Match"]}
{"id": "C46", "title": "Text filters keep their logical structure when translated", "statement": "Translating a parsed text filter to an expression preserves and/or/not structure, operators and operand order, so that its truth value is that of the filter as written.", "quantifier": "every parsed filter tree", "why_tests_cant": "Unbounded filter trees.", "anchors": ["filterExprParser.go: FilterExpression.OutputExpression", "filterExprParser.go: FECondition.OutputExpression"]}
{"id": "C47", "title": "Field paths written in simple filters are read back exactly", "statement": "Writing a field path with dots, back-tick quoting and array indexes and parsing it yields that path.", "quantifier": "every path of any length with any component names", "why_tests_cant": "Unbounded paths and names with special characters.", "anchors": ["simpleParser.go: checkAndParseField", "simpleParser.go: ParseSimpleExpression"]}
{"id": "C48", "title": "Matchers on different goroutines do not interfere", "statement": "Two matchers created from the same or different definitions and used on different goroutines give the results they give when run alone.", "quantifier": "every schedule of two matchers", "why_tests_cant": "Schedules are nondeterministic.", "anchors": ["fastval.go: toJsonStringBuffer", "fastval.go: FastVal.toJsonStringInternal", "fastval.go: FastVal.compareStrings"]}
{"id": "C49", "title": "String constants match exactly the same bytes", "statement": "A filter comparing a field for equality with a string constant is true for a document string exactly when the decoded string is byte for byte the constant, including invalid UTF-8 and control characters.", "quantifier": "every constant and every document string", "why_tests_cant": "Both are quoted with an escaping routine before comparison; injectivity over all byte strings cannot be sampled.", "anchors": ["fastval.go: FastVal.Equals", "fastval.go: FastVal.ToJsonString", "fastval.go: FastVal.compareStrings"]}
{"id": "C50", "title": "Strings are totally ordered, in byte order", "statement": "Comparison of strings is always valid and transitive, and agrees with the order of their bytes.", "quantifier": "all triples of strings of any kind", "why_tests_cant": "Order laws over all strings.", "anchors": ["fastval.go: FastVal.Compare", "fastval.go: FastVal.compareStrings"]}
{"id": "C51", "title": "Only the words true and false read as booleans", "statement": "Text compared with a boolean constant is valid exactly when it spells true or false in any letter case, and has that value.", "quantifier": "every text", "why_tests_cant": "The accepted set is a language.", "anchors": ["fastval.go: FastVal.AsBoolean", "fastval.go: TrueStringRegex", "fastval.go: FalseStringRegex"]}
{"id": "C52", "title": "Time constants accepted by the JSON syntax compile", "statement": "A time constant that parsing an expression in JSON syntax accepts can be compiled.", "quantifier": "every string", "why_tests_cant": "All strings.", "anchors": ["expression_json.go: parseJsonTime", "fastval_date.go: validTimeChecker", "fastval_date.go: GetNewTimeFastVal", "transform.go: Transformer.makeDataRefRecurse"]}
{"id": "C53", "title": "Building a matcher from a text filter never crashes", "statement": "Building a matcher from a text filter that parses returns a matcher, or an error when a pattern or date in it is not accepted.", "quantifier": "every parsed filter tree", "why_tests_cant": "Unbounded filter trees, and libraries (regular expressions) that may refuse any pattern.", "anchors": ["filterExprParser.go: GetFilterExpressionMatcher", "filterExprParser.go: FilterExpression.OutputExpression", "transform.go: Transformer.Transform"]}
{"id": "C54", "title": "Simple filters group their operators consistently", "statement": "A simple filter of tests joined by AND and OR means the same however the operators are spelled, and groups them by one fixed rule that does not depend on what the tests compare.", "quantifier": "every chain of tests of any length", "why_tests_cant": "Unbounded filters; the grouping is decided by a scan of all words.", "anchors": ["simpleParser.go: ParseSimpleExpression", "simpleParser.go: expressionParserContext.enableShortCircuitEvalIfPossible", "simpleParser.go: expressionParserContext.parse"]}
{"id": "C55", "title": "Constants in simple filters are read back exactly", "statement": "A string, integer or fraction written in a simple filter becomes exactly that constant.", "quantifier": "every path, comparison operator and constant", "why_tests_cant": "All strings and numbers.", "anchors": ["simpleParser.go: ParseSimpleExpression", "simpleParser.go: expressionParserContext.getValueTokenHelper", "simpleParser.go: outputValueInternal"]}
{"id": "C56", "title": "Boolean constants in simple filters are honoured", "statement": "A boolean constant in a simple filter, compared with a field or joined with a test, takes part in the filter's meaning.", "quantifier": "every simple filter with boolean constants", "why_tests_cant": "Unbounded filters.", "anchors": ["simpleParser.go: expressionParserContext.insertNode", "simpleParser.go: expressionParserContext.outputNode"]}
{"id": "C57", "title": "Parsing a simple filter never crashes", "statement": "Parsing a simple filter returns an expression or an error.", "quantifier": "every text", "why_tests_cant": "All texts.", "anchors": ["simpleParser.go: ParseSimpleExpression"]}
{"id": "C58", "title": "Parsing a simple filter terminates", "statement": "Parsing a simple filter always returns.", "quantifier": "every text", "why_tests_cant": "Termination over all texts.", "anchors": ["simpleParser.go: ParseSimpleExpression", "simpleParser.go: expressionParserContext.getUnfinishedValueHelper"]}
{"id": "C59", "title": "Simple filters of one operator mean what they say", "statement": "Parsing a simple filter whose tests are all joined by AND (or all by OR), compiling it and matching a document answers true exactly when all (some) of the tests hold.", "quantifier": "every chain of tests of any length, every document", "why_tests_cant": "Unbounded filters and documents through parser, compiler and matcher.", "anchors": ["simpleParser.go: ParseSimpleExpression", "transform.go: Transformer.Transform", "fastMatcher.go: FastMatcher.Match"]}
{"id": "C60", "title": "Function calls in simple filters keep their arguments", "statement": "A function call written in a simple filter becomes a call of that function with the arguments written.", "quantifier": "every call, nested to any depth", "why_tests_cant": "Unbounded nesting.", "anchors": ["simpleParser.go: funcOutputHelper.resolveRecursiveFuncs", "simpleParser.go: expressionParserContext.outputFunc"]}
{"id": "C61", "title": "A transformer can be used for any number of filter lists", "statement": "Calling Transform repeatedly on one Transformer accepts, refuses or crashes on each filter list exactly as a new Transformer would, whatever was compiled before it, and each returned definition gives a matcher that no sequence of Match, Reset and ExpressionMatched calls can tell from the matcher of a definition compiled by a new Transformer (answers, errors, collation status and crashes agree).", "quantifier": "All sequences of filter lists, all initial slot counters, all sequences of calls on the resulting matchers with all byte strings as documents.", "why_tests_cant": "The slot counter is not cleared between calls, so each definition is numbered differently; tests use a new transformer per filter.", "anchors": ["transform.go: Transformer.Transform", "transform.go: Transformer.newSlot", "fastMatcher.go: NewFastMatcher", "fastMatcher.go: FastMatcher.Match"]}
{"id": "C62", "title": "A text filter is read as it is written", "statement": "The words of a text filter are read as the filter they spell: NOT binds more tightly than AND, AND more tightly than OR, parentheses group, operands, operators, signs, paths, indexes, function calls and literals are the ones written, and the matcher built answers on a document what that filter means there. One or two signs are a comparison operator exactly if they are =, ==, !=, <>, <, <=, > or >=; other signs are refused.", "quantifier": "All filters of any size and nesting whose words are not mistaken for others, every lookahead of at least one token and both known treatments of failed alternatives in the parsing library, every document (for the answer: under the conditions of C46).", "why_tests_cant": "Filters nest without bound; tests parse a few dozen texts and mostly look at the printed form.", "anchors": ["filterExprParser.go: NewFilterExpressionParser", "filterExprParser.go: FilterExpression", "filterExprParser.go: FEInnerExpression", "filterExprParser.go: FEInnerAndExpression", "filterExprParser.go: FECondition", "filterExprParser.go: FEOperand", "filterExprParser.go: GetFilterExpressionMatcher", "filterExprParser.go: FECompareOp"]}
{"id": "C63", "title": "Reading a text filter ends without a crash", "statement": "Reading any sequence of words as a text filter ends with a tree or an error, and OutputExpression of a tree so obtained ends with an expression or an error; it never crashes.", "quantifier": "All sequences of tokens of any length, all results of number conversions, date validity and pattern support.", "why_tests_cant": "All token sequences, including every malformed one; the crashes possible on hand-made trees must be shown unreachable.", "anchors": ["filterExprParser.go: NewFilterExpressionParser", "filterExprParser.go: FilterExpression.OutputExpression", "filterExprParser.go: FEField.OutputExpression", "filterExprParser.go: FEBooleanFuncTwoArgs.OutputExpression"]}
{"id": "C64", "title": "Whatever text filter is accepted was written that way", "statement": "A token sequence from which a text filter's expression is obtained is a text of some filter: every token has its place in it (operand, operator, sign, word, parenthesis, index), the expression and the matcher are those of that filter, and its parentheses are balanced unless something quoted is spelled like a parenthesis. Exactly two readings are not literal: behind a field only the last operator and the last number (or last field) count, and several minus signs are one.", "quantifier": "All token sequences of any length, all settings of the parsing library, all results of number conversions; for the answer on a document, the conditions of C46.", "why_tests_cant": "It ranges over all malformed texts: nothing malformed may slip through. Tests try about twenty malformed filters.", "anchors": ["filterExprParser.go: NewFilterExpressionParser", "filterExprParser.go: FilterExpression", "filterExprParser.go: FilterExpression.OutputExpression", "filterExprParser.go: GetFilterExpressionMatcher"]}
{"id": "C65", "title": "The status of an answer says whether it can be relied on", "statement": "MatchWithStatus ends with an answer and a status. If the status is clear, the answer does not depend on how values of different kinds are ordered: any other ordering of the pairs of values that cannot be compared as such gives every filter the same truth. If it is raised (and was not raised before on this matcher), some comparison in the filters has two present operands that cannot be compared as such. Two values of one kind always can; an array or object and a value of another kind other than null never can.", "quantifier": "All supported filter lists, all benign well-formed documents with any white space, every new or reset matcher, every alternative ordering of incomparable values.", "why_tests_cant": "It quantifies over all orderings the code could have used instead; no test looks at the status of more than a few answers.", "anchors": ["fastMatcher.go: FastMatcher.MatchWithStatus", "fastMatcher.go: FastMatcher.matchOp", "fastval.go: FastVal.Compare", "fastval.go: FastVal.Equals", "matcher.go: MatcherCollateUsed"]}
{"id": "C66", "title": "The answer does not wait for the rest of the document", "statement": "When the members of the document read so far settle every filter of a list, Match answers, and its answers are the truth values of the filters on the object of these members, however the text goes on after the last of them: with further members, with anything that is not JSON, or not at all. So the filters have these truth values in every document that begins so.", "quantifier": "All supported filter lists, all benign well-formed lists of members, all byte strings as the rest of the text that do not continue a number, every new or reset matcher. Settled: by Kleene's connectives from tests, existence checks and loops on a single present member.", "why_tests_cant": "It ranges over every possible rest of the text, an infinite set of mostly malformed inputs for each filter and document.", "anchors": ["fastMatcher.go: FastMatcher.Match", "fastMatcher.go: FastMatcher.matchExec", "fastMatcher.go: FastMatcher.matchObjectOrArray", "bintree.go: binTreeState.MarkNode", "bintree.go: binTreeState.IsResolved"]}
{"id": "C67", "title": "A document that breaks off is reported", "statement": "Match reports an error for a text that is not a JSON document, in particular for one that ends before the document does and for one that goes on behind it. (This is false of the code: a text that ends behind a member of the document is answered as if the document had been closed there, and any text behind a complete document is ignored. Proved are these exact answers.)", "quantifier": "All supported filter lists whose tests name members, all benign well-formed lists of members and white space (for texts that end early); all documents and filters, and all byte strings behind the document that do not continue a number (for text behind); every new or reset matcher.", "why_tests_cant": "The texts that are not documents are an infinite set; tests feed the matcher whole documents.", "anchors": ["fastMatcher.go: FastMatcher.Match", "fastMatcher.go: FastMatcher.matchExec", "fastMatcher.go: FastMatcher.matchObjectOrArray", "jsontokenizer.go: jsonTokenizer.Step"]}
{"id": "C68", "title": "Filters are decided on documents of every kind", "statement": "A document may be an object, an array, a string, a number, a boolean or null: the filters of a list have on it the truth values their meaning gives, where the empty path is the document itself, position i of an array document is its field [i], and nothing has fields but objects and arrays. (This is false of the code where a test on a scalar document names two fields, or a loop on an array document runs over an absent field while its body names others: an absent field is then read as the beginning of the document. Proved for all other cases.)", "quantifier": "All supported filter lists, all well-formed documents of every kind under the conditions of C21 with any white space, every new or reset matcher.", "why_tests_cant": "Tests only use objects as documents; the claim ranges over all documents of the other kinds and all filters.", "anchors": ["fastMatcher.go: FastMatcher.Match", "fastMatcher.go: FastMatcher.matchExec", "fastMatcher.go: FastMatcher.matchObjectOrArray", "fastMatcher.go: FastMatcher.literalFromSlot"]}
{"id": "C69", "title": "Dates compare in the order of time", "statement": "A comparison of two dates holds exactly if their instants compare that way, and of two dates in Greenwich time exactly if year, month, day, hour, minute and second, compared in this order, do. A date is DATE of a field or of a constant string, or a time constant, written as a year, a year and month, a day, a day and a time of day, or a full RFC 3339 time with a time zone; a string field that is a date compares so with a time constant also without DATE. (This is false of the code for dates with a space, slash or dot between year, month and day: the code recognises them as dates, cannot read them, and then takes them for earlier than every date.)", "quantifier": "All valid calendar dates and times of the years 1900 to 2099 in the short layouts and 0 to 9999 in RFC 3339 without fractions of seconds, all time zones, all six comparisons, all fields and benign documents, and every setting of the libraries in which time.Parse reads RFC 3339.", "why_tests_cant": "There are millions of dates and the square of that of pairs; tests compare a few.", "anchors": ["fastval_date.go: FastValDateFunc", "fastval_date.go: GetNewTimeFastVal", "fastval_date.go: validTimeChecker", "fastval_date.go: isoToRfc", "fastval.go: FastVal.compareTime", "fastval.go: FastVal.AsTime", "fastval.go: FastVal.Compare"]}
{"id": "C70", "title": "Numbers compare by value", "statement": "A comparison of two numbers, integers or decimals with fraction and exponent, in fields of the document or constants, holds exactly if it holds of their values. (This is false of the code: numbers less than about a ten-millionth apart count as equal. Proved is that <, > and <> never hold falsely and =, <= and >= never fail falsely, for all numbers; and the full claim for numbers below a billion that are equal or at least three ten-millionths apart, in particular for all with at most six decimal places.)", "quantifier": "All decimal texts of JSON up to 10^300, all integers below 2^53, all finite double constants, all six comparisons, all fields and benign documents, and every setting of the libraries in which strconv.ParseFloat returns a nearest double.", "why_tests_cant": "Infinitely many texts denote numbers, and errors of rounding and tolerance show only between close neighbours; tests compare a few.", "anchors": ["fastval.go: FastVal.compareFloat", "fastval.go: FastVal.compareNumerics", "fastval.go: FastVal.compareUserDefined", "fastval.go: FastVal.AsFloat", "fastval.go: FastVal.Compare"]}
{"id": "C71", "title": "The text shown for a filter is the filter", "statement": "The text that a parsed filter shows of itself consists of its words in their order, with one space between two words except next to a sign, numbers written as their value, == as = and != as <>, and \"(bool)\" behind a boolean constant; every filter that parses is shown, the text stands for a filter with the same meaning, and that filter is shown by the same text. (That the text determines the meaning is false of the code: of arithmetic with two fields only the first is shown, and a string is shown without quotes, like a field. Proved is the meaning for filters without arithmetic with two fields.)", "quantifier": "All filters of the grammar with all literals, every list of tokens the grammar accepts, every setting of the parsing library, all documents.", "why_tests_cant": "Filters are an infinite set nested to any depth; tests show single parts of a few.", "anchors": ["filterExprParser.go: FilterExpression.String", "filterExprParser.go: FEOperand.String", "filterExprParser.go: FEFieldWithMath.String", "filterExprParser.go: FEConstFuncExpression.String", "filterExprParser.go: FEValue.String"]}
{"id": "C72", "title": "Spaces in a simple filter do not matter", "statement": "A simple filter parses to the same expression whatever white space is between, before and after its words, and whether or not there is space before and after an operator made of symbols. (This is false of the code in three cases: a subject in which an operator occurs, like FLOOR(a)=5, a call after the operator without a space, and tests joined without spaces. Proved is everything else.)", "quantifier": "All chains of tests of the simple syntax of any length, all four ways of spacing each operator, all kinds and amounts of Unicode white space, and every setting of the libraries.", "why_tests_cant": "Spacings multiply with the number of words and operators, and words are split while they are read, in a way that depends on what is expected next; tests try a few spacings of short filters.", "anchors": ["simpleParser.go: ParseSimpleExpression", "simpleParser.go: opSeeker.Seek", "simpleParser.go: expressionParserContext.getAndSeparateToken", "utils.go: StringSplitFirstInst"]}
{"id": "C73", "title": "The parentheses of a simple filter pair up", "statement": "In a simple filter without quotes and calls that is accepted, every parenthesis that opens is closed later and none closes that was not opened before; all other such filters are turned down after finitely many steps. (Without the restriction this is false of the code: ABS((a) = 1 and ABS(a)) = 1 are accepted, the argument of a call being taken as a name with a parenthesis in it.)", "quantifier": "All byte strings without quotation marks and back-quotes in which no parenthesis opens directly after a letter or digit, every amount of fuel, and every setting of the libraries.", "why_tests_cant": "Texts are an infinite set, and words with parentheses in them are split and read again depending on what is expected; tests try a few nestings.", "anchors": ["simpleParser.go: ParseSimpleExpression", "simpleParser.go: expressionParserContext.handleOpenParenBookKeeping", "simpleParser.go: expressionParserContext.handleCloseParenBookKeeping", "simpleParser.go: expressionParserContext.getCurrentTokenParenHelper", "simpleParser.go: expressionParserContext.parse"]}
{"id": "C74", "title": "The text shown for an expression says what it tests", "statement": "Two expressions show the same text only if they are built the same, except that a group of one member is shown as the member; in particular they hold of the same documents. This holds for expressions with plain names and with constants that can be told apart by their text, such as integers, words, and regular expressions of letters. (Without these conditions it is false of the code: an empty AND is shown like an empty OR, a constant $doc.b like the field b, and a name with a dot like two names.)", "quantifier": "All expressions of any depth built of AND, OR, NOT, loops over fields, presence tests and comparisons of fields, calls and constants, any way of formatting the other constants, all documents.", "why_tests_cant": "It compares all pairs of expressions, nested to any depth; tests look at the text of a few.", "anchors": ["expression.go: AndExpr.String", "expression.go: OrExpr.String", "expression.go: NotExpr.String", "expression.go: FieldExpr.String", "expression.go: FuncExpr.String", "expression.go: AnyInExpr.String", "expression.go: ExistsExpr.String", "expression.go: EqualsExpr.String", "utils.go: reindentString"]}
{"id": "C75", "title": "The reference matcher can be used for any number of documents", "statement": "A reference matcher answers on a document as a new one does, however often it was used before, with or without Reset, and whether or not the earlier documents were accepted; if it answers, ExpressionMatched gives for each expression what it gives for a new matcher, and Reset restores the results of a new matcher. (For a document that is refused the last part is false of the code: ExpressionMatched then gives the results of the document before.)", "quantifier": "All lists of expressions, all sequences of Match and Reset calls of any length in which no call crashed, all documents and every decoding of them.", "why_tests_cant": "Sequences of calls are an infinite set, and what a call leaves behind shows only in later ones; tests use a matcher for a few documents.", "anchors": ["slowmatcher.go: SlowMatcher.Match", "slowmatcher.go: SlowMatcher.Reset", "slowmatcher.go: SlowMatcher.ExpressionMatched", "slowmatcher.go: SlowMatcher.matchAnyInExpr"]}
{"id": "C76", "title": "The reference matcher gives each loop variable its scope", "statement": "The reference matcher answers exactly when every filter has an answer with each loop variable standing for the element within its loop only: AND and OR up to the first member that decides, comparisons of two strings, numbers or booleans, and of null with anything; it then answers true if there is a filter and all are true, and ExpressionMatched has the answers. It does not crash on filters of AND, OR, ANY and comparisons of fields and constants whose loops run over arrays and objects. (This is false of the code for a loop that uses the variable of a loop around it again, and NOT, tests for presence and loops over other values crash it.)", "quantifier": "All lists of filters nested to any depth in which no loop uses the variable of a loop around it, all documents and every decoding of them, every matcher after any use.", "why_tests_cant": "Variables are kept in one map that loops write to and delete from, so that the claim is about all nestings of loops; tests nest few.", "anchors": ["slowmatcher.go: SlowMatcher.Match", "slowmatcher.go: SlowMatcher.matchOne", "slowmatcher.go: SlowMatcher.matchAnyInExpr", "slowmatcher.go: SlowMatcher.compareExprs", "slowmatcher.go: SlowMatcher.resolveFieldParam"]}
{"id": "C77", "title": "A compiled filter can be shown, and the text has all of it", "statement": "The String method of a compiled filter (MatchDef) ends without crashing, and its text has: the whole tree of the filter, one line per node in pre-order with its number, that of its parent and its kind, indented by depth; for each expression of the list the number of its node, or -1 or -2 for a constant; the numbers of nodes and slots; and a line for every comparison and presence test, wherever it stands, with its number in the tree, its operator and its operands. (This is false of the code for a filter with a PCRE constant and for a list of constants only: showing these crashes.)", "quantifier": "All lists of expressions that compile, of any length and depth, without PCRE constants and with at least one expression that is not a constant; conditions whose operands are written on one line; every way of formatting floating-point numbers and times.", "why_tests_cant": "The text is made by recursion over a graph that compilation builds by adding to nodes made earlier, so that no cycle and no lost node is a claim about all compilations; tests print a few filters, or none.", "anchors": ["fastMatcherDef.go: MatchDef.String", "fastMatcherDef.go: ExecNode.String", "fastMatcherDef.go: LoopNode.String", "fastMatcherDef.go: OpNode.String", "fastMatcherDef.go: FuncRef.String", "bintree.go: binTree.String", "bintree.go: binTree.itemToString", "fastval.go: FastVal.String", "transform.go: Transformer.Transform"]}
{"id": "C78", "title": "Rounding gives the nearest integer", "statement": "ROUND of a floating-point number is the integer nearest to it, halves going away from zero, and ROUND of an integer is that integer; so a filter comparing ROUND of a field with an integer answers as ordinary arithmetic on the decimal number written in the document does. (For floating-point numbers this is false of the code, and false exactly, for the double just before one half and its negative, which go to 1 and -1; for the odd integers between 2^52 and 2^53 and their negatives, which go to a neighbour; and for everything beyond 2^63.)", "quantifier": "All finite doubles from -2^63 up to 2^63 that are not in the list of exceptions, all exceptions for the converse; all integers; for filters, all documents, decimal numbers with at most six places and of size up to a billion, all six comparisons and all integers up to a billion.", "why_tests_cant": "The code adds or subtracts one half in floating point and cuts the fraction off, so the result depends on how that sum is rounded; there are 2^64 doubles, and the only fraction that is rounded wrongly is one value next to one half, which no table of examples hits by chance.", "anchors": ["fastval_math.go: floatMathRound", "fastval_math.go: FastValMathRound", "fastMatcher.go: Matcher.resolveFunc", "fastval_compare.go: FastVal.Compare"]}
{"id": "C79", "title": "Arithmetic on floating-point numbers is correctly rounded", "statement": "Addition, subtraction, multiplication and division of two floating-point numbers give the double nearest to the exact result, and of two equally near the one with an even mantissa; the absolute value is exact; conversion to degrees and to radians is within one part in 10^15 of the exact result. So a filter comparing the sum, the difference or the product of two numbers with a third answers as ordinary arithmetic on the decimals does: a + b = 0.3 holds of 0.1 and 0.2.", "quantifier": "All pairs of finite doubles whose exact result does not overflow, with a divisor other than zero; for degrees and radians zero and all doubles between 2^-1000 and 2^1000 in size; for filters all documents, fields and constants, decimals with at most six places, operands of size up to ten million (for products, operands with at most three places of size up to a thousand), all six comparisons.", "why_tests_cant": "There are 2^128 pairs of doubles; that a sum of decimals which is off in the last place still compares equal depends on the size of the error over the whole range against the tolerance of the comparison.", "anchors": ["fastval_math.go: FastValMathAdd", "fastval_math.go: FastValMathSub", "fastval_math.go: FastValMathMul", "fastval_math.go: FastValMathDiv", "fastval_math.go: FastValMathAbs", "fastval_math.go: FastValMathDegrees", "fastval_math.go: FastValMathRadians", "fastval.go: FastVal.Compare"]}
{"id": "C80", "title": "A filter in the JSON syntax answers what it says", "statement": "A filter in the JSON array syntax built from and, or, not, exists, notexists and comparisons of a field with a constant or another field is accepted, compiles, and answers on a document what its words say of the document's text: a number is compared by value, a string is equal to the string of the same bytes, strings of printable ASCII are ordered by their characters, null, true and false each to itself, and of an absent field only notequals holds. No filter says two things. A filter that loops over an array of the document (anyin, everyin, anyeveryin) with such a body, without negations, answers what the body says of the elements, and false if there is no array at the path.", "quantifier": "All such filters, of any size and depth, over paths of any length; all documents that are objects or arrays, without repeated names and empty containers; numbers with at most six decimal places of size up to twenty million, all six comparisons; strings with and without escapes, for equals and notequals, and for all six comparisons if of printable ASCII without quotes and backslashes.", "why_tests_cant": "It ties reading the filter, compilation and matching together for all filters and documents at once; tests compare single filters with single documents.", "anchors": ["expression_json.go: ParseJsonExpression", "expression_json.go: parseJsonSubexpr", "transform.go: Transformer.Transform", "fastMatcher.go: Matcher.Match", "fastMatcher.go: Matcher.ExpressionMatched", "fastval.go: FastVal.Compare"]}
{"id": "C81", "title": "A text filter answers what it says", "statement": "A text filter built with AND, OR, NOT and parentheses from comparisons of fields, constants and dates, EXISTS, IS [NOT] NULL, IS [NOT] MISSING and FALSE is read from its words, gives a matcher, and the matcher answers on a document what the tests say of the document's text: numbers are compared by value, and so are a sum, difference or product of two of them, the negative of a field or its ABS with another number, strings are equal if they have the same bytes and those of printable ASCII are ordered by their characters, dates (DATE of a string) are compared as points in time, a boolean is equal to itself, a string of the document that is no integer comes after every integer constant, an integer of the document (other than -0, within 64 bits) is compared with a string constant of printable ASCII as text, and of an absent field only <> holds. No test says two things.", "quantifier": "All such filters, of any size and depth, whose words are not mistaken for others (as C62), and all settings of the parsing library; all documents that are objects or arrays, without repeated names and empty containers; numbers with at most six decimal places of size up to twenty million (ten million for what is added or subtracted; three places and a thousand for what is multiplied); strings in the document with and without escapes.", "why_tests_cant": "It ties the grammar, the translation, compilation and matching together for all filters and documents at once; tests compare single filters with single documents.", "anchors": ["filterExprParser.go: FilterExpression.OutputExpression", "filterExprParser.go: NewFilterExpressionParser", "transform.go: Transformer.Transform", "fastMatcher.go: Matcher.Match", "fastval.go: FastVal.Compare"]}
