# Formal model of gojsonsm in Rocq (Coq 8.16.1)

`/repo` holds couchbaselabs/gojsonsm, a Go library that matches JSON documents
against filter expressions without decoding the documents.  This directory holds

* `properties.jsonl` - the properties, stated on the API;
* `rocq/theories/*.v` - model (`M*.v`), specifications (`S*.v`), proofs (`P*.v`)
  and final statements (`T*.v`);
* `MANIFEST.json` - property -> theorem names and status;
* `seeded/LOG.jsonl` - attempts to break the theorems by editing the model.

When the code violates a property, the theorem is a refutation: its name ends
in `_refuted`, it exhibits an input on which the *model of the code as written*
violates the property, and a companion theorem proves the strongest corrected
statement we found (under a precise, checkable hypothesis).

## 1. Modelling conventions

* A byte is an `N`; Go strings and `[]byte` are `list N`.  Where a result
  depends on bytes being < 256 the theorem says so.
* `int64`/`uint64` are `Z`/`N` with explicit wrap-around functions.
* Go `error` results are an explicit constructor; Go panics (explicit `panic`,
  index out of range, nil dereference, integer division by zero, failed type
  assertion) are another, distinct constructor.  Loops and recursion without a
  structural bound take fuel; running out of fuel is a third outcome and the
  theorems exclude it.
* Float operations are rounded one by one: no fused multiply-add (the Go
  specification allows it; no modelled expression adds to a product).
* float64 is `SpecFloat.spec_float` (Coq standard library, prec 53 emax 1024),
  which is computable and axiom free.
* Mutable trees of `ExecNode` pointers are a heap (list) indexed by node number.
* Library code outside the repository that cannot reasonably be modelled (regexp
  matching, PCRE, `time.Parse`, trigonometric functions, float
  formatting/parsing by `strconv`) is an explicit record of oracle functions;
  every theorem is universally quantified over it.
* Every definition of a model file cites the file and lines of `/repo`.

## 2. Properties: what is modelled, how each is proved

Two proof techniques recur.

* *Trees for texts.*  A document is a concrete-syntax tree `cst` (`SJson.v`) with
  arbitrary white space at every place the grammar allows; `doc_text` prints it.
  Statements about every JSON text quantify over all trees.
* *Two-step refinement of the matcher.*  `PTree.v`: on well-formed documents the
  byte-level matcher does what an interpreter over trees does.  `PExpr`, `PCompile`,
  `PPlace`, `PSites`, `PHeap`, `PEval`, `PMatch`, `PSem`: what the compiler builds,
  interpreted over a tree, reports to the predicate tree exactly the facts that the
  denotational meaning of the expressions (`SSem.truth`) needs.  `TMatch.match_truth`
  joins the two.

| Property | What is modelled | How it is proved |
|---|---|---|
| C01-C04 | `Step`/`Seek`/`Reset` as a state machine over bytes (`MTokenizer`) | induction over syntax trees for completeness; invariants of the scanner loop for soundness, progress, locality |
| C05-C07 | `unescapeJsonString` and helpers with explicit buffer bounds (`MLit`) | relation "spelling of a Unicode string"; induction over the spelling; buffer invariant; counterexamples for C07 |
| C08 | `ParseInt` with int64 wrap | induction over digits; refutation out of range |
| C09-C14 | `binTreeState` (`MBinTree`), and its use by the matcher (`MSession`) | trees laid out in pre-order; three-valued evaluation as specification (`SFormula`); invariant kept by every report |
| C15 | `Validate` | completeness by induction; refutation of the converse |
| C16, C17, C18 | `Transformer` over a heap of nodes, with panics (`MTransform`); field collection (`MExpr`) | invariants of the compiler state; explicit class `compilable` that never panics; refutations outside it |
| C19 | compile and match (`MTransform`, `MMatcher`) | `match_truth`; paths and names are specified from the document text (`SNames`) |
| C20 | loops | `match_truth` with the list specification of any/every/any-and-every |
| C21 | several expressions | `match_truth` for lists; each answer equals the one alone |
| C22 | `Reset` and matcher histories | simulation: a reset matcher and a new one go through equal states |
| C23, C24 | same | documents a filter cannot tell apart (`SSem.alike`) have equal truth |
| C25 | `skipValue` | induction over the value's tree |
| C26, C27 | `Match` on every text | totality on well-formed documents; termination by a measure on every byte string |
| C28-C31 | absent fields, loops, constants, empty loops | from `match_truth`; refutations where the code differs |
| C32-C37 | `FastVal` comparison and arithmetic (`MFastVal`, `MMath`) | case analysis over type pairs, integers, SpecFloat lemmas |
| C38 | `CompactExpression` (`MCompact`) | structural induction |
| C39, C40, C52 | expressions in JSON syntax (`MExprJson`) | round trip by induction; totality by shape |
| C41 | `ExpressionStats` (`MStats`) | counting specification, induction |
| C42-C44 | `MatchAndRemoveItemsFromJsonObject` (`MComposer`) | specification of removal on trees; simulation of the position bookkeeping |
| C45 | `SlowMatcher` on decoded JSON (`MSlow`) | decoding is a relation between tree and value; agreement of every comparison, then of `truth` |
| C46, C53 | filter syntax trees and their translation (`MText`) | filters as written (`SText`), their tree, their meaning; induction; then through `match_truth`.  How trees come from text: C62 |
| C47, C54-C60 | the older filter parser, whole (`MSimple`): words, tokens, sub-contexts, parse tree, output | filters as written (`SSimple`) and their printer; what the parser does to the words of a chain of tests, by induction over the chain with the exact parse tree (tests on paths and on calls nested to any depth, `PSimpleCall`); more fuel never changes a result (`PSimpleFuel`), so witnesses hold for every amount; termination (`PSimpleTerm`, `PSimpleTree`, `PSimpleEnds`): every token costs weight of the remaining words, the parse tree and the argument lists have no cycles; answers through `match_truth` |
| C48 | the package-level buffer used when a number is compared with text (`MShared`): a matcher run is a program whose conversions are steps on shared memory, several run under any schedule | alone such a program is the matcher of the other theorems (`PShared`); refutation by a schedule; right answers when conversions do not overlap, by induction over the schedule, and under every schedule when all filters but one never convert (`PCalm`, an invariant of the compiled definition) |
| C49-C51 | string constants, string order, boolean words | injectivity of the quoting routine; order laws; language equality. Byte order is refuted for characters that quoting escapes; for printable ones `C50_characters` proves the order by code points through a whole filter (UTF-8 keeps the order of characters, `C50_bytes`) |
| C61 | `Transform` called again on the same transformer, whose slot counter goes on (`MReuse`) | renaming of slots commutes with every function of the transformer and, with a padded slot buffer, of the matcher (`PReuse`); then induction over the calls |
| C62 | the struct tags of filterExprParser.go as parsers over tokens (`MGrammar`), for every lookahead >= 1 of the parsing library and both treatments of failed alternatives | filters as written (`SText`) printed as tokens (`SGrammar`); which of them no alternative mistakes for something else; completeness of every parser by induction on the filter and on fuel (`PGrammar`); the filters of the repository's test file are checked as examples; `TOperator.v` says which signs are operators, from the words to the translation |
| C63 | the same | every parser uses tokens before it recurses, so the fuel (number of tokens + 1) is never exhausted; every tree it makes is one the translation does not crash on (`PGrammarSafe`) |
| C64 | the same | which token sequences are texts of a filter (`SReads`: places that hold a word, a token of a kind, a number, signs, terms); every parser returns a tree that translates like the tree of a filter of which the tokens it used are a text, or one that is refused (`PReads`); balance of parentheses by induction on the text (`TReads`) |
| C65 | the flag `matchOp` sets when values are ordered by type, `MatchWithStatus` (`MMatcher`) | the truth of a filter under any other ordering of incomparable values (`SStatus.truthBy`); the trace invariant of C19 carries such an ordering along and says that it agrees as long as the flag is clear, and that the filter has an incomparable pair once it is set (`PEval`, `PMatch.match_status`); `match_truth` is the special case |
| C66 | the whole of `Match` on a text that is a document only in its beginning (`MMatcher`, `MTokenizer`) | when the members read settle a filter (`SEarly.settled`: Kleene's connectives over tests about one present member); the trace of the matcher up to there marks the root of the tree (`PEarly`, `PMatch.tree_status`), so the loop over members ends before the next token is asked for (`PCut.match_cut`, a simulation that knows only the members read) |
| C67 | as C66, for texts that end behind a member and for complete documents followed by any bytes | such a text is no document (`PBal.unclosed`: opening minus closing brackets of its tokens); the matcher leaves the loop over members at the end of the text, and because every test names a member (`SEarly.anchored`) none is left for the end of the document, so what is decided there is decided as for the closed object (`PEarly.anchored_all`, `PMatch.tree_status`, `PCut.match_end`). Text behind: the simulation of C19 needs only that the tail does not continue a number |
| C68 | documents of every kind; a read of a slot that was never filled reads the first token of the document (`MTree.v`) | `SSem.readable` states on arrays and scalars what keeps such reads harmless (`lone`, `loopsFound`); in `PEval.v` the invariant on the slots is generalised from objects (`rootFit`); on scalars the other conditions follow (`lit_tame`); refuted where the conditions fail |
| C69 | the date patterns, `isoToRfc`, DATE and the comparison of times (`MFastVal.v`); `time.Parse` is an oracle | `SDate.v` has the Gregorian calendar, day numbers, the layouts and `libraries`, what is assumed of `time.Parse` and `strconv.IsPrint`; day numbers are strictly increasing along the calendar (`PDate.earlier_instant`), every layout is recognised by its pattern only and completed to RFC 3339 (`iso_rfc`, `layout_parsed`); then `match_truth`; refuted for separators other than dashes |
| C70 | integers and doubles of fields and constants, their comparison with the tolerance (`MFastVal.v`); `strconv.ParseFloat` is an oracle | `SNumber.v` has the values of decimals and doubles as rationals and `parsesDecimals`, that a nearest double is returned; comparing doubles is comparing values (`PNumber.sf_compare`), rounding a difference never takes it below the tolerance (`far_apart`, on the rounding of `SpecFloat`), nearest doubles keep the order (`nearest_mono`) and are close (`nearest_error`); refuted without the conditions |
| C71 | all `String` methods of the parsed filter (`MPrint.v`) | `SPrint.v` has the filter that is shown (`asShown`) and what it is for words to stand in a text with spaces; composition of such texts, by mutual induction on the filter; for the absence of crashes, an invariant of what each parser of the grammar returns; the loss of information refuted with two witnesses |
| C72 | splitting at white space, the search for operators inside words, splitting words, in the parser as for C54 (`MSimple.v`) | `STight.v` has the words when operators touch their neighbours and the texts with these words (any Unicode white space); a word with an operator in it is split where it is read and reading goes on as for the parts; the induction of C54 along the chain, with words still to be split ahead; three exceptions refuted with witnesses |
| C73 | the bookkeeping of parentheses in the parser as for C54 (`MSimple.v`) | `SParen.v` counts the open parentheses of a text; for arbitrary texts, an invariant of the parser: the depth it keeps, run over the words not yet read, gives what the whole text gives; word splitting keeps the parentheses in order; calls refuted with a witness |
| C74 | the `String` methods of `expression.go` (`MShow.v`) | `SShow.v` has plain names, legible sets of constants and expressions without groups of one; the text is taken apart into lines, the first line tells the kind of the expression, indented blocks the members; induction on one of the two expressions; refuted in three ways without the conditions |
| C75 | `SlowMatcher` with its map of variables and its results (`MSlow.v`) | `SRef.v` has the matchers after any use; matching depends only on the values of variables, leaves none behind but that of the document, and a call that answers sets every result; stale results after a refused document refuted |
| C76 | the same | `SRef.v` has the answers of filters in an environment, as a relation; induction on the filter, with the map equal to the environment at every point; refuted for shadowed variables and for the constructs that crash |
| C77 | the `String` methods of compiled filters, their trees and constants (`MDefShow.v`) | `SDefShow.v` has the outline of a formula, the lines of the answers, the conditions of a filter with their places, and how operands are written; invariant of compilation (`PDefHeap.v`): references lead to later nodes, every node is reached from the root, every condition has its operation; the text is made with fuel, and one text is the result for all large fuels; refuted for PCRE constants and constants only |
| C78 | `floatMathRound`, `FastValMathRound` (`MMath.v`), on the doubles of Coq's `SpecFloat` | `SRound.v` says what rounding is and lists the exceptions; `PNearest.v` proves, with no axiom, that addition, subtraction and conversion from integers in `SpecFloat` give the nearest double, ties to even; `PRound.v` then follows the sum with one half over the whole range: below 2^52, between 2^52 and 2^53, and above; the exceptions are refuted one and all; composed with C70 for filters |
| C79 | the float branches of `FastValMathAdd`, `Sub`, `Mul`, `Div`, `Abs`, `Degrees`, `Radians` (`MMath.v`) | `SArith.v` says what correctly rounded means, over the rationals; `PArith.v` proves it of products and quotients in `SpecFloat` (sums are in `PNearest.v`); `TArith.v` derives the relative error and with it degrees, radians and the filters over sums, differences and products. Not covered: overflow, infinities, NaN, filters over quotients |
| C80 | nothing new: `ParseJsonExpression` (`MExprJson.v`), `Transform` (`MTransform.v`) and `Match` (`MMatcher.v`) together | `SJsonFilter.v` says when a filter is true of a document, on the decoded JSON of the filter and the text of the document; `TJsonFilter.v` finds the expression a filter stands for by induction on that judgement, and composes C39, C19, C49, the number comparison of C79 and the string comparison of C50; `C80_loop` does the same for a filter that is one loop, whose body has no negations. Not covered: other loops, functions, comparisons of a field with a part of itself, times, regular expressions, order of strings that are not printable ASCII |
| C81 | nothing new: the grammar (`MGrammar.v`), `OutputExpression` (`MText.v`), `Transform` and `Match` together | `STextFilter.v` says when a test of a text filter is true of a document, on the filter as written and the text of the document; `TTextFilter.v` proves the model's value of each test to be that, that such tests are accepted, build and run, and composes C62, C46, C50, C69 and the number comparison and the sums and products of C79. Not covered: division, remainder and arithmetic on both sides, functions other than DATE and ABS, regular expressions, most comparisons of values of different kinds |

## 3. Trusted base

* Coq 8.16.1's kernel, with `vm_compute` (used on closed examples and refutation
  witnesses).
* No axioms, of our own or of a library.  Every `T*.v` file ends with
  `Print Assumptions` for its theorems; each prints
  `Closed under the global context`.
* A scan of the loaded libraries also finds seven entries named
  `Coq.ssr.ssrunder.Under_rel.*`.  They are the fields of a module type in Coq's own
  ssreflect plugin directory, loaded with the standard library's `ssreflect` support;
  no theorem here depends on them.
* That the model files describe the Go code.  This was checked by reading only: the
  code cannot be built or run here.  Each model file starts with its simplifications.
* For C62, C63 and C64, that the parsing library reads struct tags as `MGrammar` says.  The
  library is not in the repository and its version is not pinned there; the statements
  hold for every lookahead of at least one and for both treatments of alternatives that
  all failed.
* The specifications (`S*.v`) say what the English says.

## 4. What is modelled

| Go file | Model | Not modelled |
|---|---|---|
| jsontokenizer.go | `MTokenizer` (all) | `tokenTypeToString` names |
| fastlitescape.go, fastlitparse.go | `MLit` (all; float parsing is the oracle `o_parseFloat`) | - |
| bintree.go | `MBinTree`; the text of a tree in `MDefShow` | `binTreeState.String` |
| fastMatcher.go | `MMatcher` | `debugger` output; `matchElems` (311-386), which nothing calls |
| fastMatcherDef.go | the definition types, in `MTransform` and `MMatcher`; the `String` methods in `MDefShow` | `SlotID.String`, `BucketID.String` |
| transform.go | `MTransform`; repeated use in `MReuse` | `String` methods |
| expression.go, expression_utils.go | `MExpr`; the `String` methods in `MShow` (formats of package fmt for floating-point numbers, times and other types are parameters) | `RootSet` |
| expression_compact.go | `MCompact` | - |
| expression_json.go | `MExprJson`, on decoded JSON values | encoding/json |
| expressionstats.go | `MStats` | - |
| fastval.go, fastval_date.go | `MFastVal`, the shared buffer in `MShared`, `String` in `MDefShow` | `GetUserDefined` wrappers; collation library calls (oracles) |
| fastval_math.go | `MMath` | Go's math functions (oracles `o_fun1`, `o_fun2`) |
| jsonComposer.go | `MComposer` | capacity of `dst` beyond its length |
| slowmatcher.go | `MSlow`, on decoded JSON values | encoding/json; `MatchWithStatus` (309-313), which adds a constant |
| filterExprParser.go | `MText`: trees, `OutputExpression`, `GetFilterExpressionMatcher` after parsing; `MGrammar`: the grammar in the struct tags; `MPrint`: the `String` methods | the scanner (Go's text/scanner) and the participle library itself, of which only the reading described in `MGrammar` is assumed; the unused types `FEAndConditionWrapper` and `FEAndCondition` |
| constants.go | names, the PCRE test | regular expressions not used by modelled code |
| pcre_wrapper*.go | oracles `o_pcre`, `o_pcreCompiles` | libpcre |
| simpleParser.go | `MSimple` (all; regular expressions used for recognising words are written out as functions) | `String` methods |
| utils.go | `StringSplitFirstInst`, in `MSimple`; `reindentString`, in `MShow` | - |
| alloctrack.go, randdata.go, matcher.go | - | test support, interface declarations |

External calls are fields of the record `oracles` (`MFastVal`): float parsing and
printing, `unicode.IsPrint` and the DEL spelling, RFC 3339 parsing, float to integer conversion out
of range, math functions, regular expressions.  Theorems hold for every such record;
where one needs a fact about the library (for instance that parsing a printed integer
gives that integer, `SDate.libraries` in C69 or `SNumber.parsesDecimals` in C70) the fact is a visible hypothesis.

## 5. Defects of the code that the refutations exhibit

* A comparison mentioning a path and an extension of it (`a = a.b`) crashes the
  compiler (C17, C53).
* Loop variables other than the innermost, NOT EXISTS and constants inside loops crash
  the compiler (C17); so do refused patterns (C53).
* A filter list of constants only crashes the matcher (C26); a nested TRUE counts as
  FALSE (C30, C46).
* Empty arrays and objects count as missing (C19, C31, C46).
* Functions of missing fields give wrong answers (C19, C46); values of an earlier
  array element are reused (C29).
* Truncated or malformed documents crash the matcher (C26), or are answered without an
  error: as if closed where they end, or without regard to what follows (C67); integer division by
  zero crashes it too (C37, C46).
* On a document that is not an object, a field that is not there may be read as the document
  itself: `a = b` holds on `5` (C68).
* A date written with spaces, slashes or dots between year, month and day matches the
  date patterns, but is then completed to a text `time.Parse` rejects; DATE of it is an
  invalid value that sorts before every time, so `DATE(a) < DATE("1999-01-01")` holds on
  `{"a":"2020/05/06"}` (C69).
* Numbers are compared with a tolerance of 0.0000001 unless both are integers: `a =
  1.0000000000002` holds on `{"a":1}` (C70).
* The text of a filter drops the second field of `a + b` and the quotes of strings: `a + b
  IS MISSING` and `a IS MISSING` are shown alike (C71).
* The collation status is never cleared (C22); it is raised for some pairs of numbers when
  a constant is unsigned (C65).
* Matchers on different goroutines read each other's numbers through a package-level
  buffer (C48).
* Member removal fails on arrays ending in a string, and misreads repeated or escaped
  names (C42, C43).
* Invalid escapes, surrogates and out-of-range integers are misread (C07, C08).
* The fast and the reference matcher differ (C45).
* The older filter parser has no operator precedence and groups differently for `&&` and
  `AND`, and for operators inside strings (C54); drops boolean constants (C56); reads
  `"5"` as a number (C55); repeats indexes and refuses index 0 (C47); loses arguments of
  nested calls (C60); crashes (C57); runs forever (C58).
* In text filters only the last term of a longer sum counts, a number times a field is
  refused on the right, and a string spelled like a word of the grammar (`a = "true"`)
  is taken for that word (C62).
* There, `FLOOR(a)=5` and `a=ABS(b)` are refused though they parse with spaces, and
  `a="x"&&b="y"` compares `a` with one string (C72); `ABS((a) = 1` is accepted (C73).
* After a document that the reference matcher refuses, `ExpressionMatched` gives the results
  of the document before (C75); a loop that reuses a variable takes it away from the loop
  around it (C76).
* `ROUND` of 0.49999999999999994 is 1, `ROUND` of 4503599627370497.0 is the next even
  integer, and beyond 2^63 the result is not the number (C78).
* Showing a compiled filter crashes if it has a PCRE constant or only constants (C77).
* An empty `AND` is shown like an empty `OR`, a constant `$doc.b` like the field (C74).
* JSON-syntax expressions with too few entries crash the parser (C40); accepted times
  may crash the compiler (C52); statistics crash on NOT and LIKE (C41).

## 6. Seeded edits

`seeded/LOG.jsonl` lists the edits of the model that were tried, each with the claim
it breaks, the files that then failed to build, and what was tightened when nothing
failed.
