# Design: formal model of shellyln/takenoco in Rocq (Coq 8.16.1)

## Approach

The model (`rocq/theories/M_*.v`) is executable Gallina, one definition per Go
function, each with a comment citing `/repo` file and lines.  Proofs live in
other files (`L_*.v`), specifications in `S_*.v`, and the property theorems in
`P_*.v`, each closed by `exact lemma.` with `Print Assumptions` under it.

* A Go `string` is a `list Z` of bytes; UTF-8 decoding/encoding is modelled byte
  by byte (`utf8.DecodeRuneInString`, `string(rune)`).
* `ParserContext` is a record; `AstStack` is a list (bottom first).  The effect of
  sharing one backing array is *not* ignored: a second, heap-level model
  (`M_Heap`) has arrays, slice headers and capacity, and C13 proves that it
  computes the same as the list model (and C14 that `Match` breaks this).
* A `ParserFn` is `nat -> ctx -> res (ctx * option gerr)` where `res` is
  `Ok | Panic | Fuel`.  The `nat` is fuel: it bounds unbounded loops and
  `Indirect` recursion.  "Terminates" = some fuel suffices; "diverges" = `Fuel`
  for every fuel.  Results are monotone in fuel, so each run has at most one result.
* Grammars are a syntax `pexp` with one constructor per exported combinator, plus
  `EBase`/`ELight` for direct uses of `BaseParser`/`LightBaseParser` with arbitrary
  user functions; `denote` maps each constructor to the model of the Go function
  body.  Theorems "for every grammar" are inductions over `pexp`.

## Property plan

| id | what is modelled | how it is proved |
|----|------------------|------------------|
| C01 | BaseParser, all combinators | independent big-step PEG relation `peg`; adequacy in both directions |
| C02 | Repeat | direct induction on the loop, spec = iterate relation |
| C03 | look-around, Start, End, Zero, WordBoundary | direct |
| C04 | First / sequence loop | equations between runs |
| C05 | all combinators | induction over an evaluation-context syntax |
| C06 | all combinators | induction over grammars; `_refuted` for BaseParser with fn |
| C07, C08, C09, C10 | all | induction over grammars with contracts on leaves and transformers |
| C11 | loop with fuel | measure on remaining input / divergence by invariant |
| C12 | all | relational induction over grammars |
| C13, C14 | heap model of slices | refinement with a frame invariant / witness |
| C15, C16 | string leaf parsers, utf8 | case analysis against set specifications |
| C17, C18 | string leafs + combinators | induction over grammars, UTF-8 facts |
| C19 | WordBoundary | witness for the code's own "TODO: BUG"; positive theorem under a lead-byte guard; `*_exact`: the previous character as the code sees it, for every input |
| C20, C21, C22 | string/transformers.go, strconv.ParseInt/ParseUint | functional specs; errors by induction on the digit loop |
| C23, C24 | base/transformers.go, with closure state for Prepend/Push | functional specs, history induction, refutations |
| C25 | Group/FlatGroup | equation |
| C26 | object/parsers.go | case analysis; `Seq` refuted |
| C27 | ItemEquals | tree induction |
| C28, C29 | ProductionRule | step relation, well-founded measure |
| C30 | GetLineAndColPosition | loop invariant against a declarative line spec |
| C31-C35 | extra/extra.go | via `peg` |
| C36, C37 | csv example | via `peg`; totality via C10/C11 style argument |
| C38, C39 | formula example | via `peg` and ProductionRule lemmas; division by zero refutes totality |
| C40 | torpn example | same grammar; ambiguity witness |
| C41 | Traverse | state-passing callbacks |
| C42 | tracer | construction-time state and event log |
| C43 | Indirect | interleaving transition system |
| C44 | leaf parsers | direct; Length refuted; invariant on the semantics says what both fields are in a run (S_Place `tiled`) |
| C45 | Marshal/Unmarshal | iteration order as a parameter; the exact theorems by induction on the order of visits (Marshal: last writer of a column; Unmarshal: every field is set at most once, so the first faulty round decides) |
| C46 | box.go | transition system over a map heap |
| C47 | ToSlice, GroupingTransform, TransformError | functional specs |
| C48 | Match, TopIs* | functional specs; deep equality as an inductive relation |
| C49-C52 | extra/transformers.go, time.Parse for two layouts, time.Date | calendar as succession of days; the day count by induction over days and computation over one 400-year cycle; token theorems of C35 for the pipelines |
| C53 | base/ast.go SliceLike methods of AstSlice | over the heap model of C13; sharing stated as equality of memory cells |
| C54 | string/transformers.go ParseFloat, strconv.ParseFloat for decimal texts | rounding in integers: no 53-bit number lies between the two candidates; uniqueness of the rounded number; token theorems of C33 for the pipelines |
| C55 | extra/extra.go identifiers and UnicodeWordBoundary, extra/util.go isUnicodeWord | token theorems of C33/C37: the longest identifier ends where no word character follows; `$` refuted |
| C56 | recursion through Indirect | guardedness judgement (consumed before the call or a smaller rank) with lexicographic induction on layer, remaining input and rank; divergence by induction on fuel from a set of (rule, position) pairs that reach each other |
| C57 | error reports | origin of an error value by induction on fuel over `reaches`; positions of failed combinators from the restoring branches; the totality proof of the formula grammar carries for each error the texts around its position; messages by composing with C30 and the decimal rendering of C45 |
| C58 | Trans(…NumberStr, ParseIntRadix…) | token theorems of C31, C32 composed with C21 through the relational semantics |
| C59 | ParseIntRadix(0), ParseUintRadix(0) | the digit loop reduces to the loop of C21 on the text without underscores; the underscore automaton accepts exactly `separated`; case split on the prefix |
| C60 | wasm/main.go | C37 and C38 composed with the conversion of results; witnesses for the refuted clauses |
| C61 | ReflectionBox | typed memory with arrays and maps; getters against `content`, setters against `changed`, frame lemmas for nested paths, typing preserved |
| C62 | formula examples, every text | relation `reading` on texts (tokens, precedence, errors, order of events); totality by following the grammar, functionality by induction on the length |
| C63 | ParseFloat for every text | readFloat reduces to a reading of the text without underscores (C59's automaton for the separators); both bases share one rounding lemma; exponents beyond 100000 only by size: such numbers are above or below all floats |
| C64 | error texts of the transformers | relation for Go's string literals; Quote by induction on the decoding loop; uniqueness of the literal's value by induction; causes from C21 and C63 |
| C65 | torpn on a heap | simulation between the engine threading a heap and the list engine: values made since a parser was entered own their arrays, nothing older is written |
| C66 | grammars with the variables of Prepend and Push | simulation between the engine threading the variables and the list engine, invariant: variables equal the given ASTs up to position |
| C67 | extra/transformers.go, time.Parse for two layouts | every chunk of the layout reads exactly one set of words; composition along the layout |
| C68 | base/box.go, all kinds of Box on one memory | the typed memory of C61; map boxes against `container_is`, sets against `put`, one frame theorem for all boxes |
| C69 | all parsers and transformers, positions of ASTs | erasure `blur`; simulation of the engine against itself up to `blur`, generic in the memory; one lemma per library part |
| C70 | Prepend and Push under concurrent assignments | M_Shared: an oracle assigns between any two accesses; the simulations of C66 and C69 over this memory |
| C71 | floats in CSV rows | the shortening loop of strconv against the interval of decimals that round to the number; the shortest digits by comparing the loop's position with the interval; layouts read back by C63; rounding to 24 bits as for 53 |
| C72 | arguments and messages of Marshal and Unmarshal | the argument as what reflection sees of it (`M_CsvAny`); messages put together from C57 (positions), C45 (which cells), C64 (literals) and C63 (what is no float) |
| C73 | the minimal parser of the introduction, main.go | Start, a parser of words (C31-C35 or letters) and End in the PEG semantics of C01; the position of the failure from C57; main.go from C37 |
| C74 | production rules read the slice they rewrite | every part reads the cells of the source when it is called (`live`); frame conditions on the parts (`framed`) give equality with the snapshot run of C13 by induction on the grammar; witness of a transformer that writes to its source |
| C75 | DeepEqual and ItemEquals on memory | DeepEqual with its table of visited pairs on arrays of variables (`M_DeepMem`); termination by the pairs that are not in the table yet; the table is closed under one step, so a true answer gives a bisimulation; on memory without cycles by induction on the unfolding |
| C76 | refactoring by laws | each law by the rules of the PEG semantics of C01, congruence by mutual induction on the rewriting; for rules that are rewritten too by induction on the derivation, each law holding under every set of rules; witnesses for what is no law |
| C77 | number of parser calls | the grammar run by the engine of `M_World` with a counter as its memory; the counted runs are derivations with a number at every node (`pegk`), the bound by induction on these; exact costs of the recursive rules by induction on the depth; for CSV a potential argument along the structure of the text; equality with the tracer's events by a simulation of the two memories |
| C78 | calls of production rules and the formula examples | `w_ProductionRule` of `M_World` with the counter of C77; the rule bound by induction on the rounds, the list getting shorter; sums by exact derivations of every scan; for the examples the counted semantics with weights at transformers (`L_CountW`), and a potential argument in units of 12*N+32 calls: every part makes at most 20 units for every byte it consumes, the rules of an expression are paid by its operands; induction on the count for the recursion through Indirect; the lower bound for the text of a sum by following its one derivation, with the exact cost of the rules as the weight |
| C79 | what a parse can know of the text around it | `M_Reach` runs a grammar and marks the furthest position of a call; two runs on texts that agree up to K bytes after it are simulated step by step, with a text put before one of them; the leaves one by one |
| C80 | how deep parser calls nest | the engine of `M_World` with the number of open calls and its maximum as the memory (`M_Depth`); bounds as preorders the memory stays in, for recursive grammars by induction on the measure of C56; the lower bound by following the failing parse of opening parentheses |
| C81 | a CSV text settles | from the relation of C36 that says what comes back (`table_back`): cells that came back are safe in the sense of C36 (`L_CsvSettle`), so the second time only rows can go, and the third time the table is a safe one |
| C82 | the two formula examples agree | the readings of C62 with and without stops at divisions by zero are compared by induction (`L_Agree`); the stack machine of C40, its programs counted by the numbers on the stack; a fully parenthesised text is written for every program |
| C83 | CSV texts can be put together | the reading relations of C37 are extended by a text that starts with a line break, one by one (`L_CsvJoin`); a line break starts with no continuation byte, so no character reaches into it |
| C84 | formulas can be put together | the reading relations of C62 are extended by a text that starts with a closing parenthesis (`L_Compose`), no token reaches into it; the rest is the reading of C82 for the composed text |
| C85 | spaces in formulas | by induction on the readings of C62, each reading is split into tokens and repeated for any other spelling of them (`L_Spacing`); a minus sign that comes to touch a number changes the tree but neither its value nor its postfix form |
| C86 | errors and completable text | by induction on the readings of C62: for every reading that ends in an error the reading of the completed text is built (`L_Viable`), with the respelling lemmas of C85 where the rest of the text changes |
| C87 | beginnings of CSV texts | on the readings of C37 (`S_Csv`): what is read from a text followed by more, by induction on the reading of the text alone (`L_CsvPrefix`), and an open quote closed at the end of the text |
| C88 | exchange of equal parts | by induction on the readings of C62: the reading of the text with the other part is built, with formulas that differ only there (`twin`), which evaluate alike (`L_Exchange`) |
| C89 | CSV rows from cells | on the readings of C37: a text with a comma at its end leaves the comma to the row, whatever is in its cells; then the lemmas of C87 on texts with something behind them (`L_CsvCells`) |
| C90 | Order of lines and columns | the loop of C30 as a state (line, column, after CR) moved byte by byte: each byte moves it on in the order of lines and columns, except the LF of a CRLF; two runs from different states stay apart by the same amount (`L_LineOrder`) |
| C91 | Messages tell error and place | the errors of the examples by C57, none with a line break in its text; the message is cut at its first LF, at the comma and at the next LF; decimal texts have one value (`L_Message`) |
| C92 | Calls of the tokens of extra | the bound of C77 and the height of C80 computed for each token; every unbounded repetition in them consumes input (`P_Tokens`) |
| C93 | CSV cells are made of the text | on the readings of C37: what each reading leaves is shown as the characters read, of which the cell is a subsequence; separators are counted on the way (`L_CsvKept`) |
| C94 | torpn answers with what is in the text | on the text relations of C38 and the postfix relation of C40: the runs of digits in a text are the literals of its tree in order, and those are the numbers of the postfix form up to signs; operator signs are counted alongside (`L_Operands`) |
| C95 | dates and times are ordered as their texts | on the readings of C49 to C51: day numbers grow with year, month and day, equally long digit strings are ordered as their values, and fields of fixed width are compared one after another (`L_TimeOrder`) |

Properties that are documented but false get status `partial` in MANIFEST.json: a
`..._refuted` theorem with a witness, and the strongest true statement beside it.

## Trusted base

1. Coq 8.16.1's kernel (and `vm_compute`, which the examples and witnesses use).
2. Axioms: none.  `Print Assumptions` stands under every theorem of the `P_*.v` files
   and answers "Closed under the global context" for each of them.
3. The reading of the Go code in the `M_*.v` files (table below), of the Go language
   (evaluation order, bounds checks, slices, maps, integer wrap-around) and of the
   standard library functions listed below.
4. The English statements in properties.jsonl against the theorems named in MANIFEST.json.

### Which code is modelled where

| code | model | remarks |
|------|-------|---------|
| base/base.go | `M_Base`, with slices `M_Heap`, counting calls `M_Count`, `M_CountRule`, the furthest call `M_Reach`, the depth of calls `M_Depth` | all of it |
| base/parsers.go | `M_Grammar`, `M_Heap`; Indirect's cached variable `M_Indirect`, `M_Tracer`; counting calls `M_Count` | all of it |
| base/match.go | `M_Match`, `M_Heap` | all of it |
| base/production.go | `M_Production`, `M_Heap`, `M_Live`, counting calls `M_CountRule`, their depth `M_Depth` | all of it |
| base/transformers.go | `M_Trans`, `M_Heap` | all; the closure variables of Prepend and Push are the subject of C24, inside grammars they are reset on each call except in `M_Reuse` (C66), where they live on, and `M_Shared` (C70), where other goroutines assign to them |
| base/ast.go | `M_Types`, `M_Equal`, `M_DeepMem`, `M_Traverse`, `M_Slice` | data, ItemEquals, Traverse, the SliceLike methods of AstSlice; AstType.String in `M_Err` |
| base/types.go | `M_Types` | data; MatchStatus has its three named values only; String in `M_Err` |
| base/util.go | `M_LineCol` | all of it |
| base/tracer.go | `M_Tracer` | all; tracers may change the context and panic, but not keep the pointer |
| base/box.go | `M_Box`, `M_Refl`, `M_Boxes` | all, for bool, integers (int and uint of 64 bits), float64, string, interface{}, slices, arrays, maps and opaque structs and pointers |
| base/unsafe.go | - | unused type |
| string/*.go | `M_Str`, `M_StrTrans`, `M_Utf8`, `M_Strconv` | all; strconv.ParseFloat is `M_FloatAll` for all texts (C63); `M_Float` is its part for decimal texts with a parameter for others (C54) |
| object/*.go | `M_Obj` | all of it |
| extra/extra.go, util.go | `M_Extra` | all; Unicode range tables are a parameter |
| extra/transformers.go | `M_Time` | all; time.Time is seconds and nanoseconds since 1970 in UTC |
| _examples/csv | `M_Csv`, `M_Marshal`, `M_Err`, `M_CsvAny` | all, also the texts of the errors; strconv.FormatFloat and SetFloat of a float32 are parameters of `M_Marshal` and given by `M_Format` (C71) |
| _examples/formula, _examples/torpn | `M_Formula`, `M_Torpn`, `M_Err`; torpn's slices as shared arrays: `M_World`, `M_TorpnMem` | all |
| wasm/main.go | `M_Wasm` | the exported functions; what is printed is not modelled |
| main.go, _docs/introduction.md (minimal parser) | `M_Intro` | all; `fmt.Println` of rows and of a string; of os.Exit the status |
| *_test.go, README files | `P_Tests` | every test case that tests something, replayed on the model |
| web/, version.go | - | not modelled |

### Standard library, as read

`unicode/utf8` decoding and encoding, `string(rune)`, `strings` trimming and
`EqualFold` on single runes (a parameter where only its algebraic properties matter),
`strconv.ParseInt`/`ParseUint`, `strconv.ParseFloat`
(its fast paths replaced by exact rounding), `strconv.FormatInt`, `strconv.FormatFloat` for the format g with the shortest digits (its fast path Ryu replaced by the shortening loop it must agree with), the conversion of float64 to float32, `strconv.Quote` (`IsPrint` a parameter) and the text of `strconv.NumError`,
`reflect.DeepEqual`, reflection on maps, arrays, slices and structs as far as box.go and marshal.go
use it, `Value.String` and `ValueOf` of `syscall/js`, `time.Parse` for the layouts of extra/transformers.go with `time.Date` (the offset
check of Go 1.20 is a parameter), and `append`, slicing and `make`.

### Simplifications

* Positions and lengths are natural numbers and int64 loop counters do not overflow.
* nil slices are not distinguished from empty ones, and DeepEqual's shortcut for slices sharing their array is left out,
  except in `M_DeepMem` (C75), which has both and proves where they make a difference.
* `Ast.Address` is left out; no parser reads it (`M_DeepMem` has the field, nil in all ASTs of the library).
* Runtime limits (stack overflow, memory) do not exist; divergence is `Fuel` for all fuel.
* The heap model stores ASTs in arrays, but slices inside AST values are values (except for
  the example torpn, `M_TorpnMem`, C65). In `M_Heap` the rules of ProductionRule see a snapshot of the slice they work on;
  `M_Live` (C74) gives them the slice itself and proves that this makes no difference.
