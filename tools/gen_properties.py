#!/usr/bin/env python3
# Writes /verif/properties.jsonl.  One call of P(...) per property.
import json, os
OUT = os.path.join(os.path.dirname(os.path.abspath(__file__)), "..", "properties.jsonl")
rows = []
def P(title, statement, quantifier, why, *anchors):
    rows.append(dict(id="C%02d" % (len(rows) + 1), title=title, statement=statement,
                     quantifier=quantifier, why_tests_cant=why, anchors=list(anchors)))

P("Combinators implement PEG semantics",
  "Any grammar built from FlatGroup, Group, First, Repeat (and Once/ZeroOrOnce/ZeroOrMoreTimes/OneOrMoreTimes), LookAhead, LookAheadN, LookBehind, LookBehindN, Trans, Indirect and context-independent leaf parsers returns Matched with source position p and appended ASTs A if and only if the textbook recognition semantics (sequence, ordered choice, greedy repetition, syntactic predicates, recursion) derives (p, A); it returns Unmatched iff that semantics derives failure, and an error with message m iff it derives error m.",
  "every grammar (unbounded size, nesting, recursion), every source string or slice, every start position",
  "the set of grammars and inputs is infinite and the equivalence is a statement about all of them at once",
  "base/base.go:BaseParser", "base/base.go:LightBaseParser", "base/parsers.go")
P("Repetition counts",
  "Repeat(Times{Min,Max}, ps...) runs the body as many times as it matches but never more than Max (Max<0: no limit); it is Matched iff the number of matching iterations is at least Min (Min<=0: always), and on a match the context's Quantity is exactly that number.",
  "every Min/Max (any sign), every body parser, every context",
  "Min, Max, the body and the number of iterations are unbounded",
  "base/base.go:BaseParser", "base/parsers.go:Repeat", "base/const.go")
P("Zero-width assertions consume nothing",
  "When LookAhead, LookAheadN, LookBehind, LookBehindN, Start, End or WordBoundary is Matched, the source position and the AST stack of the returned context equal those of the context passed in; Zero leaves the position and only appends its ASTs.",
  "every inner parser (also ones that consume or push ASTs), every context",
  "ranges over arbitrary inner parsers and contexts",
  "base/parsers.go:LookAhead", "base/parsers.go:LookAheadN", "base/parsers.go:lookBehindBase", "base/parsers.go:Start", "base/parsers.go:Zero", "string/parsers.go:End", "string/parsers.go:WordBoundary")
P("Failed alternatives leave no trace",
  "First(p1,...,pn): if p1..pk are Unmatched from a context then the result equals that of First(p(k+1),...,pn) from the same context, whatever the failed alternatives consumed or pushed; if p1 matches, the later alternatives are not consulted; if an iteration of a sequence fails midway, the context after the last complete iteration is what is returned.",
  "every list of parsers, every context",
  "arbitrary failing parsers with arbitrary partial effects",
  "base/base.go:BaseParser", "base/parsers.go:First")
P("Errors are cuts: they are never backtracked",
  "If any sub-parser returns an error, every enclosing FlatGroup, Group, First, Repeat, LookAhead, LookAheadN, LookBehind, LookBehindN, Trans and Indirect returns that same error value immediately, with the erroring sub-parser's source position, and runs nothing else.",
  "every nesting depth and every combination of combinators around the failing parser",
  "nesting depth is unbounded; a single combinator that swallows errors would break it",
  "base/base.go:BaseParser", "base/parsers.go:lookBehindBase", "base/parsers.go:Error")
P("Error status if and only if error value",
  "For grammars built from the exported combinators and leaf parsers, the returned MatchStatus is Error exactly when the returned error is non-nil (so checking err then MatchStatus, as all examples do, is sound). For BaseParser used directly with an implementation function the claim is examined separately.",
  "every grammar, every context",
  "all grammars and inputs; a single path that drops err breaks it",
  "base/base.go:BaseParser", "base/base.go:LightBaseParser")
P("Source, slice and tag are never changed",
  "Whatever the outcome (Matched, Unmatched, Error), the returned context has the Str, Slice and Tag of the context passed in.",
  "every grammar, every context, every outcome",
  "all grammars and inputs",
  "base/base.go:BaseParser", "base/types.go:ParserContext")
P("Position stays in bounds and never moves backwards on a match",
  "Starting from a position inside [0, len(source)], every returned position is inside [0, len(source)] for every outcome, and on a match it is at least the start position.",
  "every string grammar with non-negative look-behind distances, every source string (also invalid UTF-8), every start position",
  "unbounded inputs and grammars; the out-of-bounds case would be a Go panic",
  "string/parsers.go", "base/parsers.go:lookBehindBase", "base/base.go:BaseParser")
P("A match only pushes on the AST stack",
  "If a grammar without Match() matches, the returned AST stack is the stack passed in followed by the newly produced ASTs; what earlier parsers produced is neither removed, reordered nor changed.",
  "every grammar, every context, every transformer function",
  "arbitrary transformers and grammar shapes",
  "base/base.go:BaseParser", "base/types.go:ParserContext.AstStack")
P("String grammars never panic",
  "Running a grammar of the library's string leaf parsers and combinators, with transformers that do not themselves panic and non-negative look-behind distances, on a context whose position is within its string never panics, for any byte string.",
  "every grammar, every byte string including invalid UTF-8, every start position",
  "all inputs, in particular all malformed UTF-8",
  "string/parsers.go", "base/base.go:BaseParser")
P("Termination and its limits",
  "A non-recursive grammar terminates on every input if in every unbounded Repeat the body always consumes input when it matches. Conversely an unbounded Repeat whose body can match without consuming at the current position never returns.",
  "every such grammar, every input",
  "non-termination cannot be observed by a test, and termination must hold for all inputs",
  "base/base.go:BaseParser", "base/parsers.go:ZeroOrMoreTimes", "base/parsers.go:OneOrMoreTimes")
P("Parsers do not depend on what was parsed before",
  "For grammars without Match(), the outcome, consumed length and produced ASTs depend only on source, tag and source position: the contents of the AST stack, the Quantity and the class name left by earlier parsers are irrelevant.",
  "every grammar, every pair of contexts that agree on source, tag and position",
  "a relational (two-run) property over all grammars",
  "base/base.go:BaseParser", "string/parsers.go", "object/parsers.go")
P("Backtracking is sound although AST stacks share one backing array",
  "All saved contexts share the backing array of AstStack (capacity 1024, append in place). For grammars without Match() and transformers that do not write to their argument slice, the ASTs observed by running the code with Go's slice semantics (in-place append within capacity, reallocation beyond it) are exactly those of the copy semantics: no rollback ever observes an element overwritten by an abandoned branch.",
  "every grammar, every input, every capacity and growth policy",
  "aliasing bugs depend on capacities, depth and on the exact backtracking history",
  "base/base.go:BaseParser", "base/parsers.go:Zero", "string/new.go:NewStringParserContext")
P("Match() and backtracking",
  "A Match(n) case that rewrites the top n ASTs inside an alternative that later fails must leave no trace once First() has backtracked to another alternative.",
  "every grammar containing Match(n), n>0, under backtracking",
  "depends on shared backing arrays and on the backtracking history",
  "base/match.go:Match", "base/base.go:BaseParser")
P("Character leaf parsers match exactly their set",
  "Each of Any, CharRange, CharRangeN, CharClassFn, Whitespace, WhitespaceNoLineBreak, LineBreak, Alpha, Number, Alnum, BinNumber, OctNumber, HexNumber is Matched iff input remains and the UTF-8-decoded character at the position is in its documented set; it then consumes exactly that character's encoded length and pushes exactly one string AST with the character, the parser's class name and the start position; otherwise it leaves position and stack unchanged.",
  "every byte string, every position, every range list / predicate",
  "1.1 million code points plus all malformed sequences, every range list",
  "string/parsers.go", "string/util.go", "string/const.go")
P("Seq, SeqI, CharClass and CharClassN literal matching",
  "Seq(s) is Matched iff the source continues with exactly the bytes s; CharClass(cc...) takes the first listed string that is a prefix of the rest; CharClassN(cc...) matches one character iff no listed string is a prefix of the rest and input remains; SeqI(s) compares len(s) bytes under case folding. On a match exactly the compared bytes are consumed and returned as the value.",
  "every literal, every source, every position",
  "all literals and sources",
  "string/parsers.go:Seq", "string/parsers.go:SeqI", "string/parsers.go:CharClass", "string/parsers.go:CharClassN")
P("No input text is lost or invented",
  "For a valid UTF-8 source and a grammar of character/literal leaf parsers with valid UTF-8 literals (for SeqI also without U+FFFD) under FlatGroup, Group, First, Repeat, look-around and text-keeping transformers (Concat, grouping, renaming; no Zero), the concatenation of the produced string values is exactly the source text between the start and end positions.",
  "every such grammar, every valid UTF-8 source",
  "all grammars and all inputs",
  "string/parsers.go", "base/base.go:BaseParser", "string/transformers.go:Concat")
P("Positions stay on character boundaries",
  "On a valid UTF-8 source and with valid UTF-8 literals (for SeqI also without U+FFFD), starting on a character boundary every matched grammar of character and literal parsers, look-behind included, ends on a character boundary.",
  "every grammar, every valid UTF-8 source",
  "all grammars and all inputs",
  "string/parsers.go")
P("WordBoundary is the boundary between word and non-word characters",
  "On a valid UTF-8 source, WordBoundary matches at a character boundary iff exactly one of the previous and the next character is a word character [0-9A-Za-z_$] (source ends count as non-word).",
  "every valid UTF-8 source, every character boundary",
  "all code points before and after the position",
  "string/parsers.go:WordBoundary", "extra/extra.go:UnicodeWordBoundary", "string/util.go:isWord")
P("Concat and the Trim family",
  "Concat returns one string AST whose value is the concatenation of all values in order (class name and position of the first); it fails iff some AST is not a string; Trim/TrimStart/TrimEnd additionally remove exactly the maximal run of the eight whitespace characters at both ends / the start / the end.",
  "every AST list, every string content",
  "all lists and strings",
  "string/transformers.go:Concat", "string/transformers.go:Trim", "string/transformers.go:TrimStart", "string/transformers.go:TrimEnd")
P("Integer conversion is exact or fails",
  "ParseInt/ParseIntRadix and ParseUint/ParseUintRadix return the exact mathematical value of the concatenated digits in the given base when it fits in int64/uint64, and otherwise return an error: never a wrapped or saturated number and never a panic.",
  "every AST list, every base, every digit string of any length",
  "the values around 2^63 and 2^64 and all malformed strings",
  "string/transformers.go:parseIntImpl", "string/transformers.go:parseUintImpl")
P("Rune and integer conversions",
  "StringFromInt and StringFromRune produce the UTF-8 encoding of a valid code point and U+FFFD otherwise; RuneFromInt then IntFromRune returns the original integer for every value in the int32 range; every AST they return has a Type tag that agrees with its Value.",
  "every int64 value",
  "2^64 values",
  "string/transformers.go:RuneFromInt", "string/transformers.go:IntFromRune", "string/transformers.go:StringFromInt", "string/transformers.go:StringFromRune")
P("AST list transformers do what they document",
  "Erase empties the result; SetOpCode, ChangeClassName, SetOpCodeAndClassName and SetValue change exactly the named fields of element 0 and nothing else; Prepend/Push/Pop add or remove exactly one element at the stated end; Exchange swaps the two topmost elements; Roll(n) rotates by n.",
  "every AST list (every length), every argument",
  "all lengths",
  "base/transformers.go")
P("Prepend and Push do not depend on the past",
  "The AST inserted by Prepend(ast)/Push(ast) carries the source position of the neighbouring element of the current list (or the position written in ast when the list is empty), independent of any earlier use of the same transformer.",
  "every history of calls of one transformer value",
  "depends on the sequence of earlier calls",
  "base/transformers.go:Prepend", "base/transformers.go:Push")
P("Group wraps, FlatGroup flattens",
  "Group(ps...) matches exactly when FlatGroup(ps...) matches, with the same end position, and pushes one ListOfAst AST whose value is exactly the list of ASTs FlatGroup would have pushed.",
  "every parser list, every context",
  "all parsers and contexts",
  "base/parsers.go:Group", "base/parsers.go:FlatGroup", "base/transformers.go:GroupingTransform")
P("Object leaf parsers match exactly their set",
  "On a slice source, Any matches iff an element remains; ObjClass / ObjClassN / ObjClassFn match iff the element is / is not equal to one of the arguments / satisfies the function; Seq(v1..vn) matches iff the next n elements equal v1..vn; each consumes exactly what it matched; End matches only at the end.",
  "every slice, every position, every argument list",
  "all slices and arguments",
  "object/parsers.go")
P("AST equality is an equivalence",
  "AstSlice.ItemEquals is reflexive, symmetric and transitive on well-typed ASTs (trees of any depth without NaN or function values), and ignores OpCode and source positions at every level of list and cons structure. It returns true exactly if type, class name and value agree at every level, and panics exactly if an operand is no AST or a value at some level it reaches is not of the type the AST says.",
  "every pair / triple of AST trees",
  "trees are unbounded",
  "base/ast.go:ItemEquals")
P("Production rules reduce by precedence and associativity",
  "ProductionRule repeatedly applies, at the first precedence level that matches anywhere, the first rule matching at the leftmost (or, with Rtol, rightmost) position; each step replaces exactly the matched segment by the rule's output; if it returns without error the result satisfies the check parser; if no rule applies and the check fails it returns an error.",
  "every precedence table, every AST list, every number of rewriting steps",
  "rewriting sequences are unbounded",
  "base/production.go:ProductionRule")
P("Production rules terminate when every rule shrinks",
  "If every rule, when it matches, replaces its segment by a strictly shorter one, ProductionRule returns on every input.",
  "every precedence table with shrinking rules, every AST list",
  "non-termination cannot be tested",
  "base/production.go:ProductionRule")
P("Line and column reporting",
  "For every position p within the source, GetLineAndColPosition returns Line = 1 + number of line terminators (LF, CR, or CRLF counted once) that end at or before p, LineIndex = the byte index just after the last of them (0 if none), Col = p - LineIndex + 1, and never panics; the caret line of ErrSource points at the column (tabs expanded).",
  "every source, every position in bounds, every non-negative tab size",
  "all sources mixing CR, LF, CRLF and tabs",
  "base/util.go:GetLineAndColPosition")
P("Binary, octal, hexadecimal literals",
  "BinaryNumberStr, OctalNumberStr and HexNumberStr match iff the source continues with a digit of the base, consume the longest prefix of digits and underscores, and return the digits without the underscores.",
  "every source and position",
  "all inputs",
  "extra/extra.go:BinaryNumberStr", "extra/extra.go:OctalNumberStr", "extra/extra.go:HexNumberStr")
P("Integer literals",
  "IntegerNumberStr matches iff the source continues with [+-]?[0-9]; it consumes [+-]?(0_*|[1-9][0-9_]*) maximally and returns the text without underscores; ParseInt of the result is the signed decimal value, when it fits int64.",
  "every source and position",
  "all inputs",
  "extra/extra.go:IntegerNumberStr", "string/transformers.go:ParseInt")
P("Float and numeric literals",
  "FloatNumberStr and NumericStr match iff the source continues with a decimal number in their documented grammar; the returned text is the consumed text without underscores and is acceptable to a decimal float parser.",
  "every source and position",
  "all inputs",
  "extra/extra.go:FloatNumberStr", "extra/extra.go:NumericStr", "extra/extra.go:exponentStr")
P("Identifiers",
  "AsciiIdentifierStr matches iff the source continues with [A-Za-z_$]; it consumes the maximal [A-Za-z_$][0-9A-Za-z_$]* and returns it verbatim; UnicodeIdentifierStr likewise with the Unicode identifier classes.",
  "every source and position, every interpretation of the Unicode tables",
  "all inputs",
  "extra/extra.go:AsciiIdentifierStr", "extra/extra.go:UnicodeIdentifierStr")
P("Dates and times are returned in one fixed format",
  "Whenever TimeStr matches, the returned string is hh:mm:ss.fffffffff with exactly nine fraction digits (missing seconds and fraction filled with zeros, digits kept); DateStr returns the consumed text; DateTimeStr returns date, T, the fixed time format and a numeric offset ('Z' becomes '+00:00').",
  "every source and position",
  "all inputs and all numbers of fraction digits",
  "extra/extra.go:TimeStr", "extra/extra.go:DateStr", "extra/extra.go:DateTimeStr")
P("CSV round trip",
  "csv.Parse(csv.ToCsv(rows)) returns rows.",
  "every table of strings",
  "all tables; cell contents are arbitrary strings",
  "_examples/csv/parser.go:Parse", "_examples/csv/marshal.go:ToCsv", "_examples/csv/marshal.go:toCsvRow")
P("CSV parsing is total",
  "csv.Parse returns, without panicking, on every input string: either a table or an error.",
  "every byte string",
  "all inputs, including unterminated quotes and invalid UTF-8",
  "_examples/csv/parser.go")
P("Formula evaluation is correct",
  "formula.Parse of any formula in the expression grammar (signed literals, unary minus, + - * /, parentheses, whitespace) returns its value under the usual precedence and left associativity in int64 arithmetic; any other text is rejected with an error.",
  "every formula of any size and nesting, every layout of whitespace",
  "formulas are unbounded",
  "_examples/formula/formula.go", "_examples/formula/precedence.go", "base/production.go:ProductionRule")
P("Formula evaluation is total",
  "formula.Parse returns a value or an error on every input string and never panics or loops.",
  "every byte string",
  "all inputs",
  "_examples/formula/formula.go:Parse", "_examples/formula/precedence.go")
P("RPN conversion is correct and unambiguous",
  "torpn.Parse of a formula returns its postfix form, in which evaluating with a stack gives the formula's value; different values never share a postfix form.",
  "every formula",
  "formulas are unbounded; ambiguity needs two formulas",
  "_examples/torpn/torpn.go", "_examples/torpn/precedence.go")
P("Traverse visits and rebuilds the tree",
  "Ast.Traverse with callbacks that change nothing returns the same tree and calls fnWayThere in pre-order and fnWayBack in post-order exactly once per node; an error or throw stops the traversal, is reported to every ancestor through fnChildrenErr and returned; in WayThereMode_Last the break / continue / pcIncr opcodes move the execution index as documented.",
  "every AST tree, every callback behaviour",
  "trees are unbounded, callbacks arbitrary",
  "base/ast.go:Traverse")
P("Debug tracing is transparent",
  "Wrapping parsers with DebugTrace does not change any parse result, produces properly nested Before/After events, and restores the tracing configuration after construction.",
  "every grammar, every input, every tracer",
  "all grammars and inputs",
  "base/tracer.go", "base/base.go:LightBaseParser", "base/base.go:BaseParser")
P("Lazy Indirect initialisation is schedule independent",
  "However calls to one Indirect parser from several goroutines are interleaved, every call runs a parser built by fn and returns fn()'s result.",
  "every interleaving of any number of goroutines (reads and writes of the cached parser atomic)",
  "schedules are unbounded",
  "base/parsers.go:Indirect")
P("AST source positions",
  "Every AST pushed by a leaf parser carries in Position the index at which its text starts and in Length the length of its text.",
  "every leaf parser, every context",
  "all contexts, in particular all preceding parsers",
  "string/parsers.go", "object/parsers.go", "base/types.go:SourcePosition")
P("CSV rows from structs",
  "csv.Marshal puts every field listed in cols into the column of its name, leaves the other columns empty, and its result does not depend on Go's random map iteration order; csv.Unmarshal inverts the field/column mapping and never panics.",
  "every struct type, column list, row data and map iteration order",
  "map iteration order is chosen by the runtime",
  "_examples/csv/marshal.go:Marshal", "_examples/csv/marshal.go:Unmarshal")
P("Boxes read back what was written",
  "For MapContainerReflectionBox and NotInitializedMapContainerReflectionBox a Get after any history of operations returns the last value Set for that key through any box on the same container; the latter panics exactly when read before its first Set.",
  "every history of operations on any set of boxes",
  "histories are unbounded",
  "base/box.go")

P("Collecting transformers keep every element in place",
  "ToSlice returns one ListOfAny AST whose value is the source-typed slice of all AST values, each at the index of its AST and nothing else, with class name and position of the first AST; it panics exactly when the context has no source slice or a value cannot be stored in it. GroupingTransform wraps exactly the given list; TransformError always fails with its text.",
  "every AST list (every length), every source slice type",
  "all lengths and element types; a reversed or shifted element only shows with particular data",
  "base/transformers.go:ToSlice", "base/transformers.go:GroupingTransform", "base/transformers.go:TransformError")

P("Match rewrites the top of the stack",
  "Match(n) takes the first case whose If accepts the whole AST stack, replaces exactly the top n ASTs by what the Let transformers make of them, consumes nothing and touches nothing else; without an accepting case it does not match and changes nothing; it panics when a case accepts and n is negative or larger than the stack. The TopIs matchers accept exactly when the stack has a top whose value has the dynamic type and is one of the given values (floats by ==, TopIs by deep equality).",
  "every n, case list, transformer list, context and stack",
  "all stacks, values and case lists",
  "base/match.go:Match", "base/match.go:TopIs", "base/match.go:TopIsFloat")

P("ParseDate reads calendar dates",
  "ParseDate maps the text of the last AST to midnight UTC of the day it names if and only if the text is yyyy-mm-dd with four year digits and names a day of the Gregorian calendar (leap years included); for every other text it returns an error, and it panics exactly when there is no AST or the last one holds no string. Trans(DateStr(), ParseDate) consumes the longest date word and returns that instant, or fails with the error.",
  "every text, every AST list, every source and position",
  "all dates of ten thousand years and all malformed texts; the day count needs an argument about 400-year cycles",
  "extra/transformers.go:ParseDate", "extra/extra.go:DateStr")

P("ParseTime reads times of day",
  "For every text in the fixed format hh:mm:ss.nnnnnnnnn, in particular every text TimeStr produces, ParseTime returns the instant that many seconds and nanoseconds after 1970-01-01T00:00Z if hour < 24, minute < 60 and second < 60, and an error otherwise. Trans(TimeStr(), ParseTime) consumes the longest time word and returns that instant, or fails with the error.",
  "every fixed-format text, every source and position",
  "10^14 texts; the padding of fractions and the conversion interact",
  "extra/transformers.go:ParseTime", "extra/extra.go:TimeStr")

P("ParseDateTime reads dates with time and offset",
  "For every text DateTimeStr produces, ParseDateTime returns the instant of the local date and time minus the offset, if the date has four year digits and is a day of the calendar and the time of day is in range (and, from Go 1.20 on, the offset is at most 24 hours plus minutes), and an error otherwise. Trans(DateTimeStr(), ParseDateTime) consumes the longest word and returns that instant, or fails with the error.",
  "every text DateTimeStr can produce, every source and position",
  "all dates, times, fractions and offsets",
  "extra/transformers.go:ParseDateTime", "extra/extra.go:DateTimeStr")

P("Every date and time token can be converted",
  "Every date DateStr accepts that names a day, and every time TimeStr accepts that ISO 8601 allows, is converted by ParseDate and ParseTime without an error.",
  "every token text",
  "the accepted texts that fail are rare ones (years beyond 9999, negative years, leap seconds, 24:00)",
  "extra/transformers.go:ParseDate", "extra/transformers.go:ParseTime")

P("AstSlice as SliceLike",
  "Get and Set access exactly the element at the index and panic exactly when it is out of range (Set also when the value is no Ast); Set changes that memory cell only, for every slice that shares it. Reslice is a window on the same memory and panics exactly when the bounds are not 0 <= start <= end <= capacity. Copy and Make return memory that no existing slice shares and leave every existing slice as it was.",
  "every heap, slice, index, bound and value",
  "all aliasing patterns of slices over shared arrays",
  "base/ast.go:AstSlice")

P("ParseFloat is correctly rounded",
  "ParseFloat concatenates the texts of the ASTs and returns one Float AST with the float64 nearest to the decimal number (ties to even, sign of zero kept); a number that rounds beyond the largest float64 is a range error and a text that is no decimal number is a syntax error. Trans(FloatNumberStr(), ParseFloat) and Trans(NumericStr(), ParseFloat) consume the longest number and return its value, or fail with the error.",
  "every text of digits, signs, points and exponent letters with an exponent below 100000, every AST list, every source and position",
  "unbounded mantissas; rounding ties and the overflow boundary are single points",
  "string/transformers.go:ParseFloat", "extra/extra.go:FloatNumberStr", "extra/extra.go:NumericStr")

P("Identifiers end at word boundaries",
  "FlatGroup(AsciiIdentifierStr(), WordBoundary()) accepts, consumes and returns exactly what AsciiIdentifierStr() does, and FlatGroup(UnicodeIdentifierStr(), UnicodeWordBoundary()) exactly what UnicodeIdentifierStr() does: an identifier is read to its end and the characters it may hold are word characters.",
  "every source, position and Unicode table",
  "all strings of all characters in front of and behind an identifier",
  "extra/extra.go:AsciiIdentifierStr", "extra/extra.go:UnicodeIdentifierStr", "extra/extra.go:UnicodeWordBoundary", "extra/util.go:isUnicodeWord")

P("Recursive grammars terminate unless they are left-recursive",
  "A grammar whose rules (Indirect) may call themselves and each other comes to an end on every input if every cycle of calls consumes something on the way, look-behinds only call rules of a lower layer, and the body of every unbounded repetition consumes. A rule that can get back to itself without consuming, be it directly, through other rules, behind parsers that match nothing, or through a look-behind, never comes to an end.",
  "every grammar of the exported combinators, every set of rules, every source and position",
  "termination for all inputs of all recursive grammars",
  "base/parsers.go:Indirect", "base/parsers.go:Repeat", "base/base.go:BaseParser", "_examples/formula/formula.go:groupedExpresion")

P("Failed parses report where they failed",
  "An error value comes out of a grammar exactly when a leaf or transformer that the parse reaches raises it, and out.SourcePosition is the position at which it was raised. A sequence, choice, look-ahead or transformation that does not match returns the position and stack it was called with. The messages of the example parsers name the line and column (from 1, in bytes) of a place where what they say is true (a value, an operand or a closing parenthesis is missing, a literal is out of range, a quote is not closed), and the place reported for a text that does not match is not before the end of its longest well-formed beginning.",
  "every grammar of the exported combinators, every source",
  "all ways in which an input can be wrong, through all nestings of combinators",
  "base/base.go:BaseParser", "base/parsers.go:FlatGroup", "base/parsers.go:First", "base/parsers.go:Error", "base/parsers.go:Trans", "_examples/formula/formula.go:Parse", "_examples/torpn/torpn.go:Parse", "_examples/csv/parser.go:Parse")

P("Integer tokens and their values",
  "Trans(BinaryNumberStr(), ParseIntRadix(2)), Trans(OctalNumberStr(), ParseIntRadix(8)), Trans(HexNumberStr(), ParseIntRadix(16)) and Trans(IntegerNumberStr(), ParseInt), and the same with the unsigned transformers, consume the longest word of digits and underscores (with sign for IntegerNumberStr) and return one AST with the number it denotes in its base. If the number does not fit into 64 bits, or is negative for the unsigned transformers, they fail with an error; where no such word starts they do not match.",
  "every source and position",
  "unboundedly long words; the overflow boundary is a single point",
  "extra/extra.go:BinaryNumberStr", "extra/extra.go:OctalNumberStr", "extra/extra.go:HexNumberStr", "extra/extra.go:IntegerNumberStr", "string/transformers.go:ParseIntRadix", "string/transformers.go:ParseUintRadix")

P("Radix 0 reads Go integer literals",
  "ParseIntRadix(0) accepts exactly the integer literals of the Go language (decimal, 0b, 0o, 0 and 0x, underscores between digits or behind the prefix) with an optional sign whose value is an int64, ParseUintRadix(0) those with an optional plus sign whose value is a uint64, and both return the value. Every other text is an error. A radix that is neither 0 nor in 2..36 is an error.",
  "every AST list, every text, every radix",
  "all texts; the literal grammar has six forms and separators",
  "string/transformers.go:ParseIntRadix", "string/transformers.go:ParseUintRadix")

P("The functions offered to JavaScript",
  "parseCsv returns the table Parse reads as an array of arrays of strings, parseFormula the value of the formula as a number. A text that cannot be parsed gives a result that no valid text gives, and no argument makes the program panic.",
  "every argument list of strings and other JavaScript values",
  "all texts; the failures are about rare ones",
  "wasm/main.go:parseCsv", "wasm/main.go:parseFormula", "wasm/main.go:parseCsvWithTinyGo")

P("ReflectionBox abstracts a memory address",
  "A ReflectionBox stands for an element of an array, slice or variable, or for a copy. The getter of its type returns the present value, the setter of its type replaces the element and changes nothing else, so that all boxes with that address, inside of it or around it, see the new value and all others do not; what was set is what is then read. Index gives the box of the element at an index in range, MapIndex and ComplexMapIndex the box of the element of a key. Everything else panics.",
  "every well-typed memory of bool, sized integers, float64, string, interface, slice, array and map types, every box, value, index and key",
  "all aliasing patterns of slices and nested arrays",
  "base/box.go:ReflectionBox")

P("What the formula examples answer to every text",
  "formula.Parse and torpn.Parse answer every text in the way a fixed left-to-right reading of it says, and there is exactly one such reading: the formula with the usual precedence is computed (or put into postfix form) if it takes the whole text; a missing value, operand or closing parenthesis and a literal out of range are reported between the two parts of the text where they are met, the first of them counts; text behind a formula is reported as a failed parse at the start; a division by zero in a parenthesis or in the whole formula panics when that part has been read, unless an error was met before. A minus sign directly before the digits belongs to the number only if an operator and, before it, a number precede.",
  "every byte string",
  "all texts, with every combination and order of mistakes",
  "_examples/formula/formula.go:Parse", "_examples/formula/formula.go:expressionInner", "_examples/formula/precedence.go:formulaProductionRules", "_examples/torpn/torpn.go:Parse", "_examples/torpn/precedence.go:formulaProductionRules")

P("ParseFloat accepts Go's float literals and returns the nearest float64",
  "ParseFloat accepts exactly the words inf and infinity with an optional sign, the word nan, each in small or capital letters, and the decimal and hexadecimal floating-point literals of the Go language with an optional sign (hexadecimal ones with a p exponent, single underscores between digits or behind 0x). The result is the infinity, NaN, or the float64 nearest to the literal, ties to even, with the sign of the text; a literal too large for a float64 is a range error, every other text a syntax error. This holds for every literal with an exponent below 100000 in magnitude and for every text of at most 2000 bytes.",
  "every AST list of strings, every text",
  "all texts; the decimal and the hexadecimal form, separators and rounding of arbitrarily long mantissas",
  "string/transformers.go:ParseFloat", "extra/extra.go:FloatNumberStr", "extra/extra.go:NumericStr")

P("Conversion errors quote the text and name the cause",
  "The error text of a failed ParseInt, ParseUint or ParseFloat (any radix in 2..36) consists of the transformer, the text, the strconv function and the text again as a Go string literal that stands for exactly this text, on one line and without control characters, followed by the cause; the cause is 'value out of range' exactly if the number is too large and 'invalid syntax' otherwise. The error text of Concat identifies the type of the AST that is no string.",
  "every AST list of strings, every text including malformed UTF-8, every set of printable runes without control characters",
  "all texts; escapes differ for quotes, control characters, malformed and unprintable characters",
  "string/transformers.go:parseIntImpl", "string/transformers.go:parseUintImpl", "string/transformers.go:ParseFloat", "string/transformers.go:Concat", "base/ast.go:String")

P("torpn's lists behave as values although they share memory",
  "torpn.Parse builds its answer in slices that it extends with append, in transformUnaryOp in place. With Go's slice semantics, whatever memory the program holds and however append chooses new capacities, Parse returns for every text exactly what it would return if every list were copied, so the postfix form of the formula; and it leaves all arrays unchanged that existed before the call, also when it fails. (transformUnaryOp on its own lacks this property: applied twice to one AST, the second call changes the result of the first.)",
  "every byte string, every initial memory, every growth policy of append, every fuel",
  "append's capacities are unspecified; overwriting shows only when two live slices share an array with free capacity",
  "_examples/torpn/precedence.go:transformUnaryOp", "_examples/torpn/precedence.go:transformBinaryOp", "_examples/torpn/torpn.go:Parse")

P("A grammar can be used again",
  "The values returned by Prepend and Push keep a variable between calls, so a parse might depend on the parses before it. If every Prepend and Push of a grammar gets at least one AST whenever it is called, then each of any number of parses made with the same grammar value returns exactly what it returns with a grammar built anew, also errors and panics. In every case nothing but the position in these variables changes; if a Push can meet an empty list, a second parse can differ from a first (an AST at offset 2 of the empty text).",
  "every grammar (also recursive ones) with user-defined leaves and transformers, every history of parses",
  "all sequences of calls within and between parses",
  "base/transformers.go:Prepend", "base/transformers.go:Push", "base/base.go:BaseParser")

P("ParseTime and ParseDateTime on arbitrary texts",
  "Applied to any text, not only those of the token parsers, ParseTime and ParseDateTime return the instant the text denotes or an error, and never panic. The texts that denote one are exactly those with the digits of the layout, except that the hour may be one digit, the fraction may follow a comma and be a sign with eight digits, and that Go before 1.20 takes offset parts of any size, also a sign with one digit. A text denotes at most one instant, and the same one in all versions of Go.",
  "every AST list of strings, every text, both behaviours of time.Parse",
  "all texts; the layout is only loosely enforced by time.Parse",
  "extra/transformers.go:ParseTime", "extra/transformers.go:ParseDateTime")

P("The kinds of Box agree",
  "On one memory with all three implementations of Box: a box holds a value of one type, is empty (the zero box, a key that is missing), or cannot be read. The getter of the value's type returns it whatever kind of box it is. A setter through a map box stores the value under the key if the element type is the value's type or interface{}, changes nothing else, and is seen by exactly the boxes for that key of that map; SetAny(nil) removes the key; everything else panics and leaves the memory as it was. A NotInitializedMapContainerReflectionBox panics with its message until it has been set. Index and MapIndex give the element of the box's value.",
  "every well-typed memory, every box of the three kinds, every element type, every setter",
  "aliasing between boxes of different kinds, containers in variables that change, nil maps",
  "base/box.go:Box", "base/box.go:ReflectionBox", "base/box.go:MapContainerReflectionBox", "base/box.go:NotInitializedMapContainerReflectionBox")

P("Positions of ASTs are annotations",
  "The positions recorded in ASTs do not influence parsing: for every grammar built from the parsers, combinators, transformers, production rules and conditions of the library (and user-defined parts that do not look at positions; the grammars of extra, csv, formula and torpn are of this kind), two parses whose contexts differ only in positions of ASTs on the stack, at any depth, match or fail alike, with the same errors and panics, and their results differ in positions of ASTs only. Hence what earlier calls have left in Prepend and Push values shows in positions at most, for every grammar. (Excepted, because they compare values with reflect.DeepEqual, are TopIs with values that contain ASTs, and the object parsers Seq, ObjClass and ObjClassN.)",
  "every grammar, also recursive, of the library's parts; every pair of contexts that differ in positions only",
  "relational property over all grammars and stacks; nested ASTs",
  "base/base.go:BaseParser", "base/match.go:TopIs", "base/ast.go:ItemEquals", "base/transformers.go:Prepend", "base/transformers.go:Push", "base/production.go:ProductionRule")

P("A grammar value can be used by several goroutines at once",
  "Whatever other goroutines do with the same grammar value while one goroutine parses with it, the parse returns what it returns alone, provided the grammar has no Prepend and Push; with Prepend and Push values that are used by no other goroutine it also does, under the condition of C66; with shared ones, the result is that of the parse alone up to positions of ASTs, if the grammar's own functions do not look at positions.",
  "every grammar, every text, every schedule of assignments by the other goroutines before each access",
  "races between the assignment and the read of the variable of Prepend and Push show only under unlucky schedules",
  "base/transformers.go:Prepend", "base/transformers.go:Push", "base/base.go:BaseParser")

P("Floats in CSV rows",
  "Marshal writes a float as the decimal text with the fewest significant digits that still rounds to it (of these the nearest), in exponent notation exactly if the decimal exponent is below -4 or at least 6. Every float64 is read back by Unmarshal as the same number, with the sign of zero, the infinities and NaN; a float32 field gets the float32 nearest to the float64 nearest to the text, ties to even, and every float32 is read back as itself. Hence rows with any floats survive Marshal followed by Unmarshal.",
  "every float64 and float32, every struct type, every map iteration order",
  "2^64 numbers; shortest digits are a property over all shorter texts",
  "_examples/csv/marshal.go:Marshal", "_examples/csv/marshal.go:Unmarshal")

P("What Marshal and Unmarshal say about bad arguments and bad data",
  "Marshal fails exactly if its argument is not a slice of structs, Unmarshal fails before reading if its target is not a non-nil pointer to a slice of structs, each with its fixed message. Every other error of Unmarshal has a text that is true: a quoted field without end, with the line and column of the end of the text; text that cannot be read, with the position; or the function of strconv, the cell as a Go string literal, and the cause, for a cell of the first row that gives no struct that is not a number for its field. Each such cell of that row is reported for some order of visiting the map.",
  "every argument shape, struct type, text and map iteration order",
  "the message depends on the iteration order of a map; all texts and struct types",
  "_examples/csv/marshal.go:Marshal", "_examples/csv/marshal.go:Unmarshal")

P("The minimal parser of the introduction",
  "The parser of _docs/introduction.md accepts exactly the texts of ^[A-Za-z]+$ and answers the text itself; every other text is refused with the message Parse failed, line 1, column 1, wherever the first wrong character is. The same holds for any parser of words in place of the letters (numbers, identifiers, dates): Start, the parser and End accept exactly the texts that are words as a whole. main.go prints the rows of its text and then their CSV.",
  "every text; every parser that matches the longest word of a language",
  "all texts and all parsers; that the regular expression means the same is a claim about all texts",
  "_docs/introduction.md:Parse", "main.go:main", "base/parsers.go:FlatGroup", "base/parsers.go:Start", "string/parsers.go:End")

P("Production rules read the slice they rewrite",
  "The rules of ProductionRule parse the very slice of ASTs that is being rewritten, through its header, not a copy. Nevertheless, for rules and checks whose parts write only to their own AST stacks and to new arrays, every rule sees the slice as it was when its attempt began, the slice still has these elements afterwards, and ProductionRule on shared memory does what ProductionRule does over lists; the leaf parsers, Zero, Match, the transformers of the library and ProductionRule itself are such parts, and so are the rules of _examples/formula. A transformer that assigns to an element of ctx.Slice changes what the following parsers read.",
  "every grammar of such parts, also recursive, every memory, every growth policy of append, every slice of ASTs",
  "aliasing between the parsed slice, the stacks of the attempts and the rewritten slice, over all memories and grammars",
  "base/production.go:ProductionRule", "base/ast.go:AstSlice", "base/base.go:BaseParser")

P("Comparison of ASTs on memory with sharing and cycles",
  "reflect.DeepEqual ends on every memory, also with slices that contain themselves, and answers whether the two values are equal as far as they can be followed: equal numbers and strings, interfaces of the same type with equal values, slices that are both nil, or of the same length and with the same first element in memory or equal elements, structs with equal fields. The relation is symmetric and transitive. Without cycles, NaN and functions the answer depends on the contents alone and not on which arrays are shared, and AstSlice.ItemEquals answers, or panics, as on plain trees. With NaN in a shared array, nil slices, or a list that contains itself it does not: DeepEqual distinguishes nil from empty slices, ItemEquals does not for ListOfAst; ItemEquals never ends on a list that contains itself.",
  "every memory of interfaces, slices, structs and basic values; every pair of values in it",
  "all memory graphs; termination on cycles rests on the table of visited pairs",
  "base/ast.go:ItemEquals", "base/match.go:TopIs")

P("Grammars can be refactored by laws",
  "Rewriting a grammar and its rules by laws, anywhere and any number of times, changes no answer of any call: match with the same position and ASTs, failure, or error. The laws: nested FlatGroups and Firsts can be flattened, one-element groups dropped, Once is FlatGroup, the documented repetitions unfold (OneOrMoreTimes is its body and then ZeroOrMoreTimes, ZeroOrMoreTimes is a First of that and nothing), alternatives that repeat an earlier one or follow one that never fails can be dropped, a common beginning of alternatives can be factored out, what follows Error or Unmatched can be dropped, Trans can be composed, Group is Trans of FlatGroup, two negative lookaheads are one lookahead, and a rule can be written in place of Indirect. If is the one or the other parser according to its first argument. Not laws: exchanging alternatives, moving what follows a First into its alternatives, First of nothing for Unmatched, a Zero at the end of a sequence (it changes the length of the match), and replacing a rule by a parser that is equivalent under the old rules.",
  "every grammar and environment of rules whose leaves depend only on the input, the position and the tag; every rewriting; every input context",
  "all grammars and all rewritings of them, including mutually recursive rules",
  "base/parsers.go:FlatGroup", "base/parsers.go:First", "base/parsers.go:Group", "base/parsers.go:Repeat", "base/parsers.go:Once", "base/parsers.go:ZeroOrOnce", "base/parsers.go:ZeroOrMoreTimes", "base/parsers.go:OneOrMoreTimes", "base/parsers.go:LookAhead", "base/parsers.go:LookAheadN", "base/parsers.go:LookBehind", "base/parsers.go:LookBehindN", "base/parsers.go:Trans", "base/parsers.go:Indirect", "base/parsers.go:Zero", "base/parsers.go:Error", "base/parsers.go:Unmatched", "base/parsers.go:If")

P("How many parser calls a parse makes",
  "A parse that ends calls parsers at most as often as the grammar allows for on an input of that length: the sum over a sequence or a First, the product with the number of rounds for a repetition, at most one round for every unit of input and one more if unbounded. Without recursion this is a polynomial in the length of the input; it need not be linear (a lookahead to the end in a repetition is quadratic). With recursion it need not be polynomial: First calls a parser again that an earlier alternative has called already at the same place, so the usual rules for sums in parentheses make 28 * 2^k - 15 calls for k parentheses around a number; the same rules after factoring out the common beginning, with the same answers to all inputs, make 11 * k + 10. The CSV example makes at most 53 calls for every byte and 67 more, also for malformed text. Counting changes no answer, and the calls counted are those a tracer is told of.",
  "every grammar whose unbounded repetitions consume input in every round, every input; the CSV example on every text",
  "a bound on the running time over all inputs; exponential behaviour shows only on inputs that nobody waits for",
  "base/base.go:BaseParser", "base/base.go:LightBaseParser", "base/parsers.go:First", "base/parsers.go:Repeat", "base/parsers.go:Indirect", "base/parsers.go:LookAhead", "base/parsers.go:LookBehind", "base/tracer.go:DebugTrace", "_examples/csv/parser.go:Parse")

P("How many parser calls production rules and the formula examples make",
  "ProductionRule calls rules and check at most K * (R*(m+1)*(m+2)/2 + m+1) times on m ASTs, for R rules of at most K calls at a position that replace what they match by something shorter, whether it ends with a list or with an error. It scans from the start again after every replacement, so k additions in a row take exactly 10*k*k + 40*k calls with the table of the formula example: the evaluation of a sum is quadratic. formula.Parse and torpn.Parse make at most (12*N + 32)*(20*N + 24) calls on a text of N bytes, well formed or not, calls of the production rules in all parentheses included: never cubic and never exponential, though every pair of parentheses runs the rules again. Nor is it linear: formula.Parse evaluates the text 1+1+...+1 with k signs (2*k+1 bytes) with at least 10*k*k + 40*k calls. Counting changes no answer.",
  "every table of such rules and every list of ASTs; every text for the examples",
  "a bound on the running time over all inputs and nestings",
  "base/production.go:ProductionRule", "_examples/formula/formula.go:Parse", "_examples/formula/precedence.go:formulaProductionRules", "_examples/torpn/torpn.go:Parse", "_examples/torpn/precedence.go:formulaProductionRules")

P("What a parse can know of the text around it",
  "A parse depends only on the text up to K bytes after the furthest position at which it calls a parser, when no parser looks at more than K bytes: texts with the same beginning give the same status, position, ASTs and error, and a parse that stays K bytes away from the end does not notice what is appended. A text is parsed in the middle of another as on its own, with the position moved, unless a parser looks back. The parsers of the library look at no more than four bytes, or the bytes of their sequences, and only Start, WordBoundary and look-behinds look back; so do the tokens of extra/ and the csv, formula and torpn examples. Three bytes are not enough, and what looks back does depend on the text before.",
  "every grammar and environment of rules built from such parsers and transformers, every pair of texts, every text before and after",
  "it compares the parses of one text inside all other texts",
  "base/base.go:BaseParser", "base/base.go:LightBaseParser", "base/parsers.go:LookBehind", "base/parsers.go:Start", "base/parsers.go:End", "string/parsers.go:Seq", "string/parsers.go:Any", "string/parsers.go:CharClass", "string/parsers.go:WordBoundary", "_examples/csv/parser.go:Parse", "_examples/formula/formula.go:Parse", "_examples/torpn/torpn.go:Parse")

P("How deep parser calls nest",
  "A grammar without Indirect has never more parser calls on the stack than it is high, whatever the input: csv.Parse at most fourteen. A recursive grammar without left recursion has at most a number in proportion to the length of the input, with left recursion there is no bound. Production rules nest no deeper than their highest rule, however often they start over. formula.Parse and torpn.Parse need at most seven levels for every byte of the text and sixteen more; a constant bound does not hold, every opening parenthesis takes seven levels.",
  "every grammar, every environment of rules, every input, every text",
  "the depth is bounded for texts of all lengths; a test sees a stack overflow only when it happens",
  "base/base.go:BaseParser", "base/base.go:LightBaseParser", "base/parsers.go:Indirect", "base/production.go:ProductionRule", "_examples/formula/formula.go:Parse", "_examples/torpn/torpn.go:Parse", "_examples/csv/parser.go:Parse")

P("A CSV text settles after being read and written twice",
  "Every text that csv.Parse reads as a table can be written with ToCsv and read again, for ever. The first time cells without comma and line break lose the space around them and cells with one stay as they are, the second time only rows without text after the first go, and from then on nothing changes. Once is not enough. A table made by a program needs one reading more if it can be read back at all, and none if no cell looks like a quoted one.",
  "every text, every table of strings",
  "all texts; it is a claim about repeating the round trip without end",
  "_examples/csv/parser.go:Parse", "_examples/csv/marshal.go:ToCsv", "_examples/csv/marshal.go:toCsvRow")

P("The two formula examples agree",
  "formula.Parse and torpn.Parse read every text as the same formula. An error of formula.Parse is also the error of torpn.Parse, message and place, and the other way round unless formula.Parse panics because of a division by zero. Where torpn.Parse answers, formula.Parse returns the value of the formula whose postfix form this is, or panics because of a division by zero in it. A stack machine gets through the answer of torpn.Parse with one number left exactly if no minus sign stands before a parenthesis with an operator in it, and that number is what formula.Parse returns. Every program of the stack machine is the answer to some text if its numbers are above -2^63; with -2^63 this fails.",
  "every text, every list of numbers and operators",
  "it compares two programs on all texts, and asks for a text for every program",
  "_examples/formula/formula.go:Parse", "_examples/torpn/torpn.go:Parse", "_examples/formula/helper.go", "_examples/torpn/helper.go", "_examples/formula/precedence.go:formulaProductionRules", "_examples/torpn/precedence.go:formulaProductionRules")

P("CSV texts can be put together",
  "A text whose last row has text, then line breaks of any kind, then a text that does not start with one, is read by csv.Parse as the rows of the first and then the rows of the second; if the second has an error the whole has the same error, and text after a closing quote in the first is an error whatever follows the line break. So lines that are each read as a row with text can be joined with any line breaks, and a change to one line changes one row. Malformed UTF-8 at the end of a line does not swallow the line break. Without the conditions on rows without text the rows of the whole are not the rows of the parts.",
  "every pair of texts, every list of lines, every sequence of line breaks between them",
  "all texts and all ways to cut them",
  "_examples/csv/parser.go:Parse", "_examples/csv/parser.go:document", "_examples/csv/parser.go:line")

P("Formulas can be put together",
  "What formula.Parse and torpn.Parse answer to texts in parentheses follows from what they answer to the texts. If s has the value x and t the value y then (s)op(t) has the value of the operation on x and y in 64 bits, or panics if it is a division and y is zero; (s) has the value x, and -(s) its negation in 64 bits. A text that panics does so in parentheses whatever follows them. torpn.Parse answers (s)op(t) with the two answers one after the other and then the operator, (s) as s, and -(s) with the answer and then a minus sign, or with the negated number if the answer is a single number. Without parentheses it is not so, and a text in parentheses may have a value that the text alone has not.",
  "every pair of texts, every operator",
  "all texts that have a value",
  "_examples/formula/formula.go:Parse", "_examples/formula/formula.go:groupedExpresion", "_examples/formula/precedence.go:formulaProductionRules", "_examples/torpn/torpn.go:Parse", "_examples/torpn/precedence.go:formulaProductionRules")

P("The space between the tokens of a formula does not matter",
  "Every text that torpn.Parse accepts is a sequence of tokens (integer literals, perhaps with a sign, operators and parentheses), and every text with the same tokens and any other whitespace before, between and after them, or none, has the same answer of torpn.Parse and the same value or panic of formula.Parse. So every formula can be written without whitespace. A sign that touches a literal is part of the token: with space between them the text may be an error (the smallest int64, a plus sign).",
  "every accepted text, every way to space its tokens",
  "all texts and all sequences of the eight whitespace characters at every place",
  "_examples/formula/formula.go:Parse", "_examples/formula/formula.go:sp0", "_examples/formula/formula.go:number", "_examples/formula/formula.go:binaryOperator", "_examples/torpn/torpn.go:Parse")

P("Errors in formulas are reported where the text can be completed",
  "If torpn.Parse or formula.Parse reports an error with a message, the text before the reported place is the beginning of a formula: followed by 1 and some closing parentheses it is accepted (by formula.Parse, unless it then divides by zero). The only exception is a literal that does not fit into int64: it is reported behind the literal, and the text before the literal can be completed. Parse failed, the error without a place, is reported only for texts that are a formula followed by something else. The place is not always the last one of which this is true.",
  "every text, every error",
  "all texts that are no formulas",
  "_examples/formula/formula.go:Parse", "_examples/formula/formula.go:expressionInner", "_examples/formula/formula.go:groupedExpresion", "_examples/torpn/torpn.go:Parse", "base/parsers.go:Error")

P("Beginnings of CSV texts",
  "If csv.Parse reports an open quote (Unexpected EOF), the text with a quote added at its end is accepted. The other error, text after a closing quote, is final: whatever follows the text, the answer is that error, except that a line break of two bytes (C2 85 or C2 A0) may have been cut in two. So every beginning of an accepted text, cut between characters, is accepted itself or with a quote added at its end. Cut inside of such a line break it need not be, and a quote at the end of an accepted text may make it an error.",
  "every text and everything that may follow it",
  "all texts and all places where they can be cut",
  "_examples/csv/parser.go:Parse", "_examples/csv/parser.go:quotedCell", "_examples/csv/parser.go:document")

P("Parts of a formula with the same value can be exchanged",
  "If two texts have the same value in formula.Parse, one can be put for the other between parentheses anywhere in any text, also one that is no formula: the whole has the same value, or panics as before, or has the same error, at the same place if it is before the exchanged part and equally far from the end if it is behind it. So a part in parentheses can be replaced by its value in decimal. The same holds for torpn.Parse and texts with the same answer. It is not enough that the texts have the same value only when they stand in parentheses, nor for torpn.Parse that the values are the same.",
  "every pair of texts with the same value, everything that may stand before and behind",
  "all texts around all formulas",
  "_examples/formula/formula.go:Parse", "_examples/formula/formula.go:groupedExpresion", "_examples/formula/precedence.go:formulaProductionRules", "_examples/torpn/torpn.go:Parse", "_examples/torpn/precedence.go:formulaProductionRules")

P("CSV rows can be put together from cells",
  "A text with a comma at its end that csv.Parse accepts has at least two cells in its last row, and the last is empty. If another text follows the comma, the whole is read as the rows of the first, with the first row of the second in the place of the empty cell, and then the other rows of the second; if the second has no rows with text the rows of the first stay as they are, and if the second has an error the whole has the same error. So how the cells of a beginning are written, in quotes or not, does not matter to what follows, and a row can be put together from cells that are each read alone. Without the comma it is not enough that the beginning is accepted.",
  "every text with a comma at its end, every text that may follow",
  "all texts and all ways to cut them at commas",
  "_examples/csv/parser.go:Parse", "_examples/csv/parser.go:line", "_examples/csv/parser.go:cell", "_examples/csv/parser.go:quotedCell")

P("Lines and columns are ordered as positions are",
  "For two positions in a source, GetLineAndColPosition gives the later one a later line, or the same line and a later column; the only two positions with the same line and column are those before and behind the LF of a CRLF. So line and column determine the position except there. They do not depend on the text behind the position, nor on the tab size. If a text stands inside of another, the line of a place in it is the line where the text starts plus the line in the text alone less one, and its column is the one in the text alone, moved by the column where the text starts if it is on the first line, unless a CRLF is cut in two.",
  "every source, every pair of positions in it, every text around it, every tab size",
  "all sources, all mixtures of line breaks and all positions",
  "base/util.go:GetLineAndColPosition", "base/types.go:LineAndColPosition")

P("Error messages tell the error and the place",
  "If two failed parses by formula.Parse have the same error message, of whatever texts, they have failed for the same reason, with the same literal if one is out of range, on the same line and column, and with the same lines shown. The same holds for torpn.Parse and csv.Parse. The position in bytes cannot be told from the message, since line breaks of one and two bytes count alike.",
  "every pair of texts that are refused, shorter than 10^19 bytes",
  "all pairs of texts",
  "_examples/formula/formula.go:Parse", "_examples/torpn/torpn.go:Parse", "_examples/csv/parser.go:Parse", "base/util.go:GetLineAndColPosition")

P("The tokens of extra take few parser calls",
  "The parsers of extra make a number of parser calls at most in proportion to the length of the text, whether they match or not and wherever in the text they are called: binary and octal numbers 4 for every byte and 8 more, hexadecimal 6 and 13, integers 6 and 17, floats 32 and 82, numerics 18 and 45, identifiers 3 and 10, dates 1 and 12, dates with time 1 and 52; a time of day takes at most 28 calls whatever the text, and UnicodeWordBoundary one. They never nest more than eleven calls deep.",
  "every text, every position in it, every Unicode table",
  "all texts; tests do not count calls",
  "extra/extra.go:BinaryNumberStr", "extra/extra.go:OctalNumberStr", "extra/extra.go:HexNumberStr", "extra/extra.go:IntegerNumberStr", "extra/extra.go:FloatNumberStr", "extra/extra.go:NumericStr", "extra/extra.go:AsciiIdentifierStr", "extra/extra.go:UnicodeIdentifierStr", "extra/extra.go:UnicodeWordBoundary", "extra/extra.go:DateStr", "extra/extra.go:DateTimeStr", "extra/extra.go:TimeStr")

P("The cells of a CSV text are made of its characters",
  "If csv.Parse reads a table from a text, the cells one after another are the text with some of it left out: no character is invented, doubled or moved, where a malformed byte counts as U+FFFD. So the cells of a well-formed text are together no longer than the text, those of any text at most three times as long, and there is at most one cell more than there are bytes that can separate cells or rows. Malformed bytes do grow, up to that bound.",
  "every text that is read as a table",
  "all texts, all ways of quoting",
  "_examples/csv/parser.go:Parse", "_examples/csv/parser.go:cell", "_examples/csv/parser.go:quotedCell", "_examples/csv/parser.go:line", "_examples/csv/parser.go:document")

P("torpn.Parse answers with the numbers and operators of the text",
  "If torpn.Parse answers a text with a list, the list consists of numbers and operators only; its numbers are, up to their signs, the numerals of the text (its longest sequences of digits and underscores) in their order, none lost, repeated or changed by wrapping; there are as many multiplications and divisions as there are signs for them in the text, and no more additions and subtractions than there are plus and minus signs. So the list is never longer than the text.",
  "every text that is answered with a list",
  "all texts, of any nesting and spacing",
  "_examples/torpn/torpn.go:Parse", "_examples/torpn/torpn.go:number", "_examples/torpn/torpn.go:expression", "_examples/torpn/precedence.go:transformUnaryOp", "_examples/torpn/precedence.go:transformBinaryOp")

P("Dates and times are ordered as their texts",
  "If ParseDate reads instants from two texts, one text is less than the other in the order of Go strings exactly if its instant is earlier, and the texts are equal exactly if the instants are. The same holds for ParseTime on the texts that TimeStr returns, to the nanosecond, and for ParseDateTime on the texts that DateTimeStr returns if they have the same offset. It does not hold for different offsets, nor for ParseTime on other texts.",
  "every pair of texts that are read, every Go version of time.Parse that is modelled",
  "all pairs of texts: every date of ten thousand years, every nanosecond",
  "extra/transformers.go:ParseDate", "extra/transformers.go:ParseTime", "extra/transformers.go:ParseDateTime", "extra/extra.go:TimeStr", "extra/extra.go:DateTimeStr")

with open(OUT, "w") as f:
    for r in rows:
        f.write(json.dumps(r) + "\n")
print(len(rows))
