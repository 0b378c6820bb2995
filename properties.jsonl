{"id": "C01", "title": "Recovery is transparent on valid input", "statement": "parser.parse(s, recover=True).unwrap() returns a value v exactly when parser.parse(s).unwrap() returns v, whatever max_insertions, get_loc and fmt_loc are: switching recovery on neither changes the value of a valid input nor makes an invalid input look valid. Exceptions raised by many() or user callbacks on the way to the first failure are the same in both modes.", "quantifier": "all parsers built from the library's primitives and combinators (including recursive Delay grammars and arbitrary callbacks), all inputs, all max_insertions, all get_loc/fmt_loc", "why_tests_cant": "The two modes are two separate implementations of every combinator (fast_fn / fn); tests compare them on a handful of grammars only.", "anchors": ["src/reparsec/parser.py:Parser.parse", "src/reparsec/core/combinators.py", "src/reparsec/core/sequence.py", "src/reparsec/core/scannerless.py"]}
{"id": "C02", "title": "An invalid input is always reported, with at least one error", "statement": "If the input is not accepted, unwrap() never returns a value: it raises ParseError with a non-empty list of errors, in both modes. unwrap(recover=True) after parse(recover=True) returns a value only if the input is valid or a repair exists.", "quantifier": "all parsers, inputs, modes", "why_tests_cant": "Must hold for every combination of combinators and every repair list, including the empty one.", "anchors": ["src/reparsec/types.py:ResultWrapper.unwrap", "src/reparsec/core/repair.py"]}
{"id": "C03", "title": "Non-recovery parsing implements the documented predictive-PEG semantics", "statement": "parse(s).unwrap() computes exactly the outcome given by the documented combinator semantics: sequencing, committed choice (the second alternative is tried only if the first failed without consuming), greedy repetition, maybe, attempt (failure never commits), layout guards. Sound and complete with respect to a declarative big-step semantics.", "quantifier": "all parsers, inputs, start positions, column marks", "why_tests_cant": "Equivalence of an interpreter with a declarative semantics over all grammars and inputs.", "anchors": ["src/reparsec/core/combinators.py", "src/reparsec/core/primitive.py", "src/reparsec/core/sequence.py", "src/reparsec/core/scannerless.py", "src/reparsec/core/layout.py"]}
{"id": "C04", "title": "A successful parse consumes exactly a sentence of the grammar", "statement": "If a parser succeeds with value v having advanced from position i to j, then i <= j <= len(s), the consumed flag is set exactly when j > i, and the slice s[i:j] derives v in the context-free reading of the grammar.", "quantifier": "all parsers whose regexps return ends inside the input and whose literals are non-empty; all inputs and positions", "why_tests_cant": "Positions and language membership must be right for all grammars and inputs.", "anchors": ["src/reparsec/core/combinators.py", "src/reparsec/core/sequence.py", "src/reparsec/core/scannerless.py"]}
{"id": "C05", "title": "Repairs are sound", "statement": "For every repair offered by parse(s, recover=True), performing its operations on the consumed part of the input (deleting the skipped tokens, inserting the inserted symbols or recover_with placeholders at the reported positions) gives a sentence of the grammar that derives exactly the value unwrap(recover=True) returns.", "quantifier": "all parsers, inputs, max_insertions and all offered repairs", "why_tests_cant": "Relates every repair found by the search to the grammar's language; tests check a few dozen repaired values.", "anchors": ["src/reparsec/core/recovery.py:continue_parse", "src/reparsec/core/recovery.py:join_repairs", "src/reparsec/core/combinators.py", "src/reparsec/types.py:ResultWrapper.unwrap"]}
{"id": "C06", "title": "The chosen repair is the cheapest one offered", "statement": "The cost of a repair is the number of inserted symbols plus the number of skipped tokens it reports. unwrap picks a repair of minimal cost, among these one reaching the farthest position, then one not starting with an automatic insertion, then the earliest offered.", "quantifier": "all parsers, inputs, repair lists", "why_tests_cant": "Ranges over all repair lists; additivity of the cost is an invariant of every combinator.", "anchors": ["src/reparsec/types.py:ResultWrapper.unwrap", "src/reparsec/core/recovery.py:continue_parse", "src/reparsec/core/repair.py"]}
{"id": "C07", "title": "Reported errors are ordered and inside the input", "statement": "The errors of a ParseError raised after recovery are sorted by position; every skip covers at least one and only existing tokens; no two operations overlap: an operation that follows a skip starts at or after the end of the skipped span.", "quantifier": "all parsers, inputs, repairs", "why_tests_cant": "Invariant of arbitrarily long repair sequences.", "anchors": ["src/reparsec/core/recovery.py", "src/reparsec/core/sequence.py", "src/reparsec/core/scannerless.py"]}
{"id": "C08", "title": "max_insertions bounds insertions in a row", "statement": "With max_insertions = k >= 0, no repair contains more than k insertions at one input position (i.e. without input being consumed or skipped in between); k = 0 disables insertion. (A negative k is accepted and disables the bound.)", "quantifier": "all parsers, inputs, k", "why_tests_cant": "The budget is threaded through every combinator and reset on progress; a leak shows only in particular nestings.", "anchors": ["src/reparsec/parser.py:Parser.parse", "src/reparsec/core/recovery.py:continue_parse", "src/reparsec/core/combinators.py", "src/reparsec/core/repair.py:make_insert"]}
{"id": "C09", "title": "p << eof() accounts for the whole input", "statement": "If (p << eof()).parse(s) succeeds, p consumed all of s; and every repair offered for it in recovery mode ends at the end of the input.", "quantifier": "all parsers p and inputs", "why_tests_cant": "For all inputs and all repairs.", "anchors": ["src/reparsec/core/sequence.py:eof", "src/reparsec/core/combinators.py:seql"]}
{"id": "C10", "title": "scannerless.parse reports true line and column numbers", "statement": "Every error location produced by reparsec.scannerless.parse (in both modes) is Loc(p, number of newlines in s[:p], distance of p from the last newline before p), for the position p of the error, and loc_str is 'line+1:col+1' in decimal notation. Two positions of a text never have the same loc_str.", "quantifier": "all parsers over strings, all strings, both modes", "why_tests_cant": "Locations are updated incrementally from cached earlier locations; correctness must hold for every update history.", "anchors": ["src/reparsec/core/scannerless.py:get_loc", "src/reparsec/core/types.py:Ctx.update_loc", "src/reparsec/scannerless.py:parse"]}
{"id": "C11", "title": "Parser.parse with defaults reports stream positions", "statement": "Without get_loc, every reported location is Loc(p, 0, 0) where p is the position in the stream at which the operation applies, and loc_str is its decimal representation.", "quantifier": "all parsers, inputs, modes", "why_tests_cant": "All histories of context updates.", "anchors": ["src/reparsec/parser.py:_get_loc", "src/reparsec/parser.py:_fmt_loc", "src/reparsec/core/types.py:Ctx"]}
{"id": "C12", "title": "The first error is the same in both modes", "statement": "When parse(s).unwrap() raises a ParseError with location l and expected list e, parse(s, recover=True).unwrap() raises a ParseError whose first error has location l and, if a repair was found, expected list e. Without recover_with the expected list is e in all cases. (Shown false: for parsers with attempt(); and for the expected list when recover_with is applied to a parser that starts with another recover_with.)", "quantifier": "all attempt-free parsers in which recover_with is not applied to a parser starting with a bare recover_with; all inputs, location functions that report true locations, budgets", "why_tests_cant": "Relates two implementations on all failing inputs.", "anchors": ["src/reparsec/core/combinators.py:_alt", "src/reparsec/core/combinators.py:_recover_with", "src/reparsec/core/result.py"]}
{"id": "C13", "title": "When no repair exists the plain error is reported", "statement": "If parse(s, recover=True) finds no repair (unwrap(recover=True) raises), it raises the same single ParseError as parse(s).unwrap(). (Shown false when recover_with is involved: the expected list can get lost.)", "quantifier": "all attempt-free, recover_with-free parsers; all inputs, budgets", "why_tests_cant": "The failing case needs a specific nesting, no test covers it.", "anchors": ["src/reparsec/core/combinators.py:_recover_with", "src/reparsec/core/combinators.py:_recover_with_fn", "src/reparsec/types.py:ResultWrapper.unwrap"]}
{"id": "C14", "title": "Choice is committed", "statement": "(p | q) on s: if p succeeds, or fails after consuming input, p's outcome is the outcome and q is irrelevant; if p fails without consuming, the outcome is q's, with p's expected values prepended when q consumed nothing; if both fail without consuming, the error location is p's and the expected list is p's followed by q's. | is associative.", "quantifier": "all parsers p, q, r, all inputs", "why_tests_cant": "For all parsers.", "anchors": ["src/reparsec/core/combinators.py:_alt_fast", "src/reparsec/core/combinators.py:_alt"]}
{"id": "C15", "title": "Choice in recovery mode only offers marked automatic insertions of later alternatives", "statement": "When both alternatives fail without consuming, (p | q) offers all repairs of p in order, then exactly those repairs of q that do not start with an automatic insertion unless q (or the inner parser) is marked with recover(). The min_prio bookkeeping never removes any other repair. (If p's own result in recovery mode is a plain Error, as for a satisfy() without a later match, all repairs of q are offered.)", "quantifier": "all parsers, inputs", "why_tests_cant": "For all repair lists of both sides.", "anchors": ["src/reparsec/core/recovery.py:join_repairs", "src/reparsec/core/combinators.py:_alt", "src/reparsec/core/combinators.py:_recover"]}
{"id": "C16", "title": "maybe is p | Pure(None)", "statement": "p.maybe() and p | Pure(None) give identical results in both modes, as the documentation states; the value of p itself or None is returned, so p.maybe().maybe() is p.maybe().", "quantifier": "all parsers p, inputs, contexts, budgets", "why_tests_cant": "Equality of two parsers on all inputs.", "anchors": ["src/reparsec/core/combinators.py:_maybe_fast", "src/reparsec/core/combinators.py:_maybe", "src/reparsec/parser.py:Parser.maybe"]}
{"id": "C17", "title": "bind and Pure satisfy the monad laws", "statement": "Pure(x).bind(f) = f(x), p.bind(Pure) = p, p.bind(f).bind(g) = p.bind(lambda x: f(x).bind(g)): identical results (values, positions, errors, repairs) in both modes.", "quantifier": "all parsers and functions, inputs, contexts, budgets", "why_tests_cant": "Equalities for all parsers; associativity in recovery mode depends on how repairs, budgets and expected lists are threaded.", "anchors": ["src/reparsec/core/combinators.py:_bind", "src/reparsec/core/recovery.py:continue_parse"]}
{"id": "C18", "title": "fmap laws and sequencing operators agree with bind", "statement": "p.fmap(id) = p, p.fmap(f).fmap(g) = p.fmap(g . f); p + q = p.bind(lambda x: q.fmap(lambda y: (x, y))); p << q and p >> q are the projections of p + q; in both modes.", "quantifier": "all parsers, inputs, contexts, budgets", "why_tests_cant": "Equalities for all parsers.", "anchors": ["src/reparsec/core/combinators.py:_fmap", "src/reparsec/core/combinators.py:_seq_h", "src/reparsec/core/combinators.py:seql", "src/reparsec/core/combinators.py:seqr"]}
{"id": "C19", "title": "label only renames unconsumed expectations", "statement": "p.label(x) succeeds/fails/repairs exactly as p, with the same values, positions, costs and operations; its expected list is [x] if p consumed nothing and p's otherwise; the outermost of nested labels wins.", "quantifier": "all parsers, inputs, modes", "why_tests_cant": "For all parsers.", "anchors": ["src/reparsec/core/combinators.py:_label", "src/reparsec/core/result.py"]}
{"id": "C20", "title": "attempt makes every failure non-committing", "statement": "Outside recovery, p.attempt() has p's successes and p's failures but no failure counts as having consumed input, so p.attempt() | q always tries q when p fails; attempt is idempotent.", "quantifier": "all parsers, inputs", "why_tests_cant": "For all parsers and inputs.", "anchors": ["src/reparsec/core/combinators.py:_attempt_fast", "src/reparsec/core/combinators.py:_attempt"]}
{"id": "C21", "title": "many collects the longest run of successes", "statement": "p.many() returns, in order, the values of the maximal run of successful consuming applications of p, stops at the first non-consuming failure, propagates the first consuming failure, and raises RuntimeError exactly when some application succeeds without consuming.", "quantifier": "all parsers p and inputs", "why_tests_cant": "Arbitrary number of iterations.", "anchors": ["src/reparsec/core/combinators.py:_many_fast", "src/reparsec/core/combinators.py:_many"]}
{"id": "C22", "title": "sep_by and between", "statement": "p.sep_by(sep) returns [] when p fails at once without consuming and otherwise the values of p, (sep, p)* in order, and fails (committed) after a consumed separator not followed by p; p.between(o, c) runs o, p, c and returns p's value.", "quantifier": "all parsers, inputs", "why_tests_cant": "Arbitrary number of items.", "anchors": ["src/reparsec/parser.py:sep_by", "src/reparsec/parser.py:between"]}
{"id": "C23", "title": "chainl1 and chainr1 associate as documented", "statement": "On p (op p)* with values a0, (f1,a1), ..., (fn,an): chainl1 returns fn(...f1(a0,a1)...,an) and chainr1 returns f1(a0, f2(a1, ... fn(a(n-1), an))), and each function is called in the order given by that nesting.", "quantifier": "all numbers of operators, all values, all (possibly raising) functions", "why_tests_cant": "Unbounded operand lists.", "anchors": ["src/reparsec/parser.py:chainl1", "src/reparsec/parser.py:chainr1"]}
{"id": "C24", "title": "then builds flat tuples in order", "statement": "p1.then(p2)...then(pn) (2 <= n <= 8), whose values may be of different types, applies the parsers in order and returns the flat tuple of their n values; it fails where the first of them fails, and raises what the first of them raises; apply(fn) calls fn with these n values as arguments in order. With recovery its results are those of p1 + (p2 + (...)).", "quantifier": "all parsers p1..pn, inputs", "why_tests_cant": "For all parsers and inputs.", "anchors": ["src/reparsec/parser.py:TupleParser.then", "src/reparsec/core/combinators.py:tuple3"]}
{"id": "C25", "title": "Column marks are lexically scoped", "statement": "No parser changes the column mark seen by its continuation: after p, whatever blocks p contains, the mark is the one before p - in successes and in every repair.", "quantifier": "all parsers, inputs, modes", "why_tests_cant": "All nestings of block/indented.", "anchors": ["src/reparsec/core/layout.py", "src/reparsec/core/types.py:Ctx.set_mark", "src/reparsec/core/result.py:set_ctx"]}
{"id": "C26", "title": "Layout combinators test the true column (scannerless)", "statement": "With scannerless.parse: block(p) runs p with the mark set to the true column of the current position; aligned(p) runs p iff that column equals the mark, indented(d, p) runs p with the new mark iff column = mark + d; otherwise they fail with expected ['indentation'] at the current location, consuming nothing.", "quantifier": "all strings, positions, marks, deltas, parsers", "why_tests_cant": "Depends on cached locations being right in every history.", "anchors": ["src/reparsec/core/layout.py", "src/reparsec/core/types.py:Ctx.update_loc"]}
{"id": "C27", "title": "Which column layout combinators test with lexer.parse", "statement": "With lexer.parse, block/aligned/indented test the column of the current token, provided that no earlier token starts at a character offset equal to the index of the current token (and the first token is at the start of the source); in general they test the column of the location cached last if its character offset equals the token index, else that of the current token. Without the proviso the intuitive claim is false of the code (Ctx.update_loc compares a token index with a character offset): block(many(aligned(number))) rejects two numbers that both start in column 2.", "quantifier": "all token streams, positions, marks, deltas, parsers, all contexts that occur in a run", "why_tests_cant": "Needs a coincidence between a token index and a character offset.", "anchors": ["src/reparsec/core/types.py:Ctx.update_loc", "src/reparsec/core/layout.py", "src/reparsec/lexer.py:parse", "src/reparsec/lexer.py:_loc_from_stream"]}
{"id": "C28", "title": "The lexer tiles the source and locates tokens correctly", "statement": "split_tokens(src, spec): the matches cover the source without gap or overlap from 0 to len(src); every yielded token carries the start and end location of its match with true line and column numbers, tokens are in source order; unnamed matches are dropped, nothing else.", "quantifier": "all sources and specs (match functions)", "why_tests_cant": "All sources and specs.", "anchors": ["src/reparsec/lexer.py:iter_tokens", "src/reparsec/lexer.py:split_tokens"]}
{"id": "C29", "title": "LexError points at the first unmatched position", "statement": "split_tokens raises LexError(loc) exactly if the iteration reaches a position < len(src) where the spec does not match, and loc is the true location of that position; str() is 'Lexing error at line+1:col+1'.", "quantifier": "all sources and specs", "why_tests_cant": "All sources and specs.", "anchors": ["src/reparsec/lexer.py:iter_tokens", "src/reparsec/lexer.py:LexError"]}
{"id": "C30", "title": "The lexer terminates iff the spec makes progress", "statement": "split_tokens terminates on every source if the spec never matches the empty string inside the source; if the spec matches empty at a reached position it never terminates (the code has no guard).", "quantifier": "all sources and specs", "why_tests_cant": "Non-termination cannot be exhibited by a terminating test.", "anchors": ["src/reparsec/lexer.py:iter_tokens"]}
{"id": "C31", "title": "A Delay can be defined exactly once", "statement": "Over any history of define and parse calls: parsing through an undefined Delay raises RuntimeError; the first define takes effect for all later parses; every further define raises RuntimeError and changes nothing. (d.define(d) is the exception: it succeeds, but parsing through d keeps raising.)", "quantifier": "all histories of operations on any number of Delays", "why_tests_cant": "All histories.", "anchors": ["src/reparsec/parser.py:Delay"]}
{"id": "C32", "title": "Forward references are equivalent to direct ones", "statement": "A combinator built from a Delay before it is defined behaves, once it is defined, exactly like the same combinator built after the definition (early and late binding of the parse functions agree).", "quantifier": "all parsers, all orders of construction and definition, inputs, modes", "why_tests_cant": "All construction orders and inputs.", "anchors": ["src/reparsec/parser.py:Delay.to_fns", "src/reparsec/core/parser.py:ParseObj.to_fns"]}
{"id": "C33", "title": "Parsing terminates for grammars without left recursion", "statement": "If every recursive reference is guarded (reachable only after input was consumed), parse terminates on every input, in both modes; recursion-free parsers always terminate.", "quantifier": "all guarded grammars, all inputs, all max_insertions >= 0", "why_tests_cant": "Termination for all inputs.", "anchors": ["src/reparsec/core/combinators.py", "src/reparsec/parser.py:Delay", "src/reparsec/core/recovery.py:continue_parse"]}
{"id": "C34", "title": "ParseResult.fmap maps the value only", "statement": "r.fmap(f).unwrap(...) returns f(v) where r.unwrap(...) returns v and raises the same ParseError where r.unwrap raises; the repair chosen is unchanged.", "quantifier": "all results, functions, flags", "why_tests_cant": "All results.", "anchors": ["src/reparsec/types.py:ResultWrapper.fmap", "src/reparsec/core/result.py"]}
{"id": "C35", "title": "Error messages list all expected values", "statement": "str(error) is 'at LOC: ' followed by 'unexpected input', 'expected x', or 'expected x1, ..., x(n-1) or xn', followed by the repair in parentheses with correct singular/plural; ParseError joins the messages with ', '.", "quantifier": "all expected lists, operations, counts", "why_tests_cant": "All lists and counts.", "anchors": ["src/reparsec/types.py:ErrorItem.msg", "src/reparsec/types.py:ParseError.__str__"]}
{"id": "C36", "title": "Results never share mutable state", "statement": "Parsing updates result objects in place (expected lists, flags, contexts, priorities, repair operations); nevertheless no object that existed before a parse call is modified by it, and updating one repair never changes another one: the observable results equal those of a purely functional semantics.", "quantifier": "all parsers, inputs, all interleavings of calls made inside one parse and all earlier results", "why_tests_cant": "Aliasing bugs show only in particular object graphs.", "anchors": ["src/reparsec/core/result.py", "src/reparsec/core/recovery.py:_join_ops", "src/reparsec/core/repair.py:ops_prepend_expected", "src/reparsec/core/combinators.py:_recover"]}
{"id": "C37", "title": "recover_with offers its value exactly when recovery is allowed", "statement": "p.recover_with(x) (and recover_with_fn) equals p outside recovery; in recovery, if p fails without consuming and the insertion budget is not exhausted, the insertion of x at the current position (cost 1, prioritised over automatic insertions) is offered before p's own repairs, which are all kept; otherwise the result is p's.", "quantifier": "all parsers, inputs, budgets", "why_tests_cant": "For all parsers and repair lists.", "anchors": ["src/reparsec/core/combinators.py:_recover_with", "src/reparsec/core/combinators.py:_recover_with_fn"]}
{"id": "C38", "title": "recover only changes priorities", "statement": "p.recover() has exactly p's outcome, repairs, values, costs and operations; only the priority of automatic insertions changes; it is idempotent and has no effect outside recovery.", "quantifier": "all parsers, inputs, modes", "why_tests_cant": "For all parsers.", "anchors": ["src/reparsec/core/combinators.py:_recover"]}
{"id": "C39", "title": "parse raises only documented exceptions", "statement": "If no user callback raises, every referenced Delay is defined and no many() is applied to a parser that can succeed on the empty string, parse never raises: all failures are values.", "quantifier": "all such parsers, all inputs, modes", "why_tests_cant": "Absence of exceptions for all inputs.", "anchors": ["src/reparsec/core/combinators.py:_many", "src/reparsec/parser.py:Delay"]}
{"id": "C40", "title": "lexer.parse reports token locations", "statement": "For parsers without layout combinators, every error location reported through lexer.parse is the start location of the token at the error position, the end location of the last token at the end of the stream, and Loc(0,0,0) on the empty stream; token(kind) accepts exactly tokens of that kind and token_ins inserts Token(kind, value) located there.", "quantifier": "all parsers, token streams, modes", "why_tests_cant": "All histories.", "anchors": ["src/reparsec/lexer.py:_loc_from_stream", "src/reparsec/lexer.py:parse", "src/reparsec/lexer.py:token", "src/reparsec/lexer.py:token_ins"]}
{"id": "C41", "title": "literal, sym, satisfy and regexp skip to the nearest match", "statement": "In recovery a failing primitive offers a skip to the first later position where it matches (and only that one), reporting the number of tokens skipped; sym and literal additionally offer an insertion iff the budget allows; eof offers skipping the rest.", "quantifier": "all inputs, positions, budgets", "why_tests_cant": "Unbounded search over the input.", "anchors": ["src/reparsec/core/sequence.py", "src/reparsec/core/scannerless.py"]}
{"id": "C42", "title": "Equivalent parsers are interchangeable anywhere", "statement": "Replacing any components of a parser by equivalent ones - also inside the (recursive) definitions of its Delays, and replacing Delays by their definitions or back - gives a parser with the same parse results.", "quantifier": "all parsers, all replacement places, all definitions, inputs, modes", "why_tests_cant": "All contexts, including recursive ones.", "anchors": ["src/reparsec/core/combinators.py", "src/reparsec/parser.py:Delay"]}
{"id": "C43", "title": "Without recovery the reported error is the one the documented rules give", "statement": "A failed parse() without recovery reports exactly one error. Its location and its list of expected values (contents and order) are those computed by the compositional rules: a primitive expects itself at its position; what an optional or repeated part could still have read stays expected until something is consumed, before what follows; a choice lists its alternatives in order; label replaces the list of a parser that consumed nothing; a committed failure hides the other alternatives.", "quantifier": "all parsers, inputs, location functions, with and without unwrap(recover=True)", "why_tests_cant": "For every parser and every input; the list depends on the whole parse history.", "anchors": ["src/reparsec/core/result.py", "src/reparsec/core/combinators.py", "src/reparsec/types.py:ResultWrapper.unwrap"]}
{"id": "C44", "title": "With recovery the offered repairs are exactly those of the documented rules", "statement": "parse(recover=True) offers exactly the repairs given by the compositional rules, in that order, each with the given cost, priority, remaining insertions, value, end position and reported errors (location, operation, expected values); unwrap() reports the errors of, and unwrap(recover=True) returns the value of, the first repair that is cheapest, then farthest, then not an automatic insertion.", "quantifier": "all parsers, inputs, location functions, budgets", "why_tests_cant": "For every parser, input and budget; repairs compose along the whole parse.", "anchors": ["src/reparsec/core/recovery.py", "src/reparsec/core/repair.py", "src/reparsec/core/combinators.py", "src/reparsec/core/sequence.py", "src/reparsec/core/scannerless.py", "src/reparsec/types.py:ResultWrapper.unwrap"]}
{"id": "C45", "title": "A larger insertion budget never makes recovery worse", "statement": "For a parser that does not use both attempt and recover_with/recover_with_fn, every repair offered with max_insertions=k is also offered with any larger budget (or none): what recovers with k recovers with the larger budget, and the errors then reported stand for at most as many skipped and inserted tokens. (With both combinators this fails: a concrete parser and input are given.)", "quantifier": "all such parsers, inputs, location functions, pairs of budgets", "why_tests_cant": "Relates two runs for every parser, input and pair of budgets.", "anchors": ["src/reparsec/core/combinators.py", "src/reparsec/core/recovery.py:join_repairs", "src/reparsec/core/recovery.py:continue_parse", "src/reparsec/parser.py:Parser.parse"]}
{"id": "C46", "title": "The reported position has the valid-prefix property", "statement": "If a parse without recovery fails, the input before the reported position is the beginning of some sentence of the grammar: the error is never reported after input that could not be continued. (For grammars in which every parser that has been started can be completed.)", "quantifier": "all such parsers, all inputs, location functions", "why_tests_cant": "Ranges over every grammar, every input and all continuations of the prefix.", "anchors": ["src/reparsec/core/combinators.py", "src/reparsec/core/result.py", "src/reparsec/types.py:ResultWrapper.unwrap"]}
{"id": "C47", "title": "An LL(1) parser accepts exactly its language", "statement": "If alternatives, optional and repeated parts can be told apart from each other and from what follows by one token, then parse(s).unwrap() of p << eof() returns v if and only if s is a sentence of p with value v (in particular the grammar is unambiguous). Without this condition committed choice can reject sentences: a concrete parser is given.", "quantifier": "all LL(1) parsers (including recursive ones), all inputs, with and without recovery", "why_tests_cant": "An equality of languages: all inputs, all derivations.", "anchors": ["src/reparsec/core/combinators.py:alt_fast", "src/reparsec/core/combinators.py:many_fast", "src/reparsec/core/combinators.py:maybe_fast", "src/reparsec/core/combinators.py:bind_fast"]}
{"id": "C48", "title": "Performing the reported repair gives an accepted input with the recovered value", "statement": "For an LL(1) parser p << eof(): if parse(s, recover=True) recovers, then performing the reported operations on s (deleting the skipped tokens, inserting the reported ones) gives an input that parse().unwrap() accepts without error, with exactly the value that unwrap(recover=True) returned. (For repairs that insert tokens, i.e. no recover_with placeholder.)", "quantifier": "all LL(1) parsers, inputs, budgets, location functions", "why_tests_cant": "Relates a recovering run to the run on another, repaired, input for every parser and input.", "anchors": ["src/reparsec/core/recovery.py", "src/reparsec/core/repair.py", "src/reparsec/types.py:ResultWrapper.unwrap", "src/reparsec/parser.py:Parser.parse"]}
{"id": "C49", "title": "With one token of lookahead the reported position is exact", "statement": "For an LL(1) parser p << eof() without attempt and multi-token literals, whose regular expressions decide by the characters they match and the next one, the (first) error is reported exactly where the input stops being the beginning of a sentence: the input before the position can be continued to a sentence, the input up to and including the token there cannot. (With attempt it can be reported too early: a concrete parser and input are given.)", "quantifier": "all such parsers, all inputs, location functions, with and without recovery", "why_tests_cant": "Ranges over all continuations of the input.", "anchors": ["src/reparsec/core/combinators.py", "src/reparsec/core/result.py", "src/reparsec/core/sequence.py"]}
{"id": "C50", "title": "literal and sym match by value, and are reported under their names", "statement": "literal(s) raises iff s is empty; otherwise it accepts exactly the inputs that start with s. sym(t) on lexer tokens compares kind and value and ignores locations. A missing symbol is expected and inserted under its label if one was given and under its repr otherwise; likewise the placeholders of recover_with and recover_with_fn, which keep the expectations of their parser.", "quantifier": "all symbols, literals, labels, inputs, repr functions, locations", "why_tests_cant": "All values and inputs.", "anchors": ["src/reparsec/core/scannerless.py:literal", "src/reparsec/core/sequence.py:sym", "src/reparsec/lexer.py:Token", "src/reparsec/core/combinators.py:recover_with", "src/reparsec/core/combinators.py:recover_with_fn"]}
{"id": "C51", "title": "With enough insertions recovery always ends with a value", "statement": "For a parser whose required parts can all be inserted (sym, literal, recover, recover_with around what cannot), and that needs at most k insertions in a row to be completed from any place: if max_insertions is at least k (or negative), then parse(s, recover=True).unwrap(recover=True) returns a value for every input s; it never raises. Skipping also counts: eof() always completes. With one insertion less it can raise: a concrete parser and input are given.", "quantifier": "all such parsers (including recursive ones, where k may depend on the length of the input), all inputs, budgets, location functions", "why_tests_cant": "Ranges over all inputs, however broken, and over all grammars.", "anchors": ["src/reparsec/core/recovery.py:make_skip", "src/reparsec/core/recovery.py:make_insert", "src/reparsec/core/recovery.py:continue_parse", "src/reparsec/core/combinators.py", "src/reparsec/core/sequence.py", "src/reparsec/parser.py:Parser.parse"]}
{"id": "C52", "title": "Every expected value can really come at the reported position", "statement": "For a parser without attempt whose parts can all be completed, every name in the expected values of the (first) error is the name of a part of the parser (a label, a symbol, a literal, end of file), and any word of that part after the input before the reported position gives the beginning of a sentence. In particular end of file is expected by p << eof() only where the input so far is a sentence of p. With attempt values that belong to another position can be listed: a concrete parser and input are given.", "quantifier": "all such parsers (including recursive ones), inputs, location functions, with and without recovery", "why_tests_cant": "Ranges over all grammars, all inputs and all continuations of the input.", "anchors": ["src/reparsec/core/combinators.py", "src/reparsec/core/result.py", "src/reparsec/core/chain.py", "src/reparsec/core/sequence.py"]}
{"id": "C53", "title": "The expected values are complete for LL(1) parsers", "statement": "For an LL(1) parser p << eof() without attempt, regexp and multi-token literals, whose tests are labelled and whose repeated parts are prefix-free: every token that could continue the input at the reported position is the first token of a part that the (first) error names as expected, and end of file is named if the input so far is a sentence. Repeated parts that end with a token that must be there are prefix-free; so it holds for the test-suite's JSON parser: the error for any token sequence is where the input stops being the beginning of a JSON text and says exactly what could stand there: a token is one of those named iff some JSON text goes on with it there, and end of file is named iff the input so far is a JSON text. If a repeated part can be continued, what it could still read is missing: a concrete parser and input are given. If parts of the same name start with the same tokens (and no name is end of file), the error says exactly what can come next: a token is one of those named iff the input before the position followed by it is the beginning of a sentence, end of file is named iff that input is a sentence, and nothing but end of file and names of parts is named.", "quantifier": "all such parsers, all inputs, all possible next tokens, location functions, with and without recovery", "why_tests_cant": "Ranges over all grammars, inputs and continuations.", "anchors": ["src/reparsec/core/combinators.py", "src/reparsec/core/result.py", "src/reparsec/core/chain.py"]}
{"id": "C54", "title": "An outcome does not depend on the input after the place where it is decided", "statement": "For a parser without layout, attempt and multi-token literals, whose regular expressions decide by the characters they match and the next one: if parsing s reports its (first) error at position p, then parsing any input that agrees with s up to and including the token at p reports an error at the same position (with the same line, column and expected values for text); if parsing s returns v having read j tokens, any input that agrees with s up to and including token j gives v. With attempt or a two-character literal this fails: concrete parsers are given.", "quantifier": "all such parsers (including recursive ones), all pairs of inputs, location functions, with and without recovery", "why_tests_cant": "Relates the runs on all pairs of inputs with a common prefix.", "anchors": ["src/reparsec/core/combinators.py", "src/reparsec/core/sequence.py", "src/reparsec/core/scannerless.py", "src/reparsec/parser.py:Parser.parse"]}
{"id": "C55", "title": "Parsers see the input only through their tests and callbacks", "statement": "Two parsers built by the same combinators, whose tests, callbacks and constants treat corresponding tokens and values alike, have corresponding outcomes on corresponding inputs (possibly of different token types), in both modes and for every budget: corresponding values, or the same errors - expected values, operations, order - at corresponding positions, or the same exception. In particular lexer.parse gives the same value for token lists that differ in the locations of their tokens only (other white space, other comments), and the same errors at the same tokens.", "quantifier": "all pairs of related parsers (including recursive ones), all pairs of related inputs, budgets, location functions, with and without recovery", "why_tests_cant": "Relates two runs for all parsers, token types, correspondences and inputs.", "anchors": ["src/reparsec/core", "src/reparsec/parser.py:Parser.parse", "src/reparsec/lexer.py:token", "src/reparsec/lexer.py:token_ins", "src/reparsec/lexer.py:parse", "src/reparsec/types.py:ParseResult.unwrap"]}
{"id": "C56", "title": "Parsing does not depend on where in the input it starts", "statement": "literal(w) >> p on w + s has the same outcome as p on s, in both modes: the same value, or the same errors with positions moved by len(w) (for text: lines moved by the number of newlines in w, columns moved on the first line only), provided regular expressions and callbacks of p do not notice the prefix. Layout combinators are included if w ends its line; otherwise they do notice, as a concrete parser shows.", "quantifier": "all parsers (including recursive ones), prefixes, inputs, budgets, location functions, with and without recovery", "why_tests_cant": "Relates two runs for all parsers, prefixes and inputs.", "anchors": ["src/reparsec/core/combinators.py", "src/reparsec/core/sequence.py", "src/reparsec/core/scannerless.py", "src/reparsec/core/layout.py", "src/reparsec/core/types.py", "src/reparsec/scannerless.py:parse"]}
{"id": "C57", "title": "Plain parsing takes linear time without attempt", "statement": "For every parser without attempt, left recursion and unboundedly large bind continuations there is a constant k such that parse(s) without recovery makes at most k * (len(s) + 1) calls of parse functions, for every input s, whether it returns, raises or is cut off. With attempt this fails: a concrete recursive parser makes more than 2^n calls on an input of length n. A parser without many and Delay, with or without attempt, never makes more calls than it is made of parsers. The number of calls of a run that ends is exactly the one that the documented rules give: each combinator is one call and calls its second part only if the outcome of the first one makes it go on.", "quantifier": "all such parsers (including recursive ones), all inputs, location functions", "why_tests_cant": "Bounds the work for inputs of every length; tests can only time a few.", "anchors": ["src/reparsec/core/combinators.py", "src/reparsec/core/primitive.py", "src/reparsec/core/sequence.py", "src/reparsec/core/scannerless.py", "src/reparsec/core/layout.py", "src/reparsec/parser.py:Parser.parse", "src/reparsec/parser.py:Delay"]}
{"id": "C58", "title": "Recovery costs nothing on valid input, and can cost exponentially much on invalid input", "statement": "When parse(s, recover=False) succeeds, parse(s, recover=True) makes exactly as many calls of parse functions (for parsers without recover, recover_with and recover_with_fn; otherwise at least as many and, without attempt, at most k * (len(s) + 1) for a constant k of the parser). On invalid input there is no such bound: (a b)* on (aab)^k, an input of length 3k with k errors, makes more than 2^k calls and builds 2^k repairs for every non-zero max_insertions, although without recovery it takes linear time. On any input recovery makes at least as many calls. It never ends with more than two repairs per call. Only repetition and recursion make it grow: for parsers of a given size without many and Delay one number bounds the calls on every input. In every case the number of calls is exactly the one of documented rules: an alternative that does not start is called again to get its repairs, and the rest of a sequence is called once after every repair of its first part.", "quantifier": "all parsers, inputs, budgets, location functions", "why_tests_cant": "Relates the work of two runs for all parsers and inputs; the lower bound is for inputs of every length.", "anchors": ["src/reparsec/core/combinators.py", "src/reparsec/core/recovery.py:continue_parse", "src/reparsec/core/layout.py", "src/reparsec/parser.py:Parser.parse"]}
{"id": "C59", "title": "Side effects of callbacks: recovery changes nothing on valid input and only adds on invalid input", "statement": "Callbacks (of fmap, bind, satisfy, pure_fn, recover_with_fn) may read and change shared state, e.g. a symbol table. The library never saves or restores it. If parse(s, recover=False) returns a value, parse(s, recover=True) returns the same value and leaves the same state; if the former raises an exception, so does the latter, in the same state; if the former reports an error, the latter does too, and its effects come after those of the plain parse (a log kept by the callbacks starts with the log of the plain parse). With callbacks that have no effects everything is as in the other properties. Effects of alternatives that failed stay, and recovery may call a callback again on the same token: concrete parsers are given.", "quantifier": "all parsers (including recursive ones) with callbacks that change a state of any type, all initial states, inputs, budgets, location functions", "why_tests_cant": "Relates two runs for all parsers, callbacks, states and inputs.", "anchors": ["src/reparsec/core/combinators.py", "src/reparsec/core/primitive.py:PureFn", "src/reparsec/core/sequence.py:satisfy", "src/reparsec/core/recovery.py:continue_parse", "src/reparsec/core/result.py:Recovered.fmap", "src/reparsec/parser.py:Parser.parse"]}
{"id": "C60", "title": "How deeply parse functions call each other", "statement": "Python limits the depth of calls. Without recovery a parser without Delay never nests more calls of parse functions than it is made of parsers, whatever the input (many, sep_by, chains are loops). The depth is the one of the documented rules, by which calls made one after the other do not add up. A recursive parser without left recursion nests at most k * (len(s) + 1) calls, with recovery k * (len(s) + 1) * (max_insertions + 2), for a constant k of the parser; such input is given that attains linear depth. On valid input recovery nests exactly as many calls as parsing without it. A parser without Delay and many never nests more calls than it is made of parsers with recovery either. On any input it nests at least as many, and never more than it makes. On invalid input it does not: (a b)* on (aab)^k nests more than k calls with recovery and at most 4 without. With left recursion the depth is unbounded.", "quantifier": "all parsers (including recursive ones), all inputs, budgets, location functions; runs that return, raise or are cut off", "why_tests_cant": "Bounds the depth of calls for inputs of every length.", "anchors": ["src/reparsec/core/combinators.py", "src/reparsec/core/recovery.py:continue_parse", "src/reparsec/core/layout.py", "src/reparsec/parser.py:Parser.parse", "src/reparsec/parser.py:Delay"]}
{"id": "C61", "title": "The JSON parser of the test-suite decides JSON", "statement": "tests/parsers/json.py, a parser built with the public API: value << eof accepts a sequence of tokens exactly if it is a JSON text, and returns its value (with or without recovery; a text has one value; for repeated keys the last one counts). loads(src) returns v exactly if src splits into the tokens of a JSON text with value v. If it reports an error at token p, the tokens before p can be continued to a JSON text and those up to and including p cannot (first error, with recovery). A recovered value is the value of the JSON text that one gets by applying the reported operations. With max_insertions >= number of tokens + 2 recovery always gives a value. Calls and their depth are linear in the number of tokens.", "quantifier": "all token sequences, budgets, lexers, functions used to convert strings and numbers", "why_tests_cant": "Exact characterisation of the language, values and diagnostics of a recursive parser on inputs of every length.", "anchors": ["tests/parsers/json.py", "src/reparsec/sequence.py:sym", "src/reparsec/lexer.py:token", "src/reparsec/lexer.py:parse", "src/reparsec/parser.py:Parser.sep_by", "src/reparsec/parser.py:Parser.between", "src/reparsec/parser.py:Parser.recover_with"]}
{"id": "C62", "title": "The JSON parser of the test-suite reads JSON texts", "statement": "loads(src) of tests/parsers/json.py, from characters to values: it returns v exactly if src consists of the tokens of a JSON text with value v, written as RFC 8259 says with any white space around them (except that the string literal without characters is refused); strings have their escapes replaced and integers their numerical value. It never raises LexError and always finishes. The values returned over all texts are exactly those without empty strings, repeated keys and code points above 1114111. When it raises ParseError, the error's line and column are those of the first token that cannot stand where it does (or of the end of the last token, if the text only stops too early): what is before can be continued to a JSON text, and the expected values stand for exactly the tokens that could come next.", "quantifier": "all texts, all values", "why_tests_cant": "Exact characterisation over all texts, by a declarative grammar of characters.", "anchors": ["tests/parsers/json.py:spec", "tests/parsers/json.py:unescape", "tests/parsers/json.py:loads", "src/reparsec/lexer.py:iter_tokens", "src/reparsec/lexer.py:split_tokens", "src/reparsec/lexer.py:parse"]}
{"id": "C63", "title": "The arithmetic parser of the README evaluates arithmetic expressions", "statement": "tests/parsers/expr.py (README.md): eval(src) returns v exactly if src is an arithmetic expression with value v - numbers, +, -, * with the usual precedence and left association, parentheses, white space after any token but not at the beginning - with or without recovery; an expression has one value. The (first) error is reported exactly where the text stops being the beginning of an expression. A recovered value is the value of the expression that one gets by applying the reported operations. Calls and their depth are linear in the length of the text.", "quantifier": "all texts, budgets, character classes for white space and digits that are disjoint from each other and from the five special characters", "why_tests_cant": "Exact characterisation of the language, values and diagnostics of a recursive parser on inputs of every length.", "anchors": ["tests/parsers/expr.py", "README.md", "src/reparsec/scannerless.py:regexp", "src/reparsec/scannerless.py:literal", "src/reparsec/scannerless.py:parse", "src/reparsec/parser.py:Parser.chainl1", "src/reparsec/parser.py:Parser.between"]}
{"id": "C64", "title": "How many expected values an error lists", "statement": "Without recovery: the error of a parser without Delay lists at most as many expected values as the parser is made of parsers, whatever the input. For a recursive parser without attempt and without left recursion they are at most k * (len(s) + 1) for a constant k of the parser; the same holds for the first error reported with recovery. Expected values are not deduplicated and a linear number is attained: the parser e = 'a' e? 'b'? followed by 'c' lists 'b' n times on the input a^n. With attempt there is no such bound: a parser is given that lists 2^(n+1) values on an input of length n.", "quantifier": "all parsers (including recursive ones), all inputs, budgets, location functions; inputs of every length for the lower bounds", "why_tests_cant": "Bounds the size of a diagnostic for inputs of every length.", "anchors": ["src/reparsec/core/result.py:Ok.prepend_expected", "src/reparsec/core/result.py:Error.prepend_expected", "src/reparsec/core/combinators.py", "src/reparsec/core/chain.py", "src/reparsec/types.py:ErrorItem", "src/reparsec/types.py:ParseResult.unwrap"]}
{"id": "C65", "title": "With a lexer or without: parsers built alike have the same outcome", "statement": "If a parser over tokens and a parser over characters are built with the same combinators around parts that correspond - wherever the first one's part is run at a token, the second one's part run where this token begins has the corresponding outcome - then so do the whole parsers (without recovery): corresponding values, or an error each with the same expected values in the same order, at a token and where this token begins, or the same exception. Names of parts below a label may differ.", "quantifier": "all pairs of parsers built alike (including recursive ones), inputs, location functions, relations between values", "why_tests_cant": "Relates two runs on two inputs for all parsers built with the combinators, by induction on parsers and runs.", "anchors": ["src/reparsec/core/combinators.py", "src/reparsec/lexer.py:parse", "src/reparsec/scannerless.py:parse", "src/reparsec/parser.py:Delay"]}
{"id": "C66", "title": "The JSON parser without a lexer agrees with the one with a lexer", "statement": "loads of tests/parsers/json_scannerless.py and of tests/parsers/json.py have the same answer for every text: the same value - exactly the value of the text as JSON - or one error each, with the same expected values. The errors are at the same place, unless only white space remains; then the former is at the end of the text and the latter at the end of the last token. In both cases the text before the error is the beginning of a text that loads accepts. With recovery and max_insertions >= length of the text + 2, the parser of characters gives a value for every text whatever. loads always finishes; calls and their depth are linear in the length of the text.", "quantifier": "all texts", "why_tests_cant": "Compares two programs on all texts, including malformed ones.", "anchors": ["tests/parsers/json_scannerless.py", "tests/parsers/json.py", "src/reparsec/scannerless.py:regexp", "src/reparsec/scannerless.py:literal", "src/reparsec/scannerless.py:parse", "src/reparsec/lexer.py:split_tokens", "src/reparsec/lexer.py:parse"]}
{"id": "C67", "title": "The yamlish parser of the test-suite reads dictionaries nested by indentation", "statement": "loads(src) of tests/parsers/yamlish.py returns v exactly if src is a document with value v: lines 'key: value' or 'key:', with blanks around the colon and any white space between lines (and before the first one), where the lines of the document begin in the first column and below a line without value there is at least one line four columns further to the right; of equal keys in a dictionary the last value counts. A document has one value. Any other text is answered by one error, at a place such that the text before it is the beginning of a document. Calls and their depth are linear in the length of the text.", "quantifier": "all texts; every class of white space characters that contains blank and newline, and no letter or underscore", "why_tests_cant": "Exact characterisation of a language that depends on columns, for texts and nestings of every size.", "anchors": ["tests/parsers/yamlish.py", "src/reparsec/layout.py:aligned", "src/reparsec/layout.py:indented", "src/reparsec/scannerless.py:regexp", "src/reparsec/scannerless.py:parse", "src/reparsec/core/layout.py"]}
{"id": "C68", "title": "Collecting expected values lazily changes nothing, and reading them is never deeper than parsing was", "statement": "The expected values of results are collected in nested Append objects. Each error reads the same values in the same order as if lists were concatenated at once. Reading them (list(...) in unwrap) suspends strictly fewer generators inside one another than parse functions were active at the same time in the parse, with or without recovery; so an input that could be parsed within the recursion limit does not fail when its errors are read. The bound is exact. For a parser without Delay and without recovery it is a constant; in general linear in the length of the input (times insertions with recovery), and a parser and inputs are given where it grows with the input.", "quantifier": "all parsers (including recursive ones), inputs, budgets, location functions, recover flags", "why_tests_cant": "Relates the depth of a lazily built tree to the depth of the run that built it, for inputs of every length.", "anchors": ["src/reparsec/core/chain.py:Append", "src/reparsec/core/result.py", "src/reparsec/core/repair.py:ops_prepend_expected", "src/reparsec/core/recovery.py:join_repairs", "src/reparsec/core/recovery.py:_append_expected", "src/reparsec/core/combinators.py", "src/reparsec/types.py:ResultWrapper.unwrap"]}
{"id": "C69", "title": "Interruptions and the recursion limit never lead to a wrong result", "statement": "If an exception that the library did not ask for (KeyboardInterrupt, RecursionError, MemoryError) is raised at some moment of a parse - when a parse function is entered or left -, parse raises it; otherwise the outcome is the one of the undisturbed parse. There is no third possibility: whichever moments are hit, the parse ends with the exception at the first hit moment, or none of its moments is hit and the outcome is the usual one. With a limit L on simultaneously active parse functions, parse raises RecursionError exactly if the undisturbed parse needs more than L, and otherwise the limit is invisible. A limit linear in the input (times insertions) is never reached without left recursion; with left recursion every limit is. If callbacks change a state of their own, an interruption in call number k of a callback leaves the state as the first k calls of the undisturbed run have made it (and what the interrupted call had done), and an interruption that would come after the last call changes nothing.", "quantifier": "all parsers (including recursive ones), inputs, budgets, location functions, recover flags, all sets of interruption points, all limits", "why_tests_cant": "Quantifies over all crash points of all runs.", "anchors": ["src/reparsec/core/combinators.py", "src/reparsec/core/recovery.py:continue_parse", "src/reparsec/core/layout.py", "src/reparsec/core/sequence.py", "src/reparsec/core/scannerless.py", "src/reparsec/parser.py:Parser.parse", "src/reparsec/parser.py:Delay"]}
{"id": "C70", "title": "Regular expressions as written: what regexp and the lexer match, and the client parsers with their pattern texts", "statement": "For patterns made of characters, classes, the dot, groups, choice and greedy repetition: regexp(pat, k) at pos matches exactly if some text starting at pos is described by the pattern; what it matches starts at pos, lies within the text and is the one that leftmost-first backtracking finds; group 0 is the whole match, and a group k is a part of the match described by the inside of group k. The groups of a pattern have the numbers 1, 2, ... up to their count; a group may be asked for by number or by name with the same results; asked for a group that the pattern does not have, the parser raises IndexError as soon as it meets a match, and fails as usual if there is none. Pattern texts are read as their grammar says, in one way only; texts outside it are refused; a text without special characters matches itself and nothing else. regexp and split_tokens with such patterns therefore meet the conditions of the other properties. The client parsers json.py, json_scannerless.py, expr.py and yamlish.py, with the pattern texts as written in the files, have the answers characterised in C62, C63, C66 and C67 (same values, errors and exceptions; the three without lexer also with recovery).", "quantifier": "all texts and positions, all patterns of this kind, all classes of white space and digits", "why_tests_cant": "Quantifies over all patterns and texts; relates pattern texts to grammars for inputs of every length.", "anchors": ["src/reparsec/core/scannerless.py:regexp", "src/reparsec/scannerless.py:regexp", "src/reparsec/lexer.py:iter_tokens", "src/reparsec/lexer.py:split_tokens", "tests/parsers/json.py:spec", "tests/parsers/json.py:escape", "tests/parsers/json_scannerless.py", "tests/parsers/expr.py", "tests/parsers/yamlish.py"]}
{"id": "C71", "title": "Threads that use parsers and results at the same time do not influence each other", "statement": "Any number of threads call parse (with or without recovery, also with the same parser objects), fmap and unwrap, on results of their own and on shared results that existed before, and take turns in any order between any two accesses to result objects. A thread that is done has returned or raised exactly what it would have alone, as if results were immutable values; no object that existed before has changed; a thread that is scheduled again and again finishes.", "quantifier": "all numbers of threads, all schedules, all sequences of such calls (later calls may depend on what unwrap returned), all parsers, inputs, budgets, location functions", "why_tests_cant": "Quantifies over all interleavings of all runs; result objects are changed in place, so a shared object would show only under some schedules.", "anchors": ["src/reparsec/core/result.py", "src/reparsec/core/repair.py", "src/reparsec/core/recovery.py", "src/reparsec/core/combinators.py", "src/reparsec/core/primitive.py", "src/reparsec/core/sequence.py", "src/reparsec/core/scannerless.py", "src/reparsec/core/layout.py", "src/reparsec/parser.py:Parser.parse", "src/reparsec/types.py:ParseResult.fmap", "src/reparsec/types.py:ParseResult.unwrap"]}
{"id": "C72", "title": "Refactorings that keep the meaning of a parser", "statement": "With and without recovery, for all inputs: a function applied by fmap may be moved into or out of label, attempt, recover, block/aligned/indented, both alternatives of |, many (element-wise), maybe, recover_with, the components of a sequence, and the argument of bind; a pure in a sequence is a fmap; sequences may be regrouped. Without recovery, same values, positions, failures and exceptions: a common prefix may be pulled out of (p + q).attempt() | (p + r) if q does not fail after consuming; a common suffix may be pulled out of p + r | q + r if p consumes when it succeeds; alternatives that exclude each other may be swapped; p.many() is one p and then p.many(), or nothing. The conditions are needed.", "quantifier": "all parsers (including recursive ones), functions, inputs, positions, contexts, budgets", "why_tests_cant": "Equivalence of two programs on all inputs.", "anchors": ["src/reparsec/core/combinators.py", "src/reparsec/core/recovery.py:continue_parse", "src/reparsec/core/layout.py", "src/reparsec/parser.py"]}
{"id": "C73", "title": "Delays defined by another thread or in the middle of a parse", "statement": "If Delays get their definitions while a parse is running (by callbacks or other threads), the parse raises RuntimeError exactly if it uses a Delay before that Delay is defined, and otherwise its outcome is the one of a parse started after all definitions. Several threads calling define of one Delay: whatever the schedule, when all calls are over the Delay is defined by the parser of a call that returned; a Delay defined by a single thread never changes once defined; calls that do not overlap: the first one returns, the others raise. (Refuted for overlapping calls: two calls of define can both return; and a parser built from a Delay by another thread during define can stay undefined for ever.)", "quantifier": "all parsers, inputs, budgets, recover flags; all moments at which definitions arrive; all numbers of threads and schedules", "why_tests_cant": "Quantifies over all schedules and all moments of a parse.", "anchors": ["src/reparsec/parser.py:Delay.define", "src/reparsec/parser.py:Delay.parse_fast_fn", "src/reparsec/parser.py:Delay.parse_fn", "src/reparsec/parser.py:Delay.to_fns", "src/reparsec/parser.py:Parser.parse"]}
{"id": "C74", "title": "The reported repair is the best of all ways of mending the input", "statement": "A way of mending is a single path: the input is read by the documented rules, and wherever a primitive fails it may skip to its next match, insert its missing symbol (insertions in a row are limited), or a recover_with that stands there may insert its value. After parse(recover=True): if unwrap() returns a value there is no way of mending (nothing is broken); if it raises one error without an operation there is none either; otherwise the raised errors are exactly the operations of one way of mending, unwrap(recover=True) returns its value, and no other way is better (fewer skipped tokens plus insertions; then farther; then not starting with an automatic insertion). Hence: if one operation of cost 1 can mend the input, exactly one error is reported. If, in p << eof without recover and attempt, skipping a superfluous token can mend the input, the only error is Skip 1 at that token, and - with one token of lookahead - the value is the value of the input without it. (An input one token away from a sentence need not be mendable by skipping one token: many(a) << eof on axa skips two.)", "quantifier": "all parsers (including recursive ones), inputs, budgets, location functions", "why_tests_cant": "Optimality over all ways of mending, of which there can be infinitely many kinds; lists of alternatives are built lazily, joined and filtered by the code.", "anchors": ["src/reparsec/core/recovery.py", "src/reparsec/core/combinators.py", "src/reparsec/core/sequence.py", "src/reparsec/core/scannerless.py", "src/reparsec/core/layout.py", "src/reparsec/core/repair.py", "src/reparsec/types.py:ResultWrapper.unwrap"]}
{"id": "C75", "title": "A forgotten token is reported where it is missing, and put back; tokens too many are reported where they stand", "statement": "Let the grammar be parsable with one token of lookahead, and let x be a token that only joins or closes what was begun by others (a closing bracket, the colon of a JSON member, a final semicolon) and that the parser waits for with sym. If s1 x s2 is a sentence and after s1 the next token is noticed at once, then parse(recover=True) of s1 s2 raises exactly one error, at the place where x is missing, repaired by one insertion or by skipping one token; if skipping does not help and x is all that fits, x is inserted and the value is the value of s1 x s2. If tokens zs none of which can follow s1 stand between s1 and s2, and s2 begins with such an x or is empty, the first error is at the first of them and the repairs cost at most as much as skipping them; one such token, without recover, is skipped and the value is the value of s1 s2. For the JSON parser of the test-suite: a text from which the last bracket is missing gives one error behind its last token, the bracket is inserted, and the value is that of the complete text.", "quantifier": "all grammars with one token of lookahead (including recursive ones), all sentences, all places in them, all budgets but 0, all location functions; for JSON all texts", "why_tests_cant": "Quantifies over all sentences of all grammars and all places where a token is missing.", "anchors": ["src/reparsec/core/recovery.py", "src/reparsec/core/combinators.py", "src/reparsec/core/sequence.py", "src/reparsec/core/repair.py", "src/reparsec/types.py:ResultWrapper.unwrap", "tests/parsers/json.py"]}
{"id": "C76", "title": "Lists with mistakes: what was read before the first mistake is kept, and several mistakes cost no more than each on its own", "statement": "If the input of p.many() << q (or p.sep_by(sep) << q) begins with items that are read without a mistake, then after parse, with or without recovery, the list that unwrap(recover=True) returns begins with the values of these items, and (without recovery, or if the input was repaired) every error raised by unwrap() is located behind them; the same for the first part of p + q. If in p.many() << eof every item either is read or, once begun, can be mended, then parse(recover=True) reports at most as many errors as all these mends cost together and repairs the whole input. A mistake in the first token of an item of p.many() << eof ends the list: exactly one error, at that token, the rest of the input is skipped, and the value is the list of the items before. For the JSON parser of the test-suite: whatever follows a beginning of a text without mistakes, the returned value contains all elements and members that were complete in it (and of the unfinished ones what had been read).", "quantifier": "all parsers for items, separators and what follows (including recursive ones), all inputs, all numbers of items and mistakes, all budgets, location functions", "why_tests_cant": "Quantifies over all inputs with any number of mistakes and over all parsers.", "anchors": ["src/reparsec/core/combinators.py:many", "src/reparsec/parser.py:sep_by", "src/reparsec/core/recovery.py", "src/reparsec/core/repair.py", "src/reparsec/types.py:ResultWrapper.unwrap", "tests/parsers/json.py"]}
{"id": "C77", "title": "A forgotten value is reported where it is missing, and recover_with stands in for it", "statement": "Let the grammar be parsable with one token of lookahead. Suppose the input is s1 s2, where between s1 and s2 a part is missing for which the grammar has a recover_with at that place (inside an optional or repeated part only if that part has been begun), and the next token is noticed at once as not continuing s1. Then parse(recover=True) raises exactly one error, located between s1 and s2, repaired by one insertion or by skipping one token. If skipping the next token does not help and nothing else can be inserted there, the operation is the insertion of what recover_with announces, unwrap(recover=True) returns the value with the placeholder in that place, and this is the value of the text in which the placeholder is written out. For the JSON parser of the test-suite: if the text becomes right when 1 is written behind a comma or a colon, there is one error where the value is missing; if a closing bracket follows, 1 is inserted and the value is the one of the text with the 1 (e.g. [1, 2, ] or {\"a\": }).", "quantifier": "all grammars with one token of lookahead (including recursive ones), all inputs with a gap, all positive budgets, location functions; for JSON all token sequences", "why_tests_cant": "Quantifies over all sentences of all grammars and all places in them.", "anchors": ["src/reparsec/core/combinators.py:recover_with", "src/reparsec/core/combinators.py:recover_with_fn", "src/reparsec/core/recovery.py", "src/reparsec/core/repair.py", "src/reparsec/types.py:ResultWrapper.unwrap", "tests/parsers/json.py"]}
{"id": "C78", "title": "The list parser of the tutorial, on every text", "statement": "For the parser that the tutorial builds (lists of numbers separated by commas, with 0 for missing numbers): parse_list returns a list exactly for the texts that are such lists, namely the list of their numbers; every other text raises ParseError. For every text the returned value (unwrap(recover=True)), and the errors with their places, repairs and expectations are the ones of a reading from left to right that needs no parser: a missing number behind a comma becomes 0, or characters are skipped up to the next digit if this makes everything cheaper; at what is not a comma behind a number the list ends and the rest is skipped. If only numbers are missing behind commas, each is reported where it is missing, replaced by 0, and nothing else is reported. Without recovery the first of these mistakes is raised, without an operation. (A digit for str.isdigit that int refuses raises ValueError.)", "quantifier": "all texts, all classifications of characters in which digits are not white space and commas are neither; all budgets but 0, location functions", "why_tests_cant": "Quantifies over all texts, including all ways of being wrong; the recovering parser keeps lists of alternatives and chooses at the end.", "anchors": ["docs/source/pages/tutorial.rst", "src/reparsec/core/combinators.py", "src/reparsec/core/recovery.py", "src/reparsec/core/sequence.py", "src/reparsec/core/repair.py", "src/reparsec/scannerless.py:parse", "src/reparsec/types.py:ResultWrapper.unwrap"]}
{"id": "C79", "title": "An input that ends too early is completed at its end", "statement": "Let the grammar be parsable with one token of lookahead. If a beginning of a sentence is parsed with recover=True and repaired, then every error is located at the end of the input, every repair is an insertion, and the returned value is the one of the input followed by what is inserted. If k tokens are missing at the end that only close or join what was begun and that the parser waits for with sym or literal, and k insertions in a row are allowed, the input is repaired, with at least one and at most k errors; if nothing else completes it with k insertions, there are exactly k errors, they insert the missing tokens in order, and the value is the value of the completed input. If every completion needs more insertions than max_insertions, there is one error, at the end, without repair. For the arithmetic parser of the README: k missing closing parentheses give k errors, each inserting ')' at the end, and the value of the completed text - with the default limit for k up to 5, for more one error without repair. For the JSON parser of the test-suite: the same for any sequence of missing closing brackets, over tokens and over texts.", "quantifier": "all grammars with one token of lookahead (including recursive ones), all unfinished inputs, all numbers of missing tokens, all budgets, location functions; for README and JSON all texts", "why_tests_cant": "Quantifies over all unfinished inputs with any depth of nesting.", "anchors": ["src/reparsec/core/recovery.py", "src/reparsec/core/combinators.py", "src/reparsec/core/sequence.py", "src/reparsec/core/scannerless.py", "src/reparsec/core/repair.py", "src/reparsec/types.py:ResultWrapper.unwrap", "tests/parsers/expr.py", "tests/parsers/json.py"]}
{"id": "C80", "title": "Effects of callbacks in a plain parse happen in the order of the documented rules", "statement": "Callbacks of pure_fn, satisfy, fmap and bind may read and change shared state (a symbol table, a log). For parse without recovery, the value, failure or exception and the state left behind are exactly those of the documented rules read with the state threaded through them: left to right; the callback of fmap or bind runs once, after its parser succeeded and before what follows; the second alternative of | runs only after the first failed without consuming, in the state the first one left; many runs its items in order and then the trial that ended it; attempt takes back the position but not the effects; recover callbacks do not run. The rules determine outcome and state, reduce to those of C03 for callbacks without effects, and hold for valid inputs with recovery switched on too. A callback that records every item of a many leaves exactly the returned list.", "quantifier": "all parsers with stateful callbacks, all state types, initial states, inputs, location functions that depend on the position", "why_tests_cant": "a test sees one run; the order of effects must agree with the rules for every parser, input and state", "anchors": ["src/reparsec/core/combinators.py: _alt_fast, _bind_fast, _seq_h_fast, _many_fast, _maybe_fast, _attempt_fast, fmap", "src/reparsec/core/sequence.py: satisfy", "src/reparsec/core/primitive.py: PureFn", "src/reparsec/parser.py: Parser.parse"]}
{"id": "C81", "title": "A mistyped token costs at most two repairs and is reported where it stands", "statement": "Let the grammar be parsable with one token of lookahead, let s1 x s2 be a sentence in which x only joins or closes what was begun by others and is waited for with sym or literal, and let z stand in place of x, where z can follow neither s1 nor s1 x. If s2 is empty, or what comes behind an x and begins with the first token of s2 has to be there (is not an optional or repeated part), and insertions are allowed, then parse(recover=True) of s1 z s2 is repaired, the first error is located at z, and all repairs together cost at most 2 (x can be inserted and z skipped). For the JSON parser of the test-suite: a mistyped ], } or : not followed by a comma.", "quantifier": "all grammars with one token of lookahead (including recursive ones), all sentences, all places in them, all wrong tokens, all budgets but 0, all location functions; for JSON all token sequences", "why_tests_cant": "Quantifies over all sentences of all grammars, all places in them and all wrong tokens.", "anchors": ["src/reparsec/core/recovery.py", "src/reparsec/core/combinators.py", "src/reparsec/core/sequence.py", "src/reparsec/core/repair.py", "src/reparsec/types.py:ResultWrapper.unwrap", "tests/parsers/json.py"]}
{"id": "C82", "title": "Effects of callbacks and diagnostics with recovery follow the documented rules", "statement": "Callbacks of pure_fn, satisfy, fmap, bind and recover_with_fn may read and change shared state. For parse with recover=True and with recover=False, what unwrap shows (value, or the errors with places, expectations and operations), the exception that escapes, and the state left behind are exactly those of the documented rules with the state threaded through them. With recovery: satisfy tests the token and, where a repair may start, every later token up to the next accepted one; a choice whose alternatives both failed without consuming runs both again, in the state the first runs left; after a repair the rest of the sequence, and every callback in it, runs once for every alternative repair, in their order; fmap calls its function once for every alternative repair; recover_with_fn runs after its parser and only if its repair is offered; attempt runs its parser without recovery where no repair may start; an exception ends everything at once and nothing is undone. The rules determine outcome and state, and reduce to those of C44 and C43 for callbacks without effects.", "quantifier": "all parsers with stateful callbacks, all state types, initial states, inputs (valid or not), max_insertions, location functions that depend on the position", "why_tests_cant": "The number and order of callbacks depends on all alternatives of all repairs; a test sees one run.", "anchors": ["src/reparsec/core/combinators.py", "src/reparsec/core/recovery.py: continue_parse, join_repairs", "src/reparsec/core/sequence.py: satisfy", "src/reparsec/core/primitive.py: PureFn", "src/reparsec/core/layout.py", "src/reparsec/parser.py: Parser.parse", "src/reparsec/types.py:ResultWrapper.unwrap"]}
{"id": "C83", "title": "Every error of a repaired input, not only the first, speaks of the right place and the text mended so far", "statement": "Let the grammar have no attempt, let all its parts have sentences and its fmap callbacks return values. If parse(recover=True) returns a value although there are errors, there is one edit script on the input (kept, skipped tokens and insertions) that writes the text whose value is returned, the errors are in order those of its operations, each is located where the script stands when it performs its operation, and every name an error expects is the name of a part of the grammar that may come next - with any of its words - after the text as mended so far. If it returns no value there is one error without operation, located at a position up to which the input can be continued by what it expects. For texts without placeholders this is what C52 says of the first error. Instances: expressions, and the JSON parser of the test-suite.", "quantifier": "all grammars without attempt (including recursive ones and ones with recover_with), all inputs, all budgets, all location functions", "why_tests_cant": "Quantifies over all inputs and over errors that depend on all earlier repairs.", "anchors": ["src/reparsec/core/recovery.py", "src/reparsec/core/combinators.py", "src/reparsec/core/result.py", "src/reparsec/core/repair.py", "src/reparsec/core/sequence.py", "src/reparsec/types.py:ResultWrapper.unwrap", "tests/parsers/json.py"]}
{"id": "C84", "title": "Errors reported together are those met by mending one at a time", "statement": "Let the grammar be parsable with one token of lookahead, without attempt, layout combinators and inner eof; recover_with may be applied to single-token parsers if what it puts in is the value of a text one can write there, which nothing can follow inside the part. If parse(recover=True) reports several errors and returns a value, then performing the reported operations by hand one at a time (writing such a text for a placeholder) leads through the same errors: the text obtained by the operations performed so far, parsed without recovery, has exactly one error, at the place of the next operation, and it expects nothing that the next reported error does not name; if the items of every repetition end with a token that must be there, both expect exactly the same, in the same order. After the last operation the text is accepted and its value is the one that recovery returned. Under the conditions of C53 therefore also every later error names every token that may come next in the text mended so far (exactly those if parts of the same name start with the same tokens, as in JSON). Proved for the README expression parser on all texts and for the test-suite's JSON parser on all token sequences.", "quantifier": "all grammars with one token of lookahead (including recursive ones), all inputs, all budgets, all location functions, any number of errors; for the README parser all texts, for JSON all token sequences", "why_tests_cant": "Quantifies over all inputs and all sequences of repairs; each later error has to be compared with a parse of another text.", "anchors": ["src/reparsec/core/recovery.py", "src/reparsec/core/combinators.py", "src/reparsec/core/result.py", "src/reparsec/core/repair.py", "src/reparsec/core/sequence.py", "src/reparsec/types.py:ResultWrapper.unwrap", "README.md", "tests/parsers/expr.py"]}
