# Formal model of ethframe/reparsec in Rocq (Coq 8.16.1)

The repository is a parser-combinator library with error recovery.  Every
parser is a pair of functions: `fast_fn` (no recovery) and `fn` (recovery).
The model follows the code function by function.

## Shape of the model (rocq/theories)

| file | models |
|---|---|
| `Base.v` | outcome monad: `Ret v`, `Raise e` (Python exception as a value), `NoFuel` (execution not finished within the fuel) |
| `Types.v` | `core/types.py` (Loc, Ctx) |
| `Repair.v`, `Result.v`, `Recovery.v` | `core/repair.py`, `core/result.py`, `core/recovery.py`, `core/chain.py` |
| `Prims.v` | `core/primitive.py`, `core/sequence.py`, `core/scannerless.py` |
| `Layout.v` | `core/layout.py` |
| `Combinators.v` | `core/combinators.py` (both the fast and the recovering half) |
| `Grammar.v` | deep embedding `gram A` of all parser objects a user can build, interpreters `fast`/`full`, derived combinators of `parser.py`, Delay |
| `Api.v` | `parser.py` (`Parser.parse`), `types.py` (`ResultWrapper`, `ErrorItem.msg`, `ParseError`), `scannerless.py`/`lexer.py` `parse` wrappers |
| `Lexer.v` | `lexer.py` |
| `Delay.v` | the mutable Delay objects of `parser.py`: `define`, `to_fns`, histories of definitions |
| `Heap.v` | the result objects of `core/result.py`, `core/repair.py` as mutable heap objects, and every combinator on them (in-place `set_expected`, `prepend_expected`, `set_ctx`, `recover`, `_join_ops`) |
| `HeapGen.v`, `Threads.v` | the code of `Heap.v` over an open notion of statements (`Heap.v` is an instance by conversion); the instance where threads run their statements in turns on one heap |
| `TupleParser.v` | `TupleParser.then`, `Tuple2` .. `Tuple8` (`then`, `apply`), `core/combinators.py: tuple3 .. tuple8`, with values of different types |
| `Late.v` | `Delay.define`, `parse_fn`, `parse_fast_fn`, `to_fns` under threads, and definitions that arrive during a parse |
| `Cost.v` | the fast half of `core/combinators.py`/`core/parser` dispatch again, with a counter of parse-function calls (proved to erase to `fast`) |
| `CostFull.v` | the recovering half again with the counter, `core/recovery.py` included (proved to erase to `full`) |
| `Interp.v`, `Interrupt.v` | both halves with the effects of running code left open (`Depth.v`, `DepthFull.v`, `Cost.v`, `CostFull.v` are instances by conversion); the instances with moments and with interruptions |
| `Chain.v` | both halves once more, with the `Append` objects of `core/chain.py` instead of lists, the depth of nested calls and the depth of the objects (proved to erase to `Depth.v`, `DepthFull.v`) |
| `Depth.v`, `DepthFull.v` | both halves again with the depth of nested parse-function calls (proved to erase to `fast` and `full`) |
| `Stateful.v` | the whole of it again (`Prims`, `Recovery`, `Combinators`, `Layout`, both interpreters, `Parser.parse`) with callbacks that read and change a shared state (proved to be the same functions when the callbacks have no effects) |
| `StatefulStop.v` | interrupting a parse of `Stateful.v` in a call of a callback |
| `Json.v`, `JsonText.v` | a client in the repository, `tests/parsers/json.py`: the parser over tokens, the token pattern `spec`, `unescape`, `loads` |
| `JsonScan.v` | another client, `tests/parsers/json_scannerless.py`: the same language parsed from characters |
| `Yamlish.v` | the client of the layout combinators, `tests/parsers/yamlish.py`; `\s` is a parameter |
| `Readme.v` | the arithmetic parser of README.md, `tests/parsers/expr.py`; `\s` and `\d` are parameters, `int` is modelled on digits |
| `Regex.v` | the part of Python's `re` that is used (`Pattern.match`, `Match.end/group/lastgroup`, `Pattern.sub`): backtracking matching for characters, classes, dot, groups, choice, greedy repetition; a reader of pattern texts (VERBOSE included) |
| `RegexGroup.v` | `regexp(pat, group)` with any group number or name, including those the pattern does not have (`IndexError`), shown equal to the `regexp` of the other files under `fmap` |
| `ClientsRe.v` | the four client parsers once more, with the pattern texts copied from the files |
| `JsonTests.v` | every case of `tests/test_json.py` run on the model by `vm_compute` (tests of the model, not proofs) |
| `ModelTests.v` | the repository's own test expectations, run on the model by `vm_compute` (tests of the model, not proofs) |

Combinators are shallow (Gallina functions over parse functions, branch by
branch as in Python).  Recursive grammars (Delay) need a fixpoint, so a deep
embedding `gram : Type -> Type` names every parser object and the
interpreters `fast E n g` / `full E n g` tie the knot with fuel `n`; `E` maps
Delay identities to their definitions.  Running out of fuel is the separate
outcome `NoFuel`, never a normal-looking value, and fuel monotonicity is
proved, so a theorem about `fast E n g ... = Ret r` is about every
terminating Python execution.

### Simplifications (also stated at each definition)

* Values: `Union[A, B]` is a common type `A`; `Optional[A]` of `maybe` is
  `option A` (Python returns the bare value; for that see C16_python_* in `PropsMaybe.v`).
* User callbacks are functions `A -> out B`: they may raise or diverge but
  have no side effects and do not observe object identity.
* Regular expressions are an oracle `stream -> pos -> option (end, group)`.
* `Iterable[str]` (lists, tuples, `Append`) are lists; `Append` is `++`
  (only ever observed by iteration).
* Stream positions are `nat`, other Python ints are `Z` (costs, skip counts
  and priorities, which are never negative, are `nat`).
* Result objects are immutable values in the main model.  In-place mutation
  is treated separately (C36).
* Python recursion limit, memory, performance, user-written ParseObj
  subclasses, `repr` of values (oracle) and typing are not modelled.

## Properties: what is modelled and how it will be proved

* C01, C02: simulation between `fast` and `full` at equal fuel, by induction on
  fuel, case per combinator.
* C03: big-step relation `sem` (spec), soundness by fuel induction,
  completeness by induction on the derivation plus fuel monotonicity.
* C04, C05, C06, C07, C25, C10, C11, C40: one strong invariant: every success
  and every repair of `full` is an edit derivation `ederiv` (position-level
  spec with edit operations, marks and columns), with locations tracked by an
  abstract coherence predicate on contexts.  Word-level consequences by
  induction on `ederiv`.
* C06 (choice): `min` with the key of `unwrap`, by induction on the list.
* C08: budget invariant over `full`, fuel induction.
* C09: corollary of C04/C05 invariants.
* C12, C13: refinement of the simulation that also relates location/expected
  lists; the general statements are refuted by concrete witnesses.
* C14-C20, C37, C38: equalities of parse functions, by case analysis; those
  that need the consumed/advanced invariant are stated for grammars.
* C21-C24: from the reference semantics `sem` / by list induction. Tuples of values of different types (`TupleParser.v`, `PropsTuple.v`): a parser built with `then` is a value of a type indexed by the list of types; compared with its parsers in the order written, by induction on the chain of `then`s; with recovery it is `p + (q + (r + ...))` (by C72).
* C26: coherence invariant; C27: refuted by a concrete witness.
* C28-C30: induction over the lexer loop against a declarative tiling.
* C31, C32: state machine of Delay cells; induction over histories, fuel
  induction for early/late binding.
* C33: well-founded measure (remaining input, insertion budget, grammar rank).
* C34, C35: direct.
* C36: explicit heap semantics of result objects and refinement to the pure
  model.
* C39: fuel induction with the nullable analysis.
* C41: induction over the skip loop.

* C42: congruence of `same` for every combinator, through recursive Delays.
* C43, C44: inductive (declarative) semantics `dsem` of diagnostics and `rsem`
  of recovery; equivalence with the interpreters by fuel induction and by
  induction on derivations.
* C45: relational fuel induction over two budgets.
* C46-C49: `LLSpec.v` defines sentences, viable prefixes, FIRST and LL(1) from
  the language alone.  One induction on `diag` derivations (`LL.diag_valid`)
  gives the valid-prefix property together with locality (a failure depends only
  on the input up to the reported token); a second one (`LL.ll1_reads`) shows
  that an LL(1) parser reads every sentence.  C48 combines this with C05.
* C50: direct computation, for all symbols, literals and labels.
* C51: `PatchSpec.v` defines statically how many insertions in a row a parser needs to be completed (`fills`, by recursion on the grammar, with an assumed table for Delays that must hold of their definitions, indexed by the input that is left so that recursive grammars have finite needs); `Patch.v` proves by induction on fuel that every result in recovery mode then has a usable repair (with how much of the budget it leaves); `PropsPatch.v` concludes about `parse`/`unwrap` and shows that the bound is exact for the expression grammar.
* C52, C53: `ExpSpec.v` says what an expected value stands for, in terms of the grammar and its language only (`rightly`: a part of that name occurs in the grammar and any word of it may follow; `mentions`: a named part can start with the token). `Exp.v` (soundness) and `ExpAll.v` (completeness) are inductions over the diagnostic semantics `diag` of C43; `PropsExp.v` transfers them to `parse`/`unwrap` via C43 and C12, with the instance of the expression grammar for all inputs and two counterexamples showing the conditions are needed. `Shut.v`: what ends with a token that must be there (`shut`, `ReplaySpec.v`) stays LL(1) whatever follows, hence is prefix-free; `PropsShut.v`: C53 and C84 with `shut_items` instead of prefix-freeness, and for JSON in terms of `is_json` and token kinds (`C53_json`, `C84_json_complete`). `PropsErrJson.v` puts C49, C52 and C53 together for JSON: the names in an error stand for exactly the tokens that can come next (`says_next`), without recovery (`C53_json_exact`) and for every error with it (`C84_json_exact`). `PropsErrExact.v` does the same for any grammar in which parts of the same name start with the same tokens (`same_first`): `C53_exactly`, `C53_exactly_recovering` (first error), `C84_says_exactly` (all errors), with the expression grammar as an instance for all texts and a counterexample showing that the condition on names is needed (`C53_same_names`).
* C54: `PropsOnline.v` proves by induction over `diag` that an outcome is derivable in every input with the same tokens up to the decided position; transferred via C43, C01 and C12.
* C55: `ParamSpec.v` defines when two parsers are related (`grel`: the same combinators; tests, constants and callbacks respect a relation of tokens and values). `Param.v` proves the fundamental theorem (related parsers give related results, both modes, same fuel) by induction over fuel and the relation; `PropsParam.v` transfers it to `parse`/`unwrap` and instantiates it for tokens that differ in location only.
* C56: the same theorem with the two inputs read from different offsets (`k1`, `k2`); every parser whose regexps and callbacks do not notice the prefix is related to itself.
* C57: `Cost.v` is the model of the fast functions with a counter of parse-function calls (`cfast_fast`: the same results). `CostSpec.v` says what a parser of bounded size and bounded left-call depth is; `CostProofs.v` proves an amortised bound (a run that reads nothing costs at most weight * Q; the first token read pays for the pending rest), `PropsCost.v` the linear bound for `parse`, also in terms of finitely many Delays with a rank, and the exponential counterexample with `attempt`. Callbacks, regular expressions, comparison of literals and location functions count as part of one call. `TallySpec.v` counts by rules over the outcomes of C43 (independent of the counted functions); `TallyCost.v`, `PropsTally.v` prove that the counted functions give exactly these numbers (`C57_exact`, `C60_exact`), by induction on the fuel, and that the rules give one number only. `RTallySpec.v`, `RTallyCost.v`, `PropsRTally.v` do the same with recovery, over the outcomes of C44 (`C58_exact`, `C60_exact_recovery`). `MoreCalls.v`, `PropsMoreCalls.v` compare the counted runs with and without recovery and the counters with each other, by induction on the fuel, on any input (`C58_never_fewer`, `C60_never_shallower`, `C60_at_most_calls`). `RepCount.v`, `PropsRepCount.v`: a run holds at most two repairs per call (`C58_repairs_at_most`), by induction on the fuel with a success weighing one. `Straight.v`, `PropsStraight.v`: constant bounds without `many` and Delay (`C58_no_repetition`, `C60_recovery_no_repetition`), by induction on the fuel, every continuation being run once per repair and the repairs bounded by the calls. `PropsOnce.v`: without recovery such a parser calls each of its parsers at most once (`C57_no_repetition`).
* C58: `CostFull.v` is the model of the recovering functions with the same counter (`cfull_full`: the same results). `CostFullProofs.v` compares the counted runs in lockstep (`cost_sim`): as long as nothing has to be repaired the two make the same calls, the recover combinators costing one more each (`traced`). `PropsCostFull.v` has the theorems and the exponential lower bound for recovery.
* C59: `Stateful.v` is the model with a state monad for callbacks; `StatefulSpec.v` says what it means that all callbacks respect a relation on states. `StatefulProofs.v`: conservativity and fuel independence; `StatefulSim.v`: the simulation of C01 with states, where a failing plain run leaves a state from which the recovering run goes on. `PropsStateful.v`: the theorems, a parser with a symbol table, and cases where effects are repeated.
* C60: `Depth.v` and `DepthFull.v` are the models with the depth of nested calls (`dfast_fast`, `dfull_full`: the same results). `DepthProofs.v`: the bounds without recovery, by induction on the fuel with the number of parsers, the left-call depth and the input left as measure; `DepthBound.v`: the bound with recovery, where the units are positions times insertions left (`rep_ins`, from the budget lemma of C08); `DepthFullProofs.v`: the comparison on valid input as in C58. `PropsDepth.v`: the theorems, tightness, and the cases where recovery recurses. Each nested call of a parse function is a bounded number of Python frames; frames of callbacks and of iteration over results are not counted.
* C61: `JsonSpec.v` defines JSON texts over tokens and their values; `JsonProofs.v` shows that these are the sentences of the parser, `JsonLL.v` and `JsonPatch.v` that it meets the conditions of C47-C49, C51, C57 and C60; `PropsJson.v` draws the conclusions. `PropsFill.v` extends C48 to placeholders inserted by `recover_with`.
* C62: `JsonTextSpec.v` says how tokens are written, in characters; `JsonTextProofs.v` and `JsonTextMain.v` show that the lexer finds exactly these tokens (greedy matching is right because no token of a JSON text can be longer given what may follow it). `PropsErrText.v`: the errors of `loads`, located in the characters (`C62_errors`, from C28 and `C53_json_exact`).
* C63: `ReadmeSpec.v` is a grammar of texts with values; `ReadmeProofs.v` shows that it describes the sentences of the parser, `ReadmeLL.v` that the parser is LL(1) and meets the other conditions of C47-C49, C57 and C60.
* C64: `ExpLen.v` bounds the names in a `diag` derivation: names gathered at one position by the parts reached there without reading (at most the left depth many levels), plus, for names carried past tokens by optional parts, one such bound per token. Transferred via C43 and C12; the lower bounds are explicit derivations.
* C65: `FuseSpec.v` says when two parsers are built alike; `Fuse.v` shows by induction on `diag` derivations of the first that the second has a corresponding derivation. Transferred to `parse` via C43.
* C66: `JsonScanProofs.v` lays the tokens out in the text and shows that each pattern of the scannerless parser has the outcome of the corresponding token parser (`part`), so C65 applies; totality and the language come from C61 and C62, the prefix property from C61 (positions) by spelling out the tokens that complete the text. `ScanPatch.v` instantiates C51: white space (`regexp` with a pattern that always matches) needs no insertion, every other token is inserted or skipped (`C66_always_recovers`).
* C67: `YamlishSpec.v` describes documents in two steps, as lines with columns and as items nested by column; `YamlishProofs.v` shows both directions on `peg` derivations (the regular expressions match maximally because of what may follow in a document), `YamlishErr.v` follows failing `diag` derivations and completes the text read so far. Totality and costs come from C39, C57 and C60.
* C68: `Chain.v` keeps the `Append` objects as trees. `ChainProofs.v`: one simulation shows that iterating the objects gives the lists of the other models and that the objects in the result of a call are lower than the call is deep (each combinator adds at most one `Append` to objects made by calls it nests). `PropsChain.v`: the theorems, a case where the bound is exact, a family of inputs where it grows.
* C69: `Interp.v` interprets a parser over any notion of effects (`lift`, `bind`, `call`); `InterpProofs.v`: two interpretations related by `lift`, `bind`, `call` are related on every parser. `Interrupt.v` gives the interpretation that records the moments of a run and the one that is interrupted at given moments; `PropsInterrupt.v` relates these two, and the first one with depths (C60) and counts (C57, C58). That no code catches exceptions is visible in `xbind` and `xcall` (there is no `try` in src/reparsec); exceptions inside user callbacks are `Raise` as everywhere. `StatefulStop.v`: for callbacks with a state (C59), a parser whose callbacks record the states and one whose callbacks are cut off after `k` calls; one induction relates both to the undisturbed parser (`C69_callbacks`, `C69_callbacks_between` in `PropsStop.v`).
* C70: `Regex.v` reads pattern texts and matches by listing all ways in backtracking order; `RegexSpec.v` says which texts a pattern describes and gives the search with a continuation that decides among them; `RegexProofs.v` relates them. `RegexText.v` is a grammar of pattern texts, independent of the reader; `RegexTextProofs.v` proves the reader sound and complete for it (`C70_syntax`). `RegexEq.v` shows that every pattern text of the clients, read and run, is the function used in C62, C63, C66, C67; `RegexTransfer.v` carries the theorems over with C42 (parsers with the same behaviour can replace each other). `RegexGroup.v`: `regexp` with a `Match.group` that may raise is `fmap` applied to the `regexp` of the model (`C70_raising_group`); existing groups never raise, missing ones raise exactly when something matches, and numbering and naming of groups follow from the grammar of pattern texts.
* C71: `HeapGen.v` is `Heap.v` with allocating, reading and writing objects left open; `Threads.v` gives the instance in which a thread is the list of statements still to be run, and the scheduler. `HeapRel.v`: two instances related by their statements are related on all code; `PropsThreads.v` relates a thread in the shared heap, whatever other threads do to objects that it has not made itself, to the same code run alone in a private heap (two heaps and a matching of addresses), and C36 relates that to immutable values. A statement reads or writes all attributes of one object; Delays are defined before the threads start; callbacks have no side effects.
* C72: `PropsRefactor.v`. The laws with recovery are proved on the functions of each combinator: applying a function without exceptions commutes with `join_repairs`, `continue_parse` and the loops of `many` (`vrec_join`, `cont_vmap`, `many_vfull`), and fuel is compared as in C17/C18; regrouping of sequences is C18 + C42 + C17 + `C72_bind_fmap` (hence `same_ok`: which exception is raised among several repairs may differ). The laws without recovery follow from the characterisations C14, C20, C21, C24. `C72_conditions_needed` refutes the laws without their conditions.
* C73: `Late.v`: an instance of the generic interpreter `Interp.v` (which has an operation for "this Delay is used") where an arbitrary oracle says whether the Delay is defined at that use, and an instance that lists the uses; related by `gparse_rel` (`PropsLate.v`). `define` itself is modelled as three steps (test, flag, store) of one thread among many; invariant over all schedules.
* C74: `MendSpec.v` describes single ways of mending (`mend`), without the lists of alternatives of `RecSpec.v`; only where the documented rules themselves depend on whether the other alternative or the argument of recover_with can be repaired does it refer to `rsem`. `Mend.v`: `mend_offered` (every mend is among the repairs of a returning run; induction on the mend) and `mend_only` (every repair is a mend; induction on fuel); with `first_best` (`ApiSpec.v`) this gives optimality of what `unwrap` reports. The corollaries use costs (`mend_cost`), C12 (location) and C48 (value).
* C75: `MissSpec.v` (tokens that are apart, can be inserted, are noticed). `Miss.v`: by induction on the derivation of the sentence `s1 x s2`, a mend (C74) of `s1 s2` that costs 1 exists; the leaf that reads `x` inserts it. For superfluous tokens the leaf that reads the token behind them skips them. `PropsMiss.v`: C74's optimality then bounds the cost, and C49 gives the place of the first error. `PropsMissJson.v`, `PropsMissText.v`: JSON, over tokens and as text (the last bracket missing: nothing else can be inserted there because a text that begins with a bracket ends with the matching one).
* C76: `ListSpec.v` (items read without a mistake; items that can be mended one by one). `Lists.v`: `keeps`, a statement about a parser at a position that covers its three kinds of outcome (read, failure, mend) and is closed under all combinators; proved from inversions of the relations of C03, C43 and C74, whose determinism comes from runs of the model. For several mistakes, the mends of the items are put together to one mend of the list, and C74's optimality bounds the cost. `JsonPartSpec.v`/`PropsListJson.v`: the JSON parser, by mutual induction on what a beginning of a text says about its value.
* C77: `GapSpec.v` (`gap`: where in a sentence a part that recover_with stands in for is missing). `Gap.v`: by induction on `gap`, a way of mending (C74) of cost 1; that recover_with may insert there comes from `steady` (C51) and the termination of the recovering run. C74's optimality then gives the one error, C49 its place, C47/C48 the value. `PropsGapJson.v`: JSON; a 1 behind a comma or colon of a text is a `gap` (mutual induction on texts); brackets are balanced and commas, colons and key placeholders have the right neighbours in every repaired text, so only 1 can be inserted.
* C78: `Tutorial.v` models the tutorial's final parser; `TutorialSpec.v` gives the lists of numbers (`number_list`), the reading of all texts (`reading`: a structurally recursive function on the text, no parser) and the texts with gaps (`gapped`). `TutorialProofs.v` constructs the derivation of the recovery semantics (C44) for every text: behind a number at position i the recovering parser offers a list of alternatives, of which the best - by the cost of the whole rest of the text - is the one `readings` names (induction on the length of the rest; `best` with joining of offers). `TutorialTexts.v` relates `reading` to the two inductive descriptions. Plain mode by C01 and C12.
* C79: `CloseSpec.v` says which tokens close (`closing`) and what a budget allows (`enough`); `close` (`Close.v`) builds, by induction on the derivation of the completed sentence, the way of mending that inserts the missing tokens one after the other; `C74_best_mend` turns it into a bound on the reported errors, `C49` locates the first error at the end, and the edit script (`repair_script_loc`) then has insertions at the end only (`C79_end_repaired`, `C79_missing_end`, `C79_completed`, `C79_too_many` in `PropsClose.v`). Instances: README (`PropsCloseReadme.v`, by counting parentheses) and JSON (`PropsCloseJson.v`, by the stack of open brackets), tokens and texts.

* **C80** (`StatefulPegSpec.v`, `StatefulPeg.v`, `PropsStatefulPeg.v`): a big-step relation
  `speg` for parsers whose callbacks change a state (rules of `PegSpec.v` with the state
  threaded through); `sfast` (Stateful.v) is sound and complete for it
  (`C80_effects_follow_the_rules`), by induction on fuel resp. on the derivation, with the
  context invariant of C03.  `C80_valid_with_recovery` transfers it through C59,
  `C80_deterministic`, `C80_pure_callbacks` (it is C03's relation when nothing changes the
  state), `C80_recorded_items`.
* **C81** (`WrongSpec.v`, `Wrong.v`, `PropsWrong.v`, `PropsWrongJson.v`): by induction on the derivation of
  `s1 x s2` a mend (C74) of `s1 z s2` of cost 2 exists: the leaf that reads `x` inserts it, and the
  part behind it skips `z` (`extra`, by induction on `firm`: the parsers that have to read the next token).
  C74's optimality bounds the cost of the repair that is chosen, C49 gives the place of the first error.
* **C82** (`EffectSpec.v`, `EffectRun.v`, `Effect.v`, `EffectComplete.v`, `PropsEffect.v`): one judgement `eff` for
  both interpreters (`mode`: without recovery, or with it and an allowance), the rules of `RecSpec.v`/`DiagSpec.v` with
  the state threaded through; lists of alternative repairs are worked off in order by the mutual judgement `econts`.
  `EffectRun.v` gives both interpreters of `Stateful.v` one equation per combinator; `eff_sound` by induction on fuel with the
  context invariant of C03, `eff_complete` by mutual induction on the derivation.  `C82_effects_with_recovery`,
  `C82_deterministic`, `C82_pure_callbacks` (it is C44 and C43 when nothing changes the state).
  A quirk it shows (`C82_second_success_is_lost`): if a state change makes an alternative succeed in its second, recovering
  run, that success is thrown away and the parse fails.

* **C83** (`LaterSpec.v`, `Later.v`, `PropsLater.v`): `accounts` walks an edit script and the error list together: one
  error for each operation, at the script's place, expecting only names `l` with `may_come g w l` (some part called `l`
  occurs in `g`, and every word of it can follow `w`, the text written so far).  `rsem_apt`: induction on the rules of
  C44 (`RecSpec.v`), with the written text of what came before as an accumulator.  `C83_every_error`, `C83_first_error`
  (without placeholders it is C52), `C83_expressions`, `C83_json`, `mendable_of` (how to meet the hypothesis).

* **C84** (`ReplaySpec.v`, `Replay.v`, `PropsReplay.v`): `one_by_one` walks the edit script and the error list together
  and says at each operation what `parse(recover=False)` does with `w ++ skipn i s`, the text mended so far
  (`complains`: one error, at `length w`), and at the end with the whole mended text (`content`).  Proof: the rules of
  recovery (`RecSpec.v`) are replayed on the mended text (`rsem_inv`, `rconts_from`, `any_*`): what was kept, inserted or
  closed so far is read again by the rules without recovery, which by LL(1) have no other choice; for that regular
  expressions must look forward only (`forward_re`).  `incl` instead of `eq`: `many` forgets what the last item of a
  repetition could still have taken when recovery went through it (`C84_many_forgets`), hence `shut_items` for `eq`.
  `C84_placeholders(_exactly, _complete)`: with `recover_with`, when `placeholder_node` gives a text whose value is the
  placeholder and which is read whatever follows (`steady`); `C84_json` (`PropsReplayJson.v`): JSON, all token sequences.

Specification files (no proofs, to be read next to the theorems): `Spec.v`
(languages, edits, well-formedness), `LocSpec.v`, `EditSpec.v`, `ApiSpec.v`,
`PegSpec.v`, `LawSpec.v`, `SingleSpec.v`, `ManySpec.v`, `LayoutSpec.v`,
`TermSpec.v`, `FirstSpec.v`, `CongrSpec.v`, `DelaySpec.v`, `HeapSpec.v`,
`DiagSpec.v`, `RecSpec.v`, `MonoSpec.v`, `LLSpec.v`, `PatchSpec.v`, `ExpSpec.v`, `ParamSpec.v`, `StatefulSpec.v`,
`CostSpec.v`, `JsonSpec.v`, `JsonTextSpec.v`, `ReadmeSpec.v`, `FuseSpec.v`, `YamlishSpec.v`, `RegexSpec.v`, `RegexText.v`, `MendSpec.v`, `MissSpec.v`, `ListSpec.v`, `JsonPartSpec.v`, `GapSpec.v`, `TutorialSpec.v`, `CloseSpec.v`, `StatefulPegSpec.v`, `WrongSpec.v`, `EffectSpec.v`, `LaterSpec.v`, `ReplaySpec.v`, and the last parts of `Threads.v`, `TupleParser.v` and `Late.v`.  Property theorems are in `Props*.v`.

## Trusted base

* Coq's kernel (8.16.1), `vm_compute` included (used only in concrete cases,
  witnesses and the model tests).
* `Print Assumptions` is run after every property theorem; each prints "Closed
  under the global context": no axioms, not even of the standard library.
  (Tools that list the axioms *present* in loaded libraries also see the
  constants of the opaque module `Coq.ssr.ssrunder.Under_rel`, which the
  standard library's `ssreflect` plugin file declares; no theorem uses them.)
* The faithfulness of the model to the Python source: each definition cites
  the lines it models.  `ModelTests.v` replays the expectations of the
  repository's own tests, README and tutorial on the model.

### Modelled

`core/types.py`, `core/chain.py` (as list append; as objects in `Chain.v`), `core/repair.py`,
`core/result.py`, `core/recovery.py`, `core/primitive.py`, `core/sequence.py`,
`core/scannerless.py`, `core/layout.py`, `core/combinators.py`,
`core/parser.py`, `parser.py` (every public combinator, operator and
`Delay`), `primitive.py`, `sequence.py`, `scannerless.py`, `layout.py`,
`lexer.py`, `types.py` (`Loc`, `ErrorItem`, `ParseError.__str__`,
`ParseResult.fmap`, `unwrap`).  Of the test-suite: `tests/parsers/expr.py`,
`tests/parsers/json.py`, `tests/parsers/json_scannerless.py` and `tests/parsers/yamlish.py`, with their
regular expressions modelled by hand and, in `ClientsRe.v`, taken from the
pattern texts as written (`Regex.v`); `float`, `\s` and `\d` are parameters.  Of the documentation: the
parser of the tutorial (`Tutorial.v`) and of the README (`Readme.v`).

### Not modelled

* The C implementation of Python's `re`.  In the theorems about the library a
  regular expression is an arbitrary oracle; in C70 it is the backtracking
  semantics of `Regex.v`, which `re` is trusted to follow.  Anchors,
  lookaround, back references, lazy repetition and repetition of patterns that
  match the empty text are not modelled (the reader refuses them).
* `repr` (an arbitrary function to strings), Python's `int`/`str` internals
  (for C62 `int` is modelled, without its limit of 4300 digits).
* `RecursionError`, memory and time (except the number of calls, C57, C58, and their depth, C60).  A recursion that Python would cut off is
  `NoFuel`; theorems about `Ret r` concern executions that finish.
* User callbacks with side effects on the library's own objects (those that
  mutate result objects or observe identity; for those that define Delays see C73).  Callbacks may raise, and they may not terminate; callbacks that
  change a state of their own are the subject of C59, C80 and C82, and excluded elsewhere.
* Static typing, `NamedTuple` mechanics, `__slots__`, docstrings.
* `maybe` returns the bare value in Python; the model's `GMaybe` returns
  `Some v`. Python's function is `pymaybe none p` (`PropsMaybe.v`), proved to be
  the bare-value code (`C16_python_maybe`), `p | Pure(None)`
  (`C16_python_choice`) and idempotent (`C16_python_twice`).
* `TupleParser.then`: Python stops at eight values; the model (`TupleParser.v`) allows any number.
* In the heap model lists are immutable values (the code only extends a list
  before it stores it in an object).

### Quirks of the code that the theorems make visible

* C73: `Delay.define` tests and sets `_defined` in two steps, and sets it before `_fns`: two threads can both define a Delay (`C73_double_define`), and a parser built from it in between keeps raising (`C73_half_defined`).
* `many` in recovery restarts with an empty accumulator after a repair and drops
  the pending expectations of the loop (`C44`, `ManySpec.v`).
* C13: recover_with's error (no repair found) has an empty expected list.
* C12: with `attempt` or nested `recover_with` the first recovered error can
  differ from the plain one (`C12_attempt_differs`,
  `C12_double_recover_with_differs`).
* C27: with `lexer.parse` the layout combinators compare wrong columns
  (`C27_wrong_column_refuted`).
* C33: `max_insertions < 0` (no limit) lets some guarded grammars diverge
  (`C33_negative_diverges`).
* C45: with both `attempt` and `recover_with`, a larger budget can make the
  reported errors more expensive (`C45_not_both_needed`).
* C47, C48: when alternatives share a first token, sentences can be rejected, and
  an input repaired as reported can be rejected too (`C47_needs_ll1`,
  `C48_needs_ll1`); C49: with `attempt` the reported position can be before the
  longest valid prefix (`C49_attempt_differs`).
* C57, C58: with `attempt` plain parsing can take exponential time
  (`C57_attempt_exponential`), and recovery exponential time in the number of
  errors (`C58_recovery_exponential`).
* C60: the recovering `_many` calls itself through `continue_parse` after each repair, so the depth of
  Python calls grows with the number of errors, where the plain `_many` is a loop
  (`C60_recovery_recurses`): a long input with many errors can hit the recursion limit only with `recover=True`.
* C52: with `attempt` the expected values of the abandoned branch and of the
  position are mixed (`C52_attempt_differs`); C53: `many` forgets what its last
  item could still have read (`C53_many_forgets`).
* C62: the token pattern of `tests/parsers/json.py` has `+` where `*` is meant: the JSON text `""` is refused
  (`C62_no_empty_string`).
* C63: the README parser allows white space after tokens only, so `eval(" 1")` is an error (`C63_no_leading_space`).
* C64: expected values are not deduplicated: with recursion the same name is listed once per level (`C64_names_repeat`),
  and with `attempt` the list can be exponentially long (`C64_attempt_exponential`).
* C66: at the end of the input the parser with a lexer reports the end of the last token, the one without a lexer the
  end of the text (`C66_case_end`).
* C67: the yamlish parser refuses blanks after a value and a document that does not begin in the first column
  (`yamlish_negative`).
* C78: the tutorial's parser raises ValueError on digits that `int` refuses, e.g. superscripts (`C78_not_decimal`);
  for "1a" it expects another digit too, for "1,1a" not (C53).
