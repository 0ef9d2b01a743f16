# Design of the Rocq (Coq 8.16.1) model of zeek/spicy

## 1. Trusted base

* **Coq's kernel**, including its `vm_compute` machine (used for closed computations in witnesses and examples), and the
  faithfulness of the compiled standard library. No axioms of our own, no functors or module types, no kernel check switched
  off, nothing admitted.
* **What `Print Assumptions` lists** for each of the property theorems is in `ASSUMPTIONS.md` (generated by
  `tools/assumptions.py`):
  * 580 theorems: *Closed under the global context*.
  * 22 theorems (all of `RealProps.v`: C69 and the floating-point part of C39): the standard library's axioms of the real
    numbers, `ClassicalDedekindReals.sig_forall_dec`, `ClassicalDedekindReals.sig_not_dec`,
    `FunctionalExtensionality.functional_extensionality_dep`, `Classical_Prop.classic`. They enter through Flocq, whose
    definitions of binary32/binary64 arithmetic the model uses; Flocq adds none of its own.
  * `vcheck` also lists axioms of library *modules that are loaded* (`Coq.ssr.ssrunder.Under_rel.*`,
    `Coq.Reals.Rdefinitions.*`): these are fields of sealed standard library modules; no property theorem depends on them
    other than through the four axioms above.
* **The faithfulness of the model**: every definition in `rocq/theories/*Model.v` cites the file and lines it transcribes
  and says what it simplifies.
* **Contracts of code that is not in the source tree** (`3rdparty/` is empty) or is not Spicy's:
  | Code | What is trusted | Where |
  |---|---|---|
  | SafeInt (`integer::safe<T>`) | exact result or `Overflow` | IntModel, TimeModel, PowModel, FoldModel, BytesModel |
  | SafeInt's conversion of a double | a *parameter*; premise `converts`: exact when the truncated value fits, nothing otherwise | RealModel |
  | SafeInt's unsigned negation | a *parameter* (`uneg`) | FoldModel |
  | utfcpp, utf8proc | documented behaviour of `next`, `append`, `iterate`; the case map is a *parameter* | UniModel, StrModel |
  | JustRX | whether it accepts a pattern: a *parameter* | RegexpModel |
  | libc `inet_pton`/`inet_ntop`, `mktime`, `gettimeofday` | *parameters*, with premises in the theorems | AddrModel, RealModel |
  | IEEE 754 hardware | round to nearest even; NaN conversion as on x86 and ARM | RealModel |
  | `std::string`, `map`, `set`, `vector`, `list`, `optional` | standard specification; using a dangling iterator is `UB` | everywhere |

## 2. Conventions

* `res A := Ok a | Throw e | UB`. C++ exceptions are `Throw`; undefined behaviour (dangling pointer, out-of-bounds access,
  violated `assert`, signed overflow) is the distinct outcome `UB`. A theorem that promises safety excludes `UB`.
* Machine words are `Z` with explicit reduction where wrap-around can happen. Where the code uses `integer::safe<>`, which
  throws instead of wrapping, on quantities bounded by memory (stream offsets and lengths), the model uses `nat`.
* Per component: `XModel.v` (transcription, no proofs), `XSpec.v` (small independent specification: plain lists, sets, numbers,
  real numbers), `XProofs*.v` (lemmas), `XProps.v` (the property theorems `Cnn_*`, their `Print Assumptions`, and examples
  `Cnn_nonvacuous` showing that the hypotheses can be met).
* A property that the code violates is restated as what does hold; the violation is a theorem `Cnn_*_refuted` or `Cnn_REFUTED_*` with the
  concrete witness (or class of witnesses), about the faithful model. Findings are collected in section 5.
* Code that yields, calls back or is called by a host is closed by quantifying over everything outside: client programs are
  lists or trees of operations, hosts are schedules, callbacks and foreign parsers are oracles over the whole trace.

## 3. What is modelled, per property

| Properties | Model | Code | Proof method |
|---|---|---|---|
| C01-C06 | StreamModel | `stream.h`, `stream.cc`: chunks, chain, recycled chunk cache, statistics, safe iterators | simulation with an offset-addressed queue (`StreamSpec`), induction over client programs |
| C07-C13 | ViewModel | views, unsafe iterators, block iteration, `find*`, `extract`, comparison, `advanceToNextData` | loops by induction, equality with list functions on the logical content |
| C14-C20, C67 | SinkModel | `sink.cc`, `sink.h` without filters | invariants of the buffered chunk list; refinement to a reassembly specification; refutations by witness |
| C21, C22, C59, C68 | WaitModel | `waitForInput*`, `extractBytes`, `expectBytesLiteral`, `unitFind`, generated code for bytes, literals, integers, `&size`, `&max-size`, `&eod`, `&until` | induction over the host's schedule; parsing specification on complete inputs |
| C23, C58 | RegistryModel | parser registry, lookup, `connect_mime_type` | direct, over all registries |
| C24-C27 | BytesModel | `bytes.h`, `bytes.cc` | list reasoning, radix arithmetic |
| C28-C31, C62, C63 | StrModel, UniModel | `split*`, `join`, `trim`, `replace`, `escapeBytes`, `expandUTF8Escapes`, hex and MAC rendering, `escapeUTF8` | induction on strings |
| C32-C34 | IntModel | `integer::pack/unpack`, `flip`, `hton`, `bits` | radix-256 arithmetic, bit lemmas |
| C35-C37, C57 | AddrModel | `address`, `network` | bit lemmas |
| C38 | PortModel | `port` | string lemmas |
| C39 | TimeModel, RealModel | `time`, `interval`, `current_time`, `mktime` | lia; rounding error analysis in Flocq |
| C40, C41 | VecModel | `vector.h` | simulation, programs with outstanding iterators |
| C42, C43 | AssocModel | `map.h`, `set.h`, `control::Block` | simulation with finite maps |
| C44, C46 | FiberModel | `Fiber`, `Resumable` | computation trees as coroutines; invariants over all programs |
| C45 | FiberPoolModel | fiber pool and statistics | counting invariant, counters modulo 2^64 |
| C47 | RegexpModel | construction and cache of regular expressions | key injectivity; histories of constructions |
| C48 | FilterModel | `filter.h`, filter loop of units and sinks | state machine with an oracle per filter |
| C49-C51 | GrammarModel | nullable/FIRST/FOLLOW tables and look-ahead check | fixpoint iteration sound and complete for derivations; termination by a measure |
| C52 | FoldModel | constant folder and the evaluation of what it folds | induction on expressions |
| C53, C60, C61 | DriverModel | `driver.cc`, `driver.h` | state machine over an oracle of parsers |
| C54 | MimeModel | `mime.h` | string lemmas |
| C55 | RefModel | `intrusive-ptr.h` | counting invariant over heaps |
| C56 | PowModel | `pow` | binary exponentiation |
| C64-C66 | UniModel | `string::size/upper/lower/encode`, `Bytes::decode/upper/lower` | induction on byte strings, scalar values as specification |
| C69 | RealModel | `real::pack/unpack` | Flocq, bit lemmas |
| C70, C71 | OptModel | HILTI optimizer: `cfg.cc` (graph and data flow of a function), `passes/dead-code-cfg.cc` | iteration exact for paths of the graph; generic simulation of structured execution along graph edges |
| C72 | OptModel2 | HILTI optimizer: `passes/value-propagation.cc`, `CFG::postorder` | worklist invariant; the same simulation with facts `x = e` as relation |
| C73-C75 | LahModel | the generated parser: `parser-builder.cc` (productions, look-ahead state, containers, &size), `parsers/literals.cc`, on the grammars and look-ahead sets of GrammarModel | simulation of runs on different schedules and longer input; soundness by induction on fuel against an inductive relation `parsed`; completeness by mutual induction on `parsed` with the derivation context of C49/C50 carried along |
| C76 | SwitchModel | `grammar-builder.cc:272-316` (chain of look-ahead productions of a switch without expression), `_addProduction`; tables and parser as in C73-C75 | induction on the chain of productions: the look-ahead sets of each link, by C49/C51, against the derivations of the cases; then one parser step per link |
| C77 | OptMvModel | HILTI optimizer: `passes/move-last-uses.cc` | worklist invariant and measure for liveness; the same simulation, with agreement on what is needed as relation |
| C78 | PreModel | `base/preprocessor.cc`, driver.cc `processPreprocessorLine`, `setIgnoreMode` | mutual induction over well-nested texts; conversely, induction on the length of the source |
| C79 | SyncModel | parser-builder.cc `getLookAhead` in search mode, `syncProduction`, `startSynchronize`, field groups; literals.cc; `View::advanceToNextData` | documented behaviour as inductive relation; refinement by induction over the groups and the loop's fuel; loop bounds from input length |
| C80 | TryModel | parser-builder.cc `initBacktracking`, `finishBacktracking`, `_parseProduction`; parser.h `Backtrack` | documented meaning as mutually inductive relation without trimming; mutual induction over the parse tree with the invariant that trimming stays at or before the position; determinism of the relation |
| C81 | ListSyncModel | parser-builder.cc `syncProductionNext`, `operator()(Counter/While/ForEach)`, `parseLookAhead` | what happens in a list as a path of offsets (inductive relation); induction over the loops, with the search lemmas of C79; measure for ending |
| C82 | HandleModel | reference.h `ValueReference`, `StrongReference`, `WeakReference`, `StrongReferenceGeneric` | variables and counted instances as a state machine with 47 operations; invariant: counts are numbers of managing variables; specification by what one sees through a variable, without counts; induction over histories |
| C83 | MatchModel | regexp.cc `MatchState`, `match`, `matchGroups`, `find`, `captures`; literals.cc loop of a regular-expression literal | matcher as a longest-match loop over an arbitrary deterministic automaton, code around it function by function; specification: longest accepted prefix of the whole text; invariant of the match state over the text read, equality of any division with a single call, induction over start positions (find) and over histories |
| C84 | PrmModel | optimize-parameters.cc, collector-callers.h, cfg.cc `processCall`, what the parameter kinds mean in codegen/types.cc, copying of nodes with a parent in node.cc | small imperative language with frames, references and fuel; collector and mutator function by function; both changes as simulations of the whole program (stores equal outside dead slots; frozen locations for parameters that became references), composed |
| C85 | UlfModel | parser-builder.cc: unit stages, fields, conditions, &convert, &requires, switch, if, counters and loops, container items, hooks | generated code in a state and exception monad with arbitrary user code and a trace of hooks; invariants on traces by mutual induction on units |
| C86 | FlatModel | flatten-blocks.cc: renaming, folding, resetting | programs with names and their declarations; a semantics by names against one by declarations, simulation for every folding step |
| C87 | PfrModel | propagate-function-returns.cc: makeParamMap, calculatePlacements, pruning, Mutator | functions as trees of statements, uses as lists of left sides and arguments; an invariant on parameters, and a simulation of calls |
| C88 | PeepModel | peephole.cc: Mutator; cfg.cc: mayHaveSideEffects (for groupings); parser-builder.cc: beforeHook, afterHook | big-step evaluator with arbitrary hooks; the simplifications as a relation; a simulation up to self's __error, a termination measure |

## 4. What is not modelled

* **Streams, views**: the default constructed view; offsets from 2^64 on; `toString`/printing, profiling and debug output.
* **Sink**: hooks that re-enter the sink or throw; a connected unit is a function of the pieces it has received. `_reportUndelivered`
  events are modelled as they are delivered to the hooks.
* **Waiting**: units with filters attached (C48 covers filters separately); `&eod` together with `&size` on other than bytes
  fields; `&parse-at/-from`, `&try`/`&synchronize` (C73-C76 have look-ahead, switches and containers).
* **Registry**: linker modules, scope of automatic registration by static initialisers.
* **Bytes**: `match`, `toReal`, `toTime` (thin wrappers of regexp and other modelled conversions).
* **Regexp**: the matching itself (JustRX).
* **Fiber**: the context switch (assembly, stack copying), stack sizes; move-assignment over a live `Resumable`.
* **Filter**: gaps in filtered data; filters of filters.
* **Grammar**: unresolved references, expressions and attributes of productions.
* **Generated parser (C73-C76)**: gaps, filters, trimming, `&synchronize`, `&try`, `&parse-from/-at`, `&max-size`, bitfield constants, skipped regular
  expressions as look-ahead symbols; regular expression matching and leaf parsers are parameters.
* **Folder**: floating-point arithmetic (a real is its bit pattern; negation flips the sign), type resolution and coercion of non-constants.
* **Driver**: splitting of the batch file into lines, text of messages, statistics printed.
* **Optimizer**: of the language, `for`, `switch`, structs and `self`, types with aliasing (references, views, iterators), module
  bodies; the graph class (`DirectedGraph`) is a list of nodes and edges. Other passes: constant folding is C52, moves are C77; the rest is not modelled. In value
  propagation, coercions of propagated values are not modelled.
* **Toolchain otherwise**: scanner, parser, AST passes, C++ code generation, JIT, Zeek plugin code. Their correctness is
  that of a compiler and is not expressible without a formal semantics of C++ and of the full Spicy language.
* Real memory layout and performance; behaviour of third-party code other than by the contracts in section 1.

## 5. Findings

Deviations of the code from what its documentation or a reader would expect, each proved on the model (theorem names end
in `_refuted` or containing `_REFUTED_`, except where noted):

* `Time + Interval` negates the smallest interval (C39); `Interval(double)`/`Time(double)` let NaN and 2^63 (2^64) ns pass their
  range check (C39); `mktime` overflows `int` for years from 2^31 (C39); `seconds()` and back loses a nanosecond, e.g. for 15 ns (C39).
* packing a negative `int8` throws `Overflow` (C32); `real::unpack`+`pack` as single changes signaling NaNs (C69).
* `Bytes::toInt(base)` accepts `:`..`?` as digits beyond 9, also in `\x`, `\u`, `\U` escapes, which also accept signs (C25, C62).
* `split` with a self-overlapping delimiter appends a spurious empty piece (C28); escaping is ambiguous in some styles (C30, C63).
* Backward search that starts at the end of the data reads behind it (C11).
* Sinks: overlaps with first-wins policy deliver at wrong positions or lose data in some orders; skipping and trimming across
  buffered gaps; no-crash violations (C16-C18, C20).
* Filters attached to a sink: after a filter has ended, every further write raises `std::logic_error`; closing loses held-back
  data; connecting one filter twice loses data (C48).
* Driver: increments above 4096 overrun the read buffer (C60); `@end-flow` with shared ids or unknown parsers leaves dangling
  flows (C53); `@data` with a malformed id lets `std::invalid_argument` escape.
* `bytes &size=n &eod` inside a smaller limit reads behind the limit and its value depends on how the input arrives (C22).
* Regexp cache keys are not injective (C47). Constant folding can hide run-time errors and mishandles negation of the smallest and of unsigned values (C52). Grammars with
  blocks, loops, skips or end-of-input alternatives pass the ambiguity check although ambiguous (C50).
* Conditional compilation: a second `@else` is accepted, a missing `@endif` goes unnoticed and drops the rest of the file, `@if !X` without blank is always
  false, `@if X == 2147483648` compares with -2147483648 (C78).
* Error recovery: after a sub-unit that consumed (and trimmed) input fails, the search throws InvalidIterator; a sub-unit failing in trial mode leaves its look-ahead
  pending, so the next search stops where the literal is not, and with %synchronize-after may loop for ever; with two synchronization points a failure in trial
  mode goes on with the second one; an unconfirmed trial searches again at the next point without a failure; reject in %synced fails the unit; a regular
  expression matches across a gap; a gap behind one literal hides the others (C79).
* Backtracking resets the position but not a look-ahead found since; a field's own %error hook runs outside of its &try; &synchronize on the way catches
  `Backtrack` as if it was a parse error (C80).
* List recovery: with units that begin with a literal as elements (the manual's example), the parent's look-ahead is still pending after the unit failed, so the search "succeeds" one byte further where
  no element is, and %synced runs there; a list with a count gets fewer entries than the manual says; the failure of the last one makes the parser skip what follows the list; %synchronize-at/-after do not count in
  lists with a count; &synchronize is ignored in &eod/&size/&until lists, and turns the regular end of a look-ahead list without known follower into an error (C81).
* References: a value reference that became null by (move) assignment holds a raw null pointer, so that binding a strong or weak reference to it throws IllegalReference where one that was reset gives null;
  `reset()` documented to give a default value gives null; `StrongReferenceGeneric::derefAsValue()` of an unbound reference, documented as null, gives a new default value; assigning a shared pointer to a
  value reference that wraps `this` of the same instance leaves it unmanaged (C82).
* Regular expressions: `MatchState::_advance` passes the begin-of-line/data assertion for every block of the first view, so that `a^b` matches across a block border; `RegExp::find` passes it at every start
  position; if the end of input is signalled after the last data (empty final view), the longest match is lost or its end is wrong whenever matching had read beyond it: `/abc(123)?/` on "abc1"
  followed by EOD fails or consumes 4 bytes, where it consumes 3 if EOD comes with the data, and `$` never holds; the copy constructor of a match state drops `_done`; copying a default-constructed
  state dereferences null; unset capture groups shift the later ones although documented as positional (C83).
* `optimize-parameters`: promoting an unmodified `copy` parameter to `in` makes it a reference, so `f(y, y)` with `f(copy x, inout z) { z = 42; print(x); }`, or `f(G)` with a body that assigns the global G,
  behaves differently afterwards; arguments for unused parameters are dropped with the calls inside them unless the argument itself is a function call (`f(g() + 1)`, `f(s.m())`, `f(1 / 0)`);
  `removeArgs` rebuilds the tuple out of nodes that have a parent, which copies them, so a nested call recorded before is pruned in the discarded original only and keeps too many arguments (C84).
* `parser-builder.cc`: the check against loops that do not advance (finishLoopBody, 3115-3122) exempts the end of the input, so `(bytes &eod)[] &until=(False)` loops forever there; %done and %error both run when a unit's
  &size is not used up or %done throws, against the comment at 2830-2833; %finally does not run when %error throws, against parsing.rst 573-580; the element that ends &until or &while is consumed and must meet the
  element's &requires though it is not added (C85).
* `flatten-blocks.cc`: the check for clashes (82) looks at the outer block's own scope and the names introduced so far only, not at the scopes around it. In the body of an if or while, a block's local that shadows a local of the
  function is folded under its name, so that uses of the function's local after it now mean the block's: `local x = 1; if ( .. ) { { local x = 2; print x; } print x; }` prints 2 twice. A new name `x_` can also capture a
  variable of that name (C86).
* `propagate-function-returns.cc`: the new left side (537-547) drops everything that is not a name, so `(x, self.f) = f(x)` loses the assignment to self.f when x is propagated. Placements are kept per name: a global variable that the
  function changes, a local that shadows the parameter (pruning compares IDs only), and a parameter passed by reference to a method (exempted at 341-343) are all taken for unchanged; `(x, x) = f(x)` loses its second
  assignment if another use assigns to different variables (C87).
* `peephole.cc`: removing a push/pop pair leaves self's __error as it was, so the pass is right only because the parser builder runs every hook between a push and a pop (C88); a hook outside of one sees the difference.
* `pow` with negative exponents does not terminate for bases 0, 1, -1 and throws `Overflow` otherwise (C56).
* Unicode: REPLACE/IGNORE still throw on truncated sequences, surrogates and out-of-range scalars; a big-endian BOM makes UTF-16BE
  text be decoded as little-endian; `string::size` lets a foreign exception escape (C64-C66).
* Dead code removal (C71) changes programs: an assignment before `break` is dropped if the loop body overwrites the variable
  further down; an assignment before a call that throws into a `catch` is dropped; a `catch` block is dropped when the `try` block
  ends in `return`; an assignment to a global is dropped although a function called in between reads it; `x && (y += 1)` as a statement
  is dropped; an assignment whose target is read only by itself is replaced by its right side, which then keeps reading
  the old value; statements that would have failed are dropped.
* Moving last uses (C77) reads moved-from variables: `while ( 1 ) { if ( p ) { f(x); break; } x = 1; } return x` moves `x` in `f(x)` (in the graph a
  break goes on to the next statement), `try { f(x); x = 1; } catch ... use x` too, and `f(x, inout x)` moves the first `x` because arguments for
  inout parameters are skipped, not counted.
* Value propagation (C72) changes programs: `local x; if ( p ) x = 5; return x` returns 5 always (a local without initializer has no
  entry in the analysis); globals are taken to keep their value across calls; `y = f(inout x); return x` becomes `return f(inout x)`;
  `x = e; return x` with an inout parameter `x` drops the assignment; `break` and `try` are not followed. After `x = x`, the next
  assignment from `x` makes the compiler recurse without end. `if ( local t = ...; ... )` can let `t` escape from its scope.
* Look-ahead at run time (C74, C75): `unit { a: (b"a")[]; b: (b"b")[]; }` fails on "a" followed by the end of data; the end of a `&size`-limited sub-unit found by
  looking ahead is taken for the end of data by the enclosing unit; a pending integer or regexp look-ahead symbol is not compared with the
  input again and, when stale, a field takes no bytes; the same literal reachable through two fields is reported as an ambiguous look-ahead match; a
  pending look-ahead symbol lets a literal cross a `&size` limit; look-ahead sets assume that every field is there and that counted loops have one element,
  so that `xs: (b"a")[]; y: b"b" if ( False ); : b"a";` fails on "a".
* Switch by look-ahead (C76): a default as the second of three or more cases is never taken (the variable that remembers the position of the default is not
  reset: the last case is taken instead); as third or later case it makes the compiler report an ambiguity, since the name of the look-ahead production
  is not counted up and one production is lost; it is not taken at the end of the data either; `&size` of such a switch is accepted and ignored, and so is the condition of
  a switch with a single case.

All of them: `C02_empty_stream_refuted`, `C02_end_iterator_refuted`, `C02_reset_refuted`, `C03_untrim_refuted`, `C06_copy_resurrects_refuted`, `C07_limit_refuted`, `C07_size_counts_trimmed_refuted`, `C07_sub_escapes_parent_refuted`, `C11_rfind_exact_fit_refuted`, `C11_rfind_from_end_refuted`, `C11_rfind_outside_view_refuted`, `C13_trimmed_empty_refuted`, `C16_first_wins_refuted`, `C16_no_exception_refuted`, `C16_position_refuted`, `C17_delivery_refuted`, `C17_no_crash_refuted`, `C18_forward_only_refuted`, `C18_skip_continues_refuted`, `C18_trim_keeps_refuted`, `C20_size_refuted`, `C22_size_eod_in_size_refuted`, `C22_size_eod_limited_refuted`, `C23_default_refuted`, `C23_scope_refuted`, `C24_sub_refuted`, `C25_base_truncated_refuted`, `C25_lone_sign_refuted`, `C25_long_numeral_refuted`, `C25_min_max_refuted`, `C25_not_a_digit_accepted_refuted`, `C25_wrong_value_refuted`, `C26_host_refuted`, `C28_split_join_refuted`, `C30_no_escape_backslash_refuted`, `C30_octal_roundtrip_refuted`, `C32_negative_int8_refuted`, `C35_construct_from_string_refuted`, `C37_families_refuted`, `C39_add_smallest_interval_refuted`, `C39_mktime_year_refuted`, `C39_out_of_range_check_refuted`, `C39_seconds_roundtrip_refuted`, `C40_assign_wraps_refuted`, `C40_self_append_refuted`, `C41_foreign_insert_refuted`, `C42_const_increment_refuted`, `C42_copy_dangling_refuted`, `C42_copy_end_refuted`, `C42_moved_from_refuted`, `C43_copy_refuted`, `C43_foreign_hint_refuted`, `C44_resume_after_abort_refuted`, `C45_reset_refuted`, `C47_collision_refuted`, `C48_same_filter_twice_refuted`, `C48_sink_close_loses_held_data_refuted`, `C48_sink_write_after_filter_end_refuted`, `C50_block_refuted`, `C50_end_of_input_refuted`, `C50_loop_refuted`, `C50_skip_refuted`, `C52_hides_errors_refuted`, `C52_negate_min_refuted`, `C52_negate_unsigned_refuted`, `C53_end_order_refuted`, `C53_null_call_refuted`, `C53_shared_flow_refuted`, `C53_unknown_parser_refuted`, `C54_two_argument_constructor_refuted`, `C56_negative_exponent_refuted`, `C58_wildcard_connects_twice_refuted`, `C59_until_gap_refuted`, `C60_increment_refuted`, `C61_block_finished_refuted`, `C62_not_hexadecimal_refuted`, `C62_surrogate_refuted`, `C63_invalid_refuted`, `C64_ascii_whitespace_refuted`, `C64_repair_fails_refuted`, `C64_size_foreign_exception_refuted`, `C64_size_hangs_refuted`, `C65_byte_order_mark_refuted`, `C65_repair_fails_refuted`, `C65_round_trip_refuted`, `C69_signaling_nan_refuted`, `C71_break_refuted`, `C71_catch_refuted`, `C71_failure_refuted`, `C71_global_refuted`, `C71_hidden_update_refuted`, `C71_inout_refuted`, `C71_logical_refuted`, `C71_self_refuted`, `C71_try_refuted`, `C72_break_refuted`, `C72_global_copy_refuted`, `C72_global_refuted`, `C72_return_inout_refuted`, `C72_return_refuted`, `C72_scope_refuted`, `C72_terminates_refuted`, `C72_try_refuted`, `C72_uninitialized_refuted`, `C74_integers_refuted`, `C74_size_refuted`, `C75_behind_refuted`, `C75_condition_refuted`, `C75_loop_refuted`, `C75_same_literal_twice_refuted`, `C75_size_refuted`, `C75_tail_refuted`, `C76_between_default_refuted`, `C76_default_at_end_refuted`, `C76_late_default_refuted`, `C76_no_literal_refuted`, `C76_single_condition_refuted`, `C76_size_refuted`, `C77_break_refuted`, `C77_inout_refuted`, `C77_try_refuted`, `C78_bang_refuted`, `C78_two_else_refuted`, `C78_unclosed_refuted`, `C78_value_refuted`, `C79_endless_refuted`, `C79_gap_tokens_refuted`, `C79_regexp_gap_refuted`, `C79_resync_refuted`, `C79_retry_refuted`, `C79_stale_refuted`, `C79_synced_reject_refuted`, `C79_trimmed_refuted`, `C80_field_error_refuted`, `C80_stale_look_ahead_refuted`, `C80_synchronize_refuted`, `C81_eod_refuted`, `C81_expected_number_refuted`, `C81_last_refuted`, `C81_list_end_refuted`, `C81_property_refuted`, `C81_stale_property_refuted`, `C81_stale_refuted`, `C81_trim_refuted`, `C82_assign_shared_refuted`, `C82_generic_null_refuted`, `C82_move_assign_refuted`, `C82_null_shared_refuted`, `C82_reset_refuted`, `C83_captures_refuted`, `C83_caret_refuted`, `C83_copy_finished_refuted`, `C83_copy_null_refuted`, `C83_dollar_refuted`, `C83_empty_final_refuted`, `C83_find_caret_refuted`, `C83_literal_late_end_refuted`, `C83_match_empty_refuted`, `C84_call_inside_argument_refuted`, `C84_copy_of_global_refuted`, `C84_copy_of_inout_argument_refuted`, `C84_method_call_argument_refuted`, `C84_nested_call_left_behind_refuted`, `C84_throwing_argument_refuted`, `C85_REFUTED_done_or_error`, `C85_REFUTED_finally`, `C85_REFUTED_loops_end`, `C86_REFUTED_capture_after`, `C86_REFUTED_renamed_captures`, `C87_REFUTED_by_reference`, `C87_REFUTED_globals`, `C87_REFUTED_members`, `C87_REFUTED_shadowed`, `C87_REFUTED_twice`, `C88_REFUTED_error_member`.
