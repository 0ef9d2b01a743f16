{
 "C01": {
  "status": "proved",
  "note": "Every client program respecting the contract of StreamSpec.v behaves like the queue."
 },
 "C02": {
  "status": "proved",
  "note": "Exactly what the statement says. The values returned are those of the queue of C01 (C01_stream_is_queue); the three unsafe cases are proved as counterexamples."
 },
 "C03": {
  "status": "proved",
  "note": "Proved for all programs within the contract; the violation outside it is proved as counterexample."
 },
 "C06": {
  "status": "proved",
  "note": "Exactly what the statement says, for every reachable stream."
 },
 "C07": {
  "status": "proved",
  "note": "Exactly what the statement says; the three violations are proved as counterexamples."
 },
 "C11": {
  "status": "proved",
  "note": "Exactly what the statement says, for gapless data."
 },
 "C13": {
  "status": "proved",
  "note": "Covers all views."
 },
 "C28": {
  "status": "proved",
  "note": "Exact for all strings and delimiters."
 },
 "C30": {
  "status": "proved",
  "note": "Exactly what the statement says, for all byte strings and styles."
 },
 "C24": {
  "status": "proved",
  "note": "C24_sub covers all 64-bit arguments."
 },
 "C25": {
  "status": "proved",
  "note": "Exact for all inputs; deviations from the expected reading proved as counterexamples."
 },
 "C26": {
  "status": "proved",
  "note": "Exact for all byte strings and orders (little-endian host)."
 },
 "C56": {
  "status": "proved",
  "note": "Exact for all bases and exponents, given SafeInt's contract."
 },
 "C40": {
  "status": "proved",
  "note": "Refinement to plain lists for all such programs."
 },
 "C41": {
  "status": "proved",
  "note": "Exactly what the statement says."
 },
 "C42": {
  "status": "proved",
  "note": "Refinement theorem over all such programs."
 },
 "C43": {
  "status": "proved",
  "note": "Refinement theorem over all such programs."
 },
 "C32": {
  "status": "proved",
  "note": "Exact for all values, relying on SafeInt's contract of checked conversions (SafeInt is not part of /repo)."
 },
 "C35": {
  "status": "proved",
  "note": "Exactly what the statement says."
 },
 "C37": {
  "status": "proved",
  "note": "Exact for all addresses and networks."
 },
 "C39": {
  "status": "proved",
  "note": "Integer operations exact or throwing (given SafeInt's contract), but adding the interval of -2^63 ns is undefined behaviour (refuted). Conversions from and to double proved against real arithmetic (Flocq; standard library axioms of the reals); NaN and the first value out of range pass the OutOfRange check, and the round trip through seconds() can lose a nanosecond (refuted). SafeInt's conversion of a double is a parameter with a stated contract."
 },
 "C57": {
  "note": "Relies on libc's inet_pton/inet_ntop contract, a premise of the theorem."
 },
 "C22": {
  "status": "proved",
  "note": "Proved exactly in the stated cases; counterexamples for the two exceptions."
 },
 "C59": {
  "status": "proved",
  "note": "Proved for all delimiters, inputs and schedules."
 },
 "C16": {
  "status": "proved",
  "note": "Proved in exactly the stated cases; three counterexamples for the rest."
 },
 "C17": {
  "status": "proved",
  "note": "Exactly what the statement says."
 },
 "C18": {
  "status": "proved",
  "note": "Refinement theorem over all operation sequences; counterexamples for the inadmissible operations."
 },
 "C20": {
  "status": "proved",
  "note": "Proved for all operation sequences and states."
 },
 "C23": {
  "status": "proved",
  "note": "Exact for all registries, names and scopes."
 },
 "C44": {
  "status": "proved",
  "note": "Simulation for all programs."
 },
 "C45": {
  "status": "proved",
  "note": "Exactly what the statement says."
 },
 "C47": {
  "status": "proved",
  "note": "Exactly what the statement says, for every history of constructions and every acceptance predicate of JustRX."
 },
 "C48": {
  "status": "proved",
  "note": "Proved for all filter behaviours and schedules (gapless input)."
 },
 "C50": {
  "status": "proved",
  "note": "Exactly what the statement says."
 },
 "C52": {
  "status": "proved",
  "note": "Exactly what the statement says (well-typed expressions; run-time unsigned negation as parameter)."
 },
 "C53": {
  "status": "proved",
  "note": "Exactly what the statement says, for all command sequences and parser behaviours."
 },
 "C54": {
  "status": "proved",
  "note": "Exactly what the statement says."
 },
 "C58": {
  "status": "proved",
  "note": "Exactly what the statement says."
 },
 "C60": {
  "status": "proved",
  "note": "Exactly what the statement says."
 },
 "C61": {
  "status": "proved",
  "note": "Exactly what the statement says."
 },
 "C62": {
  "status": "proved",
  "note": "Exactly what the statement says. The libraries utfcpp and utf8proc are modelled by their documented behaviour."
 },
 "C63": {
  "status": "proved",
  "note": "Exactly what the statement says. The libraries utfcpp and utf8proc are modelled by their documented behaviour."
 },
 "C64": {
  "status": "proved",
  "note": "Exactly what the statement says. The libraries utfcpp and utf8proc are modelled by their documented behaviour."
 },
 "C65": {
  "status": "proved",
  "note": "Exactly what the statement says. The libraries utfcpp and utf8proc are modelled by their documented behaviour."
 },
 "C66": {
  "status": "proved",
  "note": "Exactly what the statement says. The libraries utfcpp and utf8proc are modelled by their documented behaviour."
 },
 "C67": {
  "status": "proved",
  "note": "Exactly what the statement says, for sinks without filters (C48 has filters)."
 },
 "C68": {
  "status": "proved",
  "note": "For bodies built from the fields modelled (bytes, literals, integers, addresses, end-of-data tests, nested limits)."
 },
 "C69": {
  "status": "proved",
  "note": "Proved for all doubles and all bytes; a signaling NaN comes back quiet (refuted). Uses Flocq and the standard library's axioms of the reals."
 },
 "C70": {
  "status": "proved",
  "note": "For every function of the modelled language (assignments, locals, calls with inout parameters, if, while/else, try, throw, return, break, continue, assert, blocks), whatever the visiting order. Not in the language: for, switch, structs, aliasing types."
 },
 "C71": {
  "status": "proved",
  "note": "Proved for functions without break, continue and try that do not assign to globals; each condition is shown necessary by a miscompiled function (nine refutations)."
 },
 "C72": {
  "status": "proved",
  "note": "Partial correctness: if the analysis finishes, the result behaves the same. Each condition is shown necessary by a miscompiled function (seven refutations); C72_terminates_refuted: the analysis itself recurses without end after x = x; C72_scope_refuted: a name may be moved out of its scope."
 },
 "C73": {
  "status": "proved",
  "note": "For the modelled productions (sequence, literal, variable, look-ahead, while, counted and for-each loops, switch, block, nested unit, &size, conditions). The answers of leaf parsers and of the regexp token matcher are parameters of which only monotonicity in the input is assumed. Not modelled: &synchronize, &try, &parse-at/-from, filters, gaps."
 },
 "C74": {
  "status": "proved",
  "note": "The two conditions are shown necessary: C74_size_refuted (a look-ahead symbol found before data limited by &size is accepted although it reaches beyond), C74_integers_refuted (pending integer look-ahead symbols are not compared with the input again)."
 },
 "C75": {
  "status": "proved",
  "note": "Conditions shown necessary: C75_tail_refuted (a[]; b[] fails at the end of the data), C75_same_literal_twice_refuted (the same literal through two fields is reported as ambiguous), C75_size_refuted (the end of a limited field is taken for the end of data by what follows), C75_loop_refuted and C75_condition_refuted (the look-ahead sets assume every field present and exactly one element of counted loops), C75_behind_refuted."
 },
 "C76": {
  "status": "proved",
  "note": "The grammar contains the productions of the switch as the code adds them (has_switch); the theorems assume that no other production refers into the chain of look-ahead productions. Deviations: C76_between_default_refuted (a default between other cases is never taken: the last case is), C76_late_default_refuted (a default as third or later case: rejected as ambiguous, the symbol of the look-ahead production is reused), C76_default_at_end_refuted, C76_size_refuted (&size of a look-ahead switch is accepted and ignored), C76_single_condition_refuted (the condition of a switch with one case is ignored), C76_no_literal_refuted."
 },
 "C77": {
  "status": "proved",
  "note": "Total for the analysis (it ends) and exact behaviour for the moves, for functions without break, continue and try in which a variable given for an inout parameter occurs once in its expression. C77_moves_last_uses characterizes the moves exactly. Each condition is shown necessary: C77_break_refuted, C77_try_refuted (a moved-from variable is read again), C77_inout_refuted (f(x, inout x) moves x: the inout argument is not counted)."
 },
 "C78": {
  "status": "proved",
  "note": "Exact in both directions. How the scanner finds directives in the text is not modelled. Deviations: C78_two_else_refuted (a second @else is accepted and includes text again), C78_unclosed_refuted (a missing @endif goes unnoticed: expectingDirective() is never asked; the rest of the file is dropped silently), C78_value_refuted (2^31 read as -2^31, a lone sign as 0; larger numbers throw out of the compiler), C78_bang_refuted ('!X' without blank is an identifier, so the condition is false whatever X is)."
 },
 "C79": {
  "status": "proved",
  "note": "What a field does is a parameter (any function on the parser state); literals and sub-units are modelled. All input is there from the beginning. Recovery inside of lists is not modelled here. C79_documented needs: fields that leave no look-ahead pending when they fail, one synchronization point or a %synced hook that confirms, no reject in %synced; each of these is needed: C79_stale_refuted, C79_retry_refuted, C79_resync_refuted, C79_synced_reject_refuted. Further deviations: C79_trimmed_refuted (InvalidIterator instead of recovery after a sub-unit that consumed input fails), C79_regexp_gap_refuted, C79_gap_tokens_refuted, C79_endless_refuted (never ends)."
 },
 "C80": {
  "status": "proved",
  "note": "C80_documented and C80_unique need atomic parsers that leave no look-ahead pending, no error recovery inside, and fields with &try whose own %error hook does not backtrack; C80_data_kept and C80_most_recent do not need the first. Each restriction is needed: C80_stale_look_ahead_refuted (the look-ahead is not reset), C80_synchronize_refuted (recovery catches Backtrack, a ParseError), C80_field_error_refuted (a field's %error hook runs outside of its &try). &size and containers are not modelled."
 },
 "C81": {
  "status": "proved",
  "note": "For elements that begin with literals, the theorems need elements that leave no look-ahead pending when they fail (literals do); for regular expressions, any elements (and no gaps). The manual's own example, elements that are units beginning with a literal, does not meet this and misbehaves: C81_stale_refuted, C81_stale_property_refuted. Further refuted: the number of entries the manual promises (C81_expected_number_refuted), last element (C81_last_refuted), independence of trimming (C81_trim_refuted), unit properties in counted lists (C81_property_refuted), valid input of look-ahead lists without known follower (C81_list_end_refuted), &eod/&size/&until lists (C81_eod_refuted)."
 },
 "C82": {
  "status": "proved",
  "note": "One value type without references inside; std::shared_ptr and std::weak_ptr are modelled by their contract (counted owners). Not true of the code: asSharedPtr() of a value reference that became null by assignment throws instead of returning null (C82_null_shared_refuted), reset() does not give a default value (C82_reset_refuted), derefAsValue() of an unbound generic reference is not null (C82_generic_null_refuted), move assignment to a null reference leaves the source as it is (C82_move_assign_refuted), assigning a shared pointer to a wrapped 'this' of the same instance does not make it a manager (C82_assign_shared_refuted)."
 },
 "C83": {
  "status": "proved",
  "note": "JustRX is not in the repository; what is called of it is a longest-match loop over an arbitrary deterministic automaton whose symbols carry the begin/end assertions; jrx_current_accept and jrx_reggroups are parameters. Holds with the data of the first piece in one block or ^ only at the beginning (else C83_caret_refuted), and with the end of the data known no later than its last byte (else C83_empty_final_refuted, C83_literal_late_end_refuted, C83_dollar_refuted, whatever jrx_current_accept returns). Other refuted claims: find() takes ^ to hold at every byte, the empty value never matches, capture groups are not at their index after one that took no part, a copy of a finished state is not finished, copying a null state dereferences a null pointer; a final piece that yields -1 does not finish the state (C83_no_reuse_error)."
 },
 "C84": {
  "status": "proved",
  "note": "The language is a cut of HILTI (integers, globals, locals, parameters, nested calls and method calls without the object, division that throws, loops); arguments are evaluated left to right. The unconditional claim is refuted: a copy parameter that becomes `in` sees writes to the variable through an inout parameter or a global; calls inside arguments, method calls and throwing arguments are dropped; a call nested in an argument of another pruned call keeps its arguments if its function is declared later."
 },
 "C85": {
  "status": "proved",
  "note": "User code is arbitrary: Coq functions on the unit's state and globals that may throw. The whole input is there and hooks do not move the input position; atomic types are unsigned integers, bytes and literals; one body per hook. Refuted: loops always end (at end of input a vector with &until/&while whose elements can be empty goes on forever), exactly one of %done and %error runs (both when &size is not used up or %done throws), %finally always runs (not if %error throws)."
 },
 "C86": {
  "status": "proved",
  "note": "Two semantics: by names, as in the generated C++, and by declarations (used in the proofs only); they agree on programs whose names are resolved. Values are natural numbers: references, and so what the assignments of defaults at the end of a block are for, are not modelled, but the assignments are. Refuted: the pass never changes what a program does (in the body of if or while, whose scope does not have the function's locals, a folded local captures later uses of one with the same name; and a renamed local captures a variable that has the new name)."
 },
 "C87": {
  "status": "proved",
  "note": "Parameters are passed by value; bodies without loops. Tail calls, groupings and coercions are not modelled. Refuted, each by leaving out one condition: members on the left side (`(x, self.f) = f(x)` loses the member's assignment), variables assigned twice, globals that the function changes, shadowed parameters, parameters passed to methods by reference."
 },
 "C88": {
  "status": "proved",
  "note": "Values are natural numbers; position updates of hooks and the control flow graph behind mayHaveSideEffects are not modelled. Hooks are arbitrary functions on self. Refuted without the order that the parser builder keeps: a hook outside of a pair sees the member __error change."
 }
}