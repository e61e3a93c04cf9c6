{"id": "C01", "title": "Upper times limit is never exceeded", "statement": "In every single-threaded history, the number of calls an expectation has accepted (i.e. full-match reports naming it) never exceeds the `max` of its times policy, whatever mocks, sequences, nested calls from side effects and scope ends are interleaved.", "quantifier": "all finite histories of public operations (create sequence / mock / expectation, call, nested call, scope end, move, sequence drop), all times limits, all matchers, all reporters that obey the reporter contract", "why_tests_cant": "A test exercises one history; the limit must hold for every interleaving of calls, nested calls and sequences and for limits up to INT_MAX, which cannot be enumerated.", "anchors": ["include/mimic++/ControlPolicy.hpp: ControlPolicy::consume, make_control_state", "include/mimic++/Expectation.hpp: ExpectationCollection::handle_call"]}
{"id": "C02", "title": "Satisfaction reflects exactly the accepted call count", "statement": "At every point of every single-threaded history, `ScopedExpectation::is_satisfied()` returns true iff the number of calls accepted by that expectation lies in [min,max]; once true it stays true for the rest of the history.", "quantifier": "all histories, all live expectations, all points in time", "why_tests_cant": "Relation between an observer and the entire past of the object; tests only see selected pasts.", "anchors": ["include/mimic++/ControlPolicy.hpp: ControlPolicy::is_satisfied", "include/mimic++/Expectation.hpp: ScopedExpectation::is_satisfied, BasicExpectation::is_satisfied"]}
{"id": "C03", "title": "Times policies denote exactly the documented limits", "statement": "`expect::times(min,max)` throws std::invalid_argument iff min<0 or max<0 or max<min and otherwise yields exactly [min,max]; times(n), at_least(n), at_most(n), once(), twice() and the default yield [n,n], [n,INT_MAX], [0,n], [1,1], [2,2], [1,1], throwing exactly when the resulting range would be invalid.", "quantifier": "all pairs of C++ int values", "why_tests_cant": "2^64 argument pairs; tests sample a few.", "anchors": ["include/mimic++/ControlPolicy.hpp: TimesConfig, expect::times, at_least, at_most, once, twice"]}
{"id": "C04", "title": "Every call has exactly one outcome", "statement": "A call on a mock either (a) emits exactly one full-match report for one expectation, which is live in that mock, accepts the arguments and is applicable, or (b) if some live expectation accepts the arguments but none of those is applicable, emits exactly one inapplicable-match report, or (c) otherwise emits exactly one no-match report. (a) happens whenever at least one live expectation accepts the arguments and is applicable.", "quantifier": "all histories, all calls, all sets of expectations", "why_tests_cant": "Exhaustive case distinction over arbitrary expectation sets and histories.", "anchors": ["include/mimic++/Expectation.hpp: ExpectationCollection::handle_call", "include/mimic++/Reports.hpp: evaluate_match_report"]}
{"id": "C05", "title": "A failed call changes nothing", "statement": "A call that ends in a no-match or inapplicable-match report leaves every later observation unchanged: all expectations' accepted counts, satisfaction, applicability and all sequence progress are as if the call had never happened.", "quantifier": "all histories, all failing calls, all later observations", "why_tests_cant": "Universal over all later observations.", "anchors": ["include/mimic++/Expectation.hpp: ExpectationCollection::handle_call"]}
{"id": "C06", "title": "A matched call touches exactly one expectation", "statement": "A call with a full-match report increments the accepted count of exactly the reported expectation by one and leaves the count and satisfaction of every other expectation, on every mock, unchanged.", "quantifier": "all histories, all matching calls, all other expectations", "why_tests_cant": "Frame property over all other objects in the program.", "anchors": ["include/mimic++/Expectation.hpp: ExpectationCollection::handle_call, BasicExpectation::consume", "include/mimic++/ControlPolicy.hpp: ControlPolicy::consume"]}
{"id": "C07", "title": "Newest matching expectation wins without sequences", "statement": "If the most recently created of the live applicable expectations accepting a call is not attached to any sequence, that expectation is the one that is matched. In particular without sequences the newest applicable match always wins.", "quantifier": "all histories, all calls, any mixture of sequenced and unsequenced older expectations", "why_tests_cant": "Selection among arbitrarily many expectations with arbitrary histories.", "anchors": ["include/mimic++/Expectation.hpp: pick_best_match, ExpectationCollection::handle_call", "include/mimic++/Sequence.hpp: has_better_rating"]}
{"id": "C08", "title": "Failure reports list exactly the relevant expectations, newest first", "statement": "An inapplicable-match report lists exactly the live expectations of that mock that accept the arguments (newest first) and nothing else; a no-match report lists exactly the live expectations whose matching did not throw (newest first), each of them with at least one failed requirement.", "quantifier": "all histories, all failing calls", "why_tests_cant": "Content and order for any number of expectations.", "anchors": ["include/mimic++/Expectation.hpp: ExpectationCollection::handle_call", "include/mimic++/Reports.hpp: MatchReport, evaluate_match_report"]}
{"id": "C09", "title": "A throwing matcher only disables its own expectation for that call", "statement": "If evaluating one expectation's requirements throws, exactly one unhandled-exception report naming that expectation is emitted, no state is changed and the call is handled exactly as if that expectation did not exist.", "quantifier": "all histories, all calls, any subset of expectations throwing", "why_tests_cant": "Any subset of expectations may throw, at any position.", "anchors": ["include/mimic++/Expectation.hpp: make_match_report, ExpectationCollection::handle_call"]}
{"id": "C10", "title": "Scope end reports unfulfilled expectations exactly once", "statement": "Ending the scope of a ScopedExpectation whose requirements can be described (no description throws) emits exactly one unfulfilled-expectation report, naming that expectation, iff it accepted fewer than `min` calls, and none otherwise; afterwards the expectation never matches again, never is reported again, and all other expectations are unaffected. Without the condition on descriptions the claim is refuted: the exception of the description propagates instead of the report.", "quantifier": "all histories, all scope-end orders", "why_tests_cant": "Depends on whole past and on all future operations.", "anchors": ["include/mimic++/Expectation.hpp: ExpectationCollection::remove, ScopedExpectation::~ScopedExpectation, Model::~Model"]}
{"id": "C11", "title": "No second exception while unwinding", "statement": "With the DefaultReporter or any BasicReporter, ending the scope of an expectation whose requirements can be described, or dropping a sequence, while an exception is already in flight never throws and never terminates. Refuted for throwing descriptions: building the unfulfilled report lets a second exception escape during unwinding.", "quantifier": "all histories, all numbers of in-flight exceptions > 0", "why_tests_cant": "Unwinding may happen at any point of any history.", "anchors": ["include/mimic++/Reporter.hpp: DefaultReporter::report_unfulfilled_expectation, DefaultReporter::report_error, BasicReporter", "include/mimic++/Sequence.hpp: BasicSequence::~BasicSequence"]}
{"id": "C12", "title": "Sequences enforce their order", "statement": "In every history the calls accepted by the expectations of one sequence occur in attachment order: once an expectation has been matched, no expectation attached earlier to that sequence is ever matched again, and at the moment an expectation is matched every expectation attached earlier to the same sequence has already accepted at least its `min` calls.", "quantifier": "all histories, all sequences, any number of attached expectations over any number of mocks", "why_tests_cant": "Temporal property over unboundedly long call histories and arbitrary times limits.", "anchors": ["include/mimic++/Sequence.hpp: BasicSequence::is_consumable, BasicSequence::consume", "include/mimic++/ControlPolicy.hpp: ControlPolicy"]}
{"id": "C13", "title": "Applicability is exactly determined by the match history", "statement": "An expectation is applicable iff it accepted fewer than `max` calls and, for each of its sequences, every earlier attached expectation has accepted at least its min and no later attached expectation has accepted any call. Nothing else (in particular not whether the other expectations are still alive, nor the sequence flavour) matters.", "quantifier": "all histories, all expectations, all sequences", "why_tests_cant": "Equivalence between internal cursor/state machine and a history predicate must hold for every history.", "anchors": ["include/mimic++/Sequence.hpp: BasicSequence", "include/mimic++/ControlPolicy.hpp: make_control_state, ControlPolicy::is_applicable"]}
{"id": "C14", "title": "Lazy and greedy selection in a single sequence", "statement": "If every applicable expectation accepting the call is attached to one and the same sequence and to no other, a LazySequence matches the earliest attached one of them and a GreedySequence the latest attached one, independently of creation order within the mock and of how far the sequence has progressed.", "quantifier": "all histories, all sets of candidate expectations in a sequence, all sequence progress", "why_tests_cant": "All candidate sets, orders and progress values up to the id limit.", "anchors": ["include/mimic++/Sequence.hpp: LazyStrategy, GreedyStrategy, has_better_rating", "include/mimic++/Expectation.hpp: pick_best_match"]}
{"id": "C15", "title": "Selection with several sequences is unanimous-consistent", "statement": "If all applicable candidates are attached to the same (non-empty) set of sequences and one candidate is preferred in each of these sequences, that candidate is matched. In general the selected candidate is attached to every sequence the newest candidate is attached to.", "quantifier": "all histories, all candidate sets, any number of sequences", "why_tests_cant": "Arbitrary numbers of candidates and sequences.", "anchors": ["include/mimic++/Sequence.hpp: has_better_rating", "include/mimic++/Expectation.hpp: pick_best_match"]}
{"id": "C16", "title": "LazySequence's least-progress preference with several sequences", "statement": "User expectation from the documentation: a LazySequence prefers to make the least possible progress for a match, i.e. an applicable match that would skip fewer elements of that sequence is preferred. Refuted when candidates are attached to different sets of sequences: the newest candidate keeps its place against every candidate which is missing in one of its sequences, so the preference is not even an order. The exact selection rule is proved.", "quantifier": "all histories in which candidates belong to more than one sequence", "why_tests_cant": "Requires search over configurations with several sequences; the counterexample is not covered by the tests.", "anchors": ["include/mimic++/Sequence.hpp: has_better_rating, LazySequence", "include/mimic++/Expectation.hpp: pick_best_match"]}
{"id": "C17", "title": "Attaching to the same sequence twice is rejected", "statement": "Naming the same sequence twice for one expectation, in one in_sequences or over several in_sequence/in_sequences clauses, throws std::invalid_argument; distinct sequences never throw, and a rejected setup attaches nothing to any sequence.", "quantifier": "all finite lists of sequences in all groupings into clauses", "why_tests_cant": "Arbitrary list lengths, orders and groupings.", "anchors": ["include/mimic++/Sequence.hpp: Config, Config::concat, expect::in_sequence, in_sequences", "include/mimic++/ExpectationBuilder.hpp: BasicExpectationBuilder::operator&&"]}
{"id": "C18", "title": "Sequence end reports iff an attached expectation missed its minimum", "statement": "When the last owner of a sequence (interface object or attached expectation) goes away, exactly one error report is emitted iff some expectation ever attached to it accepted fewer than its `min` calls; it happens after the last attached expectation is gone and never earlier, and whenever it happens an unfulfilled-expectation report for one of its expectations has been emitted before.", "quantifier": "all histories, all sequences, all destruction orders", "why_tests_cant": "All destruction orders and histories.", "anchors": ["include/mimic++/Sequence.hpp: BasicSequence::~BasicSequence, BasicSequenceInterface", "include/mimic++/ControlPolicy.hpp: ControlPolicy"]}
{"id": "C19", "title": "The number in the unfulfilled-sequence message", "statement": "The message 'Unfulfilled sequence. K out of N expectation(s) are satisfied.' prints as N the number of expectations ever attached and as K the number of expectations before the first unsatisfied one; the literal reading 'K of the N expectations are satisfied' is refuted.", "quantifier": "all histories ending in an unfulfilled sequence", "why_tests_cant": "All histories.", "anchors": ["include/mimic++/Sequence.hpp: BasicSequence::~BasicSequence"]}
{"id": "C20", "title": "Attaching late only appends", "statement": "Attaching a further expectation to a sequence that already has been queried or has progressed places it after all others, and does not change the applicability of any already attached expectation.", "quantifier": "all histories, all attach times", "why_tests_cant": "All points in all histories.", "anchors": ["include/mimic++/Sequence.hpp: BasicSequence::add", "include/mimic++/ControlPolicy.hpp: make_sequence_entries"]}
{"id": "C21", "title": "No internal assertion or undefined behaviour in legal single-threaded use", "statement": "In every single-threaded history of public operations that does not use moved-from objects and does not end an expectation's scope from inside its own call (other than from the function given to returns_result_of and its siblings), none of the library's internal assertions on sequences, control policies, collections and overload policies fails, no count overflows and no dangling expectation is accessed.", "quantifier": "all such histories (including nested calls from side effects)", "why_tests_cant": "Assertions guard invariants over all histories; INT_MAX-sized counts cannot be tested.", "anchors": ["include/mimic++/Sequence.hpp: set_satisfied, set_saturated, consume, priority_of", "include/mimic++/ControlPolicy.hpp: ControlPolicy::consume", "include/mimic++/Expectation.hpp: push, remove"]}
{"id": "C22", "title": "An unmet sequence element blocks its successors forever", "statement": "If an expectation's scope ends before it accepted `min` calls, no expectation attached later to the same sequence is ever matched in any continuation; ending the scope of an expectation that reached `min` never blocks a successor.", "quantifier": "all histories and all continuations", "why_tests_cant": "Quantifies over all futures.", "anchors": ["include/mimic++/Sequence.hpp: BasicSequence::is_consumable", "include/mimic++/Expectation.hpp: ExpectationCollection::remove"]}
{"id": "C23", "title": "Order of effects of a matched call", "statement": "For a matched call the full-match report is emitted first, then the call is counted, then the side effects run in the order they were attached, each exactly once, and finally the finalizer runs exactly once; the side effects and the finalizer already observe the updated count.", "quantifier": "all histories, all matched calls, any number of side effects", "why_tests_cant": "Ordering for all numbers of policies and nested histories.", "anchors": ["include/mimic++/Expectation.hpp: ExpectationCollection::handle_call, BasicExpectation::consume, BasicExpectation::finalize_call"]}
{"id": "C24", "title": "Nested calls from side effects cannot re-match an exhausted expectation", "statement": "A call made from within a side effect of an expectation that accepts at most one more call is never matched by that same expectation; more generally nested calls obey the same limits and ordering as calls made after the outer call was accepted.", "quantifier": "all histories with arbitrarily deep nesting", "why_tests_cant": "Arbitrary nesting depth and interleaving.", "anchors": ["include/mimic++/Expectation.hpp: ExpectationCollection::handle_call, BasicExpectation::consume", "include/mimic++/ControlPolicy.hpp: ControlPolicy::consume"]}
{"id": "C25", "title": "Ending an expectation's scope from inside its own call", "statement": "User expectation: a side effect may end any expectation's scope. Refuted for the expectation that is currently handling the call: handle_call keeps a plain reference and finalizes through it after the side effects, i.e. undefined behaviour; for every other expectation it is safe, and so it is for the own one once the finalizer's function is running.", "quantifier": "all histories in which a side effect ends scopes", "why_tests_cant": "Undefined behaviour is not reliably observable by a test.", "anchors": ["include/mimic++/Expectation.hpp: ExpectationCollection::handle_call"]}
{"id": "C26", "title": "Exceptions from finalizers still count, exceptions from side effects terminate", "statement": "If the finalizer throws, the exception reaches the caller and the call remains counted as accepted. If a side effect throws, the program is terminated and the exception never reaches the caller.", "quantifier": "all histories, all matched calls", "why_tests_cant": "Termination cannot be observed in-process; must hold for all positions.", "anchors": ["include/mimic++/Expectation.hpp: BasicExpectation::consume, finalize_call", "include/mimic++/ExpectationPolicies.hpp: Throws, SideEffectAction"]}
{"id": "C27", "title": "Upper times limit under concurrent calls", "statement": "User expectation (the collection owns a mutex): calls from several threads never exceed `max`. Refuted for builds without asserts: the lock only covers matching, counting happens outside, two threads can both match a `once` expectation; afterwards the expectation is neither satisfied nor saturated and accepts calls without bound (up to INT_MAX). With asserts a program that goes on never exceeds `max`, but two such threads may hit the assert. If another thread ends the scope of the chosen expectation between matching and counting, the call uses a dangling reference.", "quantifier": "all interleavings of two or more threads", "why_tests_cant": "Needs a specific interleaving; tests on real threads rarely or never hit it.", "anchors": ["include/mimic++/Expectation.hpp: ExpectationCollection::handle_call", "include/mimic++/ControlPolicy.hpp: make_control_state"]}
{"id": "C28", "title": "What does hold under concurrency", "statement": "For every interleaving in which each accepted call is counted right after it was matched (externally serialised calls), there is a single-threaded program with the same objects, counts, reports and outcomes, so all sequential guarantees hold; and for every interleaving whatsoever, with and without asserts, a call is only ever counted for an expectation that accepted its arguments and the stored count is the number of counted calls.", "quantifier": "all interleavings of any number of threads", "why_tests_cant": "All interleavings.", "anchors": ["include/mimic++/Expectation.hpp: ExpectationCollection::push, remove, handle_call"]}
{"id": "C29", "title": "Expectations only match calls through their own overload", "statement": "For every mock whose signatures form a valid overload set, an expectation created through one overload is matched only by calls through that same overload, even if overloads share the same parameter and return types.", "quantifier": "all overload sets accepted by the library, all pairs of overloads", "why_tests_cant": "Infinitely many signature sets.", "anchors": ["include/mimic++/Mock.hpp: Mock, MockFrontend, BasicMockFrontend", "include/mimic++/ExpectationPolicies.hpp: Category, Constness", "include/mimic++/TypeTraits.hpp: is_overload_set"]}
{"id": "C30", "title": "Overload sets are validated by the language rule", "statement": "is_overload_set accepts a list of signatures iff every two of them may be overloaded in C++: parameter lists differ, or both lack / both have a ref-qualifier and they differ in const/ref-qualification; return type and noexcept are ignored; the result is symmetric and independent of order.", "quantifier": "all finite lists of signatures over arbitrary parameter lists and qualifiers", "why_tests_cant": "Infinite domain of signatures.", "anchors": ["include/mimic++/TypeTraits.hpp: is_overloadable_with, is_overload_set"]}
{"id": "C31", "title": "Signature traits obey their laws", "statement": "decay removes const, ref and noexcept only and is idempotent; adding noexcept is idempotent and undone by removing it, both keep return type, parameters and qualifiers; return type, parameter types and parameter list are unaffected by qualifiers.", "quantifier": "all signatures", "why_tests_cant": "Infinite domain.", "anchors": ["include/mimic++/TypeTraits.hpp: signature_add_noexcept, signature_remove_noexcept, signature_decay, signature_return_type, signature_param_type, signature_param_list"]}
{"id": "C32", "title": "One shared collection per decayed signature", "statement": "The collection tuple of a mock contains each decayed signature of its overloads exactly once and nothing else, so two overloads share their expectations iff their decayed signatures are equal.", "quantifier": "all lists of signatures", "why_tests_cant": "Infinite domain.", "anchors": ["include/mimic++/Utility.hpp: unique_list", "include/mimic++/Mock.hpp: expectation_collection_factory, Mock"]}
{"id": "C33", "title": "Unmatched calls on noexcept signatures terminate", "statement": "A call on a noexcept overload never leaves with an exception: if it is unmatched/inapplicable or its finalizer throws, the program terminates; on the corresponding overload without noexcept the same exception reaches the caller.", "quantifier": "all histories, all calls on noexcept overloads", "why_tests_cant": "Termination is not observable in-process; all histories.", "anchors": ["include/mimic++/Mock.hpp: MockFrontend"]}
{"id": "C34", "title": "Expectations outlive and follow their mock", "statement": "Destroying a mock or moving it does not affect its expectations: after a move the moved-to object answers exactly as the moved-from object would have, and expectations still report at scope end; calling the moved-from mock is undefined behaviour.", "quantifier": "all histories with mock moves and destruction", "why_tests_cant": "All histories and move points.", "anchors": ["include/mimic++/Mock.hpp: Mock", "include/mimic++/Expectation.hpp: ScopedExpectation::Model"]}
{"id": "C35", "title": "Moving a ScopedExpectation", "statement": "Move construction transfers the expectation without any report and without changing any observation; the moved-from object's destruction does nothing. Move assignment over an object that still holds an unfulfilled expectation ends the program when the reporter throws (user expectation 'reports like a scope end' refuted).", "quantifier": "all histories with moves", "why_tests_cant": "All histories; termination not observable in-process.", "anchors": ["include/mimic++/Expectation.hpp: ScopedExpectation"]}
{"id": "C36", "title": "Expectation builders are order independent where documented", "statement": "Whatever order times, sequence, finalizer, requirement and side-effect clauses are combined in, the resulting expectation has: the one given times (default once), the one given finalizer, exactly the given policies in their relative order after the argument policies and the overload policies, and all given sequences in order; a second times or finalizer clause is rejected, and so is an expression without a finalizer for an overload which returns something (at compile time, whatever the operands do at run time).", "quantifier": "all finite lists of clauses in all orders", "why_tests_cant": "All permutations and lengths.", "anchors": ["include/mimic++/ExpectationBuilder.hpp: BasicExpectationBuilder, make_expectation_builder", "include/mimic++/Mock.hpp: BasicMockFrontend::make_expectation_builder"]}
{"id": "C37", "title": "Matcher negation", "statement": "For every built-in predicate matcher m and target x, !m matches x iff m does not; !!m behaves and describes itself exactly as m; !m describes itself with m's inverted description.", "quantifier": "all matchers, all targets, any nesting of negations", "why_tests_cant": "Infinite domain of matchers and targets.", "anchors": ["include/mimic++/Matcher.hpp: PredicateMatcher::matches, describe, operator!"]}
{"id": "C38", "title": "Comparison matchers", "statement": "eq, ne, lt, le, gt, ge match exactly the targets standing in the named relation to the stored value, and on totally ordered types the negation of each is equivalent to, and described as, its complement. For partially ordered types (e.g. NaN) the description of a negated order matcher is wrong (refuted).", "quantifier": "all values of all ordered types", "why_tests_cant": "Infinite domain; NaN case untested.", "anchors": ["include/mimic++/Matcher.hpp: matches::eq, ne, lt, le, gt, ge"]}
{"id": "C39", "title": "String matchers", "statement": "str::eq/starts_with/ends_with/contains match exactly the targets that equal / begin with / end with / contain the pattern (the empty pattern being contained in everything).", "quantifier": "all strings over any character type", "why_tests_cant": "Infinite domain.", "anchors": ["include/mimic++/Matcher.hpp: matches::str::eq, starts_with, ends_with, contains"]}
{"id": "C40", "title": "Case-insensitive string matchers", "statement": "The case_insensitive variants match exactly when the case-folded target equals / begins with / ends with / contains the case-folded pattern, hence are invariant under changing the ASCII case of target or pattern, for all ASCII strings.", "quantifier": "all ASCII strings", "why_tests_cant": "Infinite domain.", "anchors": ["include/mimic++/Matcher.hpp: matches::str::*(case_insensitive)", "include/mimic++/String.hpp: string_case_fold_converter<char>"]}
{"id": "C41", "title": "Case folding of non-ASCII bytes", "statement": "User expectation: case-insensitive matching is defined for every char string. Refuted: with signed char every byte >= 0x80 other than 0xFF is passed as a negative value to std::toupper, which is undefined behaviour.", "quantifier": "all char strings", "why_tests_cant": "Undefined behaviour usually is silent in tests.", "anchors": ["include/mimic++/String.hpp: string_case_fold_converter<char>"]}
{"id": "C42", "title": "C-string patterns are cut at the first NUL", "statement": "A pattern given as character array or pointer is interpreted up to its first NUL, so a std::string target containing a NUL is never equal to a C-string pattern; basic_string and string_view patterns are compared in full length.", "quantifier": "all strings", "why_tests_cant": "Infinite domain.", "anchors": ["include/mimic++/String.hpp: string_traits", "include/mimic++/Matcher.hpp: matches::str::eq"]}
{"id": "C43", "title": "Range matchers", "statement": "range::eq, unordered_eq, is_sorted, is_empty, has_size, each_element, any_element match exactly the ranges that are elementwise equal / a permutation / sorted / empty / of that size / all / any elements match; any_element is the negation of each_element of the negated matcher.", "quantifier": "all finite ranges over all element types with decidable equality / weak order", "why_tests_cant": "Infinite domain.", "anchors": ["include/mimic++/Matcher.hpp: matches::range::*"]}
{"id": "C44", "title": "Requirements are combined as conjunction, without short-circuit", "statement": "An expectation accepts the arguments iff each argument requirement (implicit or expect::arg) and both overload policies hold; all of them are evaluated and reported, in order, independent of the others' results.", "quantifier": "all lists of requirements and all argument lists", "why_tests_cant": "All lists.", "anchors": ["include/mimic++/Expectation.hpp: BasicExpectation::matches", "include/mimic++/ExpectationPolicies.hpp: Requirement, Category, Constness, expect::arg", "include/mimic++/ExpectationBuilder.hpp: make_arg_policy"]}
{"id": "C45", "title": "Printed ranges, tuples, optionals and enums", "statement": "Printed ranges/tuples are '{ ' + elements joined by ', ' + ' }', optionals 'nullopt' or '{ value: x }'; two integer ranges print equally iff they are equal. The same for strings is refuted (no escaping).", "quantifier": "all values", "why_tests_cant": "Infinite domain.", "anchors": ["include/mimic++/Printer.hpp: Printer specializations"]}
{"id": "C46", "title": "Times text in reports is truthful", "statement": "The times description of an expectation says 'already saturated' iff it accepted max calls, 'accepts further matches' iff min <= count < max, and otherwise names the count and the demanded range; the sequence addendum names exactly the number of (not) current sequences.", "quantifier": "all reachable control states", "why_tests_cant": "All histories and limits.", "anchors": ["include/mimic++/Reports.hpp: print_times_state, control_state_printer"]}
{"id": "C47", "title": "Match report text is truthful", "statement": "A printed match report starts with the verdict of evaluate_match_report and lists under 'failed:' exactly the descriptions of non-matching and under 'passed:' exactly those of matching requirements, in order, and nothing else.", "quantifier": "all match reports", "why_tests_cant": "All report values.", "anchors": ["include/mimic++/Reports.hpp: Printer<MatchReport>, evaluate_match_report"]}
{"id": "C48", "title": "Reports go to the most recently installed reporter", "statement": "Every report is delivered to exactly the reporter installed last at that time, initially the DefaultReporter, exactly once.", "quantifier": "all histories with installs at any time", "why_tests_cant": "All interleavings of installs and reports.", "anchors": ["include/mimic++/Reporter.hpp: install_reporter, get_reporter, detail::report_*"]}
{"id": "C49", "title": "Default and basic reporter reactions", "statement": "DefaultReporter throws for every no-match/inapplicable report, throws for unfulfilled/error reports iff no exception is in flight, never throws for full matches or unhandled exceptions, and prints the text before throwing iff it has a stream; BasicReporter calls exactly one callback with exactly this text under the same conditions.", "quantifier": "all reports, all in-flight counts", "why_tests_cant": "All report values.", "anchors": ["include/mimic++/Reporter.hpp: DefaultReporter, BasicReporter"]}
{"id": "C50", "title": "Lifetime watching is exact", "statement": "For a watched object, its destruction calls the destruction mock exactly once; with exactly one prior expect_destruct on it the destruction is silent, with none it is reported as unmatched, and an expectation whose watched identity is still alive at scope end is reported unfulfilled; a second expect_destruct on the same identity throws logic_error.", "quantifier": "all histories of watched objects (construct, copy, move, assign, destroy, expect)", "why_tests_cant": "All histories of special member functions.", "anchors": ["include/mimic++/ObjectWatcher.hpp: LifetimeWatcher"]}
{"id": "C51", "title": "Copy and move of lifetime watchers", "statement": "Moving transfers the expectation to the new object and silences the moved-from one; copying creates a fresh identity; copy assignment first counts as destruction of the old identity. Move assignment over a live watched object loses that object's destruction (refuted that every identity is reported exactly once).", "quantifier": "all histories", "why_tests_cant": "All histories of special member functions.", "anchors": ["include/mimic++/ObjectWatcher.hpp: LifetimeWatcher"]}
{"id": "C52", "title": "Relocation watching", "statement": "Each move construction/assignment from a watched object reports one relocation against the source's expectation, after which the expectation belongs to the target; copies start fresh; expect_relocate counts relocations with ordinary times limits.", "quantifier": "all histories of moves and copies", "why_tests_cant": "All histories.", "anchors": ["include/mimic++/ObjectWatcher.hpp: RelocationWatcher"]}
{"id": "C53", "title": "Side effects act on the selected arguments by reference", "statement": "apply_arg/apply_args/apply_all pass exactly the selected arguments by reference in the given order (repetitions and aliasing included); later side effects and the finalizer observe all earlier modifications; nothing else is modified.", "quantifier": "all index lists, argument lists, aliasing patterns, sequences of side effects", "why_tests_cant": "All index lists and aliasing patterns.", "anchors": ["include/mimic++/ExpectationPolicies.hpp: ApplyArgsAction, ApplyAllArgsAction, SideEffectAction, then::*"]}
{"id": "C54", "title": "Finalizers", "statement": "returns(v) yields v on every accepted call; returns_arg<i>/returns_apply_result_of/returns_apply_all_result_of yield the (function of the) selected arguments as left by the side effects; throws(e) throws a copy of e on every accepted call.", "quantifier": "all calls, all values", "why_tests_cant": "All values and repeated calls.", "anchors": ["include/mimic++/ExpectationPolicies.hpp: ReturnsResultOf, Throws, finally::*"]}
{"id": "C55", "title": "Exhausting a sequence's ids", "statement": "User expectation from the code: attaching more expectations than ids exist throws std::runtime_error. Refuted: the exception is thrown inside a noexcept function, the program terminates; below the limit attaching never fails.", "quantifier": "all sequence sizes", "why_tests_cant": "2^31 expectations needed.", "anchors": ["include/mimic++/Sequence.hpp: BasicSequence::add", "include/mimic++/ControlPolicy.hpp: make_sequence_entries"]}
{"id": "C56", "title": "Default argument matchers", "statement": "A plain argument in expect_call is turned into: itself if it is a matcher, string equality if parameter and argument are strings, otherwise ==; the chosen rule never depends on anything else.", "quantifier": "all parameter/argument type classes and values", "why_tests_cant": "Priority resolution over all type classes.", "anchors": ["include/mimic++/ExpectationBuilder.hpp: make_arg_matcher, make_arg_policy"]}
{"id": "C57", "title": "Interface mock macros: generated text, capacity and names", "statement": "For every list of types and overloads, MIMICPP_MOCK_METHOD and MIMICPP_MOCK_OVERLOADED_METHOD expand to exactly one overriding method per overload (parentheses around types removed, parameters arg_i, arg_ii, ... pairwise distinct, forwarded in order) followed by one mock with all signatures in order; the for-each machinery handles every list of up to 86 elements and exactly those; the mock's signature keeps the parentheses around types (so the intended removal is refuted there); of the two macros for overloads always the one with specifiers is selected; a comma between specifiers makes the text after it the name of the macro which is called; no expansion exists for a method whose name does not end with an identifier (operator(), operator+).", "quantifier": "all argument token sequences, all numbers of overloads and parameters", "why_tests_cant": "Tests expand a handful of fixed texts; they do not cover all lengths, the capacity limit or arbitrary token sequences.", "anchors": ["include/mimic++/InterfaceMock.hpp: 62-437, MIMICPP_DETAIL_STRIP_PARENS, MIMICPP_DETAIL_FOR_EACH_EXT, MIMICPP_DETAIL_MAKE_PARAM_LIST, MIMICPP_DETAIL_FORWARD_ARGS, MIMICPP_ADD_OVERLOAD, MIMICPP_MOCK_OVERLOADED_METHOD, MIMICPP_MOCK_METHOD"]}
{"id": "C58", "title": "A throwing description defeats exception isolation", "statement": "User expectation from C09: exceptions during matching never terminate. Refuted: if a matcher's description throws, building the unhandled-exception report throws again inside a noexcept function and the program terminates; also a call where every expectation threw is reported as 'No expectations available.'.", "quantifier": "all calls with throwing policies", "why_tests_cant": "Termination not observable in-process.", "anchors": ["include/mimic++/Expectation.hpp: make_match_report", "include/mimic++/Reporter.hpp: stringify_no_match_report"]}
{"id": "C59", "title": "Unfulfilled sequences as exceptions", "statement": "User expectation: an unfulfilled sequence is reported like other errors, i.e. as a catchable exception of the DefaultReporter. Refuted: the sequence is destroyed by a shared_ptr, whose destructor must not throw; if no other exception is in flight the program terminates.", "quantifier": "all histories ending with an unfulfilled sequence", "why_tests_cant": "Termination not observable in-process; the tests bypass shared_ptr.", "anchors": ["include/mimic++/Sequence.hpp: BasicSequence::~BasicSequence, BasicSequenceInterface"]}
{"id": "C60", "title": "Texts of whole reports", "statement": "The text of a call report names location, constness, value category, return type and every argument with index, type and printed value in order; an expectation report names location, times text and exactly the descriptions of its requirements in order; a no-match text states the number of tested expectations (or their absence) and lists each; the texts of the six kinds of reports are pairwise different and the sequence message determines both numbers. Line by line, every report is the given list of lines (written in the specification with its own words, numbers, line feeds and tabs); for texts without line feeds the lines can be read back; refuted in general: a printed value with line feeds can make calls with one and with two arguments print alike.", "quantifier": "all calls, expectations, report values", "why_tests_cant": "All values and report sizes.", "anchors": ["include/mimic++/Reports.hpp: Printer<CallReport>, Printer<ExpectationReport>", "include/mimic++/Reporter.hpp: detail::stringify_*"]}
{"id": "C61", "title": "Null character pointers as call arguments", "statement": "User expectation: a mock with a character pointer parameter can be called with a null pointer (e.g. matched by the wildcard). Refuted: every call prints all of its arguments for the call report, and printing a null (or not terminated) character pointer is undefined behaviour. Printing the arguments is defined iff every character pointer among them points to a terminated string.", "quantifier": "all argument lists", "why_tests_cant": "Undefined behaviour; all argument lists.", "anchors": ["include/mimic++/Printer.hpp: Printer<String>", "include/mimic++/Reports.hpp: make_call_report", "include/mimic++/String.hpp: string_traits<T*>"]}
{"id": "C62", "title": "Matchers keep patterns by value", "statement": "std::string patterns and rvalue ranges are kept by value, i.e. later modifications of the originals do not influence the matcher. Refuted for character arrays, string views and lvalue ranges (range::eq, unordered_eq), which are referenced.", "quantifier": "all patterns and all later contents of memory", "why_tests_cant": "All later modifications.", "anchors": ["include/mimic++/Matcher.hpp: matches::str::*, matches::range::eq, unordered_eq"]}
{"id": "C63", "title": "Matcher hooks", "statement": "custom::matcher_traits is preferred over member functions. Refuted for nested matchers: each_element/any_element call the member matches, but describe by the hook.", "quantifier": "all matcher types", "why_tests_cant": "All combinations of traits and members.", "anchors": ["include/mimic++/Matcher.hpp: matches_hook, describe_hook, range::each_element, range::any_element"]}
{"id": "C64", "title": "Descriptions of matchers never fail", "statement": "The description of a matcher is the text its format string stands for (characters, doubled braces, replacement fields with or without an index, not both), and an error if it stands for none. A description given to matches::predicate without braces appears unchanged; matches::instance shows the address. Refuted in general: a description with braces is a malformed format string, describing it throws and a call compared with the expectation ends the program; an instance of a character type is described by reading its address as a C string.", "quantifier": "all descriptions and instances", "why_tests_cant": "All descriptions; undefined behaviour.", "anchors": ["include/mimic++/Matcher.hpp: PredicateMatcher::describe, matches::predicate, matches::instance"]}
{"id": "C65", "title": "Comparison with tuples and pairs", "statement": "eq(v) accepts exactly the targets equal to v if v is no tuple or pair. Refuted for tuples and pairs: class template argument deduction of std::tuple unpacks them, so they can not be compared with anything unless they have exactly one element, which is then compared itself.", "quantifier": "all values", "why_tests_cant": "All value types.", "anchors": ["include/mimic++/Matcher.hpp: matches::eq, ne, lt, le, gt, ge"]}
{"id": "C66", "title": "Equality of call infos", "statement": "Two call::Info objects compare equal iff they have the same argument objects (by address, not by value), value category, constness and source location.", "quantifier": "all infos", "why_tests_cant": "All infos.", "anchors": ["include/mimic++/Call.hpp: operator== of call::Info, is_equal_param_list"]}
{"id": "C67", "title": "Data races", "statement": "The accesses of all threads to the list of expectations of a mock are ordered by its mutex. Calls on mocks owned by different threads, without common sequences, are free of data races. But two accepted calls of two threads on one mock race on the counter of an expectation in every interleaving (count and sequences are updated after the mutex was released); two mocks sharing a sequence race on the sequence; is_satisfied and the installation of a reporter race with calls. An accepted call writes exactly the counter of its expectation and the sequences it is attached to (each once more when it becomes satisfied or saturated), uses no mutex and runs no user code. Matchers run only in calls, for the requirements of the expectations listed for that overload, and all of these are asked up to the first exception; descriptions run there or when the scope of an unfulfilled expectation ends. Matching writes nothing and, besides list and reporter, reads the counters of the listed expectations and the sequences of the unsaturated ones; a new expectation writes its sequences and, under the mutex, the list; the end of a scope writes the list only. In every step the reporter gets exactly the reports noted in the trace, in order.", "quantifier": "all programs, threads, interleavings, with and without asserts", "why_tests_cant": "Races are properties of all interleavings and are invisible in results.", "anchors": ["include/mimic++/Expectation.hpp: ExpectationCollection::push, remove, handle_call", "include/mimic++/ControlPolicy.hpp: ControlPolicy::consume, state, is_satisfied", "include/mimic++/Sequence.hpp: BasicSequence", "include/mimic++/Reporter.hpp: get_reporter"]}
{"id": "C68", "title": "User code and the mutex", "statement": "Matchers, descriptions and the reporter (unhandled exceptions and unfulfilled expectations only) run while exactly one mutex is held; other reports, side effects and finalizers run without. No thread holds two mutexes unless user code makes it. If the former do not use mocks, or use them in an order of mutexes, no schedule deadlocks or misuses a mutex. Refuted without this condition: a matcher or reporter that calls its own mock relocks the mutex (undefined), and matchers calling each other's mocks deadlock.", "quantifier": "all programs, user code, threads and schedules", "why_tests_cant": "All schedules.", "anchors": ["include/mimic++/Expectation.hpp: ExpectationCollection::push, remove, handle_call"]}
{"id": "C69", "title": "Choice of the printer", "statement": "mimicpp::print uses the first available option in the documented order: custom::Printer, internal printers, forward ranges, formattable types, {?}. The text of every object made of finitely many parts exists, is unique, and is the one of its parts put together. Refuted: a type with two internal printers (tuple-like and string) and an array of anything but characters can not be printed even with a custom::Printer; a range which contains itself (std::filesystem::path) is printed by an endless recursion.", "quantifier": "all types (by their traits) and all objects", "why_tests_cant": "All combinations of traits; unbounded nesting.", "anchors": ["include/mimic++/Printer.hpp: detail::print, detail::Printer, PrintFn", "include/mimic++/String.hpp: string_traits, string", "include/mimic++/Utility.hpp: priority_tag"]}
{"id": "C70", "title": "Strings given by pointers and arrays", "statement": "Pointers to characters and arrays of characters (including unsigned char) are read up to the first zero, so arrays are cut at an embedded zero. The text is the literal prefix and, in quotes, the characters, their custom printing, or hexadecimal values. Refuted as safe: an array or buffer without a zero is read beyond its end, a null pointer is dereferenced.", "quantifier": "all strings and memories", "why_tests_cant": "Undefined behaviour; all memories.", "anchors": ["include/mimic++/String.hpp: string_traits, string_literal_prefix", "include/mimic++/Printer.hpp: Printer<String>"]}
{"id": "C71", "title": "Overload resolution of calls and expect_call", "statement": "A call of a mock with several signatures selects the overload which fits the object expression and the arguments and is preferred to all other such overloads; expect_call selects only by the object expression among the overloads whose parameters the arguments fit. If all fitting overloads have the same parameters, both are never ambiguous and select the same overload; the order of the signatures, return types and noexcept do not matter. Refuted: expect_call selects like a call (Mock<void(int), void(double)>: expect_call(42) is ambiguous); the same argument reaches the same overload (string_view for Mock<void(string), void(any)>); the defaulted source location never takes part.", "quantifier": "all overload sets, all arguments, all kinds of object expressions, all conversion relations of the language", "why_tests_cant": "Compile-time behaviour; all overload sets and conversion relations.", "anchors": ["include/mimic++/Mock.hpp: MockFrontend, Mock", "include/mimic++/ExpectationBuilder.hpp: make_expectation_builder, detail::expectation_policies requirements"]}
{"id": "C72", "title": "Contracts of sequences and control policies", "statement": "For every state, each operation of BasicSequence and ControlPolicy succeeds exactly under its precondition and then changes exactly the documented part of the state; otherwise an assert fails. The state of a sequence is determined by the history of operations on it, entries are consumed in order of their ids, lazy sequences prefer earlier and greedy ones later entries. Without asserts the same effects happen whenever the entries exist.", "quantifier": "all sequence and policy states, all operation histories", "why_tests_cant": "All histories and states, including those with failing asserts and release builds.", "anchors": ["include/mimic++/Sequence.hpp: BasicSequence, LazyStrategy, GreedyStrategy", "include/mimic++/ControlPolicy.hpp: ControlPolicy"]}
{"id": "C73", "title": "Adapters for test frameworks", "statement": "Each report uses the test framework at most once, with exactly the text of the report: failures fail the test, matches succeed (Boost.Test: log message), unhandled exceptions warn (Doctest and Boost.Test: message, Boost with a prefix; gtest: not at all). A failing report never returns: it is left as the framework's macro is left, gtest's adapter throws if it returns, for the others that is undefined. With usual frameworks the adapters are the reporters of the program model. Refuted: every unhandled exception reaches the user (gtest).", "quantifier": "all adapters, reports, framework behaviours and numbers of exceptions in flight", "why_tests_cant": "All reports and all behaviours of the framework macros, including undefined ones.", "anchors": ["include/mimic++/adapters/Catch2.hpp", "include/mimic++/adapters/Doctest.hpp", "include/mimic++/adapters/BoostTest.hpp", "include/mimic++/adapters/gtest.hpp", "include/mimic++/Reporter.hpp: BasicReporter"]}
{"id": "C74", "title": "Lifetime of the installed reporter", "statement": "The reporter in use is the one installed last, else the default one, created at its first use. At the end of the program unfulfilled static expectations and sequences constructed after the first use terminate the program, those constructed before it use a destroyed reporter (undefined) unless a later one terminates first; the end is clean iff all are fulfilled. Objects initialised after an adapter's installer never see a destroyed reporter. Refuted: static expectations are always safe.", "quantifier": "all orders of installations, static objects and reports", "why_tests_cant": "Happens after main; all initialisation orders; undefined behaviour.", "anchors": ["include/mimic++/Reporter.hpp: detail::get_reporter, install_reporter, detail::ReporterInstaller", "include/mimic++/Expectation.hpp: ScopedExpectation, ExpectationCollection::remove", "include/mimic++/Sequence.hpp: BasicSequence::~BasicSequence"]}
{"id": "C75", "title": "Equality of reports", "statement": "operator== of source locations (is_same_source_location), control states, call, expectation and match reports holds iff the compared objects say the same: all members are equal and the names of locations are equal as strings, at whatever address they are. The comparisons are free of undefined behaviour (no empty optional is dereferenced). Equal reports have equal texts and outcomes; equal call infos have equal reports. Refuted: equal reports come from equal infos; equal texts come from equal reports.", "quantifier": "all reports, all memories", "why_tests_cant": "All pairs of reports; the address of the names is chosen by the implementation.", "anchors": ["include/mimic++/Reports.hpp: operator== of CallReport, ExpectationReport, MatchReport, control states", "include/mimic++/Utility.hpp: is_same_source_location", "include/mimic++/Fwd.hpp: sequence::rating"]}
{"id": "C76", "title": "A test passes iff its calls are those asked for", "statement": "If no call of a test fails and no expectation is reported at the end, the calls can be distributed to expectations whose matchers accept them, within all limits and in the order of every sequence (for all matchers, strategies, nested calls and several mocks and sequences). If no call may be taken by two expectations, the converse holds: the test passes iff such a distribution exists. Without common sequences the order of the calls is irrelevant; with one sequence for all expectations the calls are a word of the regular expression e0{min,max} e1{min,max} .... The same holds for whole programs in which expectations are created between the calls, end early and are moved together with mocks, sequences and reporters: nothing but full matches and exceptions of matchers is reported iff each call can be given to an expectation alive and able to take it at that time, within the limits and orders; the library then makes exactly this distribution. Refuted: the converse for ambiguous calls (lazy sequences, greedy sequences, newer expectations: there is no backtracking).", "quantifier": "all programs: all setups, bodies (also with nested calls) and ends", "why_tests_cant": "All setups and all sequences of calls of any length.", "anchors": ["include/mimic++/Expectation.hpp: ExpectationCollection::handle_call, ExpectationCollection::remove", "include/mimic++/ControlPolicy.hpp: ControlPolicy", "include/mimic++/Sequence.hpp: BasicSequence"]}
{"id": "C77", "title": "Watched objects as a whole", "statement": "Watched<Base, Watchers...> has the exception specifications of Base's destructor and of those of its moves that exist; it overrides a virtual destructor; containers move it whenever they move Base. The destruction of a Watched object is reported exactly once; if it is unexpected, the program ends for a noexcept ~Base, otherwise the exception leaves after all parts are gone. An expected move hands identity and expectations to the new object, in either order of the watchers. A refused move ends the program if Base's move is noexcept; otherwise nothing has changed if the RelocationWatcher comes first, whereas with the LifetimeWatcher first the object loses its identity, and the program ends if its destruction was not announced. A refused move assignment with the LifetimeWatcher first leaves the target with the source's identity and loses the target's own. Copies are unexpected objects of their own. Copy assignment gives the target a new identity and reports the end of the former one. Every watcher belongs to exactly one object and lives as long as it, nothing is left behind by failed constructions, and every existing special member function can be executed on every existing object. Refuted: Watched<Base> is movable only if Base is; a failed move leaves the object watched. With the watchers of the library, the destructor is virtual iff Base's is.", "quantifier": "all bases (all combinations of deleted and noexcept special members), all lists of watchers, all programs", "why_tests_cant": "All programs, all combinations of special members of Base, both orders of the watchers.", "anchors": ["include/mimic++/ObjectWatcher.hpp: Watched, BasicWatched, CombinedWatchers", "include/mimic++/ObjectWatcher.hpp: LifetimeWatcher, RelocationWatcher"]}
{"id": "C78", "title": "The library behaves like a reference machine without data structures", "statement": "Every operation of the library in every reachable state has the outcome (result, std::terminate, undefined behaviour, compile error) of a reference machine whose state consists only of the objects as the user declared them and of the reports so far: no counters, cursors, entry states, lists of expectations, flags of destroyed sequences. It decides by counting reports which expectation is at turn, which call is accepted and by whom, and what is reported. So every program shows the same results, end and reports on both machines, their reachable states correspond, and two states with the same declarations and reports cannot be told apart by any continuation.", "quantifier": "all programs of all lengths, all reporters, matchers and finalizers", "why_tests_cant": "All programs; equality of the whole observable behaviour.", "anchors": ["include/mimic++/Expectation.hpp: ExpectationCollection, BasicExpectation, ScopedExpectation", "include/mimic++/ControlPolicy.hpp: ControlPolicy", "include/mimic++/Sequence.hpp: BasicSequence, LazyStrategy, GreedyStrategy", "include/mimic++/Mock.hpp: Mock, BasicMockFrontend", "include/mimic++/ExpectationBuilder.hpp: BasicExpectationBuilder"]}
{"id": "C79", "title": "Matchers, projections and descriptions may have a state of their own", "statement": "User code that reads and changes a state of its own while being asked is asked in a fixed order: a call asks all expectations in scope of its overload, newest first, each requirement in order for its projection, its matcher and its description, no matter what the answers are, whether an expectation already matched or whether one is exhausted; only an exception cuts the questions to an expectation short, which is asked for its descriptions instead. The call then behaves as if each answer had been a constant, so in whole programs limits, sequences, and unfulfilled reports hold as for stateless user code, whatever the matchers answer each time. (It is false that the search stops at the chosen expectation, and that exhausted expectations are not asked.)", "quantifier": "all user states and all user code over them, all programs, calls and reporters", "why_tests_cant": "All user code with all of its states, and all interleavings with calls and other operations.", "anchors": ["include/mimic++/Expectation.hpp: handle_call, make_match_report, BasicExpectation::matches", "include/mimic++/ExpectationPolicies.hpp: Requirement/expect::arg policies", "include/mimic++/Matcher.hpp: matches_hook, describe_hook"]}
{"id": "C80", "title": "Builders kept in variables behave like the expressions they come from", "statement": "A program may keep the object that expect_call returns, extend it, move it, assign it, drop it, and finalize it at any later time. Every such program reaches a state that a program of whole expressions reaches, with the same expectations, sequences and reports; so all limits and orders hold. An expression equals the sequence of its parts; finalizing later does what the whole expression would do at that time, through any mock which has the original contents then. An operand which throws leaves the builder unchanged, a builder that was used up never attaches an expectation again, and operations other than finalizing only end sequences nobody else holds. A sequence lives exactly as long as the user, a builder or an expectation in scope holds it. (It is false that a finalized builder holds nothing: it keeps its sequences.)", "quantifier": "all programs with any number of builders, mocks, sequences and reporters", "why_tests_cant": "All interleavings of builder operations with calls, moves and ends of mocks and sequences.", "anchors": ["include/mimic++/ExpectationBuilder.hpp: BasicExpectationBuilder (special members, operator&&, finalize)", "include/mimic++/Sequence.hpp: detail::Config::concat", "include/mimic++/ControlPolicy.hpp: ControlPolicy::ControlPolicy"]}
{"id": "C81", "title": "What holds when operations are left half-way by an exception", "statement": "Allocations and constructors of user types may throw at any point of a declaration, of a call before an expectation is chosen, and while the report of an unfulfilled expectation is made. In every such program upper limits hold, applicability is decided by the accepted calls as in C13, calls are accepted by candidates only, failing operations count nothing, and each sequence complains once at its end iff an element missed its lower limit. A declaration which fails before or without its sequences changes nothing; inside of the noexcept parts it ends the program, and one of these parts is storing user supplied matchers, actions and finalizers in the builder; after its sequences were entered only these differ, in the way of the completed declaration. In that case, with a positive lower limit, no expectation attached to that sequence later ever accepts a call, and the sequence complains at its end, while the half-built expectation is never reported; with lower limit zero it influences nobody. An expectation whose report could not be made is gone and never reported. (The strong guarantee, that a failed declaration has no effect, is refuted.)", "quantifier": "all programs with any number of failures at any of the modelled places", "why_tests_cant": "Failures of allocations at each place, combined with all later behaviour of the program.", "anchors": ["include/mimic++/ExpectationBuilder.hpp: BasicExpectationBuilder::finalize", "include/mimic++/ControlPolicy.hpp: ControlPolicy::ControlPolicy, detail::make_sequence_entries", "include/mimic++/Expectation.hpp: ExpectationCollection::push, remove, handle_call; ScopedExpectation", "include/mimic++/Sequence.hpp: BasicSequence::add"]}
{"id": "C82", "title": "Sequences under concurrency, and what asserts change", "statement": "In every interleaving of a build with asserts, a call is counted only for an expectation which accepts it, whose limit is not reached, whose predecessors in its sequences have had their minimal number of calls and whose successors none; hence calls are counted in the order of each sequence. A matched call can be counted unless its expectation or a later element of its sequences was called in the meantime or its scope ended. A build without asserts behaves identically up to the first assert that would fail. Refuted: without asserts the order of sequences is violated; even with asserts, concurrent calls need not be equivalent to any order of these calls.", "quantifier": "all interleavings of any number of threads, with and without asserts", "why_tests_cant": "All interleavings.", "anchors": ["include/mimic++/Expectation.hpp: ExpectationCollection::handle_call", "include/mimic++/ControlPolicy.hpp: ControlPolicy::consume", "include/mimic++/Sequence.hpp: BasicSequence::consume"]}
{"id": "C83", "title": "Reporters which use mocks", "statement": "report_full_match is invoked between the matching and the counting of a call, without a lock, and may call mocks. Every program with such callbacks, nested to any depth, behaves like a program with threads: calls are counted only for expectations which accept them, counts are exact, with asserts limits and sequences are respected. A callback is harmless if it does not end the scope of the reported expectation and makes no calls for it or for later elements of its sequences. If callbacks use no mocks, the programs are those of the single-threaded model. Refuted: a callback calling the reported mock again exceeds the limit (or fails an assert), and one which ends the scope leaves a dangling reference; an exception out of a callback terminates.", "quantifier": "all programs, reporters and depths of nesting", "why_tests_cant": "Arbitrary user code inside of the reporter.", "anchors": ["include/mimic++/Expectation.hpp: ExpectationCollection::handle_call", "include/mimic++/Reporter.hpp: IReporter::report_full_match, detail::report_full_match"]}
{"id": "C84", "title": "Arguments which can not be printed", "statement": "The reports of a call contain the text of its arguments, made by user code (operator<<, formatters, custom::Printer) which may throw. Such a call makes no report, counts nothing, moves no sequence and starts no side effect, whether it was expected or not; the exception of the leftmost unprintable argument reaches the caller. If a requirement of a live expectation throws as well, or the function is noexcept, the program ends. Programs behave as if these calls did not exist. Refuted: that an expected call is accepted, and that an unexpected call is always reported.", "quantifier": "all programs, printers, states and arguments", "why_tests_cant": "Arbitrary user printers at arbitrary points of arbitrary programs.", "anchors": ["include/mimic++/Reports.hpp: make_call_report", "include/mimic++/Expectation.hpp: make_match_report, ExpectationCollection::handle_call", "include/mimic++/Printer.hpp: print"]}
{"id": "C85", "title": "ScopedExpectation::from", "statement": "In every history, a ScopedExpectation which owns an expectation gives the source location of its declaration, however often it was moved; a moved-from one is a null pointer.", "quantifier": "all programs", "why_tests_cant": "All histories.", "anchors": ["include/mimic++/Expectation.hpp: ScopedExpectation::from, BasicExpectation::from"]}
{"id": "C86", "title": "Programs acting on objects", "statement": "In every program whose calls pass expressions denoting objects, whose expectations carry user functions and whose own code changes objects at any time: parameters are passed as C++ demands and requirements see their values; the library changes no object the program does not explicitly move; whatever happens while a matched call is running, its k-th side effect is the k-th one attached and gets the selected arguments of this very call by reference, all of them run before it returns, and the result is what the finalizer makes of this call's own arguments and the memory as it is then; returns(e) and throws(e) yield the value e had when written on every call, as long as nobody gets hold of the stored object. Expectation expressions which throw leave mocks, expectations and calls alone. Refuted: that they leave the objects alone (finally::returns(std::move(x)) && expect::times(2, 1) has moved from x), and that a returned reference always refers to the given value. An expectation expression is possible iff its indices are below the number of parameters and it stores existing objects only.", "quantifier": "all programs, user functions, memories, types' move behaviour, nestings of calls", "why_tests_cant": "Arbitrary user code in arbitrarily nested calls over arbitrary histories.", "anchors": ["include/mimic++/Mock.hpp: operator()", "include/mimic++/Expectation.hpp: BasicExpectation::consume, BasicExpectation::finalize_call, ExpectationCollection::handle_call", "include/mimic++/ExpectationPolicies.hpp: SideEffectAction, ReturnsResultOf, Throws, ApplyArgsAction, ApplyAllArgsAction", "include/mimic++/ExpectationBuilder.hpp: operator&&"]}
{"id": "C87", "title": "Expectation policies of one's own", "statement": "Expectations may carry policies written by the user beside the library's. For every program using them, whatever these policies answer, throw, describe or remember: a call asks the policies of the live expectations of the overload, newest expectation first, each policy for its match and then its description, stopping within an expectation at the first exception, which is reported as unhandled together with the descriptions of all its policies; the call is accepted only by an expectation which can take it and all of whose policies said yes (the newest such, where no sequences are involved); the consumption runs side effects and own policies in the order of attachment. Limits and sequences are respected as before. is_satisfied() is true iff enough calls were accepted and all own policies are satisfied, and the end of the expectation's scope (or its replacement by move assignment) reports it as unfulfilled iff this is not so. With library policies only, everything is as without this extension. No library assertion can be violated by such a policy. Refuted: that an expectation with an unsatisfied policy keeps its successors in a sequence waiting, and that the text of the unfulfilled report says what is missing.", "quantifier": "all user policies with arbitrary state, programs, histories, reporters", "why_tests_cant": "The concept expectation_policy_for admits arbitrary user types; tests use a few mocks of it.", "anchors": ["include/mimic++/Expectation.hpp: concept expectation_policy_for, BasicExpectation::report, BasicExpectation::is_satisfied, BasicExpectation::matches, BasicExpectation::consume", "include/mimic++/Expectation.hpp: ExpectationCollection::remove, ExpectationCollection::handle_call", "include/mimic++/ExpectationBuilder.hpp: operator&&"]}
{"id": "C88", "title": "Reporters with a state of their own", "statement": "The installed reporter may remember what it was told and answer (return, throw, terminate) accordingly. For every such reporter, every state of it and every operation: the outcome and the next state are those of some reporter without a state; a whole program reaches, up to the identities of reporters, a state which a program with the same operations and some further installations of stateless reporters reaches, so all properties of reachable states which do not mention the reporter hold, e.g. the upper limits of expectations. Each operation talks to the installed reporter only, in the order of the reports in the history, with the number of exceptions in flight; whenever the operation does not end the program, each callback returned or threw, and if it threw, this exception leaves the operation. For reporters without a state everything is as without this extension. Refuted: that a call which was rejected by an exception is rejected the same way when it is repeated at once.", "quantifier": "all reporter states, reporters, programs, histories", "why_tests_cant": "A reporter is arbitrary user code behind an interface; tests use a few fixed ones.", "anchors": ["include/mimic++/Reporter.hpp: IReporter, report_no_matches, report_inapplicable_matches, report_full_match, report_unfulfilled_expectation, report_error, report_unhandled_exception, install_reporter", "include/mimic++/Expectation.hpp: ExpectationCollection::handle_call, ExpectationCollection::remove, detail::make_match_report", "include/mimic++/Sequence.hpp: BasicSequence::~BasicSequence"]}
{"id": "C89", "title": "Addresses of sequences", "statement": "Sequences are told apart by their addresses, which may be used again after a sequence is gone. For every reachable state and every assignment of addresses in which sequences existing at the same time have different ones: the comparison of ratings, and with it the choice among the matching expectations of a call, is the same as with identities which are never used twice; a configuration of existing sequences is rejected iff it names one twice; the texts of reports do not depend on the addresses. The assignment stays valid under every operation, and a new sequence may be placed at any address at which none exists.", "quantifier": "all address assignments, programs, histories, expectations, calls", "why_tests_cant": "Whether an address is used again depends on the allocator; tests see one of the possibilities.", "anchors": ["include/mimic++/Sequence.hpp: BasicSequenceInterface::tag, Config, has_better_rating", "include/mimic++/ControlPolicy.hpp: make_control_state", "include/mimic++/Expectation.hpp: pick_best_match"]}
{"id": "C90", "title": "Strings and case folding of one's own", "statement": "For every string type of the user, every character type and every case folding (a specialization of string_case_fold_converter, or the unicode backend): the string matchers accept a target iff its view equals / begins with / ends with / contains that of the pattern, with case_insensitive iff this holds of the converted strings. Strings with the same folding are not told apart; eq is symmetric; exceptions of views and converters reach the caller, those of the pattern first (eq: of either). If the folding works character by character, the target matches iff it has a prefix / suffix / part equal to the pattern up to case; if it works piece by piece, such a part is always found, but the converse is refuted (sharp s folds to ss and thus contains an s). If the folded strings are encoded as in UTF-8 or UTF-16, comparing code units is comparing code points. For the built-in strings and the built-in folding this is the same as C39 and C40.", "quantifier": "all string types, character types, converters, strings", "why_tests_cant": "Infinite domains; the converter is a customization point, and the unicode backend an optional dependency.", "anchors": ["include/mimic++/Matcher.hpp: matches::str::eq, starts_with, ends_with, contains, detail::make_view, detail::make_case_folded_string", "include/mimic++/String.hpp: concept string, concept case_foldable_string, string_case_fold_converter"]}
{"id": "C91", "title": "The hand-written template specialisations are complete and consistent", "statement": "Each of the traits signature_add_noexcept, signature_remove_noexcept and signature_decay has, for every function type which is not volatile, exactly one matching partial specialisation, and this one changes nothing but what the trait's name says; other types have none. Return type, parameters and call information are found through the decayed type; for variadic function types the parameter traits inherit from themselves and end the compilation. The seven specialisations for overloads are never ambiguous and give the documented answer; with an ellipsis no answer is given. MockFrontend has exactly one specialisation per non-variadic signature: it hands on the value category and constness of the signature's qualifiers, names its own base, and both operator() and expect_call carry the qualifiers of the signature, only operator() its noexcept. The class Mock<sigs...> is well-formed exactly for the lists which the model accepts. uint_with_size exists for 1, 2, 4 and 8 bytes.", "quantifier": "all function types (return type, parameters, const, volatile, ref, noexcept, ellipsis), all non-function types, all lists of signatures", "why_tests_cant": "Tests instantiate a few parameter lists; a missing or ambiguous specialisation is a compile error in somebody else's program.", "anchors": ["include/mimic++/TypeTraits.hpp: signature_add_noexcept, signature_remove_noexcept, signature_decay, signature_return_type, signature_param_type, signature_param_list, detail::is_overloadable_with, is_overload_set, uint_with_size", "include/mimic++/Call.hpp: info_for_signature", "include/mimic++/Mock.hpp: MockFrontend, Mock"]}
{"id": "C92", "title": "Mocks can be called through any signature without reference wrappers", "statement": "operator() of a mock is well-formed iff none of its parameters is a std::reference_wrapper (up to const and reference), because std::ref does not wrap a wrapper again; so the documented 'mimicpp::Mock accepts any valid signature' is refuted by a std::reference_wrapper parameter.", "quantifier": "all lists of parameter types", "why_tests_cant": "Infinitely many parameter types; no test uses a reference wrapper as parameter.", "anchors": ["include/mimic++/Mock.hpp: MockFrontend::operator(), BasicMockFrontend::handle_call", "include/mimic++/Call.hpp: Info::ArgListT"]}
{"id": "C93", "title": "Exceptions of user types leave the conditionally noexcept functions as they are", "statement": "The factories of policies, the closures they make, the finalizers and the predicate matchers carry conditional noexcept specifications computed from user types. For a user type whose own noexcept declarations are right: a factory passes the first exception of its copies and moves on to the caller if the operand can be taken without exceptions only when it can also be moved without (this holds of all rvalues and of all types with a noexcept move); otherwise the program ends, exactly if the operand is taken without exceptions and the move throws. Finalizers pass the exceptions of the functor and of the conversion on; for returns_result_of exactly unless the functor is declared noexcept for the category of the operand but throws as an lvalue. Side effects never pass an exception on: it ends the program. PredicateMatcher::matches ends the program exactly if the predicate is declared noexcept and a projection or the conversion to bool throws. The unconditional claims are refuted.", "quantifier": "all user types given by the declarations and behaviour of their constructors and call operators for all value categories, all operand categories", "why_tests_cant": "Needs types whose copy, move and call operators differ in noexcept and in throwing; a wrong specification only shows when an exception is thrown.", "anchors": ["include/mimic++/ExpectationPolicies.hpp: ReturnsResultOf, Throws, SideEffectAction, ApplyAllArgsAction, ApplyArgsAction, expect::arg, finally::returns, returns_result_of, returns_apply_result_of, returns_apply_all_result_of, throws, then::apply_arg, apply_args, apply_all, invoke", "include/mimic++/Matcher.hpp: PredicateMatcher", "include/mimic++/Expectation.hpp: BasicExpectation::consume, finalize_call"]}
{"id": "C94", "title": "Factories leave lvalue operands as they are", "statement": "Every factory of policies and matchers takes lvalues and const operands by copy and moves only from rvalues, so that a variable can be used for several expectations. This holds of all of them but matches::each_element and matches::any_element, which cast the matcher to an rvalue: an lvalue is moved from, and a const operand does not compile.", "quantifier": "all factories, all value categories, all sequences of factories used on one variable", "why_tests_cant": "The tests only pass temporaries to the element matchers.", "anchors": ["include/mimic++/Matcher.hpp: matches::each_element, any_element and the other factories", "include/mimic++/ExpectationPolicies.hpp: factories", "include/mimic++/ExpectationBuilder.hpp: operator&&, detail::make_arg_policy"]}
{"id": "C95", "title": "Which expectation expressions compile", "statement": "For every operand type (any combination of the members the concepts look at, of relations to the times and sequence configurations, of copyability) and category, overload resolution of operator && selects an overload exactly if it can be called and beats all others which can be called. Nothing can be attached to a named or const builder; times and sequence configurations must be temporaries; policies and finalizers may be named if they can be copied, side effects can not; a second finalizer, a second times configuration and InitFinalize are not accepted. Expressions of the library's operands compile exactly if the times and the finalizer occur at most once and a finalizer is there unless the result is void. A type which is a policy and a finalizer is ambiguous until a finalizer is set and a policy from then on, so the order of operands matters (refuted). Mocks whose result can not be moved accept no finalizer of the library, so nothing can be expected of them.", "quantifier": "all operand types and categories, all builder states, all chains of operands, all result types", "why_tests_cant": "Expressions which do not compile can not be run, and the tests use the types of the library only.", "anchors": ["include/mimic++/ExpectationBuilder.hpp: BasicExpectationBuilder::operator &&, finalize", "include/mimic++/Expectation.hpp: expectation_policy_for, finalize_policy_for, ScopedExpectation::ScopedExpectation", "include/mimic++/ExpectationPolicies.hpp: InitFinalize, ReturnsResultOf, Throws, Requirement, SideEffectAction"]}
{"id": "C96", "title": "Matchers of Catch2 as requirements", "statement": "With the matcher integration of the Catch2 adapter, every type derived from Catch2's matcher bases whose match can be called with the parameter is a matcher: its answer is that of match, its text that of describe, and expectations with it accept only calls whose argument it matches. The user's own specialisation of matcher_traits comes before it, a member matches after it; without the integration only members count. That they are fully supported is refuted: they can not be given to each_element and any_element, which call the member matches.", "quantifier": "all types (any combination of bases, members and specialisations), all programs", "why_tests_cant": "The adapter's tests use two matcher types, and only directly as arguments.", "anchors": ["include/mimic++/adapters/Catch2.hpp: mimicpp::custom::matcher_traits", "include/mimic++/Matcher.hpp: matches_hook, describe_hook, matcher_for, range::each_element, range::any_element"]}
{"id": "C97", "title": "Stored builders whose operations are left half-way by an exception", "statement": "Expectation builders may be kept in variables, and finalizing, moving, assigning and extending them may fail at any point, together with all failures of C81. Every such program looks like a program without builders of C81; hence upper limits, applicability by history, the lifetime of sequences and their complaints hold as there, failures count no call, and builders which are no operand stay as they are. finalize: entering the sequences and attaching end the program, between them there is a gap; then only the sequences differ, in the way of the completed finalization, and the builder is used up: finalizing it again is undefined or ends the program. What was left in a sequence blocks everything behind it for ever and makes the sequence complain at its end, if its lower limit is positive. Storing user supplied parts in a further builder ends the program, as the constructor is noexcept. A failed move leaves no new builder and an empty old one; a failed assignment leaves an empty source and a target with mock, limits and sequences of the source and finalizer and requirements partly of each. Refuted: the strong guarantee for moves, and that a target has its old or its new value.", "quantifier": "all programs with any number of builders and failures at any of the modelled places", "why_tests_cant": "The tests never keep a builder while a user supplied move throws; combinations of failures and later behaviour are unbounded.", "anchors": ["include/mimic++/ExpectationBuilder.hpp: BasicExpectationBuilder (constructors, operator =, operator &&, finalize)", "include/mimic++/ControlPolicy.hpp: ControlPolicy::ControlPolicy", "include/mimic++/Expectation.hpp: ScopedExpectation::ScopedExpectation"]}
{"id": "C98", "title": "Watched objects whose Base throws", "statement": "Every constructor, copy, move, assignment and destructor of Base which is not noexcept may throw, at any time in a program with Watched objects; all of C77 stays true of the states after it. Watchers come first: if a watcher ends the function, Base is not reached. A constructor or copy constructor of Base which throws in an object with a lifetime watcher ends the program, since the half-built lifetime watcher is destroyed and nobody can have expected that; without one the exception is seen and nothing has changed. A move constructor of Base which throws: if nobody expects the destruction of the source, the program ends; otherwise the expectation is fulfilled although the object lives on, its later destruction is not reported, and the exception is seen when the expectation has done its part; the relocation watcher of the source is empty and its expectations belong to nobody. An assignment in which Base throws does to the watchers what it does without the exception. A destructor of Base which throws: the destruction is reported once, an unexpected one ends the program, the watchers go in the usual order and the exception leaves when the expectation has done its part. While watchers run, the exception of Base is counted as in flight. Refuted: that failed moves and assignments leave the objects as they were, and that an exception of a constructor can be caught.", "quantifier": "all programs with Watched objects, all Bases, all moments of failure", "why_tests_cant": "The tests have no Base which throws; the consequences depend on the order of the watchers, on expectations and on what happens during the calls.", "anchors": ["include/mimic++/ObjectWatcher.hpp: detail::BasicWatched, Watched", "include/mimic++/ObjectWatcher.hpp: LifetimeWatcher, RelocationWatcher"]}
{"id": "C99", "title": "Matching visits one expectation after the other", "statement": "handle_call visits the expectations of the overload one by one under the mutex of this overload, while other threads call other overloads, whose expectations may share sequences. In all interleavings of these visits: two threads never visit one overload at the same time; a visited expectation is alive and of this overload; a waiting thread waits for a thread which can go on, a call only for its own overload, another operation only if it would change a visited collection. Uninterrupted visits are the one step of C27, and each execution of C27 is one with visits. Counts are exact, counted calls were accepted, and with asserts limits and sequences are respected and calls are counted only for open expectations. The chosen expectation was open at the moment of its visit, and if none is found, each one which accepts the call was closed at its visit. Without sequences there is one moment between begin and end of the call at which the chosen expectation is the newest accepting one which is not saturated, and if the call fails, all accepting ones are saturated at its end. If other threads meanwhile count no call and create no expectation, sequence or reporter, the choice is that of a matching in one go. With sequences there need not be such a moment: a call may fail although it would have succeeded at each moment.", "quantifier": "all numbers of threads, all programs of these threads and all interleavings of their steps, visits included", "why_tests_cant": "the interleavings of the visits of two calls are not controllable from outside and are unbounded in number; the failing schedule needs a call of another thread exactly between two visits", "anchors": ["include/mimic++/Expectation.hpp: ExpectationCollection::handle_call", "include/mimic++/Expectation.hpp: ExpectationCollection::push, remove", "include/mimic++/Sequence.hpp: BasicSequence"]}
{"id": "C100", "title": "Ends of expectations and sequences in programs with several threads", "statement": "An expectation is destroyed after its list has been unlocked, in exactly the step after which it is not alive; then its shared_ptrs to sequences are released one by one. Each release lowers the number of owners of a sequence by one, only new sequences and new expectations raise it, and a sequence is destroyed right after the release of its last owner, in exactly the step which makes this number zero. In programs without undefined behaviour nothing is accessed after its end and everything ends at most once. The mutexes of the overloads and the counters of the shared_ptrs order each end after every access made by matching a call, by a new expectation or by the end of a scope, of any thread, although expectations of several mocks share sequences. The accesses made without a mutex (counting an accepted call, is_satisfied) are ordered before the end if their thread accesses the object once more under a mutex; if their thread uses no mutex and releases nothing until then, they race with the end by another thread.", "quantifier": "all numbers of threads, all programs of these threads and all interleavings, with and without asserts", "why_tests_cant": "which accesses are ordered before a destruction is a property of all interleavings and not visible in results", "anchors": ["include/mimic++/Expectation.hpp: ScopedExpectation::Model::~Model", "include/mimic++/Expectation.hpp: ExpectationCollection::remove, handle_call", "include/mimic++/ControlPolicy.hpp: ControlPolicy::consume, is_satisfied, m_Sequences", "include/mimic++/Sequence.hpp: BasicSequence::~BasicSequence, BasicSequenceInterface"]}
{"id": "C101", "title": "Ends of the lists of expectations in programs with several threads", "statement": "Each overload of a mock and each live expectation owns the list (ExpectationCollection) of its expectations. Every operation releases exactly the owners which disappear: a destroyed mock those of its overloads, the last one first, a move assignment those of the target, the end of a scope that of its expectation after all other events; only new mocks and new expectations add owners, and a new mock owns lists nobody else owns. A list and its mutex are destroyed right after the release of the last owner, in exactly the step which makes their number zero: a mock may be destroyed before its expectations. In programs without undefined behaviour no list or mutex is used after its end, and each ends at most once. Mutexes and counters order the end after every use by any thread, except for uses by a call which found the list empty. Such a call, like any call whose thread keeps silent afterwards while the list is not locked again, races with a destruction of the mock by another thread.", "quantifier": "all numbers of threads, all programs of these threads and all interleavings, with and without asserts", "why_tests_cant": "which uses are ordered before a destruction is a property of all interleavings and not visible in results", "anchors": ["include/mimic++/Expectation.hpp: ScopedExpectation::Model", "include/mimic++/Expectation.hpp: ExpectationCollection", "include/mimic++/Mock.hpp: detail::BasicMock, m_Expectations", "include/mimic++/Mock.hpp: Mock"]}
{"id": "C102", "title": "Programs which synchronise their threads by a mutex of their own", "statement": "If the threads of a program do everything while they hold one and the same std::mutex of the program, and keep it from the matching to the counting of each call, then there is no data race, everything is destroyed after its last use, and the program behaves like one with a single thread: there is such a program with all objects in the same state and the same reports, calls and operations have the results they have there, an accepted call can always be counted, the upper times limit holds with and without NDEBUG, and asserts or other undefined behaviour of the library are met only where they are met there. A single place which is only accessed under one mutex never takes part in a race. One mutex per thread is not enough (calls race and exceed the limit), and neither is a mutex given away between matching and counting (as a reporter could do), which exceeds the limit. Events of different threads are ordered only by an unlock or release of the first thread and a later lock or release of the same object.", "quantifier": "all numbers of threads and mutexes, all programs of these threads and all interleavings, with and without asserts", "why_tests_cant": "absence of data races and equivalence to a single thread are statements about all interleavings", "anchors": ["include/mimic++/Sequence.hpp: Thread-Safety (documentation)", "include/mimic++/Expectation.hpp: ExpectationCollection::handle_call", "include/mimic++/ControlPolicy.hpp: ControlPolicy::consume"]}
{"id": "C103", "title": "Calls of threads with separate mocks do not depend on the schedule", "statement": "If several threads do nothing but calls (with their side effects and finalizers), questions whether an expectation is satisfied and ends of scopes of expectations, no two of them call the same mock, each asks only for and ends only expectations of mocks it calls, and no sequence joins expectations called by different threads, then the threads do not influence each other. Each thread gets exactly the results and causes exactly the reports, side effects and finalizers it would get and cause alone, including calls which terminate the program or are undefined; its expectations, sequences, lists of expectations, handles and counted calls end as they would alone; every interleaving of executions of the single threads is possible; and all interleavings, including the one where the threads run one after another, end with the same objects and the same reports up to the order between threads. The threads touch no memory in common but the installed reporter, which they only read: there are no data races, and no expectation, sequence or list ends while another thread may use it. Whatever the program does later, on any objects, has the same results and reports too; in particular the reports of unfulfilled expectations at the ends of the scopes do not depend on the schedule. All conditions are needed: on a common mock the schedule decides which expectation gets which call, the answers about expectations of other threads depend on the schedule, a call may be rejected because another thread ended the expectation, and with a common sequence a call may be rejected because of a call of another thread.", "quantifier": "all numbers of threads, all reachable states, all programs of calls, questions and scope ends of these threads and all interleavings, with and without asserts", "why_tests_cant": "independence of the schedule is a statement about pairs of interleavings; a test sees one of them", "anchors": ["include/mimic++/Expectation.hpp: ExpectationCollection::handle_call", "include/mimic++/ControlPolicy.hpp: ControlPolicy::consume", "include/mimic++/Sequence.hpp: BasicSequence"]}
{"id": "C104", "title": "What operations touch, and programs with a mutex per object", "statement": "Each operation has a footprint: a call the list of its overload with all expectations there and their sequences; the counting of a call the chosen expectation and its sequences; a new expectation the list and its sequences; a question the expectation; the end of a handle, or an assignment to it, the expectation with its sequences and its list; the end of a Sequence or of a mock, or an assignment to a mock, the sequence or the lists. Besides the installed reporter an operation touches nothing else, a successful one touches all of it (a call need not look at the sequences of expectations which take no further calls), and objects outside it do not change. So a program may use a mutex per object instead of one for all: if whoever may touch an object holds its mutex, there is no data race on the object and it does not end while another thread uses it; the reporter needs no mutex while nobody installs another one. If moreover the mutex of an expectation is kept from the matching to the counting of a call, its upper limit is never exceeded, with or without asserts; and if the mutexes of its sequences are locked and kept, too, an accepted call is always counted, no assert of the counting fails, the program does the same with and without NDEBUG, and the calls counted for a sequence come in its order. It is not enough to lock the mock which is called when a sequence belongs to expectations of several mocks (there is a race, and an accepted call may fail an assert instead of being counted), nor to lock the expectation separately for matching and counting.", "quantifier": "all numbers of threads, all states, all operations, all programs and all interleavings, with and without asserts; all assignments of mutexes to objects", "why_tests_cant": "that an operation touches nothing else, and that no interleaving has a race, are statements about everything that does not happen", "anchors": ["include/mimic++/Expectation.hpp: ExpectationCollection", "include/mimic++/ControlPolicy.hpp: ControlPolicy", "include/mimic++/Sequence.hpp: BasicSequence", "include/mimic++/Mock.hpp: Mock"]}
