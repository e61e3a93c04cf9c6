# Formal model of mimic++ in Rocq — design

Subject: `/repo` (mimic++ at the pinned commit), read as text only. Nothing of it is built or run.
Model and proofs: `/verif/rocq/theories` (Coq 8.16.1, standard library only).
Properties: `/verif/properties.jsonl`. Status and theorem names per property: `/verif/MANIFEST.json`.
Wrong programs tried against the theorems: `/verif/seeded/LOG.jsonl`.

## 1. Shape of the development

Each part of the library has four layers.

* **Model** files contain only executable definitions; each cites file and lines of `/repo` and states its simplifications.
* **Spec** files contain the vocabulary of the statements. They do not use the algorithms of the model.
* **Proof** files contain lemmas.
* **Prop** files contain the property theorems (`Cxx_...`), `Print Assumptions` for each, and `Example`s of concrete programs that
  meet the hypotheses. Theorems ending in `_refuted` give a witness against a plausible user expectation.

| part of the library | model | spec | proofs | theorems |
|---|---|---|---|---|
| vocabulary (outcomes, lists) | `Base` | | `Lib` | |
| Sequence.hpp | `Sequence` | `SeqSpec` | `SeqInv` `SeqEnd` | `PropSeq`: C12 C13 C18 C19 C20 C22 C55 C59 |
| ControlPolicy.hpp | `Control` | | `SeqInv` `CountProofs` | `PropTimes`: C03; `PropCounts`: C01 C02 C06 C24 |
| TypeTraits.hpp, Utility.hpp, overloads of Mock.hpp | `Signature` | `SigSpec` | `SigProofs` | `PropSig`: C29 C30 C31 C32 |
| Expectation.hpp, ExpectationPolicies.hpp | `Expectation` | `CallSpec` | `MatchLemmas` `CallProofs` `OutcomeProofs` `IsolateProofs` | `PropCalls`: C04 C08 C09 C33 C44 C58; `PropUnchanged`: C05 |
| ExpectationBuilder.hpp | `Builder` | `BuildSpec` | `BuilderLemmas` `BuildProofs` | `PropBuild`: C17 C36 |
| choice of the best match | `Expectation` `Sequence` | `SelectSpec` | `SelectProofs` | `PropSelect`: C07 C14 C15 C16 |
| whole single-threaded programs | `World` | `WorldSpec` | `StepCases` `WorldInv` `ObjInv` `History` `PlayProofs` `MoveProofs` `ScopeProofs` | `PropScope`: C10 C11 C34 C35 C48 |
| side effects and finalizers inside of calls | `World` | `FrameSpec` | `FrameProofs` | `PropFrames`: C21 C23 C25 C26 C33 |
| several threads | `Conc` | `ConcSpec` | `ConcProofs` `ConcOrder` | `PropConc`: C27 C28; `PropConcOrder`: C82 |
| the same, visit by visit (handle_call) | `Visits` | | | `PropVisits`: C99 |
| destruction of expectations and sequences in several threads | `Lifetime` | `LifetimeSpec` | `LifetimeProofs` `LifetimeOrder` | `PropLifetime`: C100 |
| destruction of the lists of expectations in several threads | `Colls` | `CollsSpec` | `CollsProofs` `CollsOrder` | `PropColls`: C101 |
| threads with mutexes of the program | `Guarded` | `GuardedSpec` | `GuardedProofs` | `PropGuarded`: C102 |
| independence of the schedule | (`Conc`) | `ScheduleSpec` | `ScheduleProofs`, `ScheduleAfter`, `ScheduleRaces` | `PropSchedule`: C103 |
| footprints, and a mutex per object | (`Guarded`) | `FootSpec` | `FootProofs` | `PropFoot`: C104 |
| reporters which use mocks (Reporter.hpp, Expectation.hpp) | `Reentrant` | `ReentrantSpec` | `ReentrantProofs` | `PropReentrant`: C83 |
| memory accesses and mutexes of the threads | `Race` | `RaceSpec` | `RaceProofs` `RaceFree` `LockProofs` | `PropRace`: C67 C68 |
| Printer.hpp, texts of Reports.hpp and Reporter.hpp | `Printer` `Reports` | `TextSpec` `LineSpec` | `TextProofs` | `PropText`: C45 C46 C47 C60; `PropLines`: C60 |
| choice of the printer (Printer.hpp), string_traits | `Dispatch` | `DispatchSpec` | `DispatchProofs` | `PropDispatch`: C69 C70 |
| Reporter.hpp | `Reporter` | | | `PropReporter`: C49 |
| adapters/*.hpp, lifetime of the reporter (Reporter.hpp) | `Adapter` | | | `PropAdapter`: C73 C74 |
| operator== of reports (Reports.hpp), is_same_source_location (Utility.hpp) | `Equality` | | | `PropEquality`: C75 |
| whole tests (setup, body, end) and whole programs over `World` | | `TestSpec` | `TestProofs`, `ProgramProofs` | `PropTests`: C76 |
| further single functions (`Strings`/`Dispatch`, `Overload`, `Control`) | | | | `PropPrimitives`: C70 C71 C72 |
| overload resolution (Mock.hpp, ExpectationBuilder.hpp) | `Overload` | `OverloadSpec` | `OverloadProofs` | `PropOverload`: C71 |
| contracts of Sequence.hpp and ControlPolicy.hpp | `Sequence` `Control` `Conc` | `UnitSpec` | `UnitProofs` | `PropUnits`: C72 |
| Matcher.hpp, String.hpp | `Matcher` `Strings` | `MatchSpec` `FormatSpec` | `MatchProofs` `FormatProofs` | `PropMatcher`: C37–C43 C56 C61–C65 |
| ObjectWatcher.hpp | `Watcher` | `WatchSpec` | `WatchProofs` `WatchSteps` | `PropWatcher`: C50 C51 C52 |
| Watched (ObjectWatcher.hpp) | `Watched` | | | `PropWatched`, `PropOwned`: C77 |
| the same, Base throws (ObjectWatcher.hpp) | `Watched` | | | `PropWatchedFailing`: C98 |
| everything of `World` once more, without counters, cursors, entry states, collections | `World` | `Reference` | `RefProofs` | `PropReference`: C78 |
| matching once more, with user code that has a state of its own | `Stateful` | | `StatefulProofs` | `PropStateful`: C79 |
| expectation policies written by the user (Expectation.hpp, ExpectationBuilder.hpp) | `Custom` | | `CustomProofs` | `PropCustom`: C87 |
| reporters with a state of their own (Reporter.hpp and its callers in Expectation.hpp, Sequence.hpp) | `Recorder` | | `RecorderProofs` | `PropRecorder`: C88 |
| addresses of sequences (Sequence.hpp, ControlPolicy.hpp, Expectation.hpp) | `Sequence`, `Control`, `Expectation` | | | `PropTags`: C89 |
| strings and case folding of the user's own, unicode backend (String.hpp, Matcher.hpp) | `Folding` | | | `PropFolding`: C90 |
| template specialisations, as data (TypeTraits.hpp, Call.hpp, Mock.hpp) | `Specialise` | | | `PropSpecialise`: C91 C92 |
| conditional noexcept, operands of factories (ExpectationPolicies.hpp, Matcher.hpp) | `Operands` | | | `PropOperands`: C93 C94 |
| operator && on any operand type, the policy concepts (ExpectationBuilder.hpp, Expectation.hpp) | `Conjoin` | | | `PropConjoin`: C95 |
| matcher_traits for Catch2's matchers (adapters/Catch2.hpp, Matcher.hpp hooks) | `Foreign` | | | `PropForeign`: C96 |
| builders as objects of whole programs (ExpectationBuilder.hpp) | `Builders` | | `StoredProofs` | `PropStored`: C80 |
| operations left half-way by an exception (ExpectationBuilder.hpp, Expectation.hpp, ControlPolicy.hpp) | `Failing` | | `FailProofs` | `PropFailing`: C81 |
| the same with builders as objects (ExpectationBuilder.hpp) | `FailingBuilders` | | `FailBuildProofs` | `PropFailingBuilders`: C97 |
| arguments which can not be printed (Reports.hpp, Expectation.hpp) | `Printing` | | | `PropPrinting`: C84 |
| ScopedExpectation::from (Expectation.hpp) | `Handle` | | | `PropHandle`: C85 |
| whole programs acting on objects (Mock.hpp, Expectation.hpp, ExpectationPolicies.hpp) | `Objects` | `ObjectSpec` | `ObjectProofs` | `PropObjects`: C86 |
| actions on objects (ExpectationPolicies.hpp, Call.hpp) | `Actions` | `ActionSpec` | `ActionProofs` | `PropActions`: C53 C54 C66 |
| InterfaceMock.hpp and the preprocessor | `Macro` | `MacroSpec` | `MacroLemmas` `MacroProofs` `MacroLists` `MacroPublic` | `PropMacro`: C57 |

`Scenario` executes concrete programs for examples and witnesses. `TestsOfRepo`, `UnitTests` and `ExamplesOfRepo` validate the model (section 2).

Conventions

* Undefined behaviour, `std::terminate` and thrown exceptions are distinct outcomes, never assumed away. A failed `assert` is counted
  as undefined behaviour (that is what it is with `NDEBUG`); `Conc.v` also models release builds, where the asserts are absent.
* `int` is `Z`. The arithmetic which could overflow (`++m_Count`, `numeric_limits<int>::max() - (index - cursor)`, `rating += ±1`) has an
  explicit overflow outcome or is shown to stay in range.
* A program is a list of public operations (`op`), executed by `step : world -> op -> result`. User code (matchers, projections,
  describers, side effects, finalizers, reporters) is an arbitrary function or an arbitrary list of further operations.
* A call is split into *begin* (matching, report, counting), side effects and *finalizer*. Between these steps any other public operation
  may occur; this over-approximates what side effects and finalizers can do.
* "In every history" always means: for every finite list of operations from the initial state, without bound.

## 2. Trusted base

* Coq's kernel (8.16.1).
* `Print Assumptions` stands under each property theorem. Result for all of them: *Closed under the global context*.
  No axiom of the standard library is used by any theorem.
* `coqchk`/the gate list seven constants `Coq.ssr.ssrunder.Under_rel.*`. They belong to a module type of the standard library which is
  loaded with `ssreflect`-aware tactics; no theorem depends on them.
* The reading of `/repo` as documented in the comment at each definition. It was cross-checked: `TestsOfRepo` and `UnitTests` transcribe inputs
  and expected results of the unit tests (Sequence, ControlPolicy, TypeTraits, Printer, Reports, ExpectationPolicies, Matcher and
  matchers/*.cpp; Expectation, ExpectationBuilder, Mock, ObjectWatcher, Reporter), and
  `ExamplesOfRepo` the programs of `/repo/examples` with the expectations which take their calls; the model computes all of them. No
  claim rests on these three files.

## 3. What is not modelled, and simplifications

General

* Allocation failure, object layout, iostream state (writing to the stream does not fail or throw), locale facets.
* Compile-time errors other than those explicitly modelled (overload sets, builder clauses, argument matchers, conversions of results).
* `volatile`, C-style variadic signatures (the library's own traits are a hard error for them).
* What `std::format` writes for types other than integers and `bool`, and what user specialisations of `custom::Printer` write, is given as text (`VText`). CMake files.
* Matchers and descriptions do not modify library state (they run while the collection's mutex is held). In `World` they are functions; `Stateful` lifts this: there they may have a state of their own, and C79 shows that each call is one of `World` with the answers as constants.
* `Custom` adds policies of the user's own. They are given beside the world, one list per expectation. `matches` and `describe` may change the user's state, `is_satisfied` reads it; `consume` is a numbered piece of user code like a side effect; the state may also change between any two operations. Such policies do not use mimic++ themselves.

Sequences, expectations, programs (`Sequence` … `World`)

* Sequence tags (addresses) are numbers never used twice. C89 proves that any assignment of addresses which distinguishes the sequences existing at the same time gives the same results.
* A reporter is a function of the report and the number of exceptions in flight to *returns / throws / terminates*. `Recorder` adds a state of the reporter's own, which each callback may read and change and which may also change between any two operations; a callback does not use mimic++ itself.
* `World` only knows whole expressions; `Builders` adds builders which are kept in variables. The order in which a builder ends several
  sequences is open in C++; the model takes the order of their declaration.
* In `World` exceptions come from operands, matchers, finalizers and the reporter; `Failing` adds allocations and constructors of user types.
  There an expectation which never came to exist, but has entered a sequence, keeps a number; its source location, signature and requirements
  are fillers nobody reads. Throwing
  printers of arguments are in `Printing`. In `FailingBuilders` a part whose move throws keeps its value, and the elements of a tuple are
  assigned in their order.
* `finalize_policy_for`: the convertibility of the finalizer's result is only modelled in `Actions.v`.
* In `World` report and count of a matched call are one step, i.e. the reporter uses no mocks; `Reentrant` lifts this for the report of a
  full match. Callbacks which run under the mutex (unhandled exceptions, unfulfilled expectations) use no mocks (C68 tells what happens if
  they do); the remaining ones end their operations.
* A function given to `returns_result_of` (or a sibling) may end the scope of its own expectation, since nothing uses the expectation afterwards; whether that function still uses its own state is not modelled. For `returns` and `throws` `legal` excludes it (only conversions of the result could do it).

Threads (`Conc`)

* Steps (matching under the lock; report and count; everything else) are atomic and sequentially consistent. `Visits` splits the
  matching: acquiring the mutex, each visit of an expectation, and choosing are steps of their own. One visit (the state of the sequences
  of one expectation and the answers of its policies) stays atomic; `Race` says which of its accesses are data races.

* `Race` refines the steps to accesses and mutex operations. Construction of objects is not listed, and the ends of expectations and sequences
  only in `Lifetime`, those of the lists of expectations only in `Colls` (with the counters of the shared_ptrs; copying a shared_ptr orders nothing);
  one place stands for all members of a sequence.

Texts, reporters (`Printer`, `Reports`, `Reporter`)

* `vformat` reads replacement fields with and without an index, escaped braces and all errors; a format specification which is not empty (`{:>5}`) is left open (an undefined outcome) unless its argument does not exist, which is the case for every description given to `matches::predicate`. `typeid` names are a parameter.
* The source location inside `Error` of unfulfilled and message errors is omitted (the code leaves it to the default argument).

* `Equality`: the strings of `std::source_location` are immutable and valid; a memory maps their addresses to their contents.
* `PropTests`: a test is a setup, a body without new or ended expectations and an end without calls; expectations which were destroyed
  during the setup still count.
* `Dispatch`: a type is the list of answers to the constraints; compile errors of the element types of empty ranges are not modelled.

* `Adapter`: a test framework is a function from the used macro and its text to *returns / throws / terminates*. For the end of the
  program only objects whose destructors report are considered.

Overload resolution (`Overload`)

* Convertibility, ranking of conversions, string traits and convertibility to a source location are parameters. Object expressions are
  not volatile. The second half of `requirement_for` (the matcher accepts the parameter) is assumed.

Templates (`Specialise`)

* Of class template specialisation only what these headers need: patterns are equal up to return type and parameters, the general
  specialisations are less special; a substitution failure in a base clause ends the compilation. In C92 parameter types are distinguished
  only by const, reference and `std::reference_wrapper`.

Matchers (`Matcher`, `Strings`)

* `toupper` of the "C" locale; `wchar_t` has 32 bit; `UbDomain` for wrong matcher arity means "does not compile".

Watchers (`Watcher`)

* Source locations inside of special member functions are parameters. In `Watched` the special members of Base are not observable, but may throw; Base is reached after all watchers, and has no other effect.

Actions (`Actions`)

* Objects are never removed from memory; parameters are initialised left to right; copies and moves do not throw; types agree up to cv/ref.
* `Objects`: requirements look at the values of the arguments (as in `World`); conversion of the result is checked when the call returns.

Macros (`Macro`)

* No white space, only identifiers are pasted, all arguments are expanded first, user macros are absent. For the nesting rule that
  [cpp.rescan] leaves unspecified, the choice common to GCC, Clang and MSVC is taken.

## 4. Proof ideas

| id | idea |
|---|---|
| C01 C02 C06 C24 | invariant: stored count = number of full-match reports in the trace; induction over the history |
| C03 | case analysis, `lia` |
| C04 C05 C08 C09 C44 C58 | refinement of the matching loop to three filters over the live expectations |
| C07 C14 C15 C16 | fold invariants over the candidates; witnesses |
| C10 C11 C18 C19 C22 C59 | invariants over traces: entry state ⇔ history count; reference counts |
| C12 C13 C20 | main invariant relating cursor/entry states to history counts |
| C17 C36 | sort + adjacent-unique = `NoDup`; induction over clause lists |
| C21 C23 C25 C26 | stack invariant of running calls; witness for the dangling reference |
| C27 C28 | witness schedules; simulation for serialised schedules |
| C82 | the invariant of sequences and counters holds in all interleavings with asserts; runs without asserts are compared step by step |
| C83 | each callback is simulated by a further thread of `Conc` |
| C67 | a list is only accessed inside of its critical section; two critical sections are ordered, accesses outside are not |
| C68 | every thread is plain: locks one mutex at a time; the thread holding the highest mutex can always run |
| C29–C32 | case analysis over qualifiers, induction over signature lists |
| C33 C34 C35 | step analysis; bisimulation for moves |
| C37–C43 C56 C61–C65 | induction over lists; specifications by `exists`-splits, `Permutation`, `Forall2` |
| C45–C47 C60 | structural induction, injectivity of decimal printing |
| C69 C70 | case analysis over traits; fuel-indexed printing equals an inductive spec; well-founded induction over parts |
| C71 | `best viable` as a unique maximum; at most one function per preference class; permutation invariance |
| C72 | case analysis; induction over operation histories |
| C73 C74 | case analysis; reverse induction over initialisation events |
| C75 | each comparison against equality of the contents read through the memory |
| C76 | invariant: the distribution made so far (for whole programs: the counts of all expectations equal those of the distribution); uniqueness of the distribution; decision procedures for the examples |
| C48 C49 | induction over histories; case analysis of reports |
| C50–C52 | invariants over histories of special member functions |
| C77 | special member functions as resumable lists of operations of the watchers; every program of Watched objects is one of watchers; invariant: the objects and the pending special member functions own the watchers disjointly |
| C78 | forgetting the data structures is a bisimulation between `World` and a reference machine that computes everything from declarations and reports |
| C79 | the user code is frozen to its answers (each operation on a world with other constants), and logs its questions |
| C87 | the invariant of `World` without its policies is kept by every step; the matching loop is described by relations over the user's state |
| C88 | for the state of the reporter at the start of an operation there is a stateless reporter answering as it will, because the reports of one operation are of different kinds or answered alike; the answers are collected in a fixed reporter and the step is replayed |
| C89 | ratings of candidates only name sequences of live expectations; induction over the loops comparing tags |
| C90 | the algorithms decide prefix, suffix and part of lists; encodings are cut at leading units only |
| C91 C92 | evaluation for all qualifiers with symbolic return types and parameters; induction over signature lists |
| C93 C94 | every function is a row of uses of user functions under a declaration; honest declarations change nothing |
| C95 | viable overloads as a relation; the list-based choice of the best one is that of the relation |
| C96 | case analysis over the hooks; programs by C44 |
| C80 | every step with builders is imitated by steps of `World` on a twin, which keeps moved and destroyed mocks reachable under other names |
| C81 | the invariant of `World` also holds with dead, undescribable entries; failing operations are such changes or none |
| C97 | the twin of C80, now a program of `Failing`; a half-assigned builder is again one an expression could have built |
| C98 | a function in which Base throws is the plan of the ordinary one with its end replaced; unwinding one watcher after the other |
| C99 | a visiting thread has not begun its call in `Conc`, so its invariants hold; induction over the steps between begin and end of the call |
| C100 | a sequence is dead iff nobody owns it; an expectation which was alive after an access is ended later under its mutex, and its release of the sequence comes before the last one |
| C101 | the owners are counted; an expectation which a call found releases its list later, after the mutex the call had locked; a list nobody owns is never used again |
| C102 | at most one call is between matching and counting, so the execution is serialised (C28); between two holders of a mutex there is an unlock and a lock |
| C103 | a relation between an execution and that of one thread alone: they agree on the objects of the thread, whose steps correspond; steps of other threads change no object of it, and every place belongs to one thread |
| C104 | every event of a step is one of its footprint (events function by function), and conversely; case analysis of the changes of a step; the limits by an invariant: the expectation of a call which is not counted yet is locked by its thread and below its limit; with the sequences, that it is alive and applicable, which the steps of other threads leave alone by the footprints |
| C53 C54 C66 | memory model, frame lemmas |
| C86 | every operation is one of `World`; frames, arguments and attached functions are kept in parallel; a stored object stays hidden |
| C55 | boundary lemma |
| C57 | execution of the expansion with symbolic lists; big-step rules over an uncounted fuel |

## 5. Findings in the library

Proved as theorems (usually `_refuted`):

* The number in "Unfulfilled sequence. K out of N" is the length of the satisfied prefix, not the number of satisfied expectations (C19).
* Exhausting the ids of a sequence throws inside a `noexcept` function and terminates (C55).
* An unfulfilled sequence is destroyed by a `shared_ptr`; a throwing reporter terminates the program (C59).
* Case-insensitive matching of non-ASCII `char` is undefined (`toupper` of a negative value) (C41).
* With foldings which change the length, `contains("s", case_insensitive)` accepts a sharp s (C90).
* Move assignment of a `LifetimeWatcher` loses the report of the overwritten object (C51).
* Moved-from mocks and relocation watchers are null dereferences, e.g. in `std::swap(a, a)` (C34, C52).
* An expectation expression which throws may already have moved from its operands (C86).
* Sequences do not see policies of the user: an expectation reported as unfulfilled because of such a policy does not keep its successors waiting, and the report says it is saturated (C87).
* Move assignment of a `ScopedExpectation` holding an unfulfilled expectation terminates (C35).
* Strings are printed without escaping, so different ranges of strings print equally (C45).
* A description that throws terminates the program while matching, and replaces the report at scope end (C10, C11, C58).
* "No expectations available." is printed although expectations exist, if all of them threw (C58).
* `each_element`/`any_element` bypass `custom::matcher_traits` for matching, but not for describing (C63).
* Matchers of Catch2 can not be given to `each_element`/`any_element`, although the integration claims full support (C96).
* `has_better_rating` is no order for candidates with different sets of sequences (C16).
* Ending an expectation's scope inside of its own side effect leaves a dangling reference (C25).
* `consume` runs outside of the lock: limits are exceeded by concurrent calls (C27).
* Without asserts concurrent calls also violate the order of sequences; with asserts concurrent calls may still not be equivalent to any order
  of these calls (C82).
* The count of an accepted call is written after the mutex was released, so the end of the scope in another thread is not ordered
  after it by the library: both threads must be synchronised by the program (C100).
* A call which finds no expectation (and is reported) is not ordered before the destruction of the mock by another thread (C101).
* With sequences shared between mocks a call may fail although it would succeed at every moment: the mutex protects the expectations of
  one overload only, and a call of another mock moves the sequence on between two visits (C99).
* The same happens without threads: a reporter which calls the mock from `report_full_match` exceeds the limit (C83).
* Counters and sequences are accessed outside of the mutex: two concurrent calls on one mock always race, so do two mocks with a
  common sequence, `is_satisfied`, and the installation of a reporter (C67).
* Matchers and some reports run under the mutex: calling the mock from there is undefined, crossed calls deadlock (C68).
* A null `const char*` argument is undefined even if matched by a wildcard (C61).
* `eq(pair)`/`eq(tuple)` are unpacked by class template argument deduction (C65).
* A predicate description with braces is a malformed format string and throws; `instance` of a `char` reads a C string (C64).
* Patterns given as arrays, views or lvalue ranges are kept by reference (C62).
* `std::filesystem::path` contains itself as a range: printing it, so every call with a path, recurses without end (C69).
* A mock with a `std::reference_wrapper<T>` parameter cannot be called, since `std::ref` collapses (C92).
* Arrays of anything but characters can not be printed, so mocks with such parameters can not be called (C69).
* Character arrays and byte buffers without a terminating zero are read beyond their end when printed (C70).
* `expect_call` does not rank the conversions of its arguments: for `Mock<void(int), void(double)>` `expect_call(42)` is ambiguous; for
  `Mock<void(std::string), void(std::any)>` expectation and call with a `string_view` silently use different overloads (C71).
* A signature with a trailing `const std::source_location&` collides with the defaulted parameter of a shorter one (C71).
* gtest's adapter drops reports of unhandled exceptions (C73).
* There is no backtracking: calls which could be distributed to the expectations fail the test if an expectation which does not need a
  call takes it (lazy, greedy and without sequences; C76).
* The text of a report does not determine the report: undescribed requirements and counts of applicable expectations are not printed (C75).
* Unfulfilled static expectations terminate the program or use the destroyed reporter, depending on the first use of the reporter (C74).
* A `BasicReporter` whose success callback throws terminates; one whose fail callback returns is undefined (C49).
* `returns(v)` with a reference as result exposes the stored object; `returns_arg` by reference of a by-value parameter dangles (C54).
* The mock macros keep the parentheses around types in the mock's signature; the for-each capacity is exactly 86 (C57).
* `MIMICPP_DETAIL_MAKE_OVERLOAD_INFOS_BASIC` is never selected; a comma between specifiers makes the second specifier the name of the
  macro which is called; names whose last token is no identifier (`operator()`, `operator+`) cannot be mocked by the macros (C57).
* A refused move of a `Watched<Base, LifetimeWatcher, RelocationWatcher>`, whose Base has a move that may throw, destroys the lifetime
  watcher built so far. That call uses up the expected destruction, or ends the program if none is expected. With the watchers in the
  other order nothing changes (C77). In the same way a refused move assignment replaces the identity of the target (C77).
* If the moves of Base are deleted but its copies are not, `Watched<Base>` can be moved: the move is a copy, and the `RelocationWatcher` never
  reports (C77).
* A dropped `expect_destruct` builder leaves the flag set, so a later one throws although no expectation exists (C50).
* A call asks the matchers of all expectations, also of exhausted ones and after one has been found: matchers with a state see more questions
  than accepted calls (C79).
* `finalize` and `in_sequence` copy the sequences: a builder variable, although used up, keeps them alive, and an unfulfilled sequence complains
  (or ends the program) when the variable ends (C80).
* A declaration which fails after its control policy was created leaves an orphan entry in its sequences: expectations which enter them
  later can never be called, and the sequences complain at their end. The strong exception guarantee does not hold (C81).
* The constructor of `BasicExpectationBuilder` is noexcept, although it copies and moves user supplied matchers, actions and finalizers: an
  exception from such a copy in `and policy` ends the program (C81, C97).
* A failed move assignment of builders leaves a builder with mock, limits and sequences of one and finalizer or requirements of the other;
  a failed finalization uses the builder up (C97).
* A constructor or copy constructor of Base which throws in a `Watched<Base, LifetimeWatcher>` ends the program. A throwing move constructor
  ends it too, or fulfils the expectation of the destruction of an object which lives on and is not watched any more; the relocation watcher of
  the source is empty afterwards, and the next move is undefined (C98).
* `returns_result_of` is declared noexcept by the type of its operand, but calls an lvalue; factories are declared noexcept by the copy of
  an lvalue, but also move; `PredicateMatcher::matches` by the predicate alone. With unusual user types exceptions end the program (C93).
* `each_element(m)` and `any_element(m)` move from the lvalue `m`, and do not compile for const matchers (C94).
* A type which is a policy and a finalizer is ambiguous until the finalizer is set, so the order of operands matters; nothing can be expected
  of mocks whose result can not be moved; `std::is_constructible<ScopedExpectation, Builder>` holds although finalize does not compile (C95).
* An exception while an unfulfilled expectation is reported loses the report: the expectation is already removed (C81).

