(** * Adapter: model of the four test framework adapters /repo/include/mimic++/adapters/*.hpp, and of the lifetime of the installed reporter
    (get_reporter, install_reporter and ReporterInstaller, Reporter.hpp 536-545, 624-655). *)

From Verif Require Import Base Signature Sequence Control Printer Reports Expectation World Reporter.
Local Open Scope string_scope.

Inductive adapter : Type := Catch2 | Doctest | BoostTest | GTest.

(** What the frameworks offer: failing, succeeding, warning, writing a message to the log. Which macro of the framework provides it:
    - Catch2.hpp 23-51: FAIL, SUCCEED, WARN (with or without prefix);
    - Doctest.hpp 23-38: DOCTEST_FAIL, DOCTEST_REQUIRE_MESSAGE(true, ...), -, DOCTEST_MESSAGE;
    - BoostTest.hpp 25-43: BOOST_TEST_FAIL, -, -, BOOST_TEST_MESSAGE;
    - gtest.hpp 25-46: GTEST_FAIL, GTEST_SUCCEED.
    The frameworks themselves are not modelled, only that they are handed a text and how the macro is left. *)
Inductive facility : Type := FFail | FSucceed | FWarn | FMessage.

(** The functions send_success, send_warning and send_fail of each adapter: what is handed to the framework. *)
Definition adapter_uses (a : adapter) (ch : channel) (msg : string) : list (facility * string) :=
  match a, ch with
  | _, ChFail => [(FFail, msg)]                             (* Catch2.hpp 24-33, Doctest.hpp 24-28, BoostTest.hpp 26-30, gtest.hpp 26-36 *)
  | Catch2, ChSuccess => [(FSucceed, msg)]                  (* Catch2.hpp 35-42 *)
  | Catch2, ChWarning => [(FWarn, msg)]                     (* Catch2.hpp 44-51 *)
  | Doctest, ChSuccess => [(FSucceed, msg)]                 (* Doctest.hpp 30-33 *)
  | Doctest, ChWarning => [(FMessage, msg)]                 (* Doctest.hpp 35-38 *)
  | BoostTest, ChSuccess => [(FMessage, msg)]               (* BoostTest.hpp 32-35 *)
  | BoostTest, ChWarning => [(FMessage, "warning: " ++ msg)]  (* BoostTest.hpp 37-43 *)
  | GTest, ChSuccess => [(FSucceed, msg)]                   (* gtest.hpp 38-41 *)
  | GTest, ChWarning => []                                  (* gtest.hpp 43-46: "seems unsupported" *)
  end.

Section Adapters.
  (** How the macros of the framework are left. *)
  Context (fw : facility -> string -> reaction).

  (** How these functions are left. If FAIL returns, gtest's send_fail throws [failure{}] (gtest.hpp 35); the others run into unreachable()
      (Catch2.hpp 32, Doctest.hpp 27, BoostTest.hpp 29), which is the same as returning into the unreachable() of BasicReporter::send_fail
      (Reporter.hpp 396-403). *)
  Definition adapter_callback (a : adapter) (ch : channel) (msg : string) : reaction :=
    match adapter_uses a ch msg with
    | [] => Returns
    | (f, m) :: _ =>
        match fw f m, a, ch with
        | Returns, GTest, ChFail => Throws
        | r, _, _ => r
        end
    end.

  Context (type_name : ty -> string) (what_of : exn -> option string).

  (** Catch2ReporterT, DoctestReporterT, BoostTestReporterT and GTestReporterT: BasicReporter with these callbacks (Catch2.hpp 70-74,
      Doctest.hpp 51-55, BoostTest.hpp 56-60, gtest.hpp 59-63). *)
  Definition adapter_report (a : adapter) (r : report) (uncaught : nat) : list (facility * string) * left_by :=
    let '(calls, lft) := basic_report type_name what_of (adapter_callback a) r uncaught in
    (flat_map (fun '(ch, msg) => adapter_uses a ch msg) calls, lft).
End Adapters.

(** ** Lifetime of the reporter *)

(** What happens in a program up to the start of its termination, as far as the reporter is concerned: an adapter's [installer] object is
    initialised (Catch2.hpp 79, Doctest.hpp 60, BoostTest.hpp 65, gtest.hpp 68; ReporterInstaller, Reporter.hpp 644-654); a user installs a reporter; an object with static
    storage duration is constructed whose destructor reports if something is missing ([quiet]: nothing is missing at the end), that is an
    expectation (Expectation.hpp 276-289) or a sequence (Sequence.hpp 94-108); something is reported. *)
Inductive life : Type :=
| LInstaller (a : adapter)
| LInstall (a : adapter)
| LStatic (quiet : bool)
| LReport.

(** Objects with static storage duration in the order their constructors completed. *)
Inductive static_object : Type :=
| StReporter                              (* the local static of get_reporter, Reporter.hpp 541-543 *)
| StChecked (quiet : bool).

(** [lf_reporter]: [None] as long as get_reporter was not called; [Some None] is the DefaultReporter. *)
Record lifetime : Type := mkLife {
  lf_reporter : option (option adapter);
  lf_statics : list static_object
}.
Definition life0 : lifetime := mkLife None [].

(** get_reporter(), Reporter.hpp 538-545: initialised by the first call. *)
Definition get_reporter (l : lifetime) : lifetime :=
  match lf_reporter l with
  | Some _ => l
  | None => mkLife (Some None) (lf_statics l ++ [StReporter])
  end.

(** install_reporter, Reporter.hpp 634-640. *)
Definition install (l : lifetime) (a : adapter) : lifetime := mkLife (Some (Some a)) (lf_statics (get_reporter l)).

(** Constructing an expectation or a sequence does not touch the reporter (Expectation.hpp 605-616, 653-664). *)
Definition live (l : lifetime) (e : life) : lifetime :=
  match e with
  | LInstaller a | LInstall a => install l a
  | LStatic f => mkLife (lf_reporter l) (lf_statics l ++ [StChecked f])
  | LReport => get_reporter l
  end.

(** Termination of the program: the objects are destroyed in reverse order. Destroying an unfulfilled expectation or sequence reports it
    (Expectation.hpp 276-289, 600-603, 641-645; Sequence.hpp 94-108): all reporters of the library leave this by an exception, as no other exception is in flight, and an exception leaving
    the destructor of a static object ends in std::terminate. If the reporter does not exist yet, get_reporter creates the DefaultReporter;
    if it is already destroyed, its use is undefined. *)
Inductive ending : Type := Clean | Terminated | Broken (u : ub).
Fixpoint end_statics (dead : bool) (objs : list static_object) : ending :=
  match objs with
  | [] => Clean
  | StReporter :: rest => end_statics true rest
  | StChecked true :: rest => end_statics dead rest
  | StChecked false :: rest => if dead then Broken UbDangling else Terminated
  end.
Definition terminate_program (l : lifetime) : ending := end_statics false (rev (lf_statics l)).
