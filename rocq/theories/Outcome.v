(** Results of running C++ code: normal return, exception, failed assertion,
    undefined behaviour.  The vector accessors used by the code are modelled
    with their C++ failure modes. *)
From Coq Require Export List Arith ZArith Lia Bool.
Export ListNotations.

(** The C++ exception types that can leave the modelled code.
    [OutOfRange] is [std::out_of_range], thrown by [std::vector::at].
    [RuntimeError] is the [std::runtime_error] of /repo/src/RustFFI.cpp:205.
    [CallbackException] is whatever a user callback throws at
    /repo/src/SwerveTrajectoryGenerator.cpp:60.  [BadAlloc] is [std::bad_alloc] or
    [std::length_error], thrown by a container that cannot grow, e.g. at
    /repo/src/path/SwervePathBuilder.cpp:206-209. *)
Inductive exn : Type :=
| OutOfRange
| RuntimeError
| CallbackException
| BadAlloc.

(** Undefined behaviours the modelled code can reach. [front]/[back]:
    /repo/include/trajopt/util/GenerateLinearInitialGuess.hpp:33-38; [operator[]]:
    /repo/src/SwerveTrajectoryGenerator.cpp:300-340,
    /repo/include/trajopt/trajectory/HolonomicTrajectory.hpp:42-48; division:
    GenerateLinearInitialGuess.hpp:47; indeterminate mass and moi:
    /repo/include/trajopt/drivetrain/SwerveDrivetrain.hpp:20-22; an object used after its
    lifetime: /repo/src/SwerveTrajectoryGenerator.cpp:58-59. *)
Inductive ub : Type :=
| EmptyAccess     (* front()/back() of an empty vector *)
| IndexUnchecked  (* operator[] past the end *)
| DivByZero       (* integer division by zero *)
| Uninitialized   (* reading an indeterminate value *)
| Dangling.       (* using an object after its lifetime *)

(** How a call ends: /repo/include/trajopt/path/SwervePathBuilder.hpp:124-147 is a
    typical method with all of a normal return, a throwing [at] and an [assert].
    *)
Inductive outcome (A : Type) : Type :=
| Ok (a : A)
| Throw (e : exn)
| AssertFail          (* assert() failed: the process aborts *)
| Undef (u : ub)
| OutOfFuel.          (* model artefact; theorems show it is never produced *)
Arguments Ok {A} _.
Arguments Throw {A} _.
Arguments AssertFail {A}.
Arguments Undef {A} _.
Arguments OutOfFuel {A}.

(** Sequencing of C++ statements, e.g.
    /repo/src/SwerveTrajectoryGenerator.cpp:40-272: anything but a normal return
    ends the call. *)
Definition obind {A B} (m : outcome A) (f : A -> outcome B) : outcome B :=
  match m with
  | Ok a => f a
  | Throw e => Throw e
  | AssertFail => AssertFail
  | Undef u => Undef u
  | OutOfFuel => OutOfFuel
  end.

Declare Scope outcome_scope.
Delimit Scope outcome_scope with outcome.
Notation "x <- m ;; k" := (obind m (fun x => k))
  (at level 61, m at next level, right associativity) : outcome_scope.
Open Scope outcome_scope.

(** [std::vector::at]: bounds-checked. Used e.g. at
    /repo/src/SwerveTrajectoryGenerator.cpp:103-104, 110-120, 149-168. *)
Definition at_ {A} (l : list A) (i : nat) : outcome A :=
  match nth_error l i with Some a => Ok a | None => Throw OutOfRange end.

(** [std::vector::operator[]]: unchecked. Used at
    /repo/src/SwerveTrajectoryGenerator.cpp:300-340 and
    /repo/include/trajopt/trajectory/HolonomicTrajectory.hpp:42-48. *)
Definition idx {A} (l : list A) (i : nat) : outcome A :=
  match nth_error l i with Some a => Ok a | None => Undef IndexUnchecked end.

(** [std::vector::front] / [back]. [front]:
    /repo/include/trajopt/util/GenerateLinearInitialGuess.hpp:33-38, 51, 55, 58.
    *)
Definition front {A} (l : list A) : outcome A :=
  match l with a :: _ => Ok a | [] => Undef EmptyAccess end.
(** [back]: /repo/include/trajopt/util/GenerateLinearInitialGuess.hpp:50-57,
    95-107; /repo/src/path/SwervePathBuilder.cpp:42. *)
Definition back {A} (l : list A) : outcome A :=
  match rev l with a :: _ => Ok a | [] => Undef EmptyAccess end.

(** [size_t] division; division by zero is undefined behaviour. Used at
    /repo/include/trajopt/util/GenerateLinearInitialGuess.hpp:47. *)
Definition udiv (a b : nat) : outcome nat :=
  match b with O => Undef DivByZero | S _ => Ok (a / b) end.

(** A C++ loop over a list of loop-variable values, threading a state. Used for
    the for-loops of /repo/src/SwerveTrajectoryGenerator.cpp:90-269 and
    /repo/include/trajopt/util/GenerateLinearInitialGuess.hpp:44-113. *)
Fixpoint foldM {A S} (f : A -> S -> outcome S) (l : list A) (s : S) : outcome S :=
  match l with
  | [] => Ok s
  | a :: l' => s' <- f a s ;; foldM f l' s'
  end.

(** In-place modification of element [i] through [vector::at]. Used for
    /repo/src/path/SwervePathBuilder.cpp:42, 48-51 and
    /repo/include/trajopt/path/SwervePathBuilder.hpp:126, 142-145. *)
Fixpoint upd {A} (l : list A) (i : nat) (f : A -> A) : list A :=
  match l, i with
  | [], _ => []
  | a :: l', O => f a :: l'
  | a :: l', S i' => a :: upd l' i' f
  end.
(** The same with the bounds check of [at]:
    /repo/include/trajopt/path/SwervePathBuilder.hpp:126, 142-145;
    /repo/src/SwerveTrajectoryGenerator.cpp:103-104. *)
Definition upd_at {A} (l : list A) (i : nat) (f : A -> A) : outcome (list A) :=
  if i <? length l then Ok (upd l i f) else Throw OutOfRange.

(** [size_t] / [int64_t] / [int] conversions of a (mathematical) integer. [size_t]
    is taken to have 64 bits: /repo/src/path/SwervePathBuilder.cpp:202-203. *)
Definition two64 : Z := 2 ^ 64.
(** [path.waypoints.size() - 1], /repo/src/path/SwervePathBuilder.cpp:203;
    [cornerCount - 1], cpp:76, 96. *)
Definition to_u64 (z : Z) : Z := z mod two64.
(** [int64_t targetIndex = finalIndex],
    /repo/src/path/SwervePathBuilder.cpp:202-203. *)
Definition to_i64 (z : Z) : Z :=
  let u := to_u64 z in if (u <? 2 ^ 63)%Z then u else (u - two64)%Z.
(** [static_cast<int>(N_sgmt)], /repo/src/SwerveTrajectoryGenerator.cpp:138. *)
Definition to_i32 (z : Z) : Z :=
  let u := (z mod 2 ^ 32)%Z in if (u <? 2 ^ 31)%Z then u else (u - 2 ^ 32)%Z.
(** [size_t] successor with wrap-around. [fromIndex + 1],
    /repo/src/path/SwervePathBuilder.cpp:47, 49. *)
Definition succ64 (i : nat) : nat := if (Z.of_nat i =? two64 - 1)%Z then 0 else S i.
