(** SwervePathBuilder when memory can run out.  A call is told how many of its
    container growths succeed; the next one throws.  Growing a vector with
    [push_back], [emplace_back] or [insert] either succeeds or leaves the vector
    as it was: the elements here are copied or moved without throwing. *)
From Coq Require Import List.
Import ListNotations.
From Verif Require Export Outcome Num Geometry Constraints Builder.

(** How many container growths still succeed in the current call: [None] is no
    limit; [Some n] is [n] more, after which the allocator throws.  The growths
    are those of /repo/src/path/SwervePathBuilder.cpp:50, 55, 198, 206, 207, 209
    and SwervePathBuilder.hpp:126, 142, 144, 145. *)
Definition budget : Type := option nat.

(** A method with its budget.  The methods of SwervePathBuilder.hpp:41-182. *)
Definition mem (K A : Type) : Type := budget -> builder K -> budget * (builder K * outcome A).

(** Sequencing of statements, e.g. /repo/src/path/SwervePathBuilder.cpp:29-30. *)
Definition mbind {K A B} (m : mem K A) (f : A -> mem K B) : mem K B :=
  fun s b => match m s b with
             | (s', (b', Ok a)) => f a s' b'
             | (s', (b', Throw e)) => (s', (b', Throw e))
             | (s', (b', AssertFail)) => (s', (b', AssertFail))
             | (s', (b', Undef u)) => (s', (b', Undef u))
             | (s', (b', OutOfFuel)) => (s', (b', OutOfFuel))
             end.
Notation "m ;^ k" := (mbind m (fun _ => k)) (at level 61, right associativity).

(** A statement that allocates nothing, e.g. the assignment of
    /repo/src/path/SwervePathBuilder.cpp:42. *)
Definition mkeep {K A} (m : bld K A) : mem K A := fun s b => (s, m b).

(** A statement that grows one container: its checks come first, e.g. the [at]
    of SwervePathBuilder.hpp:126; then the growth succeeds or the statement has
    no effect and throws. *)
Definition mgrow {K A} (m : bld K A) : mem K A :=
  fun s b => match m b, s with
             | (b', Ok a), None => (None, (b', Ok a))
             | (b', Ok a), Some (S n) => (Some n, (b', Ok a))
             | (b', Ok a), Some O => (Some O, (b, Throw BadAlloc))
             | r, _ => (s, r)
             end.

(** A loop over a list of values. E.g. /repo/src/path/SwervePathBuilder.cpp:73,
    93; SwervePathBuilder.hpp:143. *)
Fixpoint mfor {K A} (l : list A) (f : A -> mem K unit) : mem K unit :=
  match l with
  | [] => mkeep (bret tt)
  | a :: l' => f a ;^ mfor l' f
  end.

Section Memory.
  Context {K : Type} `{Arith K} `{Dbl K}.

  (** path.waypoints.emplace_back(), SwervePathBuilder.cpp:206 *)
  Definition grow_waypoints : bld K unit :=
    fun b => (set_waypoints b (b_waypoints b ++ [mkWaypoint [] []]), Ok tt).
  (** initialGuessPoints.emplace_back(...), SwervePathBuilder.cpp:207.  The
      temporary vector and the element are one growth: either failing has the
      same effect. *)
  Definition grow_guess : bld K unit :=
    fun b => (set_guess b (b_guess b ++ [[zero_pose]]), Ok tt).
  (** controlIntervalCounts.push_back(40), SwervePathBuilder.cpp:209 *)
  Definition grow_counts : bld K unit :=
    fun b => (mkBuilder (b_waypoints b) (b_drivetrain b) (b_callbacks b) (b_bumpers b)
                (b_guess b) (b_counts b ++ [40%nat]), Ok tt).

  (** The body of the loop of NewWpts, SwervePathBuilder.cpp:205-211, run [n]
      times from loop variable [i]. *)
  Fixpoint mem_add_wpts (n : nat) (i : Z) : mem K unit :=
    match n with
    | O => mkeep (bret tt)
    | S n' =>
        mgrow grow_waypoints ;^
        mgrow grow_guess ;^
        (if (i =? 0)%Z then mkeep (bret tt) else mgrow grow_counts) ;^
        mem_add_wpts n' (i + 1)
    end.

  (** NewWpts, SwervePathBuilder.cpp:201-213, with its int64_t conversions. *)
  Definition mem_NewWpts (finalIndex : nat) : mem K unit :=
    fun s b =>
      let targetIndex := to_i64 (Z.of_nat finalIndex) in
      let greatestIndex := to_i64 (to_u64 (Z.of_nat (length (b_waypoints b)) - 1)) in
      if (greatestIndex <? targetIndex)%Z
      then mem_add_wpts (Z.to_nat (targetIndex - greatestIndex)) (greatestIndex + 1) s b
      else (s, (b, Ok tt)).

  (** WptConstraint, SwervePathBuilder.hpp:124-127 *)
  Definition mem_WptConstraint (index : nat) (c : constraint K) : mem K unit :=
    mem_NewWpts index ;^ mgrow (push_wpt index c).

  (** SgmtConstraint, SwervePathBuilder.hpp:137-147 *)
  Definition mem_SgmtConstraint (asserts : bool) (fromIndex toIndex : nat)
      (c : constraint K) : mem K unit :=
    mkeep (if asserts && negb (fromIndex <? toIndex)%nat then blift AssertFail else bret tt) ;^
    mem_NewWpts toIndex ;^
    mgrow (push_wpt fromIndex c) ;^
    mfor (seq (S fromIndex) (toIndex - fromIndex))
      (fun index => mgrow (push_wpt index c) ;^ mgrow (push_sgmt index c)).

  (** WptInitialGuessPoint, SwervePathBuilder.cpp:39-43; the assignment through
      [back] allocates nothing. *)
  Definition mem_WptInitialGuessPoint (wptIndex : nat) (p : Pose2 K) : mem K unit :=
    mem_NewWpts wptIndex ;^
    mkeep (fun b =>
      match at_ (b_guess b) wptIndex with
      | Ok [] => (b, Undef EmptyAccess)
      | Ok _ => (set_guess b (upd (b_guess b) wptIndex (fun l => set_back l p)), Ok tt)
      | _ => (b, Throw OutOfRange)
      end).

  (** SgmtInitialGuessPoints, SwervePathBuilder.cpp:45-52 *)
  Definition mem_SgmtInitialGuessPoints (fromIndex : nat) (ps : list (Pose2 K)) : mem K unit :=
    mem_NewWpts (succ64 fromIndex) ;^
    mgrow (fun b =>
      match upd_at (b_guess b) (succ64 fromIndex) (fun l => ps ++ l) with
      | Ok g => (set_guess b g, Ok tt)
      | _ => (b, Throw OutOfRange)
      end).

  (** PoseWpt, SwervePathBuilder.cpp:27-31 *)
  Definition mem_PoseWpt (index : nat) (x y heading : K) : mem K unit :=
    mem_WptConstraint index (mkPoseEquality x y heading) ;^
    mem_WptInitialGuessPoint index (pose_xyh x y heading).

  (** TranslationWpt, SwervePathBuilder.cpp:33-37 *)
  Definition mem_TranslationWpt (index : nat) (x y headingGuess : K) : mem K unit :=
    mem_WptConstraint index (mkTranslationEquality x y) ;^
    mem_WptInitialGuessPoint index (pose_xyh x y headingGuess).

  (** The constraints WptObstacle (SwervePathBuilder.cpp:58-117) and SgmtObstacle
      (119-181) pass on, in order, and how their loops end: the loops of
      Builder.v run over a blank builder with a single waypoint that collects
      them. *)
  Definition obstacle_calls (asserts : bool) (o : obstacle K) (bumpers : list (obstacle K))
      : list (constraint K) * outcome unit :=
    let (b, r) := obstacle_loop asserts (push_wpt 0) o bumpers
                    (set_waypoints new_builder [mkWaypoint [] []]) in
    (flat_map waypointConstraints (b_waypoints b), r).

  (** SwervePathBuilder.cpp:59-116 / 121-180: the calls one by one. *)
  Definition mem_obstacle (asserts : bool) (add : constraint K -> mem K unit) (o : obstacle K)
      : mem K unit :=
    fun s b =>
      let (cs, r) := obstacle_calls asserts o (b_bumpers b) in
      (mfor cs add ;^ mkeep (blift r)) s b.

  (** One call of the interface SwervePathBuilder.hpp:41-182.  SetDrivetrain and
      ControlIntervalCounts move their argument (SwervePathBuilder.cpp:24, 184). *)
  Definition mem_op (asserts : bool) (o : op K) : mem K unit :=
    match o with
    | OSetDrivetrain d => mkeep (SetDrivetrain d)
    | OPoseWpt i x y h => mem_PoseWpt i x y h
    | OTranslationWpt i x y h => mem_TranslationWpt i x y h
    | OWptInitialGuessPoint i p => mem_WptInitialGuessPoint i p
    | OSgmtInitialGuessPoints i ps => mem_SgmtInitialGuessPoints i ps
    | OAddBumpers o => mgrow (AddBumpers o)
    | OWptObstacle i o => mem_obstacle asserts (mem_WptConstraint i) o
    | OSgmtObstacle f t o => mem_obstacle asserts (mem_SgmtConstraint asserts f t) o
    | OWptConstraint i c => mem_WptConstraint i c
    | OSgmtConstraint f t c => mem_SgmtConstraint asserts f t c
    | OControlIntervalCounts l => mkeep (ControlIntervalCounts l)
    | OAddIntermediateCallback cb => mgrow (AddIntermediateCallback cb)
    end.

  (** A call with its budget: the builder it leaves and how it ends.  The
      interface SwervePathBuilder.hpp:41-182. *)
  Definition run_mem (asserts : bool) (c : op K * budget) (b : builder K)
      : builder K * outcome unit :=
    snd (mem_op asserts (fst c) (snd c) b).

  (** The builder after calls whose exceptions the caller catches.  The
      interface SwervePathBuilder.hpp:41-182. *)
  Definition run_mems (asserts : bool) (h : list (op K * budget)) (b : builder K) : builder K :=
    fold_left (fun b c => fst (run_mem asserts c b)) h b.
End Memory.
