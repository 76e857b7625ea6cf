(** SwervePathBuilder as a state machine.  A call maps a builder to a new
    builder and an outcome; the new builder is meaningful also when the call
    throws (modifications made before the throw remain). *)
From Coq Require Import List.
Import ListNotations.
From Verif Require Export Outcome Num Geometry Constraints.
Open Scope num_scope.

(** /repo/include/trajopt/solution/SwerveSolution.hpp:14-53 *)
Record solution (K : Type) : Type := mkSolution {
  s_dt : list K; s_x : list K; s_y : list K; s_thetacos : list K; s_thetasin : list K;
  s_vx : list K; s_vy : list K; s_omega : list K; s_ax : list K; s_ay : list K;
  s_alpha : list K; s_moduleFX : list (list K); s_moduleFY : list (list K)
}.
Arguments mkSolution {K} _ _ _ _ _ _ _ _ _ _ _ _ _.
Arguments s_dt {K} _.
Arguments s_x {K} _.
Arguments s_y {K} _.
Arguments s_thetacos {K} _.
Arguments s_thetasin {K} _.
Arguments s_vx {K} _.
Arguments s_vy {K} _.
Arguments s_omega {K} _.
Arguments s_ax {K} _.
Arguments s_ay {K} _.
Arguments s_alpha {K} _.
Arguments s_moduleFX {K} _.
Arguments s_moduleFY {K} _.

(** /repo/include/trajopt/drivetrain/SwerveModule.hpp:17-29 *)
Record swerve_module (K : Type) : Type := mkModule {
  m_translation : Translation2 K; m_wheelRadius : K;
  m_wheelMaxAngularVelocity : K; m_wheelMaxTorque : K
}.
Arguments mkModule {K} _ _ _ _.
Arguments m_translation {K} _.
Arguments m_wheelRadius {K} _.
Arguments m_wheelMaxAngularVelocity {K} _.
Arguments m_wheelMaxTorque {K} _.

(** /repo/include/trajopt/drivetrain/SwerveDrivetrain.hpp:18-26 *)
Record drivetrain (K : Type) : Type := mkDrivetrain {
  d_mass : K; d_moi : K; d_modules : list (swerve_module K)
}.
Arguments mkDrivetrain {K} _ _ _.
Arguments d_mass {K} _.
Arguments d_moi {K} _.
Arguments d_modules {K} _.

(** /repo/include/trajopt/obstacle/Obstacle.hpp:18-24; Bumpers.hpp:9 is the same type. *)
Record obstacle (K : Type) : Type := mkObstacle {
  o_safetyDistance : K; o_points : list (Translation2 K)
}.
Arguments mkObstacle {K} _ _.
Arguments o_safetyDistance {K} _.
Arguments o_points {K} _.

(** /repo/include/trajopt/path/Path.hpp:21-27 *)
Record waypoint (K : Type) : Type := mkWaypoint {
  waypointConstraints : list (constraint K);
  segmentConstraints : list (constraint K)
}.
Arguments mkWaypoint {K} _ _.
Arguments waypointConstraints {K} _.
Arguments segmentConstraints {K} _.

(** std::function<void(SwerveSolution&, int64_t)>: the solution is passed by
    mutable reference, so a callback maps it to the solution it leaves behind.
    Path.hpp:41. *)
Definition callback (K : Type) : Type := solution K -> Z -> solution K.

(** /repo/include/trajopt/path/Path.hpp:32-42 and the private members of
    SwervePathBuilder.hpp:185-190.  [b_drivetrain = None] is the indeterminate
    drivetrain of a default-initialised builder (mass and moi have no
    initialiser). *)
Record builder (K : Type) : Type := mkBuilder {
  b_waypoints : list (waypoint K);
  b_drivetrain : option (drivetrain K);
  b_callbacks : list (callback K);
  b_bumpers : list (obstacle K);
  b_guess : list (list (Pose2 K));
  b_counts : list nat
}.
Arguments mkBuilder {K} _ _ _ _ _ _.
Arguments b_waypoints {K} _.
Arguments b_drivetrain {K} _.
Arguments b_callbacks {K} _.
Arguments b_bumpers {K} _.
Arguments b_guess {K} _.
Arguments b_counts {K} _.

(** A builder method: state transformer with an outcome. The methods of
    SwervePathBuilder.hpp:41-182. *)
Definition bld (K A : Type) : Type := builder K -> builder K * outcome A.
(** A statement with no effect, e.g. the untaken branch of
    /repo/src/path/SwervePathBuilder.cpp:84-90. *)
Definition bret {K A} (a : A) : bld K A := fun b => (b, Ok a).
(** Sequencing of statements, e.g. /repo/src/path/SwervePathBuilder.cpp:29-30. *)
Definition bbind {K A B} (m : bld K A) (f : A -> bld K B) : bld K B :=
  fun b => match m b with
           | (b', Ok a) => f a b'
           | (b', Throw e) => (b', Throw e)
           | (b', AssertFail) => (b', AssertFail)
           | (b', Undef u) => (b', Undef u)
           | (b', OutOfFuel) => (b', OutOfFuel)
           end.
(** An expression evaluation that does not touch the builder. E.g.
    /repo/src/path/SwervePathBuilder.cpp:67-68. *)
Definition blift {K A} (o : outcome A) : bld K A := fun b => (b, o).
Notation "x <~ m ;; k" := (bbind m (fun x => k))
  (at level 61, m at next level, right associativity).
Notation "m ;~ k" := (bbind m (fun _ => k)) (at level 61, right associativity).

(** A loop over a list of values. E.g. /repo/src/path/SwervePathBuilder.cpp:73,
    93; SwervePathBuilder.hpp:143. *)
Fixpoint bfor {K A} (l : list A) (f : A -> bld K unit) : bld K unit :=
  match l with
  | [] => bret tt
  | a :: l' => f a ;~ bfor l' f
  end.
(** [for (size_t i = start; i < bound; i++) body(i)]; [bound] may be the wrapped
    value 2^64-1, hence [Z] and fuel. /repo/src/path/SwervePathBuilder.cpp:75-76,
    95-97. *)
Fixpoint bloop {K} (fuel : nat) (i : nat) (bound : Z) (f : nat -> bld K unit) : bld K unit :=
  if (Z.of_nat i <? bound)%Z then
    match fuel with
    | O => blift OutOfFuel
    | S fuel' => f i ;~ bloop fuel' (S i) bound f
    end
  else bret tt.

Section Builder.
  Context {K : Type} `{Arith K} `{Dbl K}.

  (** Default construction of a local or member SwervePathBuilder. The member
      initialisation of SwervePathBuilder.hpp:185-190. *)
  Definition new_builder : builder K := mkBuilder [] None [] [] [] [].

  (** Assignment to the member of Path.hpp:34. *)
  Definition set_waypoints (b : builder K) w :=
    mkBuilder w (b_drivetrain b) (b_callbacks b) (b_bumpers b) (b_guess b) (b_counts b).
  (** Assignment to the member of SwervePathBuilder.hpp:189. *)
  Definition set_guess (b : builder K) g :=
    mkBuilder (b_waypoints b) (b_drivetrain b) (b_callbacks b) (b_bumpers b) g (b_counts b).

  (** The pose {0.0, 0.0, {0.0}} of SwervePathBuilder.cpp:207. *)
  Definition zero_pose : Pose2 K := pose_xyh (nlit 0) (nlit 0) (nlit 0).

  (** The body of the loop of NewWpts, SwervePathBuilder.cpp:205-211, run [n]
      times from loop variable [i]. *)
  Fixpoint add_wpts (n : nat) (i : Z) (b : builder K) : builder K :=
    match n with
    | O => b
    | S n' =>
        add_wpts n' (i + 1)
          (mkBuilder (b_waypoints b ++ [mkWaypoint [] []]) (b_drivetrain b)
             (b_callbacks b) (b_bumpers b) (b_guess b ++ [[zero_pose]])
             (if (i =? 0)%Z then b_counts b else b_counts b ++ [40%nat]))
    end.

  (** NewWpts, SwervePathBuilder.cpp:201-213, with its int64_t conversions. *)
  Definition NewWpts (finalIndex : nat) (b : builder K) : builder K :=
    let targetIndex := to_i64 (Z.of_nat finalIndex) in
    let greatestIndex := to_i64 (to_u64 (Z.of_nat (length (b_waypoints b)) - 1)) in
    if (greatestIndex <? targetIndex)%Z
    then add_wpts (Z.to_nat (targetIndex - greatestIndex)) (greatestIndex + 1) b
    else b.
  (** The call of NewWpts from SwervePathBuilder.hpp:125, 141 and
      SwervePathBuilder.cpp:41, 47. *)
  Definition newWpts (finalIndex : nat) : bld K unit :=
    fun b => (NewWpts finalIndex b, Ok tt).

  (** path.waypoints.at(index).waypointConstraints.push_back(c)
      SwervePathBuilder.hpp:126, 142, 144. *)
  Definition push_wpt (index : nat) (c : constraint K) : bld K unit :=
    fun b =>
      match upd_at (b_waypoints b) index
              (fun w => mkWaypoint (waypointConstraints w ++ [c]) (segmentConstraints w)) with
      | Ok w => (set_waypoints b w, Ok tt)
      | _ => (b, Throw OutOfRange)
      end.
  (** path.waypoints.at(index).segmentConstraints.push_back(c)
      SwervePathBuilder.hpp:145. *)
  Definition push_sgmt (index : nat) (c : constraint K) : bld K unit :=
    fun b =>
      match upd_at (b_waypoints b) index
              (fun w => mkWaypoint (waypointConstraints w) (segmentConstraints w ++ [c])) with
      | Ok w => (set_waypoints b w, Ok tt)
      | _ => (b, Throw OutOfRange)
      end.

  (** WptConstraint, SwervePathBuilder.hpp:124-127 *)
  Definition WptConstraint (index : nat) (c : constraint K) : bld K unit :=
    newWpts index ;~ push_wpt index c.

  (** SgmtConstraint, SwervePathBuilder.hpp:137-147.  Once [at(fromIndex)] has
      succeeded [fromIndex + 1] cannot wrap. *)
  Definition SgmtConstraint (asserts : bool) (fromIndex toIndex : nat)
      (c : constraint K) : bld K unit :=
    (if asserts && negb (fromIndex <? toIndex)%nat then blift AssertFail else bret tt) ;~
    newWpts toIndex ;~
    push_wpt fromIndex c ;~
    bfor (seq (S fromIndex) (toIndex - fromIndex))
      (fun index => push_wpt index c ;~ push_sgmt index c).

  (** SetDrivetrain, SwervePathBuilder.cpp:23-25 *)
  Definition SetDrivetrain (d : drivetrain K) : bld K unit :=
    fun b => (mkBuilder (b_waypoints b) (Some d) (b_callbacks b) (b_bumpers b)
                (b_guess b) (b_counts b), Ok tt).

  (** initialGuessPoints.at(i).back() = pose. SwervePathBuilder.cpp:42. *)
  Definition set_back (l : list (Pose2 K)) (p : Pose2 K) : list (Pose2 K) :=
    removelast l ++ [p].
  (** WptInitialGuessPoint, SwervePathBuilder.cpp:39-43 *)
  Definition WptInitialGuessPoint (wptIndex : nat) (p : Pose2 K) : bld K unit :=
    newWpts wptIndex ;~
    fun b =>
      match at_ (b_guess b) wptIndex with
      | Ok [] => (b, Undef EmptyAccess)
      | Ok _ => (set_guess b (upd (b_guess b) wptIndex (fun l => set_back l p)), Ok tt)
      | _ => (b, Throw OutOfRange)
      end.

  (** SgmtInitialGuessPoints, SwervePathBuilder.cpp:45-52; [fromIndex + 1] is
      [size_t] arithmetic. *)
  Definition SgmtInitialGuessPoints (fromIndex : nat) (ps : list (Pose2 K)) : bld K unit :=
    newWpts (succ64 fromIndex) ;~
    fun b =>
      match upd_at (b_guess b) (succ64 fromIndex) (fun l => ps ++ l) with
      | Ok g => (set_guess b g, Ok tt)
      | _ => (b, Throw OutOfRange)
      end.

  (** PoseWpt, SwervePathBuilder.cpp:27-31 *)
  Definition PoseWpt (index : nat) (x y heading : K) : bld K unit :=
    WptConstraint index (mkPoseEquality x y heading) ;~
    WptInitialGuessPoint index (pose_xyh x y heading).

  (** TranslationWpt, SwervePathBuilder.cpp:33-37 *)
  Definition TranslationWpt (index : nat) (x y headingGuess : K) : bld K unit :=
    WptConstraint index (mkTranslationEquality x y) ;~
    WptInitialGuessPoint index (pose_xyh x y headingGuess).

  (** AddBumpers, SwervePathBuilder.cpp:54-56 *)
  Definition AddBumpers (o : obstacle K) : bld K unit :=
    fun b => (mkBuilder (b_waypoints b) (b_drivetrain b) (b_callbacks b)
                (b_bumpers b ++ [o]) (b_guess b) (b_counts b), Ok tt).

  (** The loop nest shared by WptObstacle (SwervePathBuilder.cpp:58-117) and
      SgmtObstacle (119-181); [add c] is [WptConstraint(index, c)] respectively
      [SgmtConstraint(fromIndex, toIndex, c)].  The two bodies are textually
      identical apart from that call.  The early [return] at 69/131 leaves the
      loop over the bumpers, hence the explicit recursion. *)
  Section ObstacleLoops.
    (** [add] is the call at lines 66, 77, 85, 98, 105, 111 / 128, 139, 148, 161,
        168, 175. *)
    Variables (asserts : bool) (add : constraint K -> bld K unit) (o : obstacle K).

    (** [count - 1] in [size_t]. SwervePathBuilder.cpp:76, 96. *)
    Definition pred64 (count : nat) : Z := to_u64 (Z.of_nat count - 1).

    (** lines 73-90 / 135-153 *)
    Definition bumper_edges (bu : obstacle K) (minDistance : K) : bld K unit :=
      let n := length (o_points bu) in
      bfor (o_points o) (fun obstaclePoint =>
        bloop (S n) 0 (pred64 n) (fun i =>
          p <~ blift (at_ (o_points bu) i) ;;
          q <~ blift (at_ (o_points bu) (S i)) ;;
          c <~ blift (mkLinePoint asserts p q obstaclePoint minDistance) ;;
          add c) ;~
        if (3 <=? n)%nat then
          p <~ blift (at_ (o_points bu) (n - 1)) ;;
          q <~ blift (at_ (o_points bu) 0) ;;
          c <~ blift (mkLinePoint asserts p q obstaclePoint minDistance) ;;
          add c
        else bret tt).

    (** lines 92-115 / 155-179.  The closing edge uses
        [obstacle.points.at(bumperCornerCount - 1)]; there the bumper has at
        least one corner. *)
    Definition obstacle_edges (bu : obstacle K) (minDistance : K) : bld K unit :=
      let nb := length (o_points bu) in
      let no := length (o_points o) in
      bfor (o_points bu) (fun bumperCorner =>
        if (1 <? no)%nat then
          bloop (S no) 0 (pred64 no) (fun i =>
            p <~ blift (at_ (o_points o) i) ;;
            q <~ blift (at_ (o_points o) (S i)) ;;
            c <~ blift (mkPointLine asserts bumperCorner p q minDistance) ;;
            add c) ;~
          if (3 <=? no)%nat then
            p <~ blift (at_ (o_points o) (nb - 1)) ;;
            q <~ blift (at_ (o_points o) 0) ;;
            c <~ blift (mkPointLine asserts bumperCorner p q minDistance) ;;
            add c
          else bret tt
        else
          p <~ blift (at_ (o_points o) 0) ;;
          c <~ blift (mkPointPoint asserts bumperCorner p minDistance) ;;
          add c).

    (** SwervePathBuilder.cpp:59-116 / 121-180. *)
    Fixpoint obstacle_loop (bumpers : list (obstacle K)) : bld K unit :=
      match bumpers with
      | [] => bret tt
      | bu :: bumpers' =>
          let minDistance := o_safetyDistance bu + o_safetyDistance o in
          if ((length (o_points bu) =? 1) && (length (o_points o) =? 1))%nat then
            (* lines 64-70 / 126-132: return, not continue *)
            p <~ blift (at_ (o_points bu) 0) ;;
            q <~ blift (at_ (o_points o) 0) ;;
            c <~ blift (mkPointPoint asserts p q minDistance) ;;
            add c
          else
            bumper_edges bu minDistance ;~
            obstacle_edges bu minDistance ;~
            obstacle_loop bumpers'
      end.
  End ObstacleLoops.

  (** WptObstacle, SwervePathBuilder.cpp:58-117 *)
  Definition WptObstacle asserts (index : nat) (o : obstacle K) : bld K unit :=
    fun b => obstacle_loop asserts (WptConstraint index) o (b_bumpers b) b.
  (** SgmtObstacle, SwervePathBuilder.cpp:119-181 *)
  Definition SgmtObstacle asserts (fromIndex toIndex : nat) (o : obstacle K) : bld K unit :=
    fun b => obstacle_loop asserts (SgmtConstraint asserts fromIndex toIndex) o (b_bumpers b) b.

  (** ControlIntervalCounts, SwervePathBuilder.cpp:183-185 *)
  Definition ControlIntervalCounts (counts : list nat) : bld K unit :=
    fun b => (mkBuilder (b_waypoints b) (b_drivetrain b) (b_callbacks b) (b_bumpers b)
                (b_guess b) counts, Ok tt).
  (** GetControlIntervalCounts, SwervePathBuilder.cpp:187-189 *)
  Definition GetControlIntervalCounts (b : builder K) : list nat := b_counts b.

  (** AddIntermediateCallback, SwervePathBuilder.cpp:196-199 *)
  Definition AddIntermediateCallback (cb : callback K) : bld K unit :=
    fun b => (mkBuilder (b_waypoints b) (b_drivetrain b) (b_callbacks b ++ [cb])
                (b_bumpers b) (b_guess b) (b_counts b), Ok tt).
End Builder.

(** The public mutating interface of SwervePathBuilder (SwervePathBuilder.hpp:41-182). *)
Inductive op (K : Type) : Type :=
| OSetDrivetrain (d : drivetrain K)
| OPoseWpt (index : nat) (x y heading : K)
| OTranslationWpt (index : nat) (x y headingGuess : K)
| OWptInitialGuessPoint (wptIndex : nat) (p : Pose2 K)
| OSgmtInitialGuessPoints (fromIndex : nat) (ps : list (Pose2 K))
| OAddBumpers (o : obstacle K)
| OWptObstacle (index : nat) (o : obstacle K)
| OSgmtObstacle (fromIndex toIndex : nat) (o : obstacle K)
| OWptConstraint (index : nat) (c : constraint K)
| OSgmtConstraint (fromIndex toIndex : nat) (c : constraint K)
| OControlIntervalCounts (counts : list nat)
| OAddIntermediateCallback (cb : callback K).
Arguments OSetDrivetrain {K} _.
Arguments OPoseWpt {K} _ _ _ _.
Arguments OTranslationWpt {K} _ _ _ _.
Arguments OWptInitialGuessPoint {K} _ _.
Arguments OSgmtInitialGuessPoints {K} _ _.
Arguments OAddBumpers {K} _.
Arguments OWptObstacle {K} _ _.
Arguments OSgmtObstacle {K} _ _ _.
Arguments OWptConstraint {K} _ _.
Arguments OSgmtConstraint {K} _ _ _.
Arguments OControlIntervalCounts {K} _.
Arguments OAddIntermediateCallback {K} _.

Section Run.
  Context {K : Type} `{Arith K} `{Dbl K}.
  (** One call of the interface SwervePathBuilder.hpp:41-182. *)
  Definition run_op (asserts : bool) (o : op K) : bld K unit :=
    match o with
    | OSetDrivetrain d => SetDrivetrain d
    | OPoseWpt i x y h => PoseWpt i x y h
    | OTranslationWpt i x y h => TranslationWpt i x y h
    | OWptInitialGuessPoint i p => WptInitialGuessPoint i p
    | OSgmtInitialGuessPoints i ps => SgmtInitialGuessPoints i ps
    | OAddBumpers o => AddBumpers o
    | OWptObstacle i o => WptObstacle asserts i o
    | OSgmtObstacle f t o => SgmtObstacle asserts f t o
    | OWptConstraint i c => WptConstraint i c
    | OSgmtConstraint f t c => SgmtConstraint asserts f t c
    | OControlIntervalCounts l => ControlIntervalCounts l
    | OAddIntermediateCallback cb => AddIntermediateCallback cb
    end.
  (** The builder after a history of calls; a caller may catch exceptions and go
      on, so every call's resulting builder is kept. Calls of the interface
      SwervePathBuilder.hpp:41-182 in sequence. *)
  Definition run_ops (asserts : bool) (ops : list (op K)) (b : builder K) : builder K :=
    fold_left (fun b o => fst (run_op asserts o b)) ops b.
End Run.
