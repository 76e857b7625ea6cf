(** Specification of what the example programs' trajectories do, sample by
    sample, in plain numbers. *)
From Coq Require Import Reals List QArith.
Import ListNotations.
From Verif Require Import Num NumR Geometry Constraints Builder Generator Trajectory Programs Spec SpecPhysics SpecTrajectory SpecRust.
Open Scope R_scope.

(** What can be true of the robot at a sample. *)
Inductive event : Type :=
  | At (x y : R)              (* it is at (x, y) *)
  | Lined (x y : R)           (* its heading is (x, y) or the opposite *)
  | Resting                   (* it does not move, though it may turn *)
  | Steady                    (* it does not turn *)
  | Moving (x y : R)          (* its velocity is a multiple of (x, y) *)
  | Clear (x y r : R).        (* its centre is at least r from (x, y) *)

Definition happens (s : state) (e : event) : Prop :=
  match e with
  | At x y => q_x s = x /\ q_y s = y
  | Lined x y => (q_c s = x /\ q_s s = y) \/ (q_c s = - x /\ q_s s = - y)
  | Resting => q_vx s = 0 /\ q_vy s = 0
  | Steady => q_w s = 0
  | Moving x y => exists k, q_vx s = k * x /\ q_vy s = k * y
  | Clear x y r => r * r <= (q_x s - x) * (q_x s - x) + (q_y s - y) * (q_y s - y)
  end.

(** An event and the first and last sample at which it must happen. *)
Definition happening : Type := nat * nat * event.
Definition follows (sol : solution R) (story : list happening) : Prop :=
  forall a b e, In (a, b, e) story -> forall i, (a <= i <= b)%nat -> happens (at_sample sol i) e.

Definition stand (i : nat) (x y cx cy : R) : list happening := [(i, i, At x y); (i, i, Lined cx cy)].
Definition during (a b : nat) (e : event) : list happening := [(a, b, e)].
Definition rest (i : nat) : list happening := during i i Resting.

(** The examples with their interval counts and their stories.  The third
    rests at its middle waypoint but not at its last, and the fifth has no
    obstacle. *)
Definition forward : list happening := stand 0 0 0 1 0 ++ stand 40 1 0 1 0 ++ rest 0 ++ rest 40.
Definition curve : list happening := stand 0 1 1 0 1 ++ stand 40 2 0 1 0 ++ rest 0 ++ rest 40.
Definition three : list happening := stand 0 0 0 0 1 ++ stand 40 1 1 1 0 ++ stand 80 2 0 0 1 ++ rest 0 ++ rest 40.
Definition rolling : list happening := stand 0 0 0 1 0 ++ stand 40 0 1 1 0 ++ rest 0.
Definition pick_up : list happening :=
  stand 0 0 0 1 0 ++ stand 40 1 1 0 1 ++ during 40 40 Steady ++ during 40 40 (Moving 0 1) ++ during 70 70 (At 1 2) ++
  stand 100 1 1 0 1 ++ during 100 100 Steady ++ during 100 100 (Moving 0 1) ++ stand 140 2 0 1 0 ++ rest 0 ++ rest 140.
Definition around : list happening :=
  stand 0 0 0 1 0 ++ during 0 30 (Clear 1 0 1) ++ stand 30 2 0 1 0 ++ rest 0 ++ rest 30.
Definition stories : list (list (op R) * list nat * list happening) :=
  [(example1, [40], forward); (example2, [40], curve); (example3, [40; 40], three); (example4, [40], rolling);
   (example5, [40], forward); (example6, [40; 30; 30; 40], pick_up); (example7, [30], around)]%nat.

(** The C++ calls that the Rust example amounts to: a callback that leaves the
    solution alone, the C++ examples' drivetrain, two poses without rotation and a
    round obstacle.  The bumpers
    are the corners of a square of 1.3 m around the origin. *)
Definition rust_calls {K} {HA : Arith K} : list (op K) :=
  [OAddIntermediateCallback (fun s _ => s); OSetDrivetrain ex_drivetrain;
   OAddBumpers (centred_rectangle (nlit (13 # 10)) (nlit (13 # 10)));
   OPoseWpt 0 (nlit 0) (nlit 0) (nlit 0); OPoseWpt 1 (nlit 1) (nlit 0) (nlit 0);
   OWptConstraint 0 (AngularVelocityMaxMagnitude (nlit 0)); OWptConstraint 1 (AngularVelocityMaxMagnitude (nlit 0));
   OSgmtObstacle 0 1 (mkObstacle (nlit (2 # 10)) [mkTr (nlit (1 # 2)) (nlit (1 # 10))]);
   OControlIntervalCounts [40]]%nat.
