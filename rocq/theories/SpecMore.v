(** Specification vocabulary for more control intervals. *)
From Coq Require Import Reals List Arith.
Import ListNotations.
From Verif Require Import Num NumR Geometry Constraints Builder Spec SpecBuilder SpecPhysics SpecTrajectory SpecStep SpecLegs SpecReach.
Open Scope R_scope.

(** The counts [ns] with [k] more intervals on segment [w]. *)
Definition bump (ns : list nat) (w k : nat) : list nat :=
  firstn w ns ++ (nth w ns 0 + k)%nat :: skipn (S w) ns.

(** The robot stands still, with a heading. *)
Definition rests (q : state) : Prop := at_rest q /\ q_w q = 0 /\ unit_heading q.

(** The program asks the robot to stop at waypoint [w], at a pose. *)
Definition asks_to_stop (h : list (op R)) (w : nat) : Prop :=
  (exists p, In (PoseEquality p) (wpt_requests [] h w) /\ unit_rot (pRot p)) /\
  In (LinearVelocityMaxMagnitude 0) (wpt_requests [] h w) /\
  In (AngularVelocityMaxMagnitude 0) (wpt_requests [] h w).

(** A heavy robot, and a path past a point to keep away from. *)
Definition heavy : drivetrain R :=
  let md x y := mkModule (mkTr x y) 1 1 (1 / 4) in mkDrivetrain 64 64 [md 2 2; md 2 (-2); md (-2) 2; md (-2) (-2)].
Definition leap : list (op R) :=
  [OSetDrivetrain heavy; OPoseWpt 0 0 0 0; OPoseWpt 1 2 0 0;
   OSgmtConstraint 0 1 (PointPoint (mkTr 0 0) (mkTr 1 0) (1 / 2))].
(** A tour out and back. *)
Definition round_trip : list (op R) :=
  tour lopsided (1 / 10) (1 / 10) [mkStop 0 0 0; mkStop 1000 0 100; mkStop 0 (-5) 0].
