(** Vocabulary for robots with less to carry. *)
From Coq Require Import Reals List Permutation.
Import ListNotations.
From Verif Require Import Num NumR Geometry Constraints Builder Spec SpecBuilder SpecPhysics SpecTrajectory.
Open Scope R_scope.

(** The same modules on a robot of [k] times the mass and [j] times the moment of inertia. *)
Definition relieved (k j : R) (d : drivetrain R) : drivetrain R :=
  mkDrivetrain (k * d_mass d) (j * d_moi d) (d_modules d).
(** The module across the centre of the robot. *)
Definition across (md : swerve_module R) : swerve_module R :=
  mkModule (mkTr (- tX (m_translation md)) (- tY (m_translation md)))
    (m_wheelRadius md) (m_wheelMaxAngularVelocity md) (m_wheelMaxTorque md).
(** Each module has its like across the centre. *)
Definition paired (d : drivetrain R) : Prop := Permutation (map across (d_modules d)) (d_modules d).

(** A robot with one module, to the left of its centre. *)
Definition scooter : drivetrain R := mkDrivetrain 2 1 [mkModule (mkTr 0 1) 1 4 4].
(** It pushes off, which turns it to the right. *)
Definition push_off : list (op R) :=
  [OSetDrivetrain scooter; OPoseWpt 0 0 0 0; OPoseWpt 1 (PI / 3) 0 (- (PI / 3));
   OWptConstraint 0 (LinearVelocityMaxMagnitude 0); OWptConstraint 0 (AngularVelocityMaxMagnitude 0);
   OControlIntervalCounts [1%nat]].
