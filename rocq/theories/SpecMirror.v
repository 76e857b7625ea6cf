(** Vocabulary for robots that look the same in a mirror. *)
From Coq Require Import Reals List Permutation.
Import ListNotations.
From Verif Require Import Num NumR Geometry Constraints Builder Spec SpecBuilder SpecPhysics SpecTrajectory SpecLegs SpecDrive SpecReach SpecSymmetry.
Open Scope R_scope.

(** The module on the other side of the robot. *)
Definition mirrored (md : swerve_module R) : swerve_module R :=
  mkModule (mkTr (tX (m_translation md)) (- tY (m_translation md)))
    (m_wheelRadius md) (m_wheelMaxAngularVelocity md) (m_wheelMaxTorque md).
(** Each module has its like on the other side. *)
Definition left_right (d : drivetrain R) : Prop := Permutation (map mirrored (d_modules d)) (d_modules d).

(** From one side of the field to the other: mirrored in the line y = 4. *)
Definition other_alliance : change := mkChange true 0 0 8 1 1 1.
(** A tour of two poses. *)
Definition slant : list stop := [mkStop 0 0 0; mkStop 1 3 1].
