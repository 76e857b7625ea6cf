(** Specification vocabulary for changes to a program: constraint calls on
    waypoints that exist, and changes of the hardware. *)
From Coq Require Import Reals List Arith.
Import ListNotations.
From Verif Require Import Num NumR Geometry Constraints Builder Spec SpecBuilder SpecPhysics SpecTrajectory SpecGenerator.

(** A constraint call that names only waypoints among the first [n]. *)
Definition constrains {K} (n : nat) (o : op K) : Prop :=
  match o with
  | OWptConstraint w _ => (w < n)%nat
  | OSgmtConstraint f t _ => (f < t < n)%nat
  | _ => False
  end.

Open Scope R_scope.
(** The same robot with motors of another torque or speed. *)
Definition same_module (a b : swerve_module R) : Prop :=
  m_translation a = m_translation b /\ m_wheelRadius a = m_wheelRadius b.
Definition stronger_module (a b : swerve_module R) : Prop :=
  same_module a b /\ m_wheelMaxAngularVelocity a = m_wheelMaxAngularVelocity b /\ m_wheelMaxTorque a <= m_wheelMaxTorque b.
Definition faster_module (a b : swerve_module R) : Prop :=
  same_module a b /\ m_wheelMaxAngularVelocity a <= m_wheelMaxAngularVelocity b /\ m_wheelMaxTorque a = m_wheelMaxTorque b.
Definition stronger (d d' : drivetrain R) : Prop :=
  d_mass d = d_mass d' /\ d_moi d = d_moi d' /\ Forall2 stronger_module (d_modules d) (d_modules d').
Definition faster (d d' : drivetrain R) : Prop :=
  d_mass d = d_mass d' /\ d_moi d = d_moi d' /\ Forall2 faster_module (d_modules d) (d_modules d').
(** The same modules on a robot of [k] times the mass and inertia. *)
Definition reloaded (k : R) (d : drivetrain R) : drivetrain R :=
  mkDrivetrain (k * d_mass d) (k * d_moi d) (d_modules d).
Definition scaled_forces (k : R) (sol : solution R) : solution R :=
  mkSolution (s_dt sol) (s_x sol) (s_y sol) (s_thetacos sol) (s_thetasin sol) (s_vx sol) (s_vy sol) (s_omega sol)
    (s_ax sol) (s_ay sol) (s_alpha sol)
    (map (map (Rmult k)) (s_moduleFX sol)) (map (map (Rmult k)) (s_moduleFY sol)).
