(** Vocabulary for where the outline of a robot is that drives a plan. *)
From Coq Require Import Reals List.
Import ListNotations.
From Verif Require Import Geometry Constraints Builder Spec SpecBuilder SpecPhysics SpecTrajectory SpecGenerator SpecDrive.
Open Scope R_scope.

(** The robot at the time [t]; the accelerations do not matter here. *)
Definition driving (m : motion) (t : R) : state :=
  mkState (at_x m t) (at_y m t) (cos (at_angle m t)) (sin (at_angle m t)) (at_vx m t) (at_vy m t) (at_w m t) 0 0 0.

(** The heading of the plan turns at its angular velocities, up to sample [n]. *)
Definition turns_throughout (sol : solution R) (n : nat) : Prop :=
  forall i, (1 <= i <= n)%nat -> turns (at_sample sol (i - 1)) (at_sample sol i) (step_to sol i).

(** The faster of two samples, along and around. *)
Definition faster (p q : state) : R := Rmax (norm2 (q_vx p, q_vy p)) (norm2 (q_vx q, q_vy q)).
Definition faster_turn (p q : state) : R := Rmax (Rabs (q_w p)) (Rabs (q_w q)).

(** The robot neither drives nor turns. *)
Definition halted (q : state) : Prop := q_vx q = 0 /\ q_vy q = 0 /\ q_w q = 0.
