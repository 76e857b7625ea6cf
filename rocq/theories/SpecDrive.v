(** Vocabulary for a robot that drives a planned trajectory: motion in continuous
    time with the planned accelerations. *)
From Coq Require Import Reals List.
Import ListNotations.
From Verif Require Import Num NumR Geometry Constraints Builder Spec SpecBuilder SpecPhysics SpecTrajectory SpecGenerator SpecStep.
Open Scope R_scope.

(** Position, velocity, heading angle and angular velocity over time. *)
Record motion : Type := mkMotion {
  at_x : R -> R; at_y : R -> R; at_vx : R -> R; at_vy : R -> R; at_angle : R -> R; at_w : R -> R }.

(** When sample [i] is reached. *)
Definition clock (sol : solution R) (i : nat) : R := elapsed sol 0 i.

(** Velocities are the derivatives of positions; they do not jump. *)
Definition smooth (m : motion) (T : R) : Prop :=
  forall t, 0 <= t <= T ->
  derivable_pt_lim (at_x m) t (at_vx m t) /\ derivable_pt_lim (at_y m) t (at_vy m t) /\
  derivable_pt_lim (at_angle m) t (at_w m t) /\
  continuity_pt (at_vx m) t /\ continuity_pt (at_vy m) t /\ continuity_pt (at_w m) t.

(** From sample [i - 1] to sample [i] the robot accelerates as planned for sample [i]. *)
Definition as_planned (sol : solution R) (n : nat) (m : motion) : Prop :=
  forall i t, (1 <= i <= n)%nat -> clock sol (i - 1) < t < clock sol i ->
  derivable_pt_lim (at_vx m) t (q_ax (at_sample sol i)) /\
  derivable_pt_lim (at_vy m) t (q_ay (at_sample sol i)) /\
  derivable_pt_lim (at_w m) t (q_al (at_sample sol i)).

(** The robot starts as planned. *)
Definition starts_as_planned (sol : solution R) (m : motion) : Prop :=
  at_x m 0 = q_x (at_sample sol 0) /\ at_y m 0 = q_y (at_sample sol 0) /\
  at_vx m 0 = q_vx (at_sample sol 0) /\ at_vy m 0 = q_vy (at_sample sol 0) /\ at_w m 0 = q_w (at_sample sol 0).

(** The robot drives the plan up to sample [n]. *)
Definition drives (sol : solution R) (n : nat) (m : motion) : Prop :=
  starts_as_planned sol m /\ smooth m (clock sol n) /\ as_planned sol n m.

(** Where the robot is. *)
Definition spot (m : motion) (t : R) : R * R := (at_x m t, at_y m t).
Definition speed (m : motion) (t : R) : R := norm2 (at_vx m t, at_vy m t).

(** Half of what changes from sample [i - 1] to sample [i], times the time taken, added up. *)
Definition lag (f : state -> R) (sol : solution R) (n : nat) : R :=
  sum_to (fun i => (f (at_sample sol i) - f (at_sample sol (i - 1))) * step_to sol i / 2) n.

(** The way from one place to another. *)
Definition way (p q : R * R) : R * R := (fst q - fst p, snd q - snd p).

(** A straight dash from rest over the distance [D] in [n] control intervals. *)
Definition dash (d : drivetrain R) (n : nat) (D : R) : list (op R) :=
  [OSetDrivetrain d; OPoseWpt 0 0 0 0; OPoseWpt 1 D 0 0;
   OWptConstraint 0 (LinearVelocityMaxMagnitude 0); OControlIntervalCounts [n]].
(** How long full thrust takes for the distance, and how long the problem thinks it takes. *)
Definition true_time (d : drivetrain R) (D : R) : R := sqrt (2 * d_mass d * D / thrust d).
Definition dash_time (d : drivetrain R) (n : nat) (D : R) : R :=
  sqrt (2 * INR n * d_mass d * D / (INR (S n) * thrust d)).
(** All modules push equally hard, each step of the dash is one the problem allows
    and the robot does not get too fast. *)
Definition can_dash (d : drivetrain R) (n : nat) (D : R) : Prop :=
  real_wheels d /\ centred d /\ 0 < sum (map (fun md => arm md * arm md) (d_modules d)) /\ 0 < d_mass d /\ 0 < thrust d /\
  (1 <= n)%nat /\ 0 < D /\
  (forall md, In md (d_modules d) -> INR (length (d_modules d)) * force_limit md = thrust d) /\
  step_within d (dash_time d n D / INR n) /\
  (forall md, In md (d_modules d) -> thrust d / d_mass d * dash_time d n D <= wheel_limit md).
