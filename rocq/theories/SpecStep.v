(** Specification vocabulary for what one time step can do. *)
From Coq Require Import Reals List.
Import ListNotations.
From Verif Require Import Geometry Builder Spec SpecBuilder SpecPhysics SpecTrajectory.
Open Scope R_scope.

(** [s] is a nonzero x or y offset between two modules listed one after the other. *)
Definition spacing (d : drivetrain R) (s : R) : Prop :=
  0 < s /\ exists a b, In (a, b) (consecutive (d_modules d)) /\
    (s = Rabs (tX (m_translation a) - tX (m_translation b)) \/
     s = Rabs (tY (m_translation a) - tY (m_translation b))).

(** Position of the robot. *)
Definition position (q : state) : R * R := (q_x q, q_y q).

(** Cosine of the angle between two headings. *)
Definition alignment (a b : state) : R := q_c b * q_c a + q_s b * q_s a.

(** The heading turns by angular velocity times time and half a turn more. *)
Definition turns_opposite (a b : state) (dt : R) : Prop :=
  q_c b = - (q_c a * cos (q_w b * dt) - q_s a * sin (q_w b * dt)) /\
  q_s b = - (q_c a * sin (q_w b * dt) + q_s a * cos (q_w b * dt)).

(** Time from sample [i] to sample [j]. *)
Definition elapsed (sol : solution R) (i j : nat) : R := sum (map (step_to sol) (seq (S i) (j - i))).

(** The robot stands still. *)
Definition at_rest (q : state) : Prop := q_vx q = 0 /\ q_vy q = 0.

(** The sum of the modules' force limits. *)
Definition thrust (d : drivetrain R) : R := sum (map force_limit (d_modules d)).
