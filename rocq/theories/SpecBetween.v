(** Vocabulary for the robot between two samples. *)
From Coq Require Import Reals List.
Import ListNotations.
From Verif Require Import Geometry Constraints Builder Spec SpecBuilder SpecPhysics SpecTrajectory.
Open Scope R_scope.

(** A share [t] of the way from [x] to [y]. *)
Definition mix (t x y : R) : R := x + t * (y - x).

(** [q] is the state a share [t] of the way from sample [a] to sample [b], which
    are [dt] apart: everything interpolated, the heading turning at the angular
    velocity of [b]. *)
Definition between (a b : state) (dt t : R) (q : state) : Prop :=
  0 <= t <= 1 /\
  q_x q = mix t (q_x a) (q_x b) /\ q_y q = mix t (q_y a) (q_y b) /\
  q_c q = q_c a * cos (t * (q_w b * dt)) - q_s a * sin (t * (q_w b * dt)) /\
  q_s q = q_c a * sin (t * (q_w b * dt)) + q_s a * cos (t * (q_w b * dt)) /\
  q_vx q = mix t (q_vx a) (q_vx b) /\ q_vy q = mix t (q_vy a) (q_vy b) /\ q_w q = mix t (q_w a) (q_w b) /\
  q_ax q = mix t (q_ax a) (q_ax b) /\ q_ay q = mix t (q_ay a) (q_ay b) /\ q_al q = mix t (q_al a) (q_al b).

(** The constraints on velocities, accelerations and positions alone. *)
Definition smooth_kind (c : constraint R) : Prop :=
  match c with
  | AngularVelocityMaxMagnitude _ | LinearAccelerationMaxMagnitude _ | LinearVelocityMaxMagnitude _
  | LinearVelocityDirection _ | TranslationEquality _ => True
  | _ => False
  end.

(** All corners of the outline lie within [rho] of the robot's centre. *)
Definition within_radius (bu : obstacle R) (rho : R) : Prop :=
  forall p, In p (o_points bu) -> norm2 (pt p) <= rho.
