(** Energy and power; trajectories driven slower; limits that a trajectory
    reaches. *)
From Coq Require Import Reals List.
Import ListNotations.
From Verif Require Import Geometry Constraints Builder Spec SpecBuilder SpecPhysics SpecTrajectory SpecGenerator.
Open Scope R_scope.

(** Energy of motion and of rotation. *)
Definition kinetic_energy (d : drivetrain R) (q : state) : R :=
  (d_mass d * (q_vx q * q_vx q + q_vy q * q_vy q) + d_moi d * (q_w q * q_w q)) / 2.
(** The energy that the change of velocity from [a] to [b] has by itself. *)
Definition jump_energy (d : drivetrain R) (a b : state) : R :=
  (d_mass d * ((q_vx b - q_vx a) * (q_vx b - q_vx a) + (q_vy b - q_vy a) * (q_vy b - q_vy a))
   + d_moi d * ((q_w b - q_w a) * (q_w b - q_w a))) / 2.

Definition dot2 (a b : R * R) : R := fst a * fst b + snd a * snd b.
(** Power of the modules: each pushes with its force along the ground that moves
    under it. *)
Definition power (d : drivetrain R) (q : state) (fs : list (R * R)) : R :=
  sum (map (fun mf => dot2 (snd mf) (ground_velocity q (m_translation (fst mf)))) (combine (d_modules d) fs)).
(** Every motor at its largest torque and its largest speed. *)
Definition full_power (d : drivetrain R) : R :=
  sum (map (fun md => m_wheelMaxTorque md * m_wheelMaxAngularVelocity md) (d_modules d)).

(** The same poses, [k] times as late. *)
Definition slowed (k : R) (sol : solution R) : solution R :=
  mkSolution (map (fun t => k * t) (s_dt sol)) (s_x sol) (s_y sol) (s_thetacos sol) (s_thetasin sol)
    (map (fun v => v / k) (s_vx sol)) (map (fun v => v / k) (s_vy sol)) (map (fun v => v / k) (s_omega sol))
    (map (fun a => a / (k * k)) (s_ax sol)) (map (fun a => a / (k * k)) (s_ay sol)) (map (fun a => a / (k * k)) (s_alpha sol))
    (map (map (fun f => f / (k * k))) (s_moduleFX sol)) (map (map (fun f => f / (k * k))) (s_moduleFY sol)).

(** A quantity that is not zero and as large as it may be. *)
Definition at_limit (value limit : R) : Prop := 0 < value /\ value = limit.
(** A constraint that bounds a speed or an acceleration and is at its bound. *)
Definition bound_reached (q : state) (c : constraint R) : Prop :=
  match c with
  | AngularVelocityMaxMagnitude m => at_limit (Rabs (q_w q)) m
  | LinearAccelerationMaxMagnitude m => at_limit (norm2 (q_ax q, q_ay q)) (Rabs m)
  | LinearVelocityMaxMagnitude m => at_limit (norm2 (q_vx q, q_vy q)) (Rabs m)
  | _ => False
  end.
(** The constraint [c] is asked for at sample [i]. *)
Definition asked (counts : list nat) (at_wpt to_wpt : nat -> list (constraint R)) (i : nat) (c : constraint R) : Prop :=
  (exists w, (w <= length counts)%nat /\ In c (at_wpt w) /\ i = waypoint_sample counts w) \/
  (exists w, (1 <= w <= length counts)%nat /\ In c (to_wpt w) /\
     (waypoint_sample counts (w - 1) < i <= waypoint_sample counts w)%nat).
(** At some sample a wheel runs at its top speed, a module pushes with its
    largest force, or a requested bound on a speed or acceleration is reached. *)
Definition limit_reached (d : drivetrain R) (counts : list nat) (at_wpt to_wpt : nat -> list (constraint R))
    (sol : solution R) : Prop :=
  exists i, (i <= last_sample counts)%nat /\ let q := at_sample sol i in
    (exists md, In md (d_modules d) /\ at_limit (norm2 (wheel_velocity q (m_translation md))) (wheel_limit md)) \/
    (exists md f, In (md, f) (combine (d_modules d) (forces sol i)) /\ at_limit (norm2 f) (force_limit md)) \/
    (exists c, asked counts at_wpt to_wpt i c /\ bound_reached q c).
