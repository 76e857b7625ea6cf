(** Specification of a physically valid swerve trajectory: mechanics of a rigid
    body driven by wheel modules, stated on the arrays of a SwerveSolution. *)
From Coq Require Import Reals List Arith Permutation.
Import ListNotations.
From Verif Require Import Geometry Constraints Builder Spec SpecBuilder SpecPhysics.
Open Scope R_scope.

(** ** Reading a solution *)
(** Robot state at sample [i]. *)
Definition at_sample (sol : solution R) (i : nat) : state :=
  mkState (nth i (s_x sol) 0) (nth i (s_y sol) 0) (nth i (s_thetacos sol) 0) (nth i (s_thetasin sol) 0)
    (nth i (s_vx sol) 0) (nth i (s_vy sol) 0) (nth i (s_omega sol) 0)
    (nth i (s_ax sol) 0) (nth i (s_ay sol) 0) (nth i (s_alpha sol) 0).
(** Forces of the modules at sample [i]. *)
Definition forces (sol : solution R) (i : nat) : list (R * R) :=
  combine (nth i (s_moduleFX sol) []) (nth i (s_moduleFY sol) []).
(** Time from sample [i - 1] to sample [i]. *)
Definition step_to (sol : solution R) (i : nat) : R := nth (i - 1) (s_dt sol) 0.
(** Sample of waypoint [w]. *)
Definition waypoint_sample (counts : list nat) (w : nat) : nat := list_sum (firstn w counts).
Definition last_sample (counts : list nat) : nat := list_sum counts.

Fixpoint sum (l : list R) : R := match l with [] => 0 | x :: l' => x + sum l' end.

(** Dimensions of a solution with [m] modules: one time step per interval,
    one entry per sample in the other arrays. *)
Definition well_shaped {K} (counts : list nat) (m : nat) (sol : solution K) : Prop :=
  let n := S (last_sample counts) in
  length (s_dt sol) = last_sample counts /\
  length (s_x sol) = n /\ length (s_y sol) = n /\
  length (s_thetacos sol) = n /\ length (s_thetasin sol) = n /\
  length (s_vx sol) = n /\ length (s_vy sol) = n /\ length (s_omega sol) = n /\
  length (s_ax sol) = n /\ length (s_ay sol) = n /\ length (s_alpha sol) = n /\
  length (s_moduleFX sol) = n /\ length (s_moduleFY sol) = n /\
  Forall (fun r => length r = m) (s_moduleFX sol) /\
  Forall (fun r => length r = m) (s_moduleFY sol).
(** All time steps of a segment are equal. *)
Definition uniform_steps (counts : list nat) (sol : solution R) : Prop :=
  forall s k, (s < length counts)%nat -> (k < nth s counts 0)%nat ->
    step_to sol (S (waypoint_sample counts s + k)) = step_to sol (S (waypoint_sample counts s)).

(** ** Kinematics from one sample to the next in time [dt] *)
Definition moves (a b : state) (dt : R) : Prop :=
  q_x b = q_x a + q_vx b * dt /\ q_y b = q_y a + q_vy b * dt.
Definition accelerates (a b : state) (dt : R) : Prop :=
  q_vx b = q_vx a + q_ax b * dt /\ q_vy b = q_vy a + q_ay b * dt /\
  q_w b = q_w a + q_al b * dt.
(** The heading turns by angular velocity times time. *)
Definition turns (a b : state) (dt : R) : Prop :=
  q_c b = q_c a * cos (q_w b * dt) - q_s a * sin (q_w b * dt) /\
  q_s b = q_c a * sin (q_w b * dt) + q_s a * cos (q_w b * dt).
(** What the problem really demands: the product of heading [b] with the
    conjugate of heading [a] is the rotation by that angle, or the opposite one. *)
Definition turns_up_to_half (a b : state) (dt : R) : Prop :=
  let dc := q_c b * q_c a + q_s b * q_s a in
  let ds := q_s b * q_c a - q_c b * q_s a in
  (dc = cos (q_w b * dt) /\ ds = sin (q_w b * dt)) \/
  (dc = - cos (q_w b * dt) /\ ds = - sin (q_w b * dt)).

(** ** Dynamics at one sample *)
(** A robot-frame vector turned by the heading into the field frame. *)
Definition turned (s : state) (p : Translation2 R) : R * R :=
  (tX p * q_c s - tY p * q_s s, tX p * q_s s + tY p * q_c s).
Definition cross2 (a b : R * R) : R := fst a * snd b - snd a * fst b.

Definition newton (d : drivetrain R) (s : state) (fs : list (R * R)) : Prop :=
  sum (map fst fs) = d_mass d * q_ax s /\
  sum (map snd fs) = d_mass d * q_ay s /\
  sum (map (fun mf => cross2 (turned s (m_translation (fst mf))) (snd mf)) (combine (d_modules d) fs))
    = d_moi d * q_al s.

(** Ground velocity of a wheel in the robot frame: the velocity seen from the
    robot plus the rotation's contribution at the module. *)
Definition wheel_velocity (s : state) (p : Translation2 R) : R * R :=
  (q_vx s * q_c s + q_vy s * q_s s - tY p * q_w s,
   q_vy s * q_c s - q_vx s * q_s s + tX p * q_w s).
Definition wheels_within (d : drivetrain R) (s : state) : Prop :=
  forall md, In md (d_modules d) ->
    norm2 (wheel_velocity s (m_translation md)) <= m_wheelRadius md * m_wheelMaxAngularVelocity md.
Definition forces_within (d : drivetrain R) (fs : list (R * R)) : Prop :=
  forall md f, In (md, f) (combine (d_modules d) fs) ->
    norm2 f <= m_wheelMaxTorque md / m_wheelRadius md.

(** ** Time steps *)
(** In time [dt] no wheel at top speed travels farther than any nonzero x or y
    offset between modules listed one after the other. *)
Definition step_within (d : drivetrain R) (dt : R) : Prop :=
  0 <= dt /\
  forall md a b, In md (d_modules d) -> In (a, b) (consecutive (d_modules d)) ->
    (tX (m_translation a) <> tX (m_translation b) ->
       dt * m_wheelRadius md * m_wheelMaxAngularVelocity md
         <= Rabs (tX (m_translation a) - tX (m_translation b))) /\
    (tY (m_translation a) <> tY (m_translation b) ->
       dt * m_wheelRadius md * m_wheelMaxAngularVelocity md
         <= Rabs (tY (m_translation a) - tY (m_translation b))).

(** A drivetrain with wheels. *)
Definition real_wheels (d : drivetrain R) : Prop :=
  forall md, In md (d_modules d) ->
    0 < m_wheelRadius md /\ 0 <= m_wheelMaxAngularVelocity md /\ 0 <= m_wheelMaxTorque md.

(** Force limit, speed limit and lever arm of a module. *)
Definition force_limit (md : swerve_module R) : R := m_wheelMaxTorque md / m_wheelRadius md.
Definition wheel_limit (md : swerve_module R) : R := m_wheelRadius md * m_wheelMaxAngularVelocity md.
Definition arm (md : swerve_module R) : R := norm2 (pt (m_translation md)).
(** The modules are placed around the robot's origin. *)
Definition centred (d : drivetrain R) : Prop :=
  sum (map (fun md => tX (m_translation md)) (d_modules d)) = 0 /\
  sum (map (fun md => tY (m_translation md)) (d_modules d)) = 0.

(** ** Listing modules in another order *)
(** Everything but the module forces is equal. *)
Definition same_motion (a b : solution R) : Prop :=
  s_dt a = s_dt b /\ s_x a = s_x b /\ s_y a = s_y b /\ s_thetacos a = s_thetacos b /\ s_thetasin a = s_thetasin b /\
  s_vx a = s_vx b /\ s_vy a = s_vy b /\ s_omega a = s_omega b /\
  s_ax a = s_ax b /\ s_ay a = s_ay b /\ s_alpha a = s_alpha b.
(** At sample [i] each module has the same force in both solutions. *)
Definition same_forces (d d' : drivetrain R) (a b : solution R) (i : nat) : Prop :=
  Permutation (combine (d_modules d) (forces a i)) (combine (d_modules d') (forces b i)).
(** The same modules, perhaps in another order. *)
Definition reordered (d d' : drivetrain R) : Prop :=
  d_mass d = d_mass d' /\ d_moi d = d_moi d' /\ Permutation (d_modules d) (d_modules d').
(** Modules on the corners of a rectangle of [2 a] by [2 b]. *)
Definition rectangular (a b : R) (d : drivetrain R) : Prop :=
  Permutation (map (fun md => pt (m_translation md)) (d_modules d)) [(a, b); (a, - b); (- a, b); (- a, - b)].

(** ** The whole trajectory *)
Section Trajectory.
  Variables (turning : state -> state -> R -> Prop) (d : drivetrain R) (counts : list nat) (sol : solution R).

  Definition obeys_physics : Prop :=
    (forall i, (1 <= i <= last_sample counts)%nat ->
       let a := at_sample sol (i - 1) in
       let b := at_sample sol i in
       let dt := step_to sol i in
       step_within d dt /\ moves a b dt /\ turning a b dt /\ accelerates a b dt) /\
    (forall i, (i <= last_sample counts)%nat ->
       newton d (at_sample sol i) (forces sol i) /\
       wheels_within d (at_sample sol i) /\ forces_within d (forces sol i)).

  (** The constraints requested of the builder, at their samples: [at_wpt w]
      those of waypoint [w], [to_wpt w] those of the segment ending there. *)
  Definition meets_requests (at_wpt to_wpt : nat -> list (constraint R)) : Prop :=
    (forall w c, (w <= length counts)%nat -> In c (at_wpt w) ->
       demands (at_sample sol (waypoint_sample counts w)) c) /\
    (forall w c i, (1 <= w <= length counts)%nat -> In c (to_wpt w) ->
       (waypoint_sample counts (w - 1) < i <= waypoint_sample counts w)%nat ->
       demands (at_sample sol i) c).
End Trajectory.
