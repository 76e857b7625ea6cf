(** Property theorems about the trajectories that satisfy the optimisation
    problem: C16-C21, C26-C29, C57, C58, C61, C62, C65.  [solved g sol]: [sol]
    is what the generator [g] reads from an assignment satisfying its problem. *)
From Coq Require Import List Lia Lra Reals ZArith Permutation.
Import ListNotations.
From Verif Require Import Outcome Num NumR Geometry Expr Constraints Util Builder Guess Generator Trajectory
  Spec SpecBuilder SpecPhysics SpecTrajectory SpecGenerator SpecTolerance Semantics
  SolutionProofs TrajectoryProofs GeneratorCases ToleranceProofs LimitProofs OrderCases TrajectoryCases.
Local Open Scope nat_scope.
Open Scope R_scope.

(** C16. *)
Theorem C16_integration_steps : forall asserts h handle d g sol,
  generator asserts h handle d g -> solved g sol ->
  forall i, (1 <= i <= last_sample (counts asserts h))%nat ->
  moves (at_sample sol (i - 1)) (at_sample sol i) (step_to sol i) /\
  accelerates (at_sample sol (i - 1)) (at_sample sol i) (step_to sol i).
Proof. exact C16_steps_proof. Qed.
Print Assumptions C16_integration_steps.
Theorem C16_integration_sums : forall asserts h handle d g sol,
  generator asserts h handle d g -> solved g sol ->
  forall n, (n <= last_sample (counts asserts h))%nat ->
  let q := at_sample sol in let dt := step_to sol in
  q_x (q n) = q_x (q 0%nat) + sum_to (fun i => q_vx (q i) * dt i) n /\
  q_y (q n) = q_y (q 0%nat) + sum_to (fun i => q_vy (q i) * dt i) n /\
  q_vx (q n) = q_vx (q 0%nat) + sum_to (fun i => q_ax (q i) * dt i) n /\
  q_vy (q n) = q_vy (q 0%nat) + sum_to (fun i => q_ay (q i) * dt i) n /\
  q_w (q n) = q_w (q 0%nat) + sum_to (fun i => q_al (q i) * dt i) n.
Proof. exact C16_sums_proof. Qed.
Print Assumptions C16_integration_sums.
Example C16_case : exists g, generator true ride 7 cart g /\ solved g ride_solution /\
  last_sample (counts true ride) = 2%nat /\ q_x (at_sample ride_solution 2) = 1.
Proof.
  destruct the_ride as (g & _ & G & _ & C & S & _). exists g. rewrite C.
  split; [exact G|]. split; [exact S|]. split; reflexivity.
Qed.

(** C17 as stated is false: with no pose waypoint the headings may have
    lengths c and 1/c in turn. *)
Theorem C17_unit_headings_refuted : ~ (forall asserts h handle d g sol, good_history asserts h ->
  generator asserts h handle d g -> real_wheels d -> solved g sol -> headings_unit (counts asserts h) sol).
Proof. exact C17_refuted_proof. Qed.
Print Assumptions C17_unit_headings_refuted.
(** What holds: one pose waypoint anywhere on the path makes all headings unit
    vectors.  Missing: paths without pose waypoints, see C61. *)
Theorem C17_unit_headings_partial : forall asserts h handle d g sol i x y a, good_history asserts h ->
  generator asserts h handle d g -> solved g sol ->
  In (OPoseWpt i x y a) h -> (i <= length (counts asserts h))%nat ->
  headings_unit (counts asserts h) sol.
Proof. exact C17_partial_proof. Qed.
Print Assumptions C17_unit_headings_partial.
Example C17_case : exists g, good_history true ride /\ generator true ride 7 cart g /\ solved g ride_solution /\
  In (OPoseWpt 1 1 0 1) ride /\ (1 <= length (counts true ride))%nat.
Proof.
  destruct the_ride as (g & Gd & G & _ & C & S & _). exists g. rewrite C.
  repeat (split; [assumption|]). split; [right; right; left; reflexivity|simpl; lia].
Qed.

(** C61. One unit heading anywhere suffices, and in any case the lengths repeat
    every other sample, neighbours being reciprocal. *)
Theorem C61_one_unit_heading_suffices : forall asserts h handle d g sol,
  generator asserts h handle d g -> solved g sol ->
  forall i, (i <= last_sample (counts asserts h))%nat -> unit_heading (at_sample sol i) ->
  headings_unit (counts asserts h) sol.
Proof. exact C17_one_proof. Qed.
Print Assumptions C61_one_unit_heading_suffices.
Theorem C61_heading_lengths_reciprocal : forall asserts h handle d g sol,
  generator asserts h handle d g -> solved g sol ->
  forall i, (1 <= i <= last_sample (counts asserts h))%nat ->
  let a := at_sample sol (i - 1) in let b := at_sample sol i in
  (q_c b * q_c b + q_s b * q_s b) * (q_c a * q_c a + q_s a * q_s a) = 1.
Proof. exact heading_product. Qed.
Print Assumptions C61_heading_lengths_reciprocal.
Theorem C61_heading_lengths_alternate : forall asserts h handle d g sol,
  generator asserts h handle d g -> solved g sol ->
  forall i, (2 <= i <= last_sample (counts asserts h))%nat ->
  let a := at_sample sol (i - 2) in let b := at_sample sol i in
  q_c b * q_c b + q_s b * q_s b = q_c a * q_c a + q_s a * q_s a.
Proof. exact C17_alternate_proof. Qed.
Print Assumptions C61_heading_lengths_alternate.
Example C61_case : exists g, generator true ride 7 cart g /\ solved g ride_solution /\
  last_sample (counts true ride) = 2%nat /\ unit_heading (at_sample ride_solution 1).
Proof.
  destruct the_ride as (g & _ & G & _ & C & S & U). exists g. rewrite C.
  split; [exact G|]. split; [exact S|]. split; [reflexivity|]. apply U. simpl. lia.
Qed.
(** A solution whose headings have lengths 2 and 1/2. *)
Example C61_stretched : exists g, generator true hover 0 cart g /\ solved g (staying 2 (1/2) 0 0 0 0 0).
Proof.
  destruct stay_generator as [_ [g G]]. exists g. split; [exact G|].
  apply (hover_solved g 2 (1/2) 0 0 0 0 G); lra.
Qed.

(** C18 as stated is false even with unit headings: the heading may turn half a
    revolution too far. *)
Theorem C18_heading_integrates_refuted : ~ (forall asserts h handle d g sol, good_history asserts h ->
  generator asserts h handle d g -> real_wheels d -> solved g sol -> headings_unit (counts asserts h) sol ->
  forall i, (1 <= i <= last_sample (counts asserts h))%nat ->
  turns (at_sample sol (i - 1)) (at_sample sol i) (step_to sol i)).
Proof. exact C18_refuted_proof. Qed.
Print Assumptions C18_heading_integrates_refuted.
(** What holds: the rotation or its opposite.  Missing: which of the two. *)
Theorem C18_heading_integrates_partial : forall asserts h handle d g sol,
  generator asserts h handle d g -> solved g sol ->
  forall i, (1 <= i <= last_sample (counts asserts h))%nat -> unit_heading (at_sample sol (i - 1)) ->
  let a := at_sample sol (i - 1) in let b := at_sample sol i in let turn := q_w b * step_to sol i in
  (q_c b = q_c a * cos turn - q_s a * sin turn /\ q_s b = q_c a * sin turn + q_s a * cos turn) \/
  (q_c b = - (q_c a * cos turn - q_s a * sin turn) /\ q_s b = - (q_c a * sin turn + q_s a * cos turn)).
Proof. exact C18_partial_proof. Qed.
Print Assumptions C18_heading_integrates_partial.
(** The rotation itself when neither the demanded nor the actual turn reaches a
    quarter revolution. *)
Theorem C18_small_turns_partial : forall asserts h handle d g sol, generator asserts h handle d g -> solved g sol ->
  forall i, (1 <= i <= last_sample (counts asserts h))%nat -> unit_heading (at_sample sol (i - 1)) ->
  Rabs (q_w (at_sample sol i) * step_to sol i) < PI / 2 ->
  0 < q_c (at_sample sol i) * q_c (at_sample sol (i - 1)) + q_s (at_sample sol i) * q_s (at_sample sol (i - 1)) ->
  turns (at_sample sol (i - 1)) (at_sample sol i) (step_to sol i).
Proof. exact C18_small_proof. Qed.
Print Assumptions C18_small_turns_partial.
Example C18_case : exists g, generator true ride 7 cart g /\ solved g ride_solution /\
  last_sample (counts true ride) = 2%nat /\ unit_heading (at_sample ride_solution 0) /\
  Rabs (q_w (at_sample ride_solution 1) * step_to ride_solution 1) < PI / 2 /\
  0 < q_c (at_sample ride_solution 1) * q_c (at_sample ride_solution 0) +
      q_s (at_sample ride_solution 1) * q_s (at_sample ride_solution 0).
Proof. exact small_turn_case. Qed.

(** C19. *)
Theorem C19_newton : forall asserts h handle d g sol, generator asserts h handle d g -> solved g sol ->
  forall i, (i <= last_sample (counts asserts h))%nat -> newton d (at_sample sol i) (forces sol i).
Proof. exact C19_proof. Qed.
Print Assumptions C19_newton.
Example C19_case : exists g, generator true ride 7 cart g /\ solved g ride_solution /\
  last_sample (counts true ride) = 2%nat /\ forces ride_solution 1 = [(2, 0); (2, 0)].
Proof.
  destruct the_ride as (g & _ & G & _ & C & S & _). exists g. rewrite C.
  split; [exact G|]. split; [exact S|]. split; reflexivity.
Qed.

(** C20 as stated is false: where the heading is not a unit vector the wheels
    may turn faster than allowed. *)
Theorem C20_wheel_limits_refuted : ~ (forall asserts h handle d g sol, good_history asserts h ->
  generator asserts h handle d g -> real_wheels d -> solved g sol ->
  forall i md, (i <= last_sample (counts asserts h))%nat -> In md (d_modules d) ->
  norm2 (ground_velocity (at_sample sol i) (m_translation md)) <= m_wheelRadius md * m_wheelMaxAngularVelocity md).
Proof. exact C20_refuted_proof. Qed.
Print Assumptions C20_wheel_limits_refuted.
(** What holds: the force limits always, the speed limits for the velocity in
    the robot's frame always and for the ground velocity at every unit heading.
    Missing: ground velocity at other headings. *)
Theorem C20_wheel_limits_partial : forall asserts h handle d g sol, generator asserts h handle d g -> solved g sol ->
  real_wheels d -> forall i, (i <= last_sample (counts asserts h))%nat ->
  forces_within d (forces sol i) /\ wheels_within d (at_sample sol i) /\
  (unit_heading (at_sample sol i) -> forall md, In md (d_modules d) ->
     norm2 (ground_velocity (at_sample sol i) (m_translation md))
       <= m_wheelRadius md * m_wheelMaxAngularVelocity md).
Proof. exact C20_proof. Qed.
Print Assumptions C20_wheel_limits_partial.
Example C20_case : exists g, generator true ride 7 cart g /\ solved g ride_solution /\ real_wheels cart /\
  last_sample (counts true ride) = 2%nat /\ unit_heading (at_sample ride_solution 1).
Proof.
  destruct the_ride as (g & _ & G & W & C & S & U). exists g. rewrite C.
  repeat (split; [assumption|]). split; [reflexivity|]. apply U. simpl. lia.
Qed.

(** C21. *)
Theorem C21_time_steps : forall asserts h handle d g sol, generator asserts h handle d g -> solved g sol ->
  forall i, (1 <= i <= last_sample (counts asserts h))%nat -> step_within d (step_to sol i).
Proof. exact C21_proof. Qed.
Print Assumptions C21_time_steps.
Example C21_case : exists g, generator true ride 7 cart g /\ solved g ride_solution /\
  last_sample (counts true ride) = 2%nat /\ step_to ride_solution 1 = 1/2 /\ step_to ride_solution 2 = 1/2.
Proof.
  destruct the_ride as (g & _ & G & _ & C & S & _). exists g. rewrite C.
  split; [exact G|]. split; [exact S|]. repeat split.
Qed.

(** C26. *)
Theorem C26_timestamps : forall N m (s : solution R) l, well_shaped N m s -> HolonomicTrajectory s = Ok l ->
  length l = length (s_x s) /\
  (forall k p, nth_error l k = Some p -> h_timestamp p = sum (firstn k (s_dt s))) /\
  (forall p, nth_error l 0 = Some p -> h_timestamp p = 0) /\
  ((forall x, In x (s_dt s) -> 0 <= x) -> forall j k p q, (j <= k)%nat ->
     nth_error l j = Some p -> nth_error l k = Some q -> h_timestamp p <= h_timestamp q).
Proof. exact C26_proof. Qed.
Print Assumptions C26_timestamps.
Example C26_case : (exists l, HolonomicTrajectory ride_solution = Ok l /\ length l = 3%nat /\
  well_shaped [2%nat] 2 ride_solution) /\ (forall x, In x (s_dt ride_solution) -> 0 <= x).
Proof. split; [exact ride_trajectory|]. intros x [<-|[<-|[]]]; lra. Qed.

(** C27. *)
Theorem C27_samples_carry_data : forall N m (s : solution R) l, well_shaped N m s -> HolonomicTrajectory s = Ok l ->
  forall k p, nth_error l k = Some p ->
  h_x p = q_x (at_sample s k) /\ h_y p = q_y (at_sample s k) /\
  h_velocityX p = q_vx (at_sample s k) /\ h_velocityY p = q_vy (at_sample s k) /\
  h_angularVelocity p = q_w (at_sample s k) /\
  combine (h_moduleForcesX p) (h_moduleForcesY p) = forces s k /\
  principal (h_heading p) /\
  (unit_heading (at_sample s k) -> heading_is (at_sample s k) (h_heading p)).
Proof. exact C27_proof. Qed.
Print Assumptions C27_samples_carry_data.
(** No element is read out of bounds, for every number type. *)
Theorem C27_no_out_of_bounds : forall (K : Type) (HA : Arith K) (HD : Dbl K) asserts (h : list (op K)) handle d g env sol,
  generator asserts h handle d g -> ConstructSwerveSolution g env = Ok sol ->
  exists l, HolonomicTrajectory sol = Ok l /\ length l = (1 + list_sum (counts asserts h))%nat.
Proof. exact @C27_outcome_proof. Qed.
Print Assumptions C27_no_out_of_bounds.
Example C27_case : (exists l, HolonomicTrajectory ride_solution = Ok l /\ length l = 3%nat /\
  well_shaped [2%nat] 2 ride_solution) /\
  exists g env, generator true ride 7 cart g /\ ConstructSwerveSolution g env = Ok ride_solution.
Proof.
  split; [exact ride_trajectory|]. destruct the_ride as (g & _ & G & _ & _ & (env & _ & E) & _). exists g, env. tauto.
Qed.

(** C28 as stated is false: the heading may be the opposite one. *)
Theorem C28_pose_waypoint_refuted : ~ (forall asserts h handle d g sol i x y a, good_history asserts h ->
  generator asserts h handle d g -> real_wheels d -> solved g sol ->
  In (OPoseWpt i x y a) h -> (i <= length (counts asserts h))%nat ->
  heading_is (at_sample sol (waypoint_sample (counts asserts h) i)) a).
Proof. exact C28_solution_refuted_proof. Qed.
Print Assumptions C28_pose_waypoint_refuted.
(** C65. What holds: position pinned, heading up to half a turn. *)
Theorem C65_pose_waypoint_exact : forall asserts h handle d g sol i x y a, good_history asserts h ->
  generator asserts h handle d g -> solved g sol ->
  In (OPoseWpt i x y a) h -> (i <= length (counts asserts h))%nat ->
  let q := at_sample sol (waypoint_sample (counts asserts h) i) in
  q_x q = x /\ q_y q = y /\ (heading_is q a \/ heading_is q (a + PI)).
Proof. exact C28_solution_proof. Qed.
Print Assumptions C65_pose_waypoint_exact.
(** Both headings occur. *)
Example C65_case : exists g, good_history true park /\ generator true park 0 cart g /\
  solved g (staying 1 (-1) 0 0 0 0 0) /\ In (OPoseWpt 0 0 0 0) park /\ In (OPoseWpt 1 0 0 0) park /\
  (1 <= length (counts true park))%nat.
Proof.
  destruct stay_generator as [[g G] _]. exists g. split; [apply stay_good|]. split; [exact G|].
  split; [exact (flip_solved g G)|]. split; [right; left; reflexivity|].
  split; [right; right; left; reflexivity|]. destruct stay_counts as [-> _]. simpl. lia.
Qed.

(** C29. *)
Theorem C29_translation_waypoint : forall asserts h handle d g sol i x y a, good_history asserts h ->
  generator asserts h handle d g -> solved g sol ->
  In (OTranslationWpt i x y a) h -> (i <= length (counts asserts h))%nat ->
  let q := at_sample sol (waypoint_sample (counts asserts h) i) in
  q_x q = x /\ q_y q = y.
Proof. exact C29_solution_proof. Qed.
Print Assumptions C29_translation_waypoint.
Example C29_solution_case : exists g, good_history true hover /\ generator true hover 0 cart g /\
  solved g (staying 2 (1/2) 0 0 0 0 0) /\ In (OTranslationWpt 1 0 0 0) hover /\ (1 <= length (counts true hover))%nat.
Proof.
  destruct stay_generator as [_ [g G]]. exists g. split; [apply stay_good|]. split; [exact G|].
  split; [apply (hover_solved g 2 (1/2) 0 0 0 0 G); lra|].
  split; [right; right; left; reflexivity|]. destruct stay_counts as [_ ->]. simpl. lia.
Qed.

(** C57.  [nearly_solved eps]: every equation holds within [eps], every
    inequality with slack [eps]. *)
Theorem C57_zero_tolerance_is_exact : forall g sol, nearly_solved 0 g sol <-> solved g sol.
Proof. exact C57_exact_proof. Qed.
Print Assumptions C57_zero_tolerance_is_exact.
Theorem C57_drift_linear : forall asserts h handle d g eps sol,
  generator asserts h handle d g -> nearly_solved eps g sol ->
  forall n, (n <= last_sample (counts asserts h))%nat ->
  let q := at_sample sol in let dt := step_to sol in
  within (INR n * eps) (q_x (q n)) (q_x (q 0%nat) + sum_to (fun i => q_vx (q i) * dt i) n) /\
  within (INR n * eps) (q_y (q n)) (q_y (q 0%nat) + sum_to (fun i => q_vy (q i) * dt i) n) /\
  within (INR n * eps) (q_vx (q n)) (q_vx (q 0%nat) + sum_to (fun i => q_ax (q i) * dt i) n) /\
  within (INR n * eps) (q_vy (q n)) (q_vy (q 0%nat) + sum_to (fun i => q_ay (q i) * dt i) n) /\
  within (INR n * eps) (q_w (q n)) (q_w (q 0%nat) + sum_to (fun i => q_al (q i) * dt i) n).
Proof. exact C57_drift_proof. Qed.
Print Assumptions C57_drift_linear.
Theorem C57_waypoint_positions : forall asserts h handle d g eps sol,
  generator asserts h handle d g -> nearly_solved eps g sol ->
  good_history asserts h -> forall i x y a,
  In (OPoseWpt i x y a) h \/ In (OTranslationWpt i x y a) h -> (i <= length (counts asserts h))%nat ->
  within eps (q_x (at_sample sol (waypoint_sample (counts asserts h) i))) x /\
  within eps (q_y (at_sample sol (waypoint_sample (counts asserts h) i))) y.
Proof. exact C57_position_proof. Qed.
Print Assumptions C57_waypoint_positions.
Theorem C57_speed_limits : forall asserts h handle d g eps sol,
  generator asserts h handle d g -> nearly_solved eps g sol ->
  good_history asserts h -> forall i v, 0 < v ->
  In (OWptConstraint i (LinearVelocityMaxMagnitude v)) h -> (i <= length (counts asserts h))%nat ->
  let q := at_sample sol (waypoint_sample (counts asserts h) i) in
  norm2 (q_vx q, q_vy q) <= sqrt (v * v + eps).
Proof. exact C57_speed_proof. Qed.
Print Assumptions C57_speed_limits.
Theorem C57_wheel_limits : forall asserts h handle d g eps sol,
  generator asserts h handle d g -> nearly_solved eps g sol ->
  forall i, (i <= last_sample (counts asserts h))%nat ->
  (forall md, In md (d_modules d) ->
     let v := m_wheelRadius md * m_wheelMaxAngularVelocity md in
     norm2 (wheel_velocity (at_sample sol i) (m_translation md)) <= sqrt (v * v + eps)) /\
  (forall md f, In (md, f) (combine (d_modules d) (forces sol i)) ->
     let l := m_wheelMaxTorque md / m_wheelRadius md in norm2 f <= sqrt (l * l + eps)).
Proof. exact C57_wheels_proof. Qed.
Print Assumptions C57_wheel_limits.
Theorem C57_newton : forall asserts h handle d g eps sol,
  generator asserts h handle d g -> nearly_solved eps g sol ->
  forall i, (i <= last_sample (counts asserts h))%nat ->
  let q := at_sample sol i in let fs := forces sol i in
  within eps (sum (map fst fs)) (d_mass d * q_ax q) /\
  within eps (sum (map snd fs)) (d_mass d * q_ay q) /\
  within eps (sum (map (fun mf => cross2 (turned q (m_translation (fst mf))) (snd mf)) (combine (d_modules d) fs)))
    (d_moi d * q_al q).
Proof. exact C57_newton_proof. Qed.
Print Assumptions C57_newton.
Example C57_case : exists g, good_history true ride /\ generator true ride 7 cart g /\
  nearly_solved (1 / 10000) g ride_solution.
Proof. exact ride_nearly. Qed.
Example C57_speed_case : exists g, good_history true speedy /\ generator true speedy 7 cart g /\
  nearly_solved (1 / 10000) g speedy_solution /\ In (OWptConstraint 1 (LinearVelocityMaxMagnitude 1)) speedy /\
  (1 <= length (counts true speedy))%nat.
Proof. exact speedy_case. Qed.

(** C58 as stated is false: with headings that are not unit vectors the lever
    arms are stretched. *)
Theorem C58_angular_acceleration_refuted : ~ (forall asserts h handle d g sol, good_history asserts h ->
  generator asserts h handle d g -> real_wheels d -> solved g sol -> 0 < d_moi d ->
  forall i, (i <= last_sample (counts asserts h))%nat ->
  Rabs (q_al (at_sample sol i)) <= sum (map (fun md => arm md * force_limit md) (d_modules d)) / d_moi d).
Proof. exact C58_refuted_proof. Qed.
Print Assumptions C58_angular_acceleration_refuted.
(** What holds: the linear bound always, the angular one at unit headings.
    Missing: the angular bound at other headings. *)
Theorem C58_accelerations_bounded_partial : forall asserts h handle d g sol,
  generator asserts h handle d g -> solved g sol ->
  real_wheels d -> forall i, (i <= last_sample (counts asserts h))%nat ->
  let q := at_sample sol i in
  (0 < d_mass d -> norm2 (q_ax q, q_ay q) <= sum (map force_limit (d_modules d)) / d_mass d) /\
  (0 < d_moi d -> unit_heading q ->
   Rabs (q_al q) <= sum (map (fun md => arm md * force_limit md) (d_modules d)) / d_moi d).
Proof. exact C58_proof. Qed.
Print Assumptions C58_accelerations_bounded_partial.
Example C58_case : exists g, generator true ride 7 cart g /\ solved g ride_solution /\ real_wheels cart /\
  last_sample (counts true ride) = 2%nat /\ 0 < d_mass cart /\ 0 < d_moi cart /\
  unit_heading (at_sample ride_solution 1) /\ q_ax (at_sample ride_solution 1) = 2 /\
  sum (map force_limit (d_modules cart)) / d_mass cart = 4.
Proof.
  destruct the_ride as (g & _ & G & W & C & S & U). exists g. rewrite C.
  repeat (split; [assumption|]). split; [reflexivity|]. unfold force_limit. simpl.
  repeat split; try lra. apply U. simpl. lia.
Qed.

(** C62. *)
Theorem C62_robot_speed_bounded : forall asserts h handle d g sol, generator asserts h handle d g -> solved g sol ->
  real_wheels d -> centred d -> forall i, (i <= last_sample (counts asserts h))%nat ->
  let q := at_sample sol i in unit_heading q ->
  INR (length (d_modules d)) * norm2 (q_vx q, q_vy q) <= sum (map wheel_limit (d_modules d)).
Proof. exact speed_limit_proof. Qed.
Print Assumptions C62_robot_speed_bounded.
Example C62_case : exists g, generator true ride 7 cart g /\ solved g ride_solution /\ real_wheels cart /\
  centred cart /\ last_sample (counts true ride) = 2%nat /\ unit_heading (at_sample ride_solution 1).
Proof.
  destruct the_ride as (g & _ & G & W & C & S & U). exists g. rewrite C.
  repeat (split; [assumption|]). split; [split; simpl; lra|]. split; [reflexivity|]. apply U. simpl. lia.
Qed.
