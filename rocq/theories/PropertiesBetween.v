(** * Between samples: C117 *)
From Coq Require Import List Lia Lra Reals ZArith.
Import ListNotations.
From Verif Require Import Outcome Num NumR Geometry Constraints Builder Generator Trajectory
  Spec SpecBuilder SpecPhysics SpecTrajectory SpecGenerator SpecStep SpecObstacle SpecDrive SpecBetween
  GeneratorCases StepProofs DashProofs PartsCases BetweenProofs BehindProofs.
Open Scope R_scope.

(** *** C117: a constraint on a segment holds all along the segment *)

(** It is only looked at at the samples: the robot may be planned to jump over the
    very point it has to keep away from. *)
Theorem C117_all_along_refuted :
  ~ forall asserts h handle d g sol, good_history asserts h -> generator asserts h handle d g -> solved g sol ->
  let N := counts asserts h in forall f t c, In (OSgmtConstraint f t c) h -> (f <= length N)%nat ->
  forall i, (waypoint_sample N f < i <= waypoint_sample N t)%nat ->
  forall share q, between (at_sample sol (i - 1)) (at_sample sol i) (step_to sol i) share q -> demands q c.
Proof. exact C117_refuted_proof. Qed.
Print Assumptions C117_all_along_refuted.

(** Constraints on velocity, acceleration and position do hold between samples. *)
Theorem C117_smooth_partial :
  forall asserts h handle d g sol, good_history asserts h -> generator asserts h handle d g -> solved g sol ->
  let N := counts asserts h in forall f t c, In (OSgmtConstraint f t c) h -> (f <= length N)%nat -> smooth_kind c ->
  forall i, (waypoint_sample N f < i <= waypoint_sample N t)%nat ->
  forall share q, between (at_sample sol (i - 1)) (at_sample sol i) (step_to sol i) share q -> demands q c.
Proof. exact C117_smooth_proof. Qed.
Print Assumptions C117_smooth_partial.

(** A dash of one interval, speeding up to its limit. *)
Example C117_smooth_case : exists g,
  let h := dashing (LinearVelocityMaxMagnitude 2) in
  good_history true h /\ generator true h 7 cart g /\ solved g dashed /\ counts true h = [1%nat] /\
  In (OSgmtConstraint 0 1 (LinearVelocityMaxMagnitude 2)) h /\ smooth_kind (LinearVelocityMaxMagnitude 2) /\
  between (at_sample dashed 0) (at_sample dashed 1) (step_to dashed 1) (1/2) halfway /\
  norm2 (q_vx (at_sample dashed 1), q_vy (at_sample dashed 1)) = 2 /\ norm2 (q_vx halfway, q_vy halfway) = 1.
Proof.
  assert (N0 : forall x, 0 <= x -> norm2 (x, 0) = x).
  { intros x Hx. unfold norm2. simpl. rewrite Rmult_0_l, Rplus_0_r. apply sqrt_square. exact Hx. }
  destruct (dashing_solved true (LinearVelocityMaxMagnitude 2) I) as (g & G & Sv).
  - rewrite dashed_start. simpl. rewrite N0, Rabs_right; lra.
  - rewrite dashed_finish. simpl. rewrite N0, Rabs_right; lra.
  - exists g. cbv zeta. split; [apply dashing_good; exact I|]. split; [exact G|]. split; [exact Sv|].
    split; [apply dashing_counts|]. split; [apply in_or_app; right; left; reflexivity|]. split; [exact I|].
    split; [exact halfway_between|]. rewrite dashed_finish. unfold halfway. simpl. split; apply N0; lra.
Qed.

(** So does a pose, when the robot turns as documented and two neighbouring
    modules lie apart: the robot stands still. *)
Theorem C117_pose_partial :
  forall asserts h handle d g sol, good_history asserts h -> generator asserts h handle d g -> solved g sol ->
  real_wheels d -> forall s, spacing d s ->
  let N := counts asserts h in forall f t p, In (OSgmtConstraint f t (PoseEquality p)) h -> (f <= length N)%nat ->
  forall i, (waypoint_sample N f < i <= waypoint_sample N t)%nat ->
  turns (at_sample sol (i - 1)) (at_sample sol i) (step_to sol i) ->
  forall share q, between (at_sample sol (i - 1)) (at_sample sol i) (step_to sol i) share q -> demands q (PoseEquality p).
Proof. exact C117_pose_proof. Qed.
Print Assumptions C117_pose_partial.

(** A robot that is told to keep its pose for the first of two intervals. *)
Example C117_pose_case : exists g, good_history true keeping /\ generator true keeping 0 cart g /\ solved g idle_solution /\
  real_wheels cart /\ spacing cart 2 /\ counts true keeping = [1; 1]%nat /\
  In (OSgmtConstraint 0 1 (PoseEquality (pose_xyh 0 0 0))) keeping /\
  turns (at_sample idle_solution 0) (at_sample idle_solution 1) (step_to idle_solution 1) /\
  between (at_sample idle_solution 0) (at_sample idle_solution 1) (step_to idle_solution 1) (1/3) (at_sample idle_solution 1).
Proof.
  destruct keeping_solved as (g & G & Sv). exists g. split; [exact keeping_good|]. split; [exact G|]. split; [exact Sv|].
  split; [exact cart_wheels|]. split; [exact cart_spacing|]. split; [reflexivity|].
  split; [apply in_or_app; right; left; reflexivity|].
  unfold turns, between, mix, at_sample, step_to, idle_solution. simpl. rewrite Rmult_0_l, Rmult_0_r, cos_0, sin_0.
  repeat split; lra.
Qed.

(** Facing a target up to a quarter turn holds in steps in which the robot does
    not turn. *)
Theorem C117_facing_partial :
  forall asserts h handle d g sol, good_history asserts h -> generator asserts h handle d g -> solved g sol ->
  let N := counts asserts h in forall f t target tol, In (OSgmtConstraint f t (PointAt target tol)) h -> (f <= length N)%nat ->
  0 <= cos tol -> forall i, (waypoint_sample N f < i <= waypoint_sample N t)%nat ->
  turns (at_sample sol (i - 1)) (at_sample sol i) (step_to sol i) -> q_w (at_sample sol i) = 0 ->
  forall share q, between (at_sample sol (i - 1)) (at_sample sol i) (step_to sol i) share q -> demands q (PointAt target tol).
Proof. exact C117_facing_proof. Qed.
Print Assumptions C117_facing_partial.

(** The dash faces a point ahead of it. *)
Example C117_facing_case : exists g,
  let h := dashing (PointAt (mkTr 2 1) (PI / 2)) in
  good_history true h /\ generator true h 7 cart g /\ solved g dashed /\ counts true h = [1%nat] /\
  In (OSgmtConstraint 0 1 (PointAt (mkTr 2 1) (PI / 2))) h /\ 0 <= cos (PI / 2) /\
  turns (at_sample dashed 0) (at_sample dashed 1) (step_to dashed 1) /\ q_w (at_sample dashed 1) = 0 /\
  between (at_sample dashed 0) (at_sample dashed 1) (step_to dashed 1) (1/2) halfway.
Proof.
  destruct (dashing_solved true (PointAt (mkTr 2 1) (PI / 2)) I) as (g & G & Sv).
  - rewrite dashed_start. cbn [demands]. rewrite cos_PI2. simpl. lra.
  - rewrite dashed_finish. cbn [demands]. rewrite cos_PI2. simpl. lra.
  - exists g. cbv zeta. split; [apply dashing_good; exact I|]. split; [exact G|]. split; [exact Sv|].
    split; [apply dashing_counts|]. split; [apply in_or_app; right; left; reflexivity|]. split; [rewrite cos_PI2; lra|].
    split; [|split; [rewrite dashed_finish; reflexivity|exact halfway_between]].
    rewrite dashed_start, dashed_finish. unfold turns. simpl. rewrite Rmult_0_l, cos_0, sin_0. split; ring.
Qed.

(** No wider tolerance holds between samples, even in such steps, but the one of
    half a turn, which asks for nothing. *)
Theorem C117_tolerance_partial : forall tol,
  (forall asserts h handle d g sol, good_history asserts h -> generator asserts h handle d g -> solved g sol ->
   let N := counts asserts h in forall f t target, In (OSgmtConstraint f t (PointAt target tol)) h -> (f <= length N)%nat ->
   forall i, (waypoint_sample N f < i <= waypoint_sample N t)%nat -> unit_heading (at_sample sol (i - 1)) ->
   turns (at_sample sol (i - 1)) (at_sample sol i) (step_to sol i) -> q_w (at_sample sol i) = 0 ->
   forall share q, between (at_sample sol (i - 1)) (at_sample sol i) (step_to sol i) share q -> demands q (PointAt target tol))
  <-> 0 <= cos tol \/ cos tol = -1.
Proof. exact C117_tolerance_proof. Qed.
Print Assumptions C117_tolerance_partial.

(** A robot steps to the side with a target behind it that it sees from both
    samples up to a third of a turn, but not from halfway. *)
Example C117_tolerance_case : exists g,
  let h := sidelong (PointAt (mkTr (-1/4) (1/2)) (2 * (PI / 3))) in
  good_history true h /\ generator true h 7 cart g /\ solved g sidestep /\ counts true h = [1%nat] /\
  unit_heading (at_sample sidestep 0) /\ turns (at_sample sidestep 0) (at_sample sidestep 1) (step_to sidestep 1) /\
  q_w (at_sample sidestep 1) = 0 /\ cos (2 * (PI / 3)) = -1/2 /\
  between (at_sample sidestep 0) (at_sample sidestep 1) (step_to sidestep 1) (1/2) midstep.
Proof.
  assert (C : cos (2 * (PI / 3)) = -1/2) by exact cos_2PI3.
  assert (T : mkTr (-1/4) (1/2) = mkTr (cos (2 * (PI / 3)) / 2) (1/2)) by (rewrite C; f_equal; lra).
  destruct (sidelong_solved true (PointAt (mkTr (-1/4) (1/2)) (2 * (PI / 3))) I) as (g & G & Sv).
  - rewrite sidestep_start, T. apply (behind_seen _ _ (1/2) (-(1/2))); cbn [q_x q_y q_c q_s]; lra.
  - rewrite sidestep_finish, T. apply (behind_seen _ _ (1/2) (1/2)); cbn [q_x q_y q_c q_s]; lra.
  - exists g. cbv zeta. split; [apply sidelong_good; exact I|]. split; [exact G|]. split; [exact Sv|].
    split; [apply sidelong_counts|]. split; [rewrite sidestep_start; unfold unit_heading; cbn [q_c q_s]; ring|].
    split; [exact sidestep_turns|]. split; [rewrite sidestep_finish; reflexivity|]. split; [exact C|exact midstep_between].
Qed.

(** While the robot turns, it faces the target up to the tolerance plus the part
    of the turn between this moment and the sample farther away in time (as long
    as that is no more than a quarter turn). *)
Theorem C117_turning_partial :
  forall asserts h handle d g sol, good_history asserts h -> generator asserts h handle d g -> solved g sol ->
  let N := counts asserts h in forall f t target tol, In (OSgmtConstraint f t (PointAt target tol)) h -> (f <= length N)%nat ->
  0 <= tol -> forall i, (waypoint_sample N f < i <= waypoint_sample N t)%nat ->
  let a := at_sample sol (i - 1) in let b := at_sample sol i in unit_heading a -> turns a b (step_to sol i) ->
  forall share q, between a b (step_to sol i) share q ->
  let wider := tol + Rmax share (1 - share) * Rabs (q_w b * step_to sol i) in
  wider <= PI / 2 -> demands q (PointAt target wider).
Proof. exact C117_turning_proof. Qed.
Print Assumptions C117_turning_partial.

(** The ride faces the point (2, 1) up to a sixth of a turn; after half the first
    step, in which it turns by half a radian, up to a quarter radian more. *)
Example C117_turning_case : exists g, good_history true watching /\ generator true watching 7 cart g /\ solved g ride_solution /\
  counts true watching = [2%nat] /\ In (OSgmtConstraint 0 1 (PointAt (mkTr 2 1) (PI / 3))) watching /\
  let a := at_sample ride_solution 0 in let b := at_sample ride_solution 1 in let dt := step_to ride_solution 1 in
  unit_heading a /\ turns a b dt /\ between a b dt (1/2) mid_ride /\
  PI / 3 + Rmax (1/2) (1 - 1/2) * Rabs (q_w b * dt) = PI / 3 + 1/4 /\ PI / 3 + 1/4 <= PI / 2.
Proof.
  destruct watching_solved as (g & G & Sv). exists g. split; [exact watching_good|]. split; [exact G|]. split; [exact Sv|].
  split; [reflexivity|]. split; [apply in_or_app; right; left; reflexivity|]. cbv zeta.
  split; [apply ride_headings; simpl; lia|].
  split; [apply (proj1 ride_physics 1%nat); simpl; lia|]. split; [exact watching_between|].
  replace (1 - 1/2) with (1/2) by lra. rewrite Rmax_left by lra. unfold at_sample, step_to, ride_solution.
  cbn [q_w s_omega s_dt nth Nat.sub]. rewrite Rabs_right by lra. pose proof PI2_3_2. split; lra.
Qed.

(** The distance to a point of the field is kept up to half the distance between
    two neighbouring modules and the distance of the robot's point from its centre;
    so is the distance between outlines. *)
Theorem C117_clear_partial :
  forall asserts h handle d g sol, generator asserts h handle d g -> solved g sol ->
  real_wheels d -> centred d -> forall s, spacing d s ->
  forall i, (1 <= i <= last_sample (counts asserts h))%nat ->
  let a := at_sample sol (i - 1) in let b := at_sample sol i in unit_heading a -> turns a b (step_to sol i) ->
  forall share q, between a b (step_to sol i) share q ->
  (forall p o k, k <= dist2 (placed a p) o -> k <= dist2 (placed b p) o ->
     k - (s / 2 + norm2 (pt p)) <= dist2 (placed q p) o) /\
  (forall bu o e rho, 0 <= rho -> within_radius bu rho -> outlines_apart a bu o e -> outlines_apart b bu o e ->
     outlines_apart q bu o (e - (s / 2 + rho))).
Proof. exact C117_clear_proof. Qed.
Print Assumptions C117_clear_partial.

(** With the length of the step and the angle turned in place of the bounds, for
    any two states; a jump straight over the point loses exactly this. *)
Theorem C117_step_partial :
  forall a b dt share q p o k, unit_heading a -> turns a b dt -> between a b dt share q ->
  k <= dist2 (placed a p) o -> k <= dist2 (placed b p) o ->
  k - (dist2 (position a) (position b) + norm2 (pt p) * Rabs (q_w b * dt)) / 2 <= dist2 (placed q p) o.
Proof. exact point_clear. Qed.
Print Assumptions C117_step_partial.

(** The dash jumps over (1/2, 0), half a metre from both its ends. *)
Example C117_clear_case : exists g, generator true (dash cart 1 1) 7 cart g /\ solved g dashed /\
  real_wheels cart /\ centred cart /\ spacing cart 2 /\ counts true (dash cart 1 1) = [1%nat] /\
  let a := at_sample dashed 0 in let b := at_sample dashed 1 in
  unit_heading a /\ turns a b (step_to dashed 1) /\ between a b (step_to dashed 1) (1/2) halfway /\
  dist2 (placed a (mkTr 0 0)) (1/2, 0) = 1/2 /\ dist2 (placed b (mkTr 0 0)) (1/2, 0) = 1/2 /\
  dist2 (placed halfway (mkTr 0 0)) (1/2, 0) = 0 /\
  1/2 - (dist2 (position a) (position b) + norm2 (pt (mkTr 0 0)) * Rabs (q_w b * step_to dashed 1)) / 2 = 0.
Proof.
  assert (D0 : forall x y, dist2 (x, 0) (y, 0) = Rabs (y - x)).
  { intros x y. unfold dist2. cbn [fst snd]. replace (_ + _) with (Rsqr (y - x)) by (unfold Rsqr; ring). apply sqrt_Rsqr_abs. }
  destruct (dash_generator cart 1 1 true 7) as [g G]. exists g. split; [exact G|].
  split; [exact (dash_solved cart 1 1 cart_can_dash true 7 g G)|]. pose proof cart_can_dash as (W & Ce & _).
  split; [exact W|]. split; [exact Ce|]. split; [exact cart_spacing|].
  split; [reflexivity|]. cbv zeta. pose proof halfway_between as Hb. rewrite dashed_start, dashed_finish in *.
  split; [unfold unit_heading; simpl; ring|].
  split; [unfold turns; simpl; rewrite Rmult_0_l, cos_0, sin_0; split; ring|]. split; [exact Hb|].
  unfold placed, position, halfway. cbn [q_x q_y q_c q_s q_w tX tY].
  replace (0 + (0 * 0 + 0 * 1)) with 0 by ring. replace (0 * 1 - 0 * 0) with 0 by ring. rewrite !D0, (Rmult_0_l (step_to dashed 1)), Rabs_R0.
  split; [rewrite Rabs_right; lra|]. split; [rewrite Rabs_left; lra|]. split; [rewrite Rabs_right; lra|].
  rewrite (Rabs_right (1 - 0)); lra.
Qed.
