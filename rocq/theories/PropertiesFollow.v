(** * Clear of obstacles while driving the plan: C122 *)
From Coq Require Import List Lia Lra Reals ZArith.
Import ListNotations.
From Verif Require Import Outcome Num NumR Geometry Constraints Builder Generator Trajectory
  Spec SpecBuilder SpecPhysics SpecTrajectory SpecGenerator SpecStep SpecObstacle SpecDrive SpecBetween SpecFollow
  GeneratorCases StepProofs Programs ProgramProofs ExampleProofs PartsCases BetweenProofs DriveClaims FollowProofs.
Open Scope R_scope.

(** *** C122: a robot that drives the plan keeps clear of what the plan keeps clear of *)

(** It does not, not even at the planned times: *)
Theorem C122_driven_refuted :
  ~ forall asserts h handle d g sol, good_history asserts h -> generator asserts h handle d g -> solved g sol -> real_wheels d ->
  let N := counts asserts h in forall f t c, In (OSgmtConstraint f t c) h -> (f <= length N)%nat ->
  forall m, drives sol (last_sample N) m -> heading_is (at_sample sol 0) (at_angle m 0) -> turns_throughout sol (last_sample N) ->
  forall i, (waypoint_sample N f <= i <= waypoint_sample N t)%nat -> demands (driving m (clock sol i)) c.
Proof. exact C122_refuted_proof. Qed.
Print Assumptions C122_driven_refuted.

(** The ride has to keep a quarter of a metre away from (3/4, 0), does so at its
    three samples and drives into it. *)
Example C122_driven_case : exists g m, good_history true passing /\ generator true passing 7 cart g /\ solved g ride_solution /\
  real_wheels cart /\ counts true passing = [2%nat] /\
  In (OSgmtConstraint 0 1 (PointPoint (mkTr 0 0) (mkTr (3/4) 0) (1/4))) passing /\
  drives ride_solution 2 m /\ heading_is (at_sample ride_solution 0) (at_angle m 0) /\ turns_throughout ride_solution 2 /\
  (forall i, (i <= 2)%nat -> 1/4 <= dist2 (placed (at_sample ride_solution i) (mkTr 0 0)) (3/4, 0)) /\
  clock ride_solution 2 = 1 /\ dist2 (placed (driving m 1) (mkTr 0 0)) (3/4, 0) = 0.
Proof.
  destruct passing_solved as (g & G & Sv).
  assert (Hn : (2 <= last_sample (counts true passing))%nat) by (rewrite passing_counts; unfold last_sample; simpl; lia).
  destruct (C115_drivable_proof true passing 7 cart g ride_solution G Sv 2 0 Hn) as (m & Dr & A0).
  exists g, m. split; [exact passing_good|]. split; [exact G|]. split; [exact Sv|]. split; [exact cart_wheels|].
  split; [reflexivity|]. split; [apply in_or_app; right; left; reflexivity|]. split; [exact Dr|].
  rewrite A0. split; [exact ride_start|]. split; [exact ride_turns|]. split; [exact passing_clear|].
  exact (passing_end g m G Sv Dr).
Qed.

(** At any moment of a step, and for any point of the robot, the distance planned
    at either end of the step is lost by at most the lag there and what is driven
    and turned from there at the greater of the two speeds. *)
Theorem C122_moment_partial :
  forall asserts h handle d g sol, generator asserts h handle d g -> solved g sol ->
  forall n m, (n <= last_sample (counts asserts h))%nat -> drives sol n m ->
  heading_is (at_sample sol 0) (at_angle m 0) -> turns_throughout sol n ->
  forall i t j, (1 <= i <= n)%nat -> clock sol (i - 1) <= t <= clock sol i -> (j = i - 1 \/ j = i)%nat ->
  let a := at_sample sol (i - 1) in let b := at_sample sol i in forall p o,
  dist2 (placed (at_sample sol j) p) o -
    (norm2 (lag q_vx sol j, lag q_vy sol j) + norm2 (pt p) * Rabs (lag q_w sol j) +
     (faster a b + norm2 (pt p) * faster_turn a b) * Rabs (t - clock sol j)) <= dist2 (placed (driving m t) p) o.
Proof. exact C122_clear_proof. Qed.
Print Assumptions C122_moment_partial.

(** The end of the ride again: the quarter metre kept is lost to the lag. *)
Example C122_moment_case : exists g m, generator true passing 7 cart g /\ solved g ride_solution /\
  counts true passing = [2%nat] /\ drives ride_solution 2 m /\ heading_is (at_sample ride_solution 0) (at_angle m 0) /\
  turns_throughout ride_solution 2 /\ clock ride_solution 1 <= 1 <= clock ride_solution 2 /\
  dist2 (placed (at_sample ride_solution 2) (mkTr 0 0)) (3/4, 0) = 1/4 /\
  norm2 (lag q_vx ride_solution 2, lag q_vy ride_solution 2) = 1/4 /\ lag q_w ride_solution 2 = 0 /\
  dist2 (placed (driving m 1) (mkTr 0 0)) (3/4, 0) = 0.
Proof.
  destruct C122_driven_case as (g & m & _ & G & Sv & _ & C & _ & Dr & H0 & T & _ & C2 & D).
  exists g, m. split; [exact G|]. split; [exact Sv|]. split; [exact C|]. split; [exact Dr|]. split; [exact H0|]. split; [exact T|].
  split; [unfold clock, elapsed, step_to, ride_solution; simpl; lra|].
  split.
  { rewrite along_x by (unfold at_sample, ride_solution; simpl; reflexivity). unfold at_sample, ride_solution. cbn [q_x s_x nth].
    rewrite Rabs_left by lra. lra. }
  split; [|split; [unfold lag, sum_to, at_sample, step_to, ride_solution; simpl; lra|exact D]].
  unfold lag, sum_to, at_sample, step_to, ride_solution. simpl. unfold norm2. cbn [fst snd].
  match goal with |- sqrt ?e = _ => replace e with (1/4 * (1/4)) by lra end. apply sqrt_square. lra.
Qed.

(** In segment [w] (the first is 0), with neighbouring modules [s] apart and the
    robot no larger than [rho]: w + 3/2 times s + 2 rho are lost at most, of the
    distance to a point and of the distance between outlines. *)
Theorem C122_spacing_partial :
  forall asserts h handle d g sol, generator asserts h handle d g -> solved g sol ->
  real_wheels d -> centred d -> forall s, spacing d s -> let N := counts asserts h in
  forall m, drives sol (last_sample N) m -> heading_is (at_sample sol 0) (at_angle m 0) -> turns_throughout sol (last_sample N) ->
  forall w i t, (w < length N)%nat -> (waypoint_sample N w < i <= waypoint_sample N (S w))%nat ->
  clock sol (i - 1) <= t <= clock sol i ->
  let a := at_sample sol (i - 1) in let b := at_sample sol i in
  (forall p o k, k <= dist2 (placed a p) o -> k <= dist2 (placed b p) o ->
     k - (INR w + 3/2) * (s + 2 * norm2 (pt p)) <= dist2 (placed (driving m t) p) o) /\
  (forall bu o e rho, within_radius bu rho -> outlines_apart a bu o e -> outlines_apart b bu o e ->
     outlines_apart (driving m t) bu o (e - (INR w + 3/2) * (s + 2 * rho))).
Proof. exact C122_spacing_proof. Qed.
Print Assumptions C122_spacing_partial.

(** The ride in its second step. *)
Example C122_spacing_case : exists g m, generator true passing 7 cart g /\ solved g ride_solution /\
  real_wheels cart /\ centred cart /\ spacing cart 2 /\ counts true passing = [2%nat] /\
  drives ride_solution 2 m /\ heading_is (at_sample ride_solution 0) (at_angle m 0) /\ turns_throughout ride_solution 2 /\
  (waypoint_sample [2%nat] 0 < 2 <= waypoint_sample [2%nat] 1)%nat /\
  clock ride_solution 1 = 1/2 /\ clock ride_solution 2 = 1 /\ norm2 (pt (mkTr 1 0)) = 1 /\
  9 <= dist2 (placed (at_sample ride_solution 1) (mkTr 1 0)) (12, 0) /\
  9 <= dist2 (placed (at_sample ride_solution 2) (mkTr 1 0)) (12, 0).
Proof.
  destruct C122_driven_case as (g & m & _ & G & Sv & W & C & _ & Dr & H0 & T & _).
  exists g, m. split; [exact G|]. split; [exact Sv|]. split; [exact W|]. split; [split; simpl; lra|].
  split; [exact cart_spacing|]. split; [exact C|]. split; [exact Dr|]. split; [exact H0|]. split; [exact T|].
  split; [unfold waypoint_sample; simpl; lia|].
  split; [unfold clock, elapsed, step_to, ride_solution; simpl; lra|].
  split; [unfold clock, elapsed, step_to, ride_solution; simpl; lra|].
  split; [unfold pt, norm2; cbn [fst snd tX tY]; rewrite Rmult_0_l, Rplus_0_r, Rmult_1_r; apply sqrt_1|].
  assert (F : forall x y c s, x <= 1 -> c <= 1 -> 9 <= dist2 (placed (mkState x y c s 0 0 0 0 0 0) (mkTr 1 0)) (12, 0)).
  { intros x y c s Hx Hc. unfold placed, dist2. cbn [fst snd q_x q_y q_c q_s tX tY].
    rewrite <- (sqrt_square 9) at 1 by lra. apply sqrt_le_1_alt.
    match goal with |- _ <= ?u * _ + ?v * _ => assert (10 <= - u) by lra; assert (0 <= v * v) by apply Rle_0_sqr; nra end. }
  split; apply F; unfold at_sample, ride_solution; cbn [s_x s_thetacos nth]; try lra; apply COS_bound.
Qed.

(** If the plan neither drives nor turns at the waypoints so far, s + 2 rho. *)
Theorem C122_stops_partial :
  forall asserts h handle d g sol, generator asserts h handle d g -> solved g sol ->
  real_wheels d -> centred d -> forall s, spacing d s -> let N := counts asserts h in
  forall m, drives sol (last_sample N) m -> heading_is (at_sample sol 0) (at_angle m 0) -> turns_throughout sol (last_sample N) ->
  forall w i t, (w < length N)%nat -> (waypoint_sample N w < i <= waypoint_sample N (S w))%nat ->
  (forall v, (v <= w)%nat -> halted (at_sample sol (waypoint_sample N v))) ->
  clock sol (i - 1) <= t <= clock sol i ->
  let a := at_sample sol (i - 1) in let b := at_sample sol i in
  (forall p o k, k <= dist2 (placed a p) o -> k <= dist2 (placed b p) o ->
     k - (s + 2 * norm2 (pt p)) <= dist2 (placed (driving m t) p) o) /\
  (forall bu o e rho, within_radius bu rho -> outlines_apart a bu o e -> outlines_apart b bu o e ->
     outlines_apart (driving m t) bu o (e - (s + 2 * rho))).
Proof. exact C122_stops_proof. Qed.
Print Assumptions C122_stops_partial.

(** The shortest trajectory of the first example program, driving past (2, 2):
    modules are 1.2 metres apart. *)
Example C122_stops_case : exists g m, generator true example1 7 ex_drivetrain g /\ solved g best /\
  real_wheels ex_drivetrain /\ centred ex_drivetrain /\ spacing ex_drivetrain (12/10) /\
  counts true (@example1 R _) = [40%nat] /\ drives best 40 m /\ heading_is (at_sample best 0) (at_angle m 0) /\
  turns_throughout best 40 /\ halted (at_sample best 0) /\
  (forall i, (i <= 40)%nat -> 2 <= dist2 (placed (at_sample best i) (mkTr 0 0)) (2, 2)) /\
  norm2 (pt (mkTr 0 0)) = 0.
Proof.
  destruct best_rest as (g & G & Sv & W & _).
  destruct (C115_drivable_proof true example1 7 ex_drivetrain g best G Sv 40 0) as (m & Dr & A0); [reflexivity|].
  exists g, m. split; [exact G|]. split; [exact Sv|]. split; [exact W|]. split; [exact ex_centred|].
  split.
  { replace (12/10) with (2 * (6/10)) by lra.
    exact (proj1 (rectangular_spacing ex_drivetrain (6/10) (6/10) ltac:(lra) ltac:(lra) ex_square)). }
  split; [reflexivity|]. split; [exact Dr|]. rewrite A0.
  split; [rewrite best_sample by lia; split; cbn [q_c q_s]; [rewrite cos_0|rewrite sin_0]; reflexivity|].
  split.
  { intros i Hi. rewrite !best_sample by lia. unfold turns. cbn [q_c q_s q_w]. rewrite Rmult_0_l, cos_0, sin_0. split; ring. }
  split; [rewrite best_sample by lia; unfold halted; cbn [q_vx q_vy q_w]; unfold peak; simpl; repeat split; ring|].
  split.
  { intros i Hi. rewrite best_sample by lia. unfold placed. cbn [q_x q_y q_c q_s tX tY].
    replace (0 + (0 * 0 + 0 * 1)) with 0 by ring.
    match goal with |- 2 <= dist2 (?x, 0) _ => generalize x; intros z end.
    unfold dist2. cbn [fst snd]. rewrite <- (sqrt_square 2) at 1 by lra. apply sqrt_le_1_alt.
    assert (0 <= (2 - z) * (2 - z)) by (apply Rle_0_sqr). lra. }
  unfold pt, norm2. cbn [fst snd tX tY]. rewrite Rmult_0_l, Rplus_0_l. apply sqrt_0.
Qed.
