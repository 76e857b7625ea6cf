(** Concrete cases for [StepProofs]. *)
From Coq Require Import List Lia Lra Psatz Reals ZArith Permutation.
Import ListNotations.
From Verif Require Import Outcome Num NumR Geometry Expr Constraints Util Builder Guess Generator Trajectory
  Spec SpecBuilder SpecPhysics SpecTrajectory SpecGenerator SpecStep GeometryFacts GeneratorCases OrderCases StepProofs.
Local Open Scope nat_scope.
Open Scope R_scope.

Lemma square_spacing : spacing square_drive 2.
Proof.
  split; [lra|]. exists (wheel 1 1), (wheel (-1) 1). split; [left; reflexivity|].
  left. simpl. rewrite Rabs_right; lra.
Qed.

(** Two waypoints a hundred metres apart, with two control intervals between them. *)
Definition too_far : list (op R) :=
  [OPoseWpt 0 0 0 0; OTranslationWpt 1 100 0 1; OControlIntervalCounts [2%nat]].

Lemma too_far_case : exists g, good_history true (too_far ++ [OSetDrivetrain square_drive]) /\
  generator true (too_far ++ [OSetDrivetrain square_drive]) 7 square_drive g /\
  real_wheels square_drive /\ centred square_drive /\ spacing square_drive 2 /\
  counts true (too_far ++ [OSetDrivetrain square_drive]) = [2%nat] /\
  INR (list_sum (firstn 1 (skipn 0 [2%nat]))) * 2 < dist2 (0, 0) (100, 0).
Proof.
  destruct (generator_exists true (too_far ++ [OSetDrivetrain square_drive]) 7 square_drive) as [g G]; [apply Nat.ltb_lt; reflexivity|reflexivity|].
  exists g. split; [repeat split; repeat constructor|]. split; [exact G|]. split; [exact square_wheels|].
  split; [split; simpl; lra|]. split; [exact square_spacing|]. split; [reflexivity|].
  unfold dist2. simpl. replace ((0 - 100) * (0 - 100) + (0 - 0) * (0 - 0)) with (100 * 100) by ring.
  rewrite sqrt_square by lra. lra.
Qed.

Lemma errand_step : unit_heading (at_sample errand_solution 0) /\ unit_heading (at_sample errand_solution 1) /\
  dist2 (position (at_sample errand_solution 0)) (position (at_sample errand_solution 1)) = 1/2 /\
  q_w (at_sample errand_solution 1) * step_to errand_solution 1 = 1/2.
Proof.
  unfold unit_heading, position, dist2, at_sample, errand_solution, step_to. simpl.
  pose proof (pyth 0). pose proof (pyth (1/2)). repeat split; try lra.
  replace ((0 - 1 / 2) * (0 - 1 / 2) + (0 - 0) * (0 - 0)) with ((1/2) * (1/2)) by field. rewrite sqrt_square; lra.
Qed.

Lemma errand_elapsed : elapsed errand_solution 0 2 = 1 /\ thrust square_drive = 16 /\
  norm2 (q_vx (at_sample errand_solution 2) - q_vx (at_sample errand_solution 0),
         q_vy (at_sample errand_solution 2) - q_vy (at_sample errand_solution 0)) = 1.
Proof.
  unfold elapsed, thrust, force_limit, norm2, at_sample, errand_solution, step_to. simpl. repeat split; try lra.
  replace ((1 - 0) * (1 - 0) + (0 - 0) * (0 - 0)) with (1 * 1) by ring. apply sqrt_square. lra.
Qed.
