(** The first example program as a case for C104 and C105. *)
From Coq Require Import List Lia Lra Reals.
Import ListNotations.
From Verif Require Import Outcome Num NumR Geometry Constraints Builder Generator Programs Spec SpecBuilder SpecPhysics SpecTrajectory
  SpecGenerator SpecStep SpecEnergy SolutionProofs OrderProofs OrderCases ProgramProofs EnergyProofs.
Open Scope R_scope.

Lemma best_unit : forall i, (i <= 40)%nat -> unit_heading (at_sample best i).
Proof. intros i Hi. rewrite best_sample by exact Hi. unfold unit_heading. cbn [q_c q_s]. lra. Qed.

Lemma best_energy_case : forall asserts handle g, generator asserts example1 handle ex_drivetrain g ->
  solved g best /\ real_wheels (@ex_drivetrain R _) /\ 0 <= d_mass (@ex_drivetrain R _) /\ 0 <= d_moi (@ex_drivetrain R _) /\
  last_sample (counts asserts (@example1 R _)) = 40%nat /\ (forall i, (i <= 40)%nat -> unit_heading (at_sample best i)) /\
  kinetic_energy ex_drivetrain (at_sample best 0) = 0 /\ kinetic_energy ex_drivetrain (at_sample best 20) = 100.
Proof.
  intros asserts handle g G. split; [exact (best_solved asserts handle g G)|]. split; [exact ex_wheels|].
  split; [rewrite ex_mass; lra|]. split; [cbn; unfold Q2R; cbn; lra|]. split; [rewrite example1_counts; reflexivity|].
  split; [exact best_unit|]. rewrite !best_sample by lia. unfold kinetic_energy. cbn [q_vx q_vy q_w]. rewrite ex_mass.
  replace (peak 0) with 0 by (unfold peak; simpl; lra).
  replace (peak 20) with 20 by (unfold peak; simpl; lra).
  pose proof tick_sqr. split; [field|].
  replace (40 / 9 * tick * 20 * (40 / 9 * tick * 20)) with (640000 / 81 * (tick * tick)) by field. lra.
Qed.

Lemma best_slower_case : forall asserts handle g, generator asserts example1 handle ex_drivetrain g ->
  good_history asserts (@example1 R _) /\ real_wheels (@ex_drivetrain R _) /\
  (forall n, In n (counts asserts (@example1 R _)) -> (1 <= n)%nat) /\ solved g best /\ 0 < sum (s_dt best) /\
  (forall sol, solved g sol -> sum (s_dt best) <= sum (s_dt sol)) /\
  (forall i, (1 <= i <= last_sample (counts asserts (@example1 R _)))%nat -> step_within ex_drivetrain (2 * step_to best i)).
Proof.
  intros asserts handle g G. split; [exact (example1_good asserts)|]. split; [exact ex_wheels|].
  split; [rewrite example1_counts; intros n [<-|[]]; lia|]. split; [exact (best_solved asserts handle g G)|].
  split; [rewrite best_duration; apply sqrt_lt_R0; lra|].
  split; [intros sol Sv; rewrite best_duration; exact (example1_lower asserts handle g sol G Sv)|].
  rewrite example1_counts. change (last_sample [40%nat]) with 40%nat. intros i Hi. rewrite best_step by exact Hi.
  pose proof tick_pos. pose proof tick_small. assert (L4 : Q2R (4 # 100) = 4/100) by (unfold Q2R; cbn; lra).
  assert (L70 : Q2R 70 = 70) by (unfold Q2R; cbn; lra).
  apply (rectangular_step (6/10) (6/10) ex_drivetrain (2 * tick)); [lra|lra|exact ex_square|].
  split; [lra|]. intros md [<-|[<-|[<-|[<-|[]]]]]; cbn; rewrite L4, L70; lra.
Qed.

Lemma example1_generator : exists g, generator true (@example1 R _) 7 ex_drivetrain g.
Proof. apply (C76_proof true 7 example1). left. reflexivity. Qed.
Lemma C104_case_proof : exists g sol, generator true (@example1 R _) 7 ex_drivetrain g /\
  solved g sol /\ real_wheels (@ex_drivetrain R _) /\ 0 <= d_mass (@ex_drivetrain R _) /\ 0 <= d_moi (@ex_drivetrain R _) /\
  last_sample (counts true (@example1 R _)) = 40%nat /\ (forall i, (i <= 40)%nat -> unit_heading (at_sample sol i)) /\
  kinetic_energy ex_drivetrain (at_sample sol 0) = 0 /\ kinetic_energy ex_drivetrain (at_sample sol 20) = 100.
Proof. destruct example1_generator as [g G]. exists g, best. split; [exact G|exact (best_energy_case true 7 g G)]. Qed.
Lemma C105_case_proof : exists g sol, generator true (@example1 R _) 7 ex_drivetrain g /\
  good_history true (@example1 R _) /\ real_wheels (@ex_drivetrain R _) /\
  (forall n, In n (counts true (@example1 R _)) -> (1 <= n)%nat) /\ solved g sol /\ 0 < sum (s_dt sol) /\
  (forall sol', solved g sol' -> sum (s_dt sol) <= sum (s_dt sol')) /\
  (forall i, (1 <= i <= last_sample (counts true (@example1 R _)))%nat -> step_within ex_drivetrain (2 * step_to sol i)).
Proof. destruct example1_generator as [g G]. exists g, best. split; [exact G|exact (best_slower_case true 7 g G)]. Qed.
