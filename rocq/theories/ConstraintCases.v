(** Concrete cases for the constraint theorems. *)
From Coq Require Import Lia Lra Psatz List Qreals.
Import ListNotations.
From Verif Require Import Outcome Num NumR Geometry Expr Constraints Spec SpecPhysics Semantics
  UtilFacts GeometryFacts ConstraintFacts ConstraintProofs.
Local Open Scope nat_scope.
Open Scope R_scope.

(** A robot at (1,2), heading straight up, moving with velocity (3,4),
    acceleration (-5,12), turning at -2 rad/s. *)
Definition robot : state := mkState 1 2 0 1 3 4 (-2) (-5) 12 0.

Lemma norm2_val : forall x y k, 0 <= k -> x * x + y * y = k * k -> norm2 (x, y) = k.
Proof. intros x y k Hk E. unfold norm2. simpl. rewrite E. apply sqrt_square; assumption. Qed.

Lemma C30_case_proof :
  satisfied robot (LinearVelocityMaxMagnitude 5) /\ ~ satisfied robot (LinearVelocityMaxMagnitude 4) /\
  mkLinearVelocityMaxMagnitude true 5 = Ok (LinearVelocityMaxMagnitude 5).
Proof.
  rewrite !satisfied_demands by exact I. cbn [demands robot q_vx q_vy].
  rewrite (norm2_val 3 4 5), !Rabs_right by lra.
  repeat split; [lra|lra|apply assert_nonneg_ok; lra].
Qed.
Lemma C30_zero_proof : satisfied (mkState 1 2 0 1 0 0 0 0 0 0) (LinearVelocityMaxMagnitude 0) /\
  ~ satisfied robot (LinearVelocityMaxMagnitude 0).
Proof.
  rewrite !satisfied_demands by exact I. cbn [demands robot q_vx q_vy].
  rewrite (norm2_val 3 4 5), (norm2_val 0 0 0), Rabs_R0 by lra. lra.
Qed.
Lemma C31_case_proof :
  satisfied robot (AngularVelocityMaxMagnitude 2) /\ ~ satisfied robot (AngularVelocityMaxMagnitude 1) /\
  mkAngularVelocityMaxMagnitude true 2 = Ok (AngularVelocityMaxMagnitude 2).
Proof.
  rewrite !satisfied_demands by exact I. cbn [demands robot q_w].
  rewrite (Rabs_left (-2)) by lra. repeat split; [lra|lra|apply assert_nonneg_ok; lra].
Qed.
Lemma C32_case_proof :
  satisfied robot (LinearAccelerationMaxMagnitude 13) /\ ~ satisfied robot (LinearAccelerationMaxMagnitude 12) /\
  mkLinearAccelerationMaxMagnitude true 13 = Ok (LinearAccelerationMaxMagnitude 13).
Proof.
  rewrite !satisfied_demands by exact I. cbn [demands robot q_ax q_ay].
  rewrite (norm2_val (-5) 12 13), !Rabs_right by lra. repeat split; [lra|lra|apply assert_nonneg_ok; lra].
Qed.
Lemma C33_case_proof :
  satisfied (mkState 0 0 1 0 0 (-3) 0 0 0 0) (mkLinearVelocityDirection (PI / 2)) /\
  ~ satisfied robot (mkLinearVelocityDirection (PI / 2)).
Proof.
  rewrite !C33_partial_proof, cos_PI2, sin_PI2. cbn [robot q_vx q_vy]. split.
  - exists (-3). lra.
  - intros (k & E & _). lra.
Qed.
Lemma C34_case_proof :
  mkPointAt true (mkTr 1 9) (PI / 6) = Ok (PointAt (mkTr 1 9) (PI / 6)) /\
  heading_is robot (PI / 2) /\ PI / 6 <= PI /\ points_at robot (PI / 2) (mkTr 1 9) (PI / 6) /\
  satisfied robot (PointAt (mkTr 1 9) (PI / 6)) /\ ~ satisfied robot (PointAt (mkTr 9 2) (PI / 6)).
Proof.
  pose proof PI_RGT_0.
  assert (E : mkPointAt true (mkTr 1 9) (PI / 6) = Ok (PointAt (mkTr 1 9) (PI / 6)))
    by (apply assert_nonneg_ok; lra).
  assert (Hh : heading_is robot (PI / 2)).
  { split; simpl; [rewrite cos_PI2|rewrite sin_PI2]; reflexivity. }
  assert (P : points_at robot (PI / 2) (mkTr 1 9) (PI / 6)).
  { exists 0. rewrite Rplus_0_r, cos_PI2, sin_PI2, Rabs_R0.
    rewrite (dist2_val _ _ 7) by (unfold sq; simpl; lra). simpl. lra. }
  repeat split; try assumption; try apply Hh; try lra.
  - apply (C34_partial_proof _ _ _ robot (PI / 2) E); [lra|exact Hh|exact P].
  - rewrite satisfied_demands by exact I. cbn [demands robot q_x q_y q_c q_s tX tY].
    rewrite (dist2_val _ _ 8) by (unfold sq, pt; simpl; lra). rewrite cos_PI6. intros G.
    assert (0 < sqrt 3) by (apply sqrt_lt_R0; lra). lra.
Qed.
Lemma C35_case_proof :
  satisfied robot (PointPoint (mkTr 2 0) (mkTr 1 9) 5) /\ ~ satisfied robot (PointPoint (mkTr 2 0) (mkTr 1 9) 6) /\
  mkPointPoint true (mkTr 2 0) (mkTr 1 9) 5 = Ok (PointPoint (mkTr 2 0) (mkTr 1 9) 5).
Proof.
  rewrite !satisfied_demands by exact I. cbn [demands].
  rewrite (dist2_val _ _ 5) by (unfold sq, placed, pt; simpl; lra).
  rewrite !Rabs_right by lra. repeat split; [lra|lra|apply assert_nonneg_ok; lra].
Qed.
Lemma C36_case_proof :
  tr_eval (state_env robot) (mkTr (EVar 0) (EVar 1)) <> tr_eval (state_env robot) (mkTr (EVar 4) (EVar 5)) /\
  tr_defined (state_env robot) (mkTr (EVar 0) (EVar 1)) /\
  tr_defined (state_env robot) (mkTr (EVar 4) (EVar 5)) /\
  eval (state_env robot)
    (LinePointDistance (R := expr R) EConst (fun e => e) (mkTr 0 0) (mkTr 5 0) (mkTr (EVar 0) (EVar 1))) = 4.
Proof.
  split; [|split; [split; exact I|split; [split; exact I|]]].
  - intros X. apply (f_equal fst) in X. cbn in X. lra.
  - rewrite (eval_lpd _ EConst _ _ _ _ _ (conv_const _) (conv_id _)). simpl.
    change (state_env robot 0) with 1. change (state_env robot 1) with 2.
    unfold seg_sq, clamp01, proj, len2. simpl.
    replace (((1 - 0) * (5 - 0) + (2 - 0) * (0 - 0)) / ((5 - 0) * (5 - 0) + (0 - 0) * (0 - 0)))
      with (1 / 5) by field.
    rewrite (Rmin_left (1 / 5) 1) by lra. rewrite (Rmax_left (1 / 5) 0) by lra. unfold sq, along. simpl. lra.
Qed.
Lemma C37_case_proof :
  mkPointLine true (mkTr 0 0) (mkTr 0 0) (mkTr 5 0) (1 / 2) = Ok (PointLine (mkTr 0 0) (mkTr 0 0) (mkTr 5 0) (1 / 2)) /\
  mkLinePoint true (mkTr 0 0) (mkTr 1 0) (mkTr 3 2) (1 / 2) = Ok (LinePoint (mkTr 0 0) (mkTr 1 0) (mkTr 3 2) (1 / 2)) /\
  satisfied robot (PointLine (mkTr 0 0) (mkTr 0 0) (mkTr 5 0) (1 / 2)) /\
  satisfied robot (LinePoint (mkTr 0 0) (mkTr 1 0) (mkTr 3 2) (1 / 2)) /\
  ~ satisfied robot (LinePoint (mkTr 0 0) (mkTr 1 0) (mkTr 1 2) (1 / 2)).
Proof.
  assert (S2 : sqrt (1 / 2) <= 1).
  { apply Rle_trans with (sqrt 1); [apply sqrt_le_1; lra|rewrite sqrt_1; lra]. }
  assert (S3 : 0 < sqrt (1 / 2)) by (apply sqrt_lt_R0; lra).
  assert (A : Rabs (1 / 2) = 1 / 2) by (apply Rabs_right; lra).
  repeat split; try (apply assert_nonneg_ok; lra); rewrite satisfied_demands by exact I;
    cbn [demands]; rewrite A.
  - split.
    + unfold pt. simpl. intros [= X]. lra.
    + intros q (t & Ht & ->). eapply Rle_trans; [exact S2|]. rewrite dist2_sq.
      apply sqrt_le_cmp; [lra|apply sq_nonneg|]. unfold sq, along, placed, pt. simpl.
      pose proof (sqr_pos (5 * t - 1)). lra.
  - unfold placed, pt. simpl. split.
    + intros [= X]. lra.
    + intros q (t & Ht & ->). eapply Rle_trans; [exact S2|]. rewrite dist2_sq.
      apply sqrt_le_cmp; [lra|apply sq_nonneg|]. unfold sq, along. simpl.
      pose proof (sqr_pos t). lra.
  - unfold placed, pt. simpl. intros [_ C].
    specialize (C (1, 2)). rewrite (dist2_val (1, 2) (1, 2) 0) in C by (unfold sq; simpl; lra).
    assert (sqrt (1 / 2) <= 0); [|lra]. apply C. exists 0. split; [lra|].
    unfold along. simpl. f_equal; ring.
Qed.
Lemma C28_case_proof :
  satisfied robot (mkPoseEquality 1 2 (PI / 2)) /\
  satisfied robot (mkPoseEquality 1 2 (PI / 2 + PI)) /\
  ~ satisfied robot (mkPoseEquality 1 2 0).
Proof.
  rewrite !C28_partial_proof. unfold heading_is. cbn [robot q_x q_y q_c q_s].
  destruct (half_turn (PI / 2 + PI)) as [-> ->]. destruct (half_turn (PI / 2)) as [-> ->].
  destruct (half_turn 0) as [-> ->].
  rewrite cos_PI2, sin_PI2, cos_0, sin_0. repeat split; lra.
Qed.
Lemma C29_case_proof :
  satisfied robot (mkTranslationEquality 1 2) /\ ~ satisfied robot (mkTranslationEquality 1 0).
Proof. rewrite !C29_constraint_proof. cbn [robot q_x q_y]. lra. Qed.
