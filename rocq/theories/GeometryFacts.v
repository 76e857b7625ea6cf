(** Facts about rotations, translations and atan2 over the reals. *)
From Coq Require Import Lia Lra Psatz ZArith Qreals.
From Verif Require Import Num NumR Geometry Util UtilFacts.
Open Scope R_scope.

(** Unfold the real-number operations. *)
Ltac rnum :=
  cbv [rot_default rot_angle rot_rotateBy rot_add rot_neg rot_sub rot_radians rot_degrees
       tr_default tr_polar tr_add tr_neg tr_sub tr_scale tr_divide tr_rotateBy tr_angle
       tr_dot tr_cross tr_norm tr_sqnorm tr_distance pose_default pose_xyh pX pY pose_rotateBy
       rCos rSin tX tY pTr pRot
       nadd nsub nmul ndiv nneg ncos nsin natan2 nhypot nsign nlit Arith_R] in *.

Lemma Q2R_0 : Q2R 0 = 0. Proof. apply nlit_R_0. Qed.
Lemma Q2R_1 : Q2R 1 = 1. Proof. apply nlit_R_1. Qed.
Lemma Q2R_180 : Q2R 180 = 180. Proof. apply (nlit_R_Z 180). Qed.

Lemma rot_ext : forall a b : Rotation2 R, rCos a = rCos b -> rSin a = rSin b -> a = b.
Proof. intros [] []; simpl; intros; subst; reflexivity. Qed.
Lemma tr_ext : forall a b : Translation2 R, tX a = tX b -> tY a = tY b -> a = b.
Proof. intros [] []; simpl; intros; subst; reflexivity. Qed.

(** ** Angles *)
Lemma cos_2kPI : forall x (k : Z), cos (x + 2 * IZR k * PI) = cos x.
Proof.
  intros x k. destruct (Z_le_gt_dec 0 k).
  - rewrite <- (Z2Nat.id k) by assumption. rewrite <- INR_IZR_INZ. apply cos_period.
  - rewrite <- (cos_period (x + 2 * IZR k * PI) (Z.to_nat (- k))).
    f_equal. rewrite INR_IZR_INZ, Z2Nat.id by lia. rewrite opp_IZR. ring.
Qed.
Lemma sin_2kPI : forall x (k : Z), sin (x + 2 * IZR k * PI) = sin x.
Proof.
  intros x k. destruct (Z_le_gt_dec 0 k).
  - rewrite <- (Z2Nat.id k) by assumption. rewrite <- INR_IZR_INZ. apply sin_period.
  - rewrite <- (sin_period (x + 2 * IZR k * PI) (Z.to_nat (- k))).
    f_equal. rewrite INR_IZR_INZ, Z2Nat.id by lia. rewrite opp_IZR. ring.
Qed.

Lemma sin_zero_range : forall x, - PI < x < PI -> sin x = 0 -> x = 0.
Proof.
  intros x [H1 H2] H. destruct (Rtotal_order x 0) as [L|[E|G]]; [|assumption|].
  - assert (0 < sin (- x)) by (apply sin_gt_0; lra). rewrite sin_neg in H0. lra.
  - assert (0 < sin x) by (apply sin_gt_0; lra). lra.
Qed.

Lemma cos_one_range : forall x, - (2 * PI) < x < 2 * PI -> cos x = 1 -> x = 0.
Proof.
  intros x Hx H.
  assert (E : cos x = 1 - 2 * sin (x / 2) * sin (x / 2)).
  { replace x with (2 * (x / 2)) at 1 by field. apply cos_2a_sin. }
  assert (S0 : sin (x / 2) = 0) by nra.
  apply sin_zero_range in S0; lra.
Qed.

Lemma angle_unique : forall a b, - PI < a <= PI -> - PI < b <= PI ->
  cos a = cos b -> sin a = sin b -> a = b.
Proof.
  intros a b Ha Hb Hc Hs.
  assert (E : cos (a - b) = 1).
  { rewrite cos_minus, Hc, Hs. pose proof (sin2_cos2 b). unfold Rsqr in *. lra. }
  apply cos_one_range in E; lra.
Qed.

(** Every real is congruent to one angle in (-pi, pi]. *)
Lemma wrap_exists : forall x, exists (k : Z), - PI < x + 2 * IZR k * PI <= PI.
Proof.
  intros x. destruct (angle_diff_R 0 x) as (k & E & B). exists k. rewrite Rminus_0_r in E. lra.
Qed.

Lemma cos_sin_cong : forall a b, cos a = cos b -> sin a = sin b ->
  exists k : Z, a = b + 2 * IZR k * PI.
Proof.
  intros a b Hc Hs. destruct (wrap_exists (a - b)) as (k & B).
  assert (E : cos (a - b + 2 * IZR k * PI) = 1).
  { rewrite cos_2kPI, cos_minus, Hc, Hs. pose proof (sin2_cos2 b). unfold Rsqr in *. lra. }
  apply cos_one_range in E; [|pose proof PI_RGT_0; lra].
  exists (- k)%Z. rewrite opp_IZR. lra.
Qed.

Lemma sqrt_sum_pos : forall x y, x <> 0 \/ y <> 0 -> 0 < sqrt (x * x + y * y).
Proof. intros x y H. apply sqrt_lt_R0. destruct H; nra. Qed.

Lemma sqrt_hyp_atan : forall x y, 0 < x -> sqrt (1 + (y / x)²) = sqrt (x * x + y * y) / x.
Proof.
  intros x y Hx.
  assert (P : 0 < sqrt (x * x + y * y)) by (apply sqrt_sum_pos; lra).
  apply sqrt_lem_1.
  - unfold Rsqr. assert (0 <= (y / x) * (y / x)) by nra. lra.
  - apply Rmult_le_pos; [lra|]. left. apply Rinv_0_lt_compat. lra.
  - unfold Rsqr.
    replace (sqrt (x * x + y * y) / x * (sqrt (x * x + y * y) / x))
      with ((sqrt (x * x + y * y) * sqrt (x * x + y * y)) / (x * x)) by (field; lra).
    rewrite sqrt_sqrt by nra. field. lra.
Qed.

Lemma atan_polar : forall x y, 0 < x ->
  x = sqrt (x * x + y * y) * cos (atan (y / x)) /\
  y = sqrt (x * x + y * y) * sin (atan (y / x)).
Proof.
  intros x y Hx. rewrite cos_atan, sin_atan, sqrt_hyp_atan by assumption.
  assert (P : 0 < sqrt (x * x + y * y)) by (apply sqrt_sum_pos; lra).
  split; field; lra.
Qed.

Lemma Ratan2_polar : forall x y, x <> 0 \/ y <> 0 ->
  x = sqrt (x * x + y * y) * cos (Ratan2 y x) /\
  y = sqrt (x * x + y * y) * sin (Ratan2 y x).
Proof.
  intros x y H. unfold Ratan2.
  destruct (Rlt_dec 0 x) as [Hx|Hx]; [apply atan_polar; assumption|].
  destruct (Rlt_dec x 0) as [Hx'|Hx'].
  - destruct (atan_polar (- x) (- y)) as [E1 E2]; [lra|].
    replace (- y / - x) with (y / x) in * by (field; lra).
    replace (- x * - x + - y * - y) with (x * x + y * y) in * by ring.
    destruct (Rle_dec 0 y).
    + rewrite neg_cos, neg_sin. lra.
    + replace (atan (y / x) - PI) with (atan (y / x) + PI + 2 * IZR (-1) * PI) by (simpl; ring).
      rewrite cos_2kPI, sin_2kPI, neg_cos, neg_sin. lra.
  - assert (x = 0) by lra. subst x.
    destruct (Rlt_dec 0 y).
    + rewrite cos_PI2, sin_PI2. replace (0 * 0 + y * y) with (y²) by (unfold Rsqr; ring).
      rewrite sqrt_Rsqr by lra. lra.
    + destruct (Rlt_dec y 0).
      * rewrite cos_neg, sin_neg, cos_PI2, sin_PI2.
        replace (0 * 0 + y * y) with ((- y)²) by (unfold Rsqr; ring).
        rewrite sqrt_Rsqr by lra. lra.
      * exfalso. destruct H; lra.
Qed.

Lemma Ratan2_range : forall x y, - PI < Ratan2 y x <= PI.
Proof.
  intros. pose proof PI_RGT_0. unfold Ratan2.
  pose proof (atan_bound (y / x)) as B.
  destruct (Rlt_dec 0 x); [lra|].
  destruct (Rlt_dec x 0).
  - destruct (Rle_dec 0 y).
    + split; [lra|].
      assert (atan (y / x) <= 0).
      { destruct (Req_dec y 0) as [->|].
        - unfold Rdiv. rewrite Rmult_0_l, atan_0. lra.
        - left. rewrite <- atan_0. apply atan_increasing.
          assert (0 < y * / (- x)) by (apply Rmult_lt_0_compat; [lra|apply Rinv_0_lt_compat; lra]).
          replace (y / x) with (- (y * / (- x))) by (field; lra). lra. }
      lra.
    + assert (0 < atan (y / x)).
      { rewrite <- atan_0. apply atan_increasing.
        replace (y / x) with (- y * / (- x)) by (field; lra).
        apply Rmult_lt_0_compat; [lra|apply Rinv_0_lt_compat; lra]. }
      lra.
  - destruct (Rlt_dec 0 y); [lra|]. destruct (Rlt_dec y 0); lra.
Qed.

Lemma Ratan2_unit : forall c s, c * c + s * s = 1 ->
  cos (Ratan2 s c) = c /\ sin (Ratan2 s c) = s.
Proof.
  intros c s H. destruct (Ratan2_polar c s) as [E1 E2].
  - destruct (Req_dec c 0) as [->|]; [|left; assumption]. right. intros ->. lra.
  - rewrite H, sqrt_1 in *. lra.
Qed.

Lemma Ratan2_angle : forall a, exists k : Z, Ratan2 (sin a) (cos a) = a + 2 * IZR k * PI.
Proof.
  intros a. pose proof (sin2_cos2 a) as H. unfold Rsqr in H.
  destruct (Ratan2_unit (cos a) (sin a)) as [E1 E2]; [lra|].
  apply cos_sin_cong; assumption.
Qed.

(** A unit vector is the cosine and sine of an angle. *)
Lemma unit_angle : forall c s, c * c + s * s = 1 -> exists a, c = cos a /\ s = sin a.
Proof.
  intros c s H. exists (Ratan2 s c). destruct (Ratan2_unit c s H). split; congruence.
Qed.

Lemma half_turn : forall a, cos (a + PI) = - cos a /\ sin (a + PI) = - sin a.
Proof. intros. rewrite neg_cos, neg_sin. split; reflexivity. Qed.

Lemma pyth : forall a, cos a * cos a + sin a * sin a = 1.
Proof. intros. pose proof (sin2_cos2 a). unfold Rsqr in *. lra. Qed.
