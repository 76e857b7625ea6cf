(** Proofs of C28-C37 at the level of one constraint and one robot state. *)
From Coq Require Import Lia Lra Psatz List Qreals.
Import ListNotations.
From Verif Require Import Outcome Num NumR Geometry Expr Constraints Spec SpecPhysics Semantics
  UtilFacts GeometryFacts ConstraintFacts.
Local Open Scope nat_scope.
Open Scope R_scope.

Lemma assert_nonneg_inv : forall {A} (x : R) (a b : A),
  assert_nonneg true x a = Ok b -> 0 <= x /\ b = a.
Proof.
  intros A x a b. unfold assert_nonneg. cbn [nlit nleb Arith_R Dbl_R andb]. rewrite Q2R_0. unfold Rleb.
  destruct (Rle_dec 0 x); simpl; intros E; inversion E; tauto.
Qed.
Lemma assert_nonneg_ok : forall {A} asserts (x : R) (a : A), 0 <= x -> assert_nonneg asserts x a = Ok a.
Proof.
  intros A asserts x a Hx. unfold assert_nonneg. cbn [nlit nleb Arith_R Dbl_R]. rewrite Q2R_0. unfold Rleb.
  destruct (Rle_dec 0 x); [|lra]. rewrite andb_false_r. reflexivity.
Qed.

Lemma C30_proof : forall (m : R) c s, mkLinearVelocityMaxMagnitude true m = Ok c ->
  (satisfied s c <-> norm2 (q_vx s, q_vy s) <= m).
Proof.
  intros m c s E. apply assert_nonneg_inv in E as [Hm ->].
  rewrite satisfied_demands by exact I. simpl. rewrite (Rabs_right m) by lra. tauto.
Qed.
Lemma C31_proof : forall (m : R) c s, mkAngularVelocityMaxMagnitude true m = Ok c ->
  (satisfied s c <-> Rabs (q_w s) <= m).
Proof.
  intros m c s E. apply assert_nonneg_inv in E as [Hm ->].
  rewrite satisfied_demands by exact I. simpl. tauto.
Qed.
Lemma C32_proof : forall (m : R) c s, mkLinearAccelerationMaxMagnitude true m = Ok c ->
  (satisfied s c <-> norm2 (q_ax s, q_ay s) <= m).
Proof.
  intros m c s E. apply assert_nonneg_inv in E as [Hm ->].
  rewrite satisfied_demands by exact I. simpl. rewrite (Rabs_right m) by lra. tauto.
Qed.

Lemma unit_rot_angle : forall a : R, unit_rot (rot_angle a).
Proof. intros. unfold unit_rot, rot_angle. cbn [ncos nsin Arith_R rCos rSin]. apply pyth. Qed.

Lemma C33_partial_proof : forall a s,
  satisfied s (mkLinearVelocityDirection a) <->
  exists k, q_vx s = k * cos a /\ q_vy s = k * sin a.
Proof.
  intros a s. unfold mkLinearVelocityDirection.
  rewrite satisfied_demands by apply unit_rot_angle. simpl. tauto.
Qed.
Lemma C33_refuted_proof : ~ forall a s,
  satisfied s (mkLinearVelocityDirection a) <->
  exists k, 0 <= k /\ q_vx s = k * cos a /\ q_vy s = k * sin a.
Proof.
  intros G. destruct (G 0 (mkState 0 0 1 0 (-1) 0 0 0 0 0)) as [G1 _].
  rewrite C33_partial_proof in G1. simpl in G1. rewrite cos_0, sin_0 in G1.
  destruct G1 as (k & Hk & E & _); [exists (-1); lra|]. lra.
Qed.

(** ** PointAt *)
Lemma cos_le_iff : forall d t, - PI <= d <= PI -> 0 <= t <= PI -> (cos t <= cos d <-> Rabs d <= t).
Proof.
  intros d t Hd Ht.
  assert (E : cos d = cos (Rabs d)).
  { unfold Rabs. destruct (Rcase_abs d); [rewrite cos_neg|]; reflexivity. }
  rewrite E. assert (B : 0 <= Rabs d <= PI).
  { unfold Rabs. destruct (Rcase_abs d); lra. }
  split; intros G.
  - apply cos_decr_0; lra.
  - apply cos_decr_1; lra.
Qed.

Lemma C34_partial_proof : forall f tol c s a, mkPointAt true f tol = Ok c ->
  tol <= PI -> heading_is s a -> (satisfied s c <-> points_at s a f tol).
Proof.
  intros f tol c s a E T [Hc Hs]. apply assert_nonneg_inv in E as [Ht ->].
  rewrite satisfied_demands by exact I. cbn [demands]. unfold points_at.
  set (dx := tX f - q_x s). set (dy := tY f - q_y s).
  assert (ED : dist2 (q_x s, q_y s) (pt f) = sqrt (dx * dx + dy * dy)).
  { unfold dist2, pt, dx, dy. simpl. f_equal. ring. }
  rewrite ED, Hc, Hs. set (r := sqrt (dx * dx + dy * dy)).
  assert (R0 : 0 <= r) by apply sqrt_pos.
  assert (DOT : forall phi, dx = r * cos phi -> dy = r * sin phi ->
            cos a * dx + sin a * dy = r * cos (phi - a)).
  { intros phi E1 E2. rewrite cos_minus, E1, E2. ring. }
  split.
  - intros G. destruct (Req_dec dx 0) as [Zx|Nx]; [destruct (Req_dec dy 0) as [Zy|Ny]|].
    + exists 0. assert (Hr : r = 0).
      { unfold r. rewrite Zx, Zy. rewrite Rmult_0_l, Rplus_0_l. apply sqrt_0. }
      split; [rewrite Rabs_R0; lra|]. rewrite Hr. lra.
    + destruct (Ratan2_polar dx dy (or_intror Ny)) as [E1 E2]. fold r in E1, E2.
      destruct (wrap_exists (Ratan2 dy dx - a)) as (k & B).
      assert (RP : 0 < r) by (apply sqrt_sum_pos; right; assumption).
      exists (Ratan2 dy dx - a + 2 * IZR k * PI).
      replace (a + (Ratan2 dy dx - a + 2 * IZR k * PI)) with (Ratan2 dy dx + 2 * IZR k * PI) by ring.
      rewrite cos_2kPI, sin_2kPI. repeat split; try assumption.
      apply cos_le_iff; [lra|lra|]. rewrite cos_2kPI.
      rewrite (DOT _ E1 E2) in G. apply Rmult_le_reg_l with r; lra.
    + destruct (Ratan2_polar dx dy (or_introl Nx)) as [E1 E2]. fold r in E1, E2.
      destruct (wrap_exists (Ratan2 dy dx - a)) as (k & B).
      assert (RP : 0 < r) by (apply sqrt_sum_pos; left; assumption).
      exists (Ratan2 dy dx - a + 2 * IZR k * PI).
      replace (a + (Ratan2 dy dx - a + 2 * IZR k * PI)) with (Ratan2 dy dx + 2 * IZR k * PI) by ring.
      rewrite cos_2kPI, sin_2kPI. repeat split; try assumption.
      apply cos_le_iff; [lra|lra|]. rewrite cos_2kPI.
      rewrite (DOT _ E1 E2) in G. apply Rmult_le_reg_l with r; lra.
  - intros (dev & B & E1 & E2). rewrite (DOT _ E1 E2).
    replace (a + dev - a) with dev by ring.
    rewrite Rmult_comm. apply Rmult_le_compat_l; [assumption|].
    apply cos_le_iff; try lra. apply Rabs_bounds in B. lra.
Qed.

(** With a tolerance of three quarters of a turn every heading is acceptable,
    but the constraint rejects looking away from the target. *)
Lemma C34_refuted_proof : ~ forall f tol c s a, mkPointAt true f tol = Ok c ->
  heading_is s a -> (satisfied s c <-> points_at s a f tol).
Proof.
  intros G. pose proof PI_RGT_0 as P.
  specialize (G (mkTr (-1) 0) (3 * (PI / 2)) (PointAt (mkTr (-1) 0) (3 * (PI / 2)))
    (mkState 0 0 1 0 0 0 0 0 0 0) 0).
  destruct G as [_ G].
  - unfold mkPointAt. apply assert_nonneg_ok. lra.
  - split; simpl; [rewrite cos_0|rewrite sin_0]; reflexivity.
  - rewrite satisfied_demands in G by exact I. cbn [demands q_x q_y q_c q_s tX tY pt] in G.
    rewrite cos_3PI2 in G. rewrite Rmult_0_l in G.
    assert (N : points_at (mkState 0 0 1 0 0 0 0 0 0 0) 0 (mkTr (-1) 0) (3 * (PI / 2))).
    { exists PI. rewrite Rplus_0_l, cos_PI, sin_PI. unfold dist2. cbn [q_x q_y tX tY pt fst snd].
      replace ((0 - -1) * (0 - -1) + (0 - 0) * (0 - 0)) with 1 by ring. rewrite sqrt_1.
      rewrite Rabs_right by lra. lra. }
    specialize (G N). lra.
Qed.

Lemma C35_proof : forall r f d c s, mkPointPoint true r f d = Ok c ->
  (satisfied s c <-> d <= dist2 (placed s r) (pt f)).
Proof.
  intros r f d c s E. apply assert_nonneg_inv in E as [Hd ->].
  rewrite satisfied_demands by exact I. cbn [demands]. rewrite (Rabs_right d) by lra. tauto.
Qed.

(** ** The point-to-segment measure *)
Lemma seg_sq_spec : forall A B P, A <> B ->
  exists q, on_segment A B q /\ seg_sq A B P = dist2 q P * dist2 q P /\
    forall q', on_segment A B q' -> dist2 q P <= dist2 q' P.
Proof.
  intros A B P N. exists (along A B (clamp01 (proj A B P))). split; [|split].
  - exists (clamp01 (proj A B P)). split; [apply clamp01_range|reflexivity].
  - rewrite dist2_sqr. reflexivity.
  - intros q' (t & Ht & ->). rewrite !dist2_sq. apply sqrt_le_1; try apply sq_nonneg.
    apply seg_sq_closest; assumption.
Qed.

Lemma C36_line_proof : forall env (a b : Translation2 (expr R)) (p : Translation2 R),
  tr_defined env a -> tr_defined env b ->
  let m := LinePointDistance (R := expr R) (fun e => e) EConst a b p in
  (tr_eval env a <> tr_eval env b ->
     defined env m /\
     exists q, on_segment (tr_eval env a) (tr_eval env b) q /\
       eval env m = dist2 q (pt p) * dist2 q (pt p) /\
       forall q', on_segment (tr_eval env a) (tr_eval env b) q' -> dist2 q (pt p) <= dist2 q' (pt p)) /\
  (tr_eval env a = tr_eval env b -> ~ defined env m).
Proof.
  intros env a b p [A1 A2] [B1 B2] m.
  pose proof (eval_lpd env _ EConst _ _ _ _ (conv_id env) (conv_const env) a b p) as E.
  pose proof (defined_lpd env _ EConst _ _ _ _ (conv_id env) (conv_const env) a b p A1 A2 B1 B2 I I) as D.
  fold m in E, D. clearbody m. unfold tr_eval, pt in *. split.
  - intros N. split; [tauto|]. rewrite E. apply seg_sq_spec. assumption.
  - intros N G. tauto.
Qed.
Lemma C36_point_proof : forall env (a b : Translation2 R) (p : Translation2 (expr R)),
  tr_defined env p ->
  let m := LinePointDistance (R := expr R) EConst (fun e => e) a b p in
  (pt a <> pt b ->
     defined env m /\
     exists q, on_segment (pt a) (pt b) q /\
       eval env m = dist2 q (tr_eval env p) * dist2 q (tr_eval env p) /\
       forall q', on_segment (pt a) (pt b) q' -> dist2 q (tr_eval env p) <= dist2 q' (tr_eval env p)) /\
  (pt a = pt b -> ~ defined env m).
Proof.
  intros env a b p [A1 A2] m.
  pose proof (eval_lpd env EConst _ _ _ _ _ (conv_const env) (conv_id env) a b p) as E.
  pose proof (defined_lpd env EConst _ _ _ _ _ (conv_const env) (conv_id env) a b p I I I I A1 A2) as D.
  fold m in E, D. clearbody m. unfold tr_eval, pt in *. split.
  - intros N. split; [tauto|]. rewrite E. apply seg_sq_spec. assumption.
  - intros N G. tauto.
Qed.

(** ** LinePoint and PointLine *)
Lemma C37_line_partial_proof : forall a b p d c s, mkLinePoint true a b p d = Ok c ->
  (satisfied s c <->
     placed s a <> placed s b /\ clear_of_segment (placed s a) (placed s b) (pt p) (sqrt d)).
Proof.
  intros a b p d c s E. apply assert_nonneg_inv in E as [Hd ->].
  rewrite satisfied_demands by exact I. cbn [demands]. rewrite (Rabs_right d) by lra. tauto.
Qed.
Lemma C37_point_partial_proof : forall p a b d c s, mkPointLine true p a b d = Ok c ->
  (satisfied s c <->
     pt a <> pt b /\ clear_of_segment (pt a) (pt b) (placed s p) (sqrt d)).
Proof.
  intros p a b d c s E. apply assert_nonneg_inv in E as [Hd ->].
  rewrite satisfied_demands by exact I. cbn [demands]. rewrite (Rabs_right d) by lra. tauto.
Qed.

Lemma sqrt_ge_le1 : forall d, 0 <= d <= 1 -> d <= sqrt d.
Proof. intros. apply sqrt_le_cmp; nra. Qed.
Lemma sqrt_le_ge1 : forall d, 1 <= d -> sqrt d <= d.
Proof. intros. rewrite <- (sqrt_square d) at 2 by lra. apply sqrt_le_1; nra. Qed.

Lemma clear_weaken : forall a b q d d', d <= d' -> clear_of_segment a b q d' -> clear_of_segment a b q d.
Proof. intros a b q d d' L C x Hx. eapply Rle_trans; [exact L|]. apply C, Hx. Qed.

Lemma C37_safe_proof : forall s d, 0 <= d <= 1 ->
  (forall a b p c, mkLinePoint true a b p d = Ok c -> satisfied s c ->
     clear_of_segment (placed s a) (placed s b) (pt p) d) /\
  (forall p a b c, mkPointLine true p a b d = Ok c -> satisfied s c ->
     clear_of_segment (pt a) (pt b) (placed s p) d).
Proof.
  intros s d Hd. split.
  - intros a b p c E G. apply (C37_line_partial_proof _ _ _ _ _ s E) in G as [_ G].
    eapply clear_weaken; [apply sqrt_ge_le1; assumption|exact G].
  - intros p a b c E G. apply (C37_point_partial_proof _ _ _ _ _ s E) in G as [_ G].
    eapply clear_weaken; [apply sqrt_ge_le1; assumption|exact G].
Qed.

Lemma placed_origin : forall p, placed (mkState 0 0 1 0 0 0 0 0 0 0) p = pt p.
Proof. intros [x y]. unfold placed, pt. simpl. f_equal; ring. Qed.

Lemma dist2_val : forall p q k, 0 <= k -> sq p q = k * k -> dist2 p q = k.
Proof. intros p q k Hk E. rewrite dist2_sq, E. apply sqrt_square; assumption. Qed.

(** Requested distance 4, actual distance 2: satisfied.  Requested distance
    1/4, actual distance 1/3: rejected. *)
Lemma C37_line_refuted_proof : ~ forall a b p d c s, mkLinePoint true a b p d = Ok c ->
  placed s a <> placed s b ->
  satisfied s c -> clear_of_segment (placed s a) (placed s b) (pt p) d.
Proof.
  intros G.
  assert (E : mkLinePoint true (mkTr 0 0) (mkTr 1 0) (mkTr 0 2) 4
              = Ok (LinePoint (mkTr 0 0) (mkTr 1 0) (mkTr 0 2) 4)) by (apply assert_nonneg_ok; lra).
  specialize (G _ _ _ _ _ (mkState 0 0 1 0 0 0 0 0 0 0) E).
  rewrite (C37_line_partial_proof _ _ _ _ _ _ E) in G. rewrite !placed_origin in G.
  unfold pt in G. cbn [tX tY] in G.
  assert (N : (0, 0) <> (1, 0)) by (intros [= X]; lra).
  assert (C : clear_of_segment (0, 0) (1, 0) (0, 2) 4).
  { apply G; [assumption|]. split; [assumption|]. replace 4 with (2 * 2) by ring. rewrite sqrt_square by lra.
    intros q (t & Ht & ->). rewrite dist2_sq. apply sqrt_le_cmp; [lra|apply sq_nonneg|].
    unfold sq, along. simpl. pose proof (sqr_pos t). nra. }
  specialize (C (0, 0)). rewrite (dist2_val (0,0) (0,2) 2) in C by (unfold sq; simpl; lra).
  assert (4 <= 2); [|lra]. apply C. exists 0. split; [lra|]. unfold along. simpl. f_equal; ring.
Qed.
Lemma C37_point_refuted_proof : ~ forall p a b d c s, mkPointLine true p a b d = Ok c ->
  pt a <> pt b ->
  clear_of_segment (pt a) (pt b) (placed s p) d -> satisfied s c.
Proof.
  intros G.
  assert (E : mkPointLine true (mkTr 0 (1/3)) (mkTr 0 0) (mkTr 1 0) (1/4)
              = Ok (PointLine (mkTr 0 (1/3)) (mkTr 0 0) (mkTr 1 0) (1/4))) by (apply assert_nonneg_ok; lra).
  specialize (G _ _ _ _ _ (mkState 0 0 1 0 0 0 0 0 0 0) E).
  rewrite (C37_point_partial_proof _ _ _ _ _ _ E) in G. rewrite !placed_origin in G.
  unfold pt in G. cbn [tX tY] in G.
  assert (N : (0, 0) <> (1, 0)) by (intros [= X]; lra).
  destruct G as [_ C]; [assumption| |].
  { intros q (t & Ht & ->). rewrite dist2_sq. apply sqrt_le_cmp; [lra|apply sq_nonneg|].
    unfold sq, along. simpl. pose proof (sqr_pos t). nra. }
  replace (1/4) with (1/2 * (1/2)) in C by lra. rewrite sqrt_square in C by lra.
  specialize (C (0, 0)). rewrite (dist2_val (0,0) (0,1/3) (1/3)) in C by (unfold sq; simpl; lra).
  assert (1/2 <= 1/3); [|lra]. apply C. exists 0. split; [lra|]. unfold along. simpl. f_equal; ring.
Qed.

Lemma C28_partial_proof : forall x y h s,
  satisfied s (mkPoseEquality x y h) <->
  q_x s = x /\ q_y s = y /\ (heading_is s h \/ heading_is s (h + PI)).
Proof.
  intros x y h s. unfold mkPoseEquality. rewrite satisfied_demands by apply unit_rot_angle.
  unfold heading_is. destruct (half_turn h) as [-> ->]. simpl. tauto.
Qed.
Lemma C29_constraint_proof : forall x y s,
  satisfied s (mkTranslationEquality x y) <-> q_x s = x /\ q_y s = y.
Proof.
  intros x y s. unfold mkTranslationEquality. rewrite satisfied_demands by exact I. simpl. tauto.
Qed.

(** ** Comparing geometry with [==] (C82) *)
Lemma C82_rotation_proof : forall env l r a b, rot_defined env a -> rot_defined env b ->
  (sat_all env (rot_eq l r a b) <->
   rCos (rot_eval env a) * rSin (rot_eval env b) = rSin (rot_eval env a) * rCos (rot_eval env b) /\
   (l = true -> unit_rot (rot_eval env a)) /\ (r = true -> unit_rot (rot_eval env b))).
Proof.
  intros env l r a b [A1 A2] [B1 B2]. unfold rot_eval, unit_rot, rot_eq, sat_all. cbn [rCos rSin].
  assert (Z : Q2R 0 = 0) by (unfold Q2R; cbn; lra). assert (O : Q2R 1 = 1) by (unfold Q2R; cbn; lra).
  split.
  - intros F. inversion F as [|? ? F1 F2]; subst. cbn in F1. destruct F1 as (_ & _ & F1). split; [lra|].
    split; intros E; subst; cbn in F2.
    + inversion F2 as [|? ? F3 F4]; subst. cbn in F3. destruct F3 as (_ & _ & F3). lra.
    + destruct l; cbn in F2.
      * inversion F2 as [|? ? F3 F4]; subst. inversion F4 as [|? ? F5 F6]; subst. cbn in F5. destruct F5 as (_ & _ & F5). lra.
      * inversion F2 as [|? ? F3 F4]; subst. cbn in F3. destruct F3 as (_ & _ & F3). lra.
  - intros (E & L & Rr). constructor.
    + cbn. repeat split; try assumption. lra.
    + destruct l, r; cbn; repeat constructor; cbn; try assumption;
        [specialize (L eq_refl)|specialize (Rr eq_refl)|specialize (L eq_refl)|specialize (Rr eq_refl)]; lra.
Qed.
Lemma C82_both_proof : forall env a b, rot_defined env a -> rot_defined env b ->
  (sat_all env (rot_eq true true a b) <->
   unit_rot (rot_eval env a) /\
   (rot_eval env b = rot_eval env a \/
    rot_eval env b = mkRot (- rCos (rot_eval env a)) (- rSin (rot_eval env a)))).
Proof.
  intros env a b A B. rewrite (C82_rotation_proof env true true a b A B).
  destruct (rot_eval env a) as [c s], (rot_eval env b) as [c' s']. unfold unit_rot. cbn [rCos rSin]. split.
  - intros (E & L & Rr). specialize (L eq_refl). specialize (Rr eq_refl). split; [exact L|].
    assert (K : (c * c' + s * s') * (c * c' + s * s') = 1).
    { replace ((c * c' + s * s') * (c * c' + s * s')) with ((c * c + s * s) * (c' * c' + s' * s') - (c * s' - s * c') * (c * s' - s * c')) by ring.
      rewrite L, Rr, E. ring. }
    assert (D : c' = (c * c' + s * s') * c /\ s' = (c * c' + s * s') * s).
    { split.
      - transitivity ((c * c + s * s) * c' + s * (c * s' - s * c')); [rewrite L, E; ring|ring].
      - transitivity ((c * c + s * s) * s' - c * (c * s' - s * c')); [rewrite L, E; ring|ring]. }
    destruct D as [D1 D2]. set (k := c * c' + s * s') in *. clearbody k.
    assert (Hk : k = 1 \/ k = -1). { destruct (Rle_dec 0 k); [left|right]; nra. }
    destruct Hk as [-> | ->]; [left|right]; rewrite D1, D2; f_equal; ring.
  - intros (L & [E|E]); injection E as -> ->; (split; [ring|split; intros _; lra]).
Qed.
Lemma C82_pose_proof : forall env l r a b, tr_defined env (pTr a) -> tr_defined env (pTr b) ->
  (sat_all env (pose_eq l r a b) <->
   tr_eval env (pTr a) = tr_eval env (pTr b) /\ sat_all env (rot_eq l r (pRot a) (pRot b))).
Proof.
  intros env l r a b [A1 A2] [B1 B2]. unfold pose_eq, tr_eq, tr_eval, sat_all. cbn [app]. split.
  - intros F. inversion F as [|? ? F1 F2]; subst. inversion F2 as [|? ? F3 F4]; subst. cbn in F1, F3.
    destruct F1 as (_ & _ & ->), F3 as (_ & _ & ->). split; [reflexivity|exact F4].
  - intros [E F]. injection E as E1 E2. constructor; [cbn; tauto|]. constructor; [cbn; tauto|]. exact F.
Qed.
Lemma C82_count_proof : forall {K} {HA : Arith K} l r (a b : Rotation2 (expr K)),
  length (rot_eq l r a b) = (1 + Nat.b2n l + Nat.b2n r)%nat.
Proof. intros K HA [|] [|] a b; reflexivity. Qed.
