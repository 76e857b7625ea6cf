(** Proofs: the constraints each class hands to the solver, read over the
    reals, are exactly the demands of [SpecPhysics.demands]. *)
From Coq Require Import Lia Lra Psatz List Qreals.
Import ListNotations.
From Verif Require Import Outcome Num NumR Geometry Expr Constraints Spec SpecPhysics Semantics
  UtilFacts GeometryFacts.
Local Open Scope nat_scope.
Open Scope R_scope.

Lemma Q2R_half : Q2R (1 # 2) = 1 / 2.
Proof. unfold Q2R. simpl. lra. Qed.
Lemma Q2R_mhalf : Q2R (-1 # 2) = - (1 / 2).
Proof. unfold Q2R. simpl. lra. Qed.

(** ** Clamping by means of the sign function *)
Lemma lpd_max_R : forall a b : R, lpd_max a b = Rmax a b.
Proof.
  intros a b. unfold lpd_max. rnum. rewrite Q2R_half, Q2R_1. unfold Rsgn, Rmax.
  destruct (Rlt_dec 0 (b - a)), (Rle_dec a b); try lra;
    destruct (Rlt_dec (b - a) 0); lra.
Qed.
Lemma lpd_min_R : forall a b : R, lpd_min a b = Rmin a b.
Proof.
  intros a b. unfold lpd_min. rnum. rewrite Q2R_mhalf, Q2R_1. unfold Rsgn, Rmin.
  destruct (Rlt_dec 0 (b - a)), (Rle_dec a b); try lra;
    destruct (Rlt_dec (b - a) 0); lra.
Qed.

Lemma sqr_pos : forall x : R, 0 <= x * x.
Proof. intros. apply Rle_0_sqr. Qed.
Lemma sum_sqr_zero : forall x y : R, x * x + y * y = 0 -> x = 0 /\ y = 0.
Proof. intros x y H. pose proof (sqr_pos x). pose proof (sqr_pos y). split; nra. Qed.
Lemma sum_sqr_pos : forall x y : R, x <> 0 \/ y <> 0 -> 0 < x * x + y * y.
Proof. intros x y H. pose proof (sqr_pos x). pose proof (sqr_pos y). destruct H; nra. Qed.

Definition clamp01 (t : R) : R := Rmax (Rmin t 1) 0.
Lemma clamp01_range : forall t, 0 <= clamp01 t <= 1.
Proof.
  intros. unfold clamp01, Rmax, Rmin.
  destruct (Rle_dec t 1), (Rle_dec _ 0); lra.
Qed.
Lemma clamp01_cases : forall t,
  (t <= 0 /\ clamp01 t = 0) \/ (0 <= t <= 1 /\ clamp01 t = t) \/ (1 <= t /\ clamp01 t = 1).
Proof.
  intros. unfold clamp01, Rmax, Rmin.
  destruct (Rle_dec t 1) as [H|H].
  - destruct (Rle_dec t 0); [left|right; left]; lra.
  - destruct (Rle_dec 1 0); [lra|]. right; right; lra.
Qed.

(** Squared distance. *)
Definition sq (p q : R * R) : R :=
  (fst p - fst q) * (fst p - fst q) + (snd p - snd q) * (snd p - snd q).
Lemma sq_nonneg : forall p q, 0 <= sq p q.
Proof. intros. unfold sq. apply Rplus_le_le_0_compat; apply Rle_0_sqr. Qed.
Lemma dist2_sq : forall p q, dist2 p q = sqrt (sq p q).
Proof. reflexivity. Qed.
Lemma dist2_nonneg : forall p q, 0 <= dist2 p q.
Proof. intros. apply sqrt_pos. Qed.
Lemma dist2_sqr : forall p q, dist2 p q * dist2 p q = sq p q.
Proof. intros. rewrite dist2_sq. apply sqrt_sqrt, sq_nonneg. Qed.

Definition len2 (a b : R * R) : R :=
  (fst b - fst a) * (fst b - fst a) + (snd b - snd a) * (snd b - snd a).
Lemma len2_pos : forall a b, a <> b -> 0 < len2 a b.
Proof.
  intros [a1 a2] [b1 b2] H. unfold len2; simpl.
  apply sum_sqr_pos. destruct (Req_dec a1 b1); [|left; lra].
  destruct (Req_dec a2 b2); [|right; lra]. exfalso. apply H. congruence.
Qed.
Lemma len2_zero : forall a b, len2 a b = 0 <-> a = b.
Proof.
  intros [a1 a2] [b1 b2]. unfold len2; simpl. split.
  - intros H. apply sum_sqr_zero in H. f_equal; lra.
  - intros [= -> ->]. ring.
Qed.

(** Parameter of the closest point of the line through [a], [b]. *)
Definition proj (a b p : R * R) : R :=
  ((fst p - fst a) * (fst b - fst a) + (snd p - snd a) * (snd b - snd a)) / len2 a b.
(** Squared distance to the segment. *)
Definition seg_sq (a b p : R * R) : R := sq (along a b (clamp01 (proj a b p))) p.

Lemma sq_along : forall a b p t, a <> b ->
  sq (along a b t) p = sq (along a b (proj a b p)) p
    + len2 a b * ((t - proj a b p) * (t - proj a b p)).
Proof.
  intros a b p t H. pose proof (len2_pos a b H) as L.
  assert (E : proj a b p * len2 a b =
     (fst p - fst a) * (fst b - fst a) + (snd p - snd a) * (snd b - snd a))
    by (unfold proj; field; lra).
  set (k := proj a b p) in *. unfold sq, along, len2 in *. simpl.
  set (x := fst b - fst a) in *. set (y := snd b - snd a) in *.
  set (u := fst p - fst a) in *. set (w := snd p - snd a) in *.
  replace (fst a + t * x - fst p) with (t * x - u) by (unfold u; ring).
  replace (snd a + t * y - snd p) with (t * y - w) by (unfold w; ring).
  replace (fst a + k * x - fst p) with (k * x - u) by (unfold u; ring).
  replace (snd a + k * y - snd p) with (k * y - w) by (unfold w; ring).
  replace ((t * x - u) * (t * x - u) + (t * y - w) * (t * y - w))
    with (t * t * (x * x + y * y) - 2 * t * (u * x + w * y) + (u * u + w * w)) by ring.
  rewrite <- E.
  replace ((k * x - u) * (k * x - u) + (k * y - w) * (k * y - w))
    with (k * k * (x * x + y * y) - 2 * k * (u * x + w * y) + (u * u + w * w)) by ring.
  rewrite <- E. ring.
Qed.

Lemma seg_sq_closest : forall a b p t, a <> b -> 0 <= t <= 1 ->
  seg_sq a b p <= sq (along a b t) p.
Proof.
  intros a b p t H Ht. unfold seg_sq.
  rewrite (sq_along a b p t H), (sq_along a b p (clamp01 _) H).
  pose proof (len2_pos a b H) as L.
  apply Rplus_le_compat_l. apply Rmult_le_compat_l; [lra|].
  destruct (clamp01_cases (proj a b p)) as [[A ->]|[[A ->]|[A ->]]]; generalize dependent (proj a b p); intros k A.
  - assert (0 <= t * (t - 2 * k)) by (apply Rmult_le_pos; lra). lra.
  - pose proof (sqr_pos (t - k)). lra.
  - assert (0 <= (1 - t) * (2 * k - 1 - t)) by (apply Rmult_le_pos; lra). lra.
Qed.

Lemma sqrt_le_cmp : forall x d, 0 <= d -> 0 <= x -> (d * d <= x <-> d <= sqrt x).
Proof.
  intros x d Hd Hx. split; intros H.
  - rewrite <- (sqrt_square d) by assumption. apply sqrt_le_1; nra.
  - rewrite <- (sqrt_sqrt x) by assumption. apply Rmult_le_compat; assumption.
Qed.

Lemma clear_seg_sq : forall a b p d, a <> b -> 0 <= d ->
  (clear_of_segment a b p d <-> d * d <= seg_sq a b p).
Proof.
  intros a b p d H Hd. split.
  - intros C. specialize (C (along a b (clamp01 (proj a b p)))).
    rewrite dist2_sq in C. apply sqrt_le_cmp; [assumption|apply sq_nonneg|].
    apply C. exists (clamp01 (proj a b p)). split; [apply clamp01_range|reflexivity].
  - intros C q (t & Ht & ->). rewrite dist2_sq.
    apply sqrt_le_cmp; [assumption|apply sq_nonneg|].
    eapply Rle_trans; [exact C|]. apply seg_sq_closest; assumption.
Qed.

(** ** Evaluating the expressions *)
Ltac xnum :=
  cbv [rot_default rot_angle rot_rotateBy rot_add rot_neg rot_sub
       tr_default tr_polar tr_add tr_neg tr_sub tr_scale tr_divide tr_rotateBy tr_angle
       tr_dot tr_cross tr_norm tr_sqnorm tr_distance pX pY pose_rotateBy
       tr_map rot_map pose_map place
       nadd nsub nmul ndiv nneg ncos nsin natan2 nhypot nsign nlit Arith_R Arith_expr] in *;
  cbn [rCos rSin tX tY pTr pRot eval defined] in *.

Lemma eval_lpd_max : forall env a b, eval env (lpd_max a b) = Rmax (eval env a) (eval env b).
Proof. intros. rewrite <- lpd_max_R. reflexivity. Qed.
Lemma eval_lpd_min : forall env a b, eval env (lpd_min a b) = Rmin (eval env a) (eval env b).
Proof. intros. rewrite <- lpd_min_R. reflexivity. Qed.
Lemma defined_lpd_max : forall env a b, defined env (lpd_max a b) <-> defined env a /\ defined env b.
Proof. intros. unfold lpd_max. xnum. tauto. Qed.
Lemma defined_lpd_min : forall env a b, defined env (lpd_min a b) <-> defined env a /\ defined env b.
Proof. intros. unfold lpd_min. xnum. tauto. Qed.

(** A conversion of operands to expressions that commutes with evaluation. *)
Record conv {T} `{Arith T} (env : nat -> R) (c : T -> expr R) (v : T -> R) (ok : T -> Prop) : Prop := {
  cv_eval : forall t, eval env (c t) = v t;
  cv_def : forall t, defined env (c t) <-> ok t;
  cv_sub : forall t u, v (nsub t u) = v t - v u;
  cv_neg : forall t, v (nneg t) = - v t;
  cv_sub_ok : forall t u, ok (nsub t u) <-> ok t /\ ok u;
  cv_neg_ok : forall t, ok (nneg t) <-> ok t
}.
Lemma conv_const : forall env, conv env (fun k : R => EConst k) (fun k => k) (fun _ => True).
Proof. intros. constructor; intros; simpl; try tauto; reflexivity. Qed.
Lemma conv_id : forall env, conv env (fun e : expr R => e) (eval env) (defined env).
Proof. intros. constructor; intros; simpl; try tauto; reflexivity. Qed.

Section Lpd.
  Context {T U : Type} `{Arith T} `{Arith U}.
  Variables (env : nat -> R) (cT : T -> expr R) (cU : U -> expr R)
            (vT : T -> R) (vU : U -> R) (kT : T -> Prop) (kU : U -> Prop).
  Hypothesis CT : conv env cT vT kT.
  Hypothesis CU : conv env cU vU kU.
  Variables (a b : Translation2 T) (p : Translation2 U).
  Let A : R * R := (vT (tX a), vT (tY a)).
  Let B : R * R := (vT (tX b), vT (tY b)).
  Let P : R * R := (vU (tX p), vU (tY p)).

  Lemma eval_lpd : eval env (LinePointDistance cT cU a b p) = seg_sq A B P.
  Proof.
    unfold LinePointDistance. cbv zeta.
    match goal with |- context[lpd_max (lpd_min ?q (nlit 1)) (nlit 0)] => set (t := q) end.
    assert (Et : eval env t = proj A B P).
    { unfold t. xnum. rewrite !(cv_eval _ _ _ _ CT), !(cv_eval _ _ _ _ CU), !(cv_sub _ _ _ _ CT).
      unfold proj, len2, A, B, P. simpl. reflexivity. }
    clearbody t.
    assert (Ec : eval env (lpd_max (lpd_min t (nlit 1)) (nlit 0)) = clamp01 (proj A B P)).
    { rewrite eval_lpd_max, eval_lpd_min, Et. cbn [nlit Arith_expr eval Arith_R].
      rewrite Q2R_0, Q2R_1. reflexivity. }
    set (c := lpd_max _ _) in *. clearbody c.
    unfold lpd_lerp. xnum. rewrite !(cv_eval _ _ _ _ CT), !(cv_eval _ _ _ _ CU), !(cv_neg _ _ _ _ CU), Ec.
    unfold seg_sq, sq, along, A, B, P. simpl. ring.
  Qed.

  Lemma defined_lpd :
    kT (tX a) -> kT (tY a) -> kT (tX b) -> kT (tY b) -> kU (tX p) -> kU (tY p) ->
    (defined env (LinePointDistance cT cU a b p) <-> A <> B).
  Proof.
    intros K1 K2 K3 K4 K5 K6.
    unfold LinePointDistance. cbv zeta.
    match goal with |- context[lpd_max (lpd_min ?q (nlit 1)) (nlit 0)] => set (t := q) end.
    assert (Et : defined env t <-> A <> B).
    { unfold t. xnum. rewrite !(cv_def _ _ _ _ CT), !(cv_def _ _ _ _ CU), !(cv_sub_ok _ _ _ _ CT).
      rewrite !(cv_eval _ _ _ _ CT), !(cv_sub _ _ _ _ CT).
      assert (E := len2_zero A B). unfold len2, A, B in *. simpl in *. tauto. }
    clearbody t.
    assert (Ec : defined env (lpd_max (lpd_min t (nlit 1)) (nlit 0)) <-> A <> B).
    { rewrite defined_lpd_max, defined_lpd_min, Et. cbn [nlit Arith_expr defined]. tauto. }
    set (c := lpd_max _ _) in *. clearbody c.
    unfold lpd_lerp. xnum. rewrite !(cv_def _ _ _ _ CT), !(cv_def _ _ _ _ CU), !(cv_neg_ok _ _ _ _ CU), Ec.
    tauto.
  Qed.
End Lpd.

(** ** Apply methods *)
Lemma sum_sqr_bound : forall x y m, x * x + y * y <= m * m <-> norm2 (x, y) <= Rabs m.
Proof.
  intros x y m. unfold norm2; simpl.
  pose proof (sqr_pos x). pose proof (sqr_pos y).
  replace (m * m) with (Rabs m * Rabs m)
    by (rewrite <- Rabs_mult; apply Rabs_right, Rle_ge, sqr_pos).
  pose proof (Rabs_pos m). split; intros G.
  - rewrite <- (sqrt_square (Rabs m)) by assumption. apply sqrt_le_1; try lra; apply sqr_pos.
  - rewrite <- (sqrt_sqrt (x * x + y * y)) by lra.
    apply Rmult_le_compat; try assumption; apply sqrt_pos.
Qed.

Lemma norm2_zero : forall x y, norm2 (x, y) <= 0 <-> x = 0 /\ y = 0.
Proof.
  intros. rewrite <- Rabs_R0 at 1. rewrite <- sum_sqr_bound, Rmult_0_l. split.
  - intros G. pose proof (sqr_pos x). pose proof (sqr_pos y). apply sum_sqr_zero. lra.
  - intros [-> ->]. lra.
Qed.

Lemma Rabs_bounds : forall x m, Rabs x <= m <-> - m <= x <= m.
Proof. intros. unfold Rabs. destruct (Rcase_abs x); split; intros; lra. Qed.

Lemma dist_d4 : forall D d, 0 <= D -> (D * D >= d * d <-> sqrt (Rabs d) * sqrt (Rabs d) <= D).
Proof.
  intros D d HD. pose proof (Rabs_pos d).
  rewrite sqrt_sqrt by assumption.
  replace (d * d) with (Rabs d * Rabs d)
    by (rewrite <- Rabs_mult; apply Rabs_right, Rle_ge, sqr_pos).
  split; intros G.
  - destruct (Rle_dec (Rabs d) D); [assumption|]. exfalso.
    assert (D * D < Rabs d * Rabs d) by (apply Rmult_le_0_lt_compat; lra). lra.
  - apply Rle_ge. apply Rmult_le_compat; lra.
Qed.

Lemma pose_rot_eq : forall c s c0 s0, c0 * c0 + s0 * s0 = 1 ->
  (c * s0 - s * c0 = 0 /\ c * c + s * s = 1 <->
   (c = c0 /\ s = s0) \/ (c = - c0 /\ s = - s0)).
Proof.
  intros c s c0 s0 U. split.
  - intros [E N].
    set (k := c * c0 + s * s0).
    assert (Ec : c = k * c0).
    { unfold k. replace ((c * c0 + s * s0) * c0) with (c * (c0 * c0) + (s * c0) * s0) by ring.
      replace (s * c0) with (c * s0) by lra.
      replace (c * (c0 * c0) + c * s0 * s0) with (c * (c0 * c0 + s0 * s0)) by ring.
      rewrite U. ring. }
    assert (Es : s = k * s0).
    { unfold k. replace ((c * c0 + s * s0) * s0) with ((c * s0) * c0 + s * (s0 * s0)) by ring.
      replace (c * s0) with (s * c0) by lra.
      replace (s * c0 * c0 + s * (s0 * s0)) with (s * (c0 * c0 + s0 * s0)) by ring.
      rewrite U. ring. }
    assert (K : k * k = 1).
    { transitivity (c * c + s * s); [|exact N]. rewrite Ec, Es.
      replace (k * c0 * (k * c0) + k * s0 * (k * s0)) with (k * k * (c0 * c0 + s0 * s0)) by ring.
      rewrite U. ring. }
    assert (K2 : (k - 1) * (k + 1) = 0) by lra.
    clearbody k. apply Rmult_integral in K2. destruct K2 as [K2|K2].
    + left. assert (k = 1) by lra. subst k. lra.
    + right. assert (k = -1) by lra. subst k. lra.
  - intros [[-> ->]|[-> ->]]; lra.
Qed.

Lemma direction_eq : forall x y c s, c * c + s * s = 1 ->
  ((x * c + y * s) * (x * c + y * s) = x * x + y * y <-> exists k, x = k * c /\ y = k * s).
Proof.
  intros x y c s U. split.
  - intros E. exists (x * c + y * s).
    assert (Z : (x * s - y * c) * (x * s - y * c) = 0).
    { replace ((x * s - y * c) * (x * s - y * c))
        with ((x * x + y * y) * (c * c + s * s) - (x * c + y * s) * (x * c + y * s)) by ring.
      rewrite U. lra. }
    assert (Z' : x * s = y * c) by (apply Rmult_integral in Z; lra).
    split.
    + replace ((x * c + y * s) * c) with (x * (c * c) + (y * c) * s) by ring.
      rewrite <- Z'. replace (x * (c * c) + x * s * s) with (x * (c * c + s * s)) by ring.
      rewrite U. ring.
    + replace ((x * c + y * s) * s) with ((x * s) * c + y * (s * s)) by ring.
      rewrite Z'. replace (y * c * c + y * (s * s)) with (y * (c * c + s * s)) by ring.
      rewrite U. ring.
  - intros (k & -> & ->).
    replace ((k * c * c + k * s * s)) with (k * (c * c + s * s)) by ring.
    replace (k * c * (k * c) + k * s * (k * s)) with (k * k * (c * c + s * s)) by ring.
    rewrite U. ring.
Qed.

Section ApplyDemands.
  Variables (env : nat -> R) (x y c s vx vy w ax ay : expr R) (al : R).
  Hypothesis Dx : defined env x.
  Hypothesis Dy : defined env y.
  Hypothesis Dc : defined env c.
  Hypothesis Ds : defined env s.
  Hypothesis Dvx : defined env vx.
  Hypothesis Dvy : defined env vy.
  Hypothesis Dw : defined env w.
  Hypothesis Dax : defined env ax.
  Hypothesis Day : defined env ay.

  Definition state_at : state :=
    mkState (eval env x) (eval env y) (eval env c) (eval env s) (eval env vx) (eval env vy)
      (eval env w) (eval env ax) (eval env ay) al.

  Let pose := mkPose (mkTr x y) (mkRot c s).

  Lemma eval_place : forall p, tr_eval env (place pose p) = placed state_at p.
  Proof. intros [px py]. unfold tr_eval, placed, pose. xnum. simpl. reflexivity. Qed.
  Lemma defined_place : forall p, tr_defined env (place pose p).
  Proof. intros [px py]. unfold tr_defined, pose. xnum. tauto. Qed.

  Lemma sat1 : forall k, sat_all env [k] <-> sat env k.
  Proof.
    intros. unfold sat_all. split.
    - intros G. inversion G; assumption.
    - intros G. constructor; [assumption|constructor].
  Qed.
  Lemma sat2 : forall k l, sat_all env [k; l] <-> sat env k /\ sat env l.
  Proof.
    intros. unfold sat_all. split.
    - intros G. inversion G as [|? ? G1 G2]; subst. inversion G2; subst. tauto.
    - intros [G1 G2]. repeat (constructor; try assumption).
  Qed.

  Theorem apply_demands : forall k, proper_constraint k ->
    (sat_all env (Apply pose (mkTr vx vy) w (mkTr ax ay) k) <-> demands state_at k).
  Proof.
    intros k P. destruct k as [m|a b p d|m|u|m|f tol|p a b d|r f d|p|t]; cbn [Apply].
    - (* angular velocity *)
      cbn [neqb Dbl_R nlit Arith_R]. rewrite Q2R_0. unfold Reqb. cbn [demands state_at q_w].
      rewrite Rabs_bounds. destruct (Req_EM_T m 0) as [->|N].
      + rewrite sat1. cbn [sat]. xnum. rewrite Q2R_0. split; [lra|].
        intros. repeat split; try assumption; lra.
      + rewrite sat2. cbn [sat]. xnum. split; [lra|].
        intros. repeat split; try assumption; lra.
    - (* line-point *)
      rewrite sat1. cbn [sat demands].
      pose proof (eval_lpd env _ EConst _ _ _ _ (conv_id env) (conv_const env) (place pose a) (place pose b) p) as E.
      pose proof (defined_lpd env _ EConst _ _ _ _ (conv_id env) (conv_const env) (place pose a) (place pose b) p) as D.
      destruct (defined_place a) as [Da1 Da2]. destruct (defined_place b) as [Db1 Db2].
      specialize (D Da1 Da2 Db1 Db2 I I).
      change (eval env (tX (place pose a)), eval env (tY (place pose a))) with (tr_eval env (place pose a)) in *.
      change (eval env (tX (place pose b)), eval env (tY (place pose b))) with (tr_eval env (place pose b)) in *.
      rewrite !eval_place in *. change (tX p, tY p) with (pt p) in *.
      set (L := LinePointDistance _ _ _ _ _) in *. clearbody L.
      cbn [nmul Arith_expr defined eval]. rewrite E. cbn [nmul Arith_R].
      rewrite D. split.
      + intros ([D1 _] & _ & G). split; [assumption|].
        apply clear_seg_sq; [assumption|apply sqrt_pos|].
        apply dist_d4; [apply sq_nonneg|assumption].
      + intros [D1 G]. repeat split; try assumption.
        apply dist_d4; [apply sq_nonneg|].
        apply clear_seg_sq in G; [assumption|assumption|apply sqrt_pos].
    - (* linear acceleration *)
      cbn [neqb Dbl_R nlit Arith_R]. rewrite Q2R_0. unfold Reqb. cbn [demands state_at q_ax q_ay].
      destruct (Req_EM_T m 0) as [->|N].
      + rewrite sat2, Rabs_R0, norm2_zero. cbn [sat]. xnum. rewrite Q2R_0. tauto.
      + rewrite sat1, <- sum_sqr_bound. cbn [sat]. xnum. tauto.
    - (* velocity direction *)
      rewrite sat1. cbn [sat demands]. rewrite <- (direction_eq _ _ _ _ P). xnum.
      cbn [state_at q_vx q_vy]. tauto.
    - (* linear velocity *)
      cbn [neqb Dbl_R nlit Arith_R]. rewrite Q2R_0. unfold Reqb. cbn [demands state_at q_vx q_vy].
      destruct (Req_EM_T m 0) as [->|N].
      + rewrite sat2, Rabs_R0, norm2_zero. cbn [sat]. xnum. rewrite Q2R_0. tauto.
      + rewrite sat1, <- sum_sqr_bound. cbn [sat]. xnum. tauto.
    - (* point at *)
      rewrite sat1. cbn [sat demands]. unfold pose. xnum.
      cbn [state_at q_x q_y q_c q_s]. unfold dist2, pt. cbn [fst snd].
      replace ((eval env x - tX f) * (eval env x - tX f) + (eval env y - tY f) * (eval env y - tY f))
        with ((tX f - eval env x) * (tX f - eval env x) + (tY f - eval env y) * (tY f - eval env y)) by ring.
      split; [|intros; repeat split; try assumption; lra]. intros (_ & _ & G). lra.
    - (* point-line *)
      rewrite sat1. cbn [sat demands].
      pose proof (eval_lpd env EConst _ _ _ _ _ (conv_const env) (conv_id env) a b (place pose p)) as E.
      pose proof (defined_lpd env EConst _ _ _ _ _ (conv_const env) (conv_id env) a b (place pose p)) as D.
      destruct (defined_place p) as [Da1 Da2].
      specialize (D I I I I Da1 Da2).
      change (eval env (tX (place pose p)), eval env (tY (place pose p))) with (tr_eval env (place pose p)) in *.
      rewrite !eval_place in *. change (tX a, tY a) with (pt a) in *. change (tX b, tY b) with (pt b) in *.
      set (L := LinePointDistance _ _ _ _ _) in *. clearbody L.
      cbn [nmul Arith_expr defined eval]. rewrite E. cbn [nmul Arith_R].
      rewrite D. split.
      + intros ([D1 _] & _ & G). split; [assumption|].
        apply clear_seg_sq; [assumption|apply sqrt_pos|].
        apply dist_d4; [apply sq_nonneg|assumption].
      + intros [D1 G]. repeat split; try assumption.
        apply dist_d4; [apply sq_nonneg|].
        apply clear_seg_sq in G; [assumption|assumption|apply sqrt_pos].
    - (* point-point *)
      rewrite sat1. cbn [sat demands].
      pose proof (eval_place r) as E. destruct (defined_place r) as [D1 D2].
      unfold tr_eval in E. set (R0 := place pose r) in *. clearbody R0.
      cbn [nmul nadd nsub Arith_expr defined eval]. cbn [nmul Arith_R].
      injection E as E1 E2. rewrite E1, E2.
      set (q := placed state_at r) in *.
      rewrite <- (surjective_pairing q) || idtac.
      unfold dist2, pt. rewrite <- sqrt_le_cmp; [|apply Rabs_pos|apply Rplus_le_le_0_compat; apply sqr_pos].
      replace (Rabs d * Rabs d) with (d * d)
        by (rewrite <- Rabs_mult; symmetry; apply Rabs_right, Rle_ge, sqr_pos).
      unfold q, placed. cbn [fst snd state_at q_x q_y q_c q_s].
      split; [intros (_ & _ & G)|intros G; repeat split; try assumption]; lra.
    - (* pose *)
      cbn [demands state_at q_x q_y q_c q_s]. rewrite <- (pose_rot_eq _ _ _ _ P).
      unfold pose_eq, tr_eq, rot_eq, pose. cbn [app]. unfold sat_all.
      rewrite !Forall_cons_iff. cbn [sat]. xnum. rewrite Q2R_0, Q2R_1.
      split; [tauto|]. intros. repeat split; try tauto. constructor.
    - (* translation *)
      unfold tr_eq. rewrite sat2. cbn [sat demands]. unfold pose. xnum.
      cbn [state_at q_x q_y]. tauto.
  Qed.
End ApplyDemands.

Theorem satisfied_demands : forall s k, proper_constraint k -> (satisfied s k <-> demands s k).
Proof.
  intros s k P. unfold satisfied.
  rewrite (apply_demands (state_env s) _ _ _ _ _ _ _ _ _ (q_al s)) by (exact P || exact I).
  destruct s. reflexivity.
Qed.
