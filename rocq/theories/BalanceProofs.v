(** Drivetrains that push evenly (C125). *)
From Coq Require Import List Lia Lra Psatz Reals ZArith Permutation.
Import ListNotations.
From Verif Require Import Outcome Num NumR Geometry Expr Constraints Util Builder Guess Generator Trajectory
  Spec SpecBuilder SpecPhysics SpecTrajectory SpecGenerator SpecLoad SpecBalance
  BuilderFacts BuilderHistory GeneratorFacts HistoryFacts GeneratorProofs SolutionProofs TrajectoryProofs
  GeneratorCases LimitProofs OrderProofs HardwareProofs LegProofs ConstraintFacts LoadProofs.
Open Scope R_scope.

Lemma combine_map : forall {A B} (f : A -> B) l, combine l (map f l) = map (fun a => (a, f a)) l.
Proof. induction l as [|a l IH]; [reflexivity|]. cbn [map combine]. rewrite IH. reflexivity. Qed.
Lemma sum_ext : forall {A} (f g : A -> R) l, (forall a, In a l -> f a = g a) -> sum (map f l) = sum (map g l).
Proof. intros A f g l H. f_equal. apply map_ext_in. exact H. Qed.
Lemma sum_zero_all : forall {A} (f : A -> R) l, (forall a, In a l -> 0 <= f a) -> sum (map f l) = 0 -> forall a, In a l -> f a = 0.
Proof.
  induction l as [|b l IH]; intros P E a Ha; [destruct Ha|]. cbn [map sum] in E.
  assert (0 <= sum (map f l)).
  { clear IH E Ha. induction l as [|x l IH]; cbn [map sum]; [lra|]. pose proof (P x (or_intror (or_introl eq_refl))).
    assert (0 <= sum (map f l)) by (apply IH; intros y [->|Hy]; apply P; [left; reflexivity|right; right; exact Hy]). lra. }
  pose proof (P b (or_introl eq_refl)). destruct Ha as [<-|Ha]; [lra|]. apply IH; [|lra|exact Ha]. intros; apply P; right; assumption.
Qed.
Lemma sum_nonneg_all : forall {A} (f : A -> R) l, (forall a, In a l -> 0 <= f a) -> 0 <= sum (map f l).
Proof.
  induction l as [|x l IH]; intros P; cbn [map sum]; [lra|]. pose proof (P x (or_introl eq_refl)).
  assert (0 <= sum (map f l)) by (apply IH; intros; apply P; right; assumption). lra.
Qed.
Lemma limit_pos : forall d md, real_wheels d -> In md (d_modules d) -> 0 <= force_limit md.
Proof.
  intros d md W Hm. destruct (W md Hm) as (Rp & _ & Tp). unfold force_limit. apply Rmult_le_pos; [exact Tp|]. left. apply Rinv_0_lt_compat, Rp.
Qed.
Lemma force_total : forall d fs, length fs = length (d_modules d) -> forces_within d fs ->
  norm2 (sum (map fst fs), sum (map snd fs)) <= sum (map force_limit (d_modules d)).
Proof.
  intros d fs L F. eapply Rle_trans; [apply norm2_sum|].
  rewrite <- (combine_snd norm2 (d_modules d) fs) by (symmetry; exact L).
  rewrite <- (combine_fst force_limit (d_modules d) fs) by (symmetry; exact L).
  apply sum_le_map. intros [md f] Hin. apply F. exact Hin.
Qed.
Lemma turned_scale : forall s p, norm2 (turned s p) = norm2 (pt p) * norm2 (q_c s, q_s s).
Proof.
  intros s [x y]. unfold norm2, turned, pt. cbn [fst snd tX tY]. rewrite <- sqrt_mult_alt by nra. f_equal. ring.
Qed.
Lemma torque_total : forall d s fs, length fs = length (d_modules d) -> forces_within d fs ->
  Rabs (torque d s fs) <= norm2 (q_c s, q_s s) * sum (map (fun md => arm md * force_limit md) (d_modules d)).
Proof.
  intros d s fs L F. unfold torque. eapply Rle_trans; [apply abs_sum|]. rewrite map_map.
  rewrite <- sum_mul. rewrite <- (combine_fst (fun md => norm2 (q_c s, q_s s) * (arm md * force_limit md)) (d_modules d) fs) by (symmetry; exact L).
  apply sum_le_map. intros [md f] Hin. cbn [fst snd]. eapply Rle_trans; [apply cross_bound|].
  rewrite turned_scale. unfold arm. specialize (F md f Hin). fold (force_limit md) in F.
  pose proof (norm2_pos (pt (m_translation md))). pose proof (norm2_pos (q_c s, q_s s)).
  replace (norm2 (q_c s, q_s s) * (norm2 (pt (m_translation md)) * force_limit md)) with
    (norm2 (pt (m_translation md)) * norm2 (q_c s, q_s s) * force_limit md) by ring.
  apply Rmult_le_compat_l; [apply Rmult_le_pos; assumption|exact F].
Qed.

Section Rows.
  Variables (d : drivetrain R) (s : state).
  Hypothesis W : real_wheels d.
  Let ms := d_modules d.
  Let LL := sum (map force_limit ms).

  (** Pushing without turning. *)
  Lemma shed_torque : forall fs, pushes_straight d -> length fs = length ms -> forces_within d fs ->
    can_do d s (sum (map fst fs)) (sum (map snd fs)) 0.
  Proof.
    intros fs (B1 & B2) L F. pose proof (force_total d fs L F) as T. fold ms LL in T, B1, B2.
    set (X := sum (map fst fs)) in *. set (Y := sum (map snd fs)) in *.
    assert (Lp : 0 <= LL) by (apply sum_nonneg_all; intros; apply (limit_pos d); assumption).
    exists (map (fun md => (force_limit md * (X / LL), force_limit md * (Y / LL))) ms).
    split; [apply map_length|]. unfold torque, forces_within. fold ms. rewrite combine_map, !map_map. cbn [fst snd].
    assert (E : forall c, sum (map (fun md => force_limit md * c) ms) = c * LL).
    { intros c. unfold LL. rewrite <- sum_mul. apply sum_ext. intros. ring. }
    assert (Z : LL = 0 -> X = 0 /\ Y = 0) by (intros Z; rewrite Z in T; apply norm2_zero in T; exact T).
    split; [|split; [|split]].
    - intros md f Hf. apply in_map_iff in Hf. destruct Hf as (m & E' & Hm). injection E' as <- <-. fold (force_limit m).
      pose proof (limit_pos d m W Hm) as Lm. rewrite norm2_scale, Rabs_pos_eq by exact Lm.
      destruct (Req_dec LL 0) as [Q|Q].
      + rewrite (sum_zero_all force_limit ms (fun a H => limit_pos d a W H) Q m Hm). lra.
      + assert (norm2 (X / LL, Y / LL) <= 1).
        { replace (X / LL) with (/ LL * X) by (unfold Rdiv; ring). replace (Y / LL) with (/ LL * Y) by (unfold Rdiv; ring).
          rewrite norm2_scale, Rabs_pos_eq by (left; apply Rinv_0_lt_compat; lra).
          apply (Rmult_le_reg_l LL); [lra|]. rewrite <- Rmult_assoc, Rinv_r by exact Q. lra. }
        nra.
    - rewrite E. destruct (Req_dec LL 0) as [Q|Q]; [destruct (Z Q) as [-> _]; rewrite Q; unfold Rdiv; ring|field; exact Q].
    - rewrite E. destruct (Req_dec LL 0) as [Q|Q]; [destruct (Z Q) as [_ ->]; rewrite Q; unfold Rdiv; ring|field; exact Q].
    - set (a := X / LL). set (b := Y / LL).
      transitivity ((b * q_c s - a * q_s s) * sum (map (fun md => force_limit md * tX (m_translation md)) ms)
        + (- (b * q_s s) - a * q_c s) * sum (map (fun md => force_limit md * tY (m_translation md)) ms)).
      + rewrite <- !sum_mul, <- sum_zip. apply sum_ext. intros m _. unfold cross2, turned. cbn [fst snd]. ring.
      + rewrite B1, B2. ring.
  Qed.

  (** Turning without pushing. *)
  Let q := norm2 (q_c s, q_s s).
  Let ux md := tX (m_translation md) / arm md.
  Let uy md := tY (m_translation md) / arm md.
  Let Ux := sum (map (fun md => force_limit md * ux md) ms).
  Let Uy := sum (map (fun md => force_limit md * uy md) ms).
  Let H := sum (map hub_limit ms).
  Let Vx := - (Ux * q_s s + Uy * q_c s) / q.
  Let Vy := (Ux * q_c s - Uy * q_s s) / q.
  Let row (l : R) (md : swerve_module R) : R * R :=
    (l * (force_limit md * (- (ux md * q_s s + uy md * q_c s) / q) - hub_limit md * (Vx / H)),
     l * (force_limit md * ((ux md * q_c s - uy md * q_s s) / q) - hub_limit md * (Vy / H))).
  Lemma arm_zero : forall md, arm md = 0 -> tX (m_translation md) = 0 /\ tY (m_translation md) = 0.
  Proof. intros md E. unfold arm, pt in E. apply norm2_zero. lra. Qed.
  Lemma arm_sqr : forall md, tX (m_translation md) * tX (m_translation md) + tY (m_translation md) * tY (m_translation md) = arm md * arm md.
  Proof. intros md. unfold arm, pt. rewrite norm2_sqr. reflexivity. Qed.
  Lemma q_sqr : q_c s * q_c s + q_s s * q_s s = q * q.
  Proof. unfold q. rewrite norm2_sqr. reflexivity. Qed.
  Lemma H_pos : 0 <= H.
  Proof.
    apply sum_nonneg_all. intros md Hm. unfold hub_limit. destruct (Req_EM_T (arm md) 0); [apply (limit_pos d); assumption|lra].
  Qed.
  Lemma turned_unit : forall x y, q <> 0 -> norm2 (- (x * q_s s + y * q_c s) / q, (x * q_c s - y * q_s s) / q) = norm2 (x, y).
  Proof.
    intros x y Q. unfold norm2. cbn [fst snd]. f_equal.
    replace (- (x * q_s s + y * q_c s) / q * (- (x * q_s s + y * q_c s) / q) + (x * q_c s - y * q_s s) / q * ((x * q_c s - y * q_s s) / q))
      with ((x * x + y * y) * ((q_c s * q_c s + q_s s * q_s s) / (q * q))) by (field; exact Q).
    rewrite q_sqr. field. exact Q.
  Qed.
  Lemma shed_force : forall fs, turns_in_place d -> length fs = length ms -> forces_within d fs -> can_do d s 0 0 (torque d s fs).
  Proof.
    intros fs B L F. pose proof (torque_total d s fs L F) as T. fold q ms in T.
    unfold turns_in_place in B. fold ms in B. change (norm2 (Ux, Uy) <= H) in B.
    set (M := sum (map (fun md => arm md * force_limit md) ms)) in *.
    assert (Mp : 0 <= M) by (apply sum_nonneg_all; intros; apply Rmult_le_pos; [apply norm2_pos|apply (limit_pos d); assumption]).
    assert (qp : 0 <= q) by apply norm2_pos.
    destruct (Req_dec (q * M) 0) as [Z|Z].
    { rewrite Z in T. assert (E : torque d s fs = 0).
      { pose proof (Rle_abs (torque d s fs)). pose proof (Rle_abs (- torque d s fs)) as Z'. rewrite Rabs_Ropp in Z'. lra. }
      rewrite E. exists (map (fun _ => (0, 0)) ms). split; [apply map_length|]. unfold torque, forces_within. fold ms.
      rewrite combine_map, !map_map. cbn [fst snd]. split; [|split; [|split]].
      - intros md f Hf. apply in_map_iff in Hf. destruct Hf as (m & E' & Hm). injection E' as <- <-. fold (force_limit m).
        apply norm2_le; [apply (limit_pos d); assumption|]. pose proof (limit_pos d m W Hm). nra.
      - rewrite sum_all. ring.
      - rewrite sum_all. ring.
      - transitivity (sum (map (fun _ : swerve_module R => 0) ms)); [apply sum_ext; intros; unfold cross2; cbn [fst snd]; ring|].
        rewrite sum_all. ring. }
    assert (Q : q <> 0) by (intros E; apply Z; rewrite E; ring).
    assert (M0 : M <> 0) by (intros E; apply Z; rewrite E; ring).
    set (l := torque d s fs / (q * M)).
    assert (La : Rabs l <= 1).
    { unfold l, Rdiv. rewrite Rabs_mult, Rabs_inv, (Rabs_pos_eq (q * M)) by (apply Rmult_le_pos; assumption).
      assert (0 < q * M) by (pose proof (Rmult_le_pos _ _ qp Mp); lra).
      apply (Rmult_le_reg_r (q * M)); [assumption|]. rewrite Rmult_assoc, Rinv_l by exact Z. lra. }
    assert (VH : norm2 (Vx, Vy) <= H) by (unfold Vx, Vy; rewrite turned_unit by exact Q; exact B).
    pose proof H_pos as Hp.
    assert (Vz : H = 0 -> Vx = 0 /\ Vy = 0) by (intros E; rewrite E in VH; apply norm2_zero in VH; exact VH).
    exists (map (row l) ms). split; [apply map_length|]. unfold torque, forces_within. fold ms.
    rewrite combine_map, !map_map. cbn [fst snd row]. split; [|split; [|split]].
    - intros md f Hf. apply in_map_iff in Hf. destruct Hf as (m & E' & Hm). injection E' as <- <-. fold (force_limit m).
      pose proof (limit_pos d m W Hm) as Lm. unfold row. rewrite norm2_scale.
      assert (S : norm2 (force_limit m * (- (ux m * q_s s + uy m * q_c s) / q) - hub_limit m * (Vx / H),
                         force_limit m * ((ux m * q_c s - uy m * q_s s) / q) - hub_limit m * (Vy / H)) <= force_limit m).
      { unfold hub_limit. destruct (Req_EM_T (arm m) 0) as [A|A].
        - destruct (arm_zero m A) as [X0 Y0]. unfold ux, uy. rewrite X0, Y0.
          replace (force_limit m * (- (0 / arm m * q_s s + 0 / arm m * q_c s) / q) - force_limit m * (Vx / H)) with (- force_limit m * (Vx / H)) by (unfold Rdiv; ring).
          replace (force_limit m * ((0 / arm m * q_c s - 0 / arm m * q_s s) / q) - force_limit m * (Vy / H)) with (- force_limit m * (Vy / H)) by (unfold Rdiv; ring).
          rewrite norm2_scale, Rabs_Ropp, Rabs_pos_eq by exact Lm.
          assert (norm2 (Vx / H, Vy / H) <= 1); [|nra].
          destruct (Req_dec H 0) as [E|E].
          + destruct (Vz E) as [-> ->]. apply norm2_le; [lra|]. unfold Rdiv. lra.
          + replace (Vx / H) with (/ H * Vx) by (unfold Rdiv; ring). replace (Vy / H) with (/ H * Vy) by (unfold Rdiv; ring).
            rewrite norm2_scale, Rabs_pos_eq by (left; apply Rinv_0_lt_compat; lra).
            apply (Rmult_le_reg_l H); [lra|]. rewrite <- Rmult_assoc, Rinv_r by exact E. lra.
        - replace (force_limit m * (- (ux m * q_s s + uy m * q_c s) / q) - 0 * (Vx / H)) with (force_limit m * (- (ux m * q_s s + uy m * q_c s) / q)) by ring.
          replace (force_limit m * ((ux m * q_c s - uy m * q_s s) / q) - 0 * (Vy / H)) with (force_limit m * ((ux m * q_c s - uy m * q_s s) / q)) by ring.
          rewrite norm2_scale, Rabs_pos_eq, turned_unit by assumption.
          assert (norm2 (ux m, uy m) <= 1); [|nra]. apply norm2_le; [lra|]. unfold ux, uy.
          replace (tX (m_translation m) / arm m * (tX (m_translation m) / arm m) + tY (m_translation m) / arm m * (tY (m_translation m) / arm m))
            with ((tX (m_translation m) * tX (m_translation m) + tY (m_translation m) * tY (m_translation m)) / (arm m * arm m)) by (field; exact A).
          rewrite arm_sqr. right. field. exact A. }
      pose proof (Rabs_pos l).
      match type of S with norm2 ?v <= _ => pose proof (norm2_pos v); set (nv := norm2 v) in * end. nra.
    - transitivity (l * (Vx - H * (Vx / H))).
      + transitivity (l * ((- (q_s s / q) * Ux + - (q_c s / q) * Uy) + - (Vx / H) * H)); [|replace (- (q_s s / q) * Ux + - (q_c s / q) * Uy) with Vx by (unfold Vx, Rdiv; ring); ring].
        set (k := - (Vx / H)). change Ux with (sum (map (fun md => force_limit md * ux md) ms)) at 1. change Uy with (sum (map (fun md => force_limit md * uy md) ms)) at 1. change (k * H) with (k * sum (map hub_limit ms)). rewrite <- !sum_mul, <- !sum_zip, <- sum_mul. apply sum_ext. intros m _. unfold k, Rdiv. ring.
      + destruct (Req_dec H 0) as [E|E]; [destruct (Vz E) as [-> _]; unfold Rdiv; ring|field; exact E].
    - transitivity (l * (Vy - H * (Vy / H))).
      + transitivity (l * (((q_c s / q) * Ux + - (q_s s / q) * Uy) + - (Vy / H) * H)); [|replace ((q_c s / q) * Ux + - (q_s s / q) * Uy) with Vy by (unfold Vy, Rdiv; ring); ring].
        set (k := - (Vy / H)). change Ux with (sum (map (fun md => force_limit md * ux md) ms)) at 1. change Uy with (sum (map (fun md => force_limit md * uy md) ms)) at 1. change (k * H) with (k * sum (map hub_limit ms)). rewrite <- !sum_mul, <- !sum_zip, <- sum_mul. apply sum_ext. intros m _. unfold k, Rdiv. ring.
      + destruct (Req_dec H 0) as [E|E]; [destruct (Vz E) as [_ ->]; unfold Rdiv; ring|field; exact E].
    - transitivity (l * q * M); [|change (l * q * M = torque d s fs); unfold l; field; split; assumption].
      unfold M. rewrite <- sum_mul. apply sum_ext. intros m _. unfold cross2, turned, row. cbn [fst snd].
      unfold hub_limit. destruct (Req_EM_T (arm m) 0) as [A|A].
      + destruct (arm_zero m A) as [X0 Y0]. rewrite X0, Y0, A. ring.
      + generalize (Vx / H) (Vy / H). intros vx vy. transitivity (l * force_limit m * ((tX (m_translation m) * tX (m_translation m) + tY (m_translation m) * tY (m_translation m)) / arm m)
          * ((q_c s * q_c s + q_s s * q_s s) / q)); [unfold ux, uy; field; split; assumption|].
        rewrite arm_sqr, q_sqr. field. split; assumption.
  Qed.
End Rows.

(** ** Both *)
Lemma can_mix : forall d s a b x1 y1 t1 x2 y2 t2, Rabs a + Rabs b <= 1 -> can_do d s x1 y1 t1 -> can_do d s x2 y2 t2 ->
  can_do d s (a * x1 + b * x2) (a * y1 + b * y2) (a * t1 + b * t2).
Proof.
  intros d s a b x1 y1 t1 x2 y2 t2 Ab (fs & Lf & Ff & <- & <- & <-) (gs & Lg & Fg & <- & <- & <-).
  assert (L : length fs = length gs) by congruence.
  exists (mix a b fs gs). split; [rewrite mix_length by exact L; exact Lg|]. split.
  - exact (mix_within a b (fun md => m_wheelMaxTorque md / m_wheelRadius md) (d_modules d) fs gs Ab L Ff Fg).
  - split; [apply mix_fst; exact L|]. split; [apply mix_snd; exact L|]. unfold torque. apply mix_torque. exact L.
Qed.
Lemma balanced_separates : forall d s, real_wheels d -> balanced d -> separates d s.
Proof.
  intros d s W (B1 & B2) fx fy t k j C Hk Hj. pose proof C as (fs & Lf & Ff & Ex & Ey & Et).
  destruct (Rle_dec j k) as [Q|Q].
  - pose proof (shed_torque d s W fs B1 Lf Ff) as S. rewrite Ex, Ey in S.
    replace (k * fx) with (j * fx + (k - j) * fx) by ring. replace (k * fy) with (j * fy + (k - j) * fy) by ring.
    replace (j * t) with (j * t + (k - j) * 0) by ring. apply can_mix; [|exact C|exact S]. rewrite !Rabs_pos_eq by lra. lra.
  - pose proof (shed_force d s W fs B2 Lf Ff) as S. rewrite Et in S.
    replace (k * fx) with (k * fx + (j - k) * 0) by ring. replace (k * fy) with (k * fy + (j - k) * 0) by ring.
    replace (j * t) with (k * t + (j - k) * t) by ring. apply can_mix; [|exact C|exact S]. rewrite !Rabs_pos_eq by lra. lra.
Qed.

(** ** What separating takes *)
Lemma sum_tight : forall {A} (f g : A -> R) l, (forall a, In a l -> f a <= g a) -> sum (map f l) = sum (map g l) ->
  forall a, In a l -> f a = g a.
Proof.
  intros A f g l H E a Ha.
  assert (Z : sum (map (fun a => g a + -1 * f a) l) = 0) by (rewrite sum_zip, sum_mul, E; ring).
  pose proof (sum_zero_all (fun a => g a + -1 * f a) l ltac:(intros b Hb; specialize (H b Hb); lra) Z a Ha) as Q. cbv beta in Q. lra.
Qed.
(** A vector no longer than [l] whose part along the unit vector [(a, b)] is [l]. *)
Lemma longest : forall x y a b l, a * a + b * b = 1 -> norm2 (x, y) <= l -> a * x + b * y = l -> x = l * a /\ y = l * b.
Proof.
  intros x y a b l U N E. pose proof (norm2_pos (x, y)) as P. pose proof (norm2_sqr x y) as Q.
  assert (S : x * x + y * y <= l * l) by nra.
  assert (Z : (x - l * a) * (x - l * a) + (y - l * b) * (y - l * b) <= 0).
  { replace ((x - l * a) * (x - l * a) + (y - l * b) * (y - l * b)) with
      (x * x + y * y - 2 * l * (a * x + b * y) + l * l * (a * a + b * b)) by ring. rewrite E, U. lra. }
  pose proof (Rle_0_sqr (x - l * a)) as Z1. pose proof (Rle_0_sqr (y - l * b)) as Z2. unfold Rsqr in *. split; nra.
Qed.
Lemma dot_bound : forall x y a b l, a * a + b * b = 1 -> norm2 (x, y) <= l -> a * x + b * y <= l.
Proof.
  intros x y a b l U N. pose proof (cauchy a b x y) as C. pose proof (norm2_pos (x, y)).
  assert (E : norm2 (a, b) = 1) by (unfold norm2; cbn [fst snd]; rewrite U; apply sqrt_1). rewrite E in C. lra.
Qed.

Section Tight.
  Variables (d : drivetrain R) (s : state).
  Hypothesis Q : norm2 (q_c s, q_s s) <> 0.
  Let ms := d_modules d.
  Let q := norm2 (q_c s, q_s s).
  Lemma tight_force : forall a b, a * a + b * b = 1 -> forall gs, length gs = length ms -> forces_within d gs ->
    sum (map fst gs) = a * sum (map force_limit ms) -> sum (map snd gs) = b * sum (map force_limit ms) ->
    torque d s gs = sum (map (fun md => cross2 (turned s (m_translation md)) (force_limit md * a, force_limit md * b)) ms).
  Proof.
    intros a b U gs Lg Fg Gx Gy.
    assert (T : forall mg, In mg (combine ms gs) -> a * fst (snd mg) + b * snd (snd mg) = force_limit (fst mg)).
    { apply sum_tight.
      - intros [m [gx gy]] Hin. cbn [fst snd]. apply dot_bound; [exact U|]. exact (Fg m (gx, gy) Hin).
      - rewrite sum_zip, !sum_mul. rewrite (combine_snd fst ms gs), (combine_snd snd ms gs), (combine_fst force_limit ms gs) by (symmetry; exact Lg).
        rewrite Gx, Gy. rewrite <- Rmult_assoc, <- (Rmult_assoc b), <- Rmult_plus_distr_r, U. ring. }
    symmetry. unfold torque. fold ms.
    rewrite <- (combine_fst (fun md => cross2 (turned s (m_translation md)) (force_limit md * a, force_limit md * b)) ms gs) by (symmetry; exact Lg).
    apply sum_ext. intros [m [gx gy]] Hin. cbn [fst snd].
    destruct (longest gx gy a b (force_limit m) U (Fg m (gx, gy) Hin) (T _ Hin)) as [-> ->]. reflexivity.
  Qed.
  Let ux md := tX (m_translation md) / arm md.
  Let uy md := tY (m_translation md) / arm md.
  Let ex md := - (ux md * q_s s + uy md * q_c s) / q.
  Let ey md := (ux md * q_c s - uy md * q_s s) / q.
  Lemma e_unit : forall md, arm md <> 0 -> ex md * ex md + ey md * ey md = 1.
  Proof.
    intros md A. unfold ex, ey, ux, uy.
    transitivity ((tX (m_translation md) * tX (m_translation md) + tY (m_translation md) * tY (m_translation md)) / (arm md * arm md)
      * ((q_c s * q_c s + q_s s * q_s s) / (q * q))); [field; split; assumption|].
    rewrite arm_sqr, (q_sqr s). fold q. field. split; assumption.
  Qed.
  Lemma e_cross : forall md f, arm md <> 0 -> cross2 (turned s (m_translation md)) f = arm md * q * (ex md * fst f + ey md * snd f).
  Proof. intros md f A. unfold cross2, turned, ex, ey, ux, uy. cbn [fst snd]. field. split; assumption. Qed.
  Lemma tight_torque : forall gs, length gs = length ms -> forces_within d gs ->
    torque d s gs = q * sum (map (fun md => arm md * force_limit md) ms) ->
    exists X Y, sum (map fst gs) = sum (map (fun md => force_limit md * ex md) ms) + X /\
      sum (map snd gs) = sum (map (fun md => force_limit md * ey md) ms) + Y /\ norm2 (X, Y) <= sum (map hub_limit ms).
  Proof.
    intros gs Lg Fg Gt.
    assert (qp : 0 < q) by (destruct (norm2_pos (q_c s, q_s s)) as [P|P]; [exact P|contradiction (Q (eq_sym P))]).
    assert (Z : forall m f, arm m = 0 -> cross2 (turned s (m_translation m)) f = 0).
    { intros m f A. destruct (arm_zero m A) as [X0 Y0]. unfold cross2, turned. cbn [fst snd]. rewrite X0, Y0. ring. }
    assert (Ez : forall m, arm m = 0 -> ex m = 0 /\ ey m = 0).
    { intros m A. destruct (arm_zero m A) as [X0 Y0]. unfold ex, ey, ux, uy. rewrite X0, Y0. unfold Rdiv. split; ring. }
    assert (T : forall mg, In mg (combine ms gs) -> cross2 (turned s (m_translation (fst mg))) (snd mg) = q * (arm (fst mg) * force_limit (fst mg))).
    { apply sum_tight.
      - intros [m g] Hin. cbn [fst snd]. eapply Rle_trans; [apply Rle_abs|]. eapply Rle_trans; [apply cross_bound|].
        rewrite turned_scale. fold q. fold (arm m). specialize (Fg m g Hin). fold (force_limit m) in Fg.
        pose proof (norm2_pos (pt (m_translation m))) as P. fold (arm m) in P.
        replace (q * (arm m * force_limit m)) with (arm m * q * force_limit m) by ring. apply Rmult_le_compat_l; [nra|exact Fg].
      - rewrite sum_mul. rewrite (combine_fst (fun m => arm m * force_limit m) ms gs) by (symmetry; exact Lg). exact Gt. }
    set (hx := fun mg : swerve_module R * (R * R) => if Req_EM_T (arm (fst mg)) 0 then fst (snd mg) else 0).
    set (hy := fun mg : swerve_module R * (R * R) => if Req_EM_T (arm (fst mg)) 0 then snd (snd mg) else 0).
    assert (G : forall mg, In mg (combine ms gs) -> fst (snd mg) = force_limit (fst mg) * ex (fst mg) + hx mg /\
      snd (snd mg) = force_limit (fst mg) * ey (fst mg) + hy mg).
    { intros [m [gx gy]] Hin. unfold hx, hy. cbn [fst snd]. destruct (Req_EM_T (arm m) 0) as [A|A].
      - destruct (Ez m A) as [-> ->]. split; ring.
      - pose proof (T _ Hin) as Tm. cbn [fst snd] in Tm. rewrite e_cross in Tm by exact A. cbn [fst snd] in Tm.
        assert (D : ex m * gx + ey m * gy = force_limit m).
        { apply (Rmult_eq_reg_l (arm m * q)); [rewrite Tm; ring|]. apply Rmult_integral_contrapositive_currified; [exact A|lra]. }
        destruct (longest gx gy _ _ (force_limit m) (e_unit m A) (Fg m (gx, gy) Hin) D) as [-> ->]. split; ring. }
    assert (Sx : sum (map (fun md => force_limit md * ex md) ms) + sum (map hx (combine ms gs)) = sum (map fst gs)).
    { rewrite <- (combine_snd fst ms gs) by (symmetry; exact Lg).
      rewrite <- (combine_fst (fun md => force_limit md * ex md) ms gs) by (symmetry; exact Lg).
      rewrite <- sum_zip. apply sum_ext. intros mg Hin. symmetry. apply (G mg Hin). }
    assert (Sy : sum (map (fun md => force_limit md * ey md) ms) + sum (map hy (combine ms gs)) = sum (map snd gs)).
    { rewrite <- (combine_snd snd ms gs) by (symmetry; exact Lg).
      rewrite <- (combine_fst (fun md => force_limit md * ey md) ms gs) by (symmetry; exact Lg).
      rewrite <- sum_zip. apply sum_ext. intros mg Hin. symmetry. apply (G mg Hin). }
    exists (sum (map hx (combine ms gs))), (sum (map hy (combine ms gs))).
    split; [symmetry; exact Sx|]. split; [symmetry; exact Sy|].
    replace (sum (map hx (combine ms gs))) with (sum (map fst (map (fun mg => (hx mg, hy mg)) (combine ms gs)))) by (rewrite map_map; reflexivity).
    replace (sum (map hy (combine ms gs))) with (sum (map snd (map (fun mg => (hx mg, hy mg)) (combine ms gs)))) by (rewrite map_map; reflexivity).
    eapply Rle_trans; [apply norm2_sum|]. rewrite map_map.
    rewrite <- (combine_fst hub_limit ms gs) by (symmetry; exact Lg). apply sum_le_map. intros [m [gx gy]] Hin.
    unfold hx, hy, hub_limit. cbn [fst snd]. destruct (Req_EM_T (arm m) 0) as [A|A]; [exact (Fg m (gx, gy) Hin)|apply norm2_le; lra].
  Qed.
End Tight.

Section Need.
  Variables (d : drivetrain R) (s : state).
  Hypothesis W : real_wheels d.
  Hypothesis Q : norm2 (q_c s, q_s s) <> 0.
  Hypothesis Sp : separates d s.
  Let ms := d_modules d.
  Let q := norm2 (q_c s, q_s s).
  Lemma all_one_way : forall a b, a * a + b * b = 1 ->
    sum (map (fun md => cross2 (turned s (m_translation md)) (force_limit md * a, force_limit md * b)) ms) = 0.
  Proof.
    intros a b U. set (row := fun md => (force_limit md * a, force_limit md * b)).
    assert (E : forall c, sum (map (fun md => force_limit md * c) ms) = c * sum (map force_limit ms)).
    { intros c. rewrite <- sum_mul. apply sum_ext. intros. ring. }
    assert (C : can_do d s (a * sum (map force_limit ms)) (b * sum (map force_limit ms)) (torque d s (map row ms))).
    { exists (map row ms). split; [apply map_length|]. split; [|rewrite !map_map; unfold row; cbn [fst snd]; rewrite !E; repeat split].
      unfold forces_within. fold ms. rewrite combine_map. intros md f Hf. apply in_map_iff in Hf. destruct Hf as (m & E' & Hm). injection E' as <- <-.
      fold (force_limit m). pose proof (limit_pos d m W Hm) as Lm. unfold row. apply norm2_le; [exact Lm|].
      replace (force_limit m * a * (force_limit m * a) + force_limit m * b * (force_limit m * b)) with (force_limit m * force_limit m * (a * a + b * b)) by ring.
      rewrite U. lra. }
    destruct (Sp _ _ _ 1 0 C ltac:(lra) ltac:(lra)) as (gs & Lg & Fg & Gx & Gy & Gt). rewrite Rmult_1_l in Gx, Gy. rewrite Rmult_0_l in Gt.
    transitivity (torque d s gs); [symmetry; exact (tight_force d s a b U gs Lg Fg Gx Gy)|exact Gt].
  Qed.
  Lemma need_straight : pushes_straight d.
  Proof.
    pose proof (all_one_way 1 0 ltac:(lra)) as A. pose proof (all_one_way 0 1 ltac:(lra)) as B.
    set (X := sum (map (fun md => force_limit md * tX (m_translation md)) ms)).
    set (Y := sum (map (fun md => force_limit md * tY (m_translation md)) ms)).
    assert (A' : q_s s * X + q_c s * Y = 0).
    { rewrite <- (Ropp_involutive (q_s s * X + q_c s * Y)), <- Ropp_0. f_equal. rewrite <- A. unfold X, Y.
      rewrite <- !sum_mul, <- sum_zip. replace (- sum (map (fun a => q_s s * (force_limit a * tX (m_translation a)) + q_c s * (force_limit a * tY (m_translation a))) ms))
        with (-1 * sum (map (fun a => q_s s * (force_limit a * tX (m_translation a)) + q_c s * (force_limit a * tY (m_translation a))) ms)) by ring.
      rewrite <- sum_mul. apply sum_ext. intros m _. unfold cross2, turned. cbn [fst snd]. ring. }
    assert (B' : q_c s * X + - q_s s * Y = 0).
    { rewrite <- B. unfold X, Y. rewrite <- !sum_mul, <- sum_zip. apply sum_ext. intros m _. unfold cross2, turned. cbn [fst snd]. ring. }
    assert (N : q_c s * q_c s + q_s s * q_s s = q * q) by (unfold q; rewrite norm2_sqr; reflexivity).
    split; change (d_modules d) with ms; [change (X = 0)|change (Y = 0)].
    - apply (Rmult_eq_reg_l (q * q)); [|apply Rmult_integral_contrapositive_currified; exact Q]. rewrite <- N. transitivity (q_c s * (q_c s * X + - q_s s * Y) + q_s s * (q_s s * X + q_c s * Y)); [ring|].
      rewrite A', B'. ring.
    - apply (Rmult_eq_reg_l (q * q)); [|apply Rmult_integral_contrapositive_currified; exact Q]. rewrite <- N. transitivity (q_c s * (q_s s * X + q_c s * Y) - q_s s * (q_c s * X + - q_s s * Y)); [ring|].
      rewrite A', B'. ring.
  Qed.
  Let ux md := tX (m_translation md) / arm md.
  Let uy md := tY (m_translation md) / arm md.
  Let ex md := - (ux md * q_s s + uy md * q_c s) / q.
  Let ey md := (ux md * q_c s - uy md * q_s s) / q.
  Lemma need_place : turns_in_place d.
  Proof.
    assert (Eu : forall m, arm m <> 0 -> ex m * ex m + ey m * ey m = 1) by exact (e_unit s Q).
    assert (Ec : forall m f, arm m <> 0 -> cross2 (turned s (m_translation m)) f = arm m * q * (ex m * fst f + ey m * snd f)) by exact (e_cross s Q).
    set (row := fun md => (force_limit md * ex md, force_limit md * ey md)).
    assert (qp : 0 < q) by (destruct (norm2_pos (q_c s, q_s s)) as [P|P]; [exact P|contradiction (Q (eq_sym P))]).
    assert (Z : forall m f, arm m = 0 -> cross2 (turned s (m_translation m)) f = 0).
    { intros m f A. destruct (arm_zero m A) as [X0 Y0]. unfold cross2, turned. cbn [fst snd]. rewrite X0, Y0. ring. }
    assert (Ez : forall m, arm m = 0 -> ex m = 0 /\ ey m = 0).
    { intros m A. destruct (arm_zero m A) as [X0 Y0]. unfold ex, ey, ux, uy. rewrite X0, Y0. unfold Rdiv. split; ring. }
    assert (C : can_do d s (sum (map fst (map row ms))) (sum (map snd (map row ms))) (q * sum (map (fun md => arm md * force_limit md) ms))).
    { exists (map row ms). split; [apply map_length|]. split; [|split; [reflexivity|split; [reflexivity|]]].
      - unfold forces_within. fold ms. rewrite combine_map. intros md f Hf. apply in_map_iff in Hf. destruct Hf as (m & E' & Hm). injection E' as <- <-.
        fold (force_limit m). pose proof (limit_pos d m W Hm) as Lm. unfold row. apply norm2_le; [exact Lm|].
        replace (force_limit m * ex m * (force_limit m * ex m) + force_limit m * ey m * (force_limit m * ey m)) with
          (force_limit m * force_limit m * (ex m * ex m + ey m * ey m)) by ring.
        destruct (Req_dec (arm m) 0) as [A|A]; [destruct (Ez m A) as [-> ->]; nra|rewrite (Eu m A); lra].
      - unfold torque. fold ms. rewrite combine_map, map_map. cbn [fst snd]. rewrite <- sum_mul. apply sum_ext. intros m _.
        destruct (Req_dec (arm m) 0) as [A|A]; [rewrite (Z m _ A), A; ring|]. rewrite Ec by exact A. unfold row. cbn [fst snd].
        transitivity (arm m * q * force_limit m * (ex m * ex m + ey m * ey m)); [ring|]. rewrite (Eu m A). ring. }
    destruct (Sp _ _ _ 0 1 C ltac:(lra) ltac:(lra)) as (gs & Lg & Fg & Gx & Gy & Gt). rewrite Rmult_0_l in Gx, Gy. rewrite Rmult_1_l in Gt.
    destruct (tight_torque d s Q gs Lg Fg Gt) as (X & Y & Sx & Sy & Hb). rewrite Gx in Sx. rewrite Gy in Sy.
    change (0 = sum (map (fun md => force_limit md * ex md) ms) + X) in Sx. change (0 = sum (map (fun md => force_limit md * ey md) ms) + Y) in Sy.
    change (norm2 (X, Y) <= sum (map hub_limit ms)) in Hb.
    unfold turns_in_place. change (d_modules d) with ms.
    change (norm2 (sum (map (fun md => force_limit md * ux md) ms), sum (map (fun md => force_limit md * uy md) ms)) <= sum (map hub_limit ms)).
    set (Ux := sum (map (fun md => force_limit md * ux md) ms)) in *. set (Uy := sum (map (fun md => force_limit md * uy md) ms)) in *.
    assert (Vx : sum (map (fun md => force_limit md * ex md) ms) = - (Ux * q_s s + Uy * q_c s) / q).
    { transitivity (- (q_s s / q) * Ux + - (q_c s / q) * Uy); [|unfold Rdiv; ring]. unfold Ux, Uy. rewrite <- !sum_mul, <- sum_zip.
      apply sum_ext. intros m _. unfold ex, Rdiv. ring. }
    assert (Vy : sum (map (fun md => force_limit md * ey md) ms) = (Ux * q_c s - Uy * q_s s) / q).
    { transitivity (q_c s / q * Ux + - (q_s s / q) * Uy); [|unfold Rdiv; ring]. unfold Ux, Uy. rewrite <- !sum_mul, <- sum_zip.
      apply sum_ext. intros m _. unfold ey, Rdiv. ring. }
    rewrite <- (turned_unit s Ux Uy Q). fold q. rewrite <- Vx, <- Vy.
    replace (sum (map (fun md => force_limit md * ex md) ms)) with (-1 * X) by lra.
    replace (sum (map (fun md => force_limit md * ey md) ms)) with (-1 * Y) by lra.
    rewrite norm2_scale, Rabs_left by lra. lra.
  Qed.
End Need.
Lemma separates_exact : forall d s, real_wheels d -> norm2 (q_c s, q_s s) <> 0 -> (separates d s <-> balanced d).
Proof.
  intros d s W Q. split; [|apply balanced_separates; exact W].
  intros Sp. split; [apply (need_straight d s); assumption|apply (need_place d s); assumption].
Qed.

(** ** Every path *)
Lemma C125_balanced_proof : forall asserts h handle d g k j, good_history asserts h -> generator asserts h handle d g ->
  real_wheels d -> balanced d -> 0 <= k <= 1 -> 0 <= j <= 1 -> (forall n, In n (counts asserts h) -> (1 <= n)%nat) ->
  exists g', generator asserts (h ++ [OSetDrivetrain (relieved k j d)]) handle (relieved k j d) g' /\
    forall sol, solved g sol -> exists sol', solved g' sol' /\ same_motion sol sol'.
Proof.
  intros asserts h handle d g k j GH G W Bd Hk Hj Pos.
  destruct (other_drivetrain asserts h handle d g (relieved k j d) GH G W W eq_refl Pos) as (g' & G' & Q). exists g'. split; [exact G'|].
  intros sol Sv. pose proof (solved_shape asserts h handle d g sol G Sv) as Sh. set (N := counts asserts h) in *.
  pose proof Sv as (env & F & E). destruct (proj1 (C15_proof asserts h handle d g GH G W Pos env sol E) F) as [(_ & P2) _].
  destruct (choose_rows (fun i r => length r = length (d_modules d) /\ newton (relieved k j d) (at_sample sol i) r /\ forces_within d r) (S (last_sample N)))
    as (rows & Lr & Hr).
  { intros i Hi. destruct (P2 i ltac:(unfold N in Hi; lia)) as ((N1 & N2 & N3) & _ & Fo).
    pose proof (forces_length N _ sol i Sh ltac:(lia)) as Lf.
    assert (C : can_do d (at_sample sol i) (d_mass d * q_ax (at_sample sol i)) (d_mass d * q_ay (at_sample sol i)) (d_moi d * q_al (at_sample sol i)))
      by (exists (forces sol i); repeat (split; [assumption|]); exact N3).
    destruct (balanced_separates d _ W Bd _ _ _ k j C Hk Hj) as (gs & Lg & Fg & Gx & Gy & Gt).
    exists gs. split; [exact Lg|]. split; [|exact Fg]. unfold newton, relieved. cbn [d_mass d_moi d_modules].
    rewrite Gx, Gy. unfold torque in Gt. rewrite Gt. repeat split; ring. }
  exists (with_forces rows sol). split; [|repeat split].
  apply (Q sol (with_forces rows sol) Sv); [reflexivity|reflexivity| |].
  - intros (S0 & S1 & S2 & S3 & S4 & S5 & S6 & S7 & S8 & S9 & S10 & S11 & S12 & F1 & F2).
    unfold well_shaped, with_forces. cbv zeta.
    cbn [s_dt s_x s_y s_thetacos s_thetasin s_vx s_vy s_omega s_ax s_ay s_alpha s_moduleFX s_moduleFY].
    rewrite !map_length, Lr. repeat (split; [assumption|]). split; [reflexivity|]. split; [reflexivity|].
    assert (X : Forall (fun r => length r = length (d_modules d)) rows).
    { apply Forall_nth. intros i r0 Hi. rewrite (nth_indep _ r0 [] Hi). apply Hr. lia. }
    split; apply Forall_map; revert X; apply Forall_impl; intros r; rewrite map_length; auto.
  - intros (Q1 & Q2). split; [exact Q1|]. intros i Hi. rewrite with_forces_at.
    change (at_sample (with_forces rows sol) i) with (at_sample sol i).
    destruct (Q2 i Hi) as (_ & Wh & _). destruct (Hr i ltac:(unfold N in *; lia)) as (_ & Nw & Fo).
    split; [exact Nw|]. split; [exact Wh|exact Fo].
Qed.
