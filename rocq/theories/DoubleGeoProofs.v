(** Rotations and translations of doubles (C121). *)
From Coq Require Import List Lia Lra Psatz ZArith Reals SpecFloat.
Import ListNotations.
From Flocq Require Import Core BinarySingleNaN.
From Verif Require Import Num NumR NumF64 Geometry SpecPhysics SpecTrajectory SpecDouble SpecRounding SpecDoubleGeo
  DoubleFacts DoubleProofs DoubleGuess RoundingFacts LimitProofs GeneratorCases AngleProofs.
Local Open Scope R_scope.

(** ** Laws that hold exactly *)
Lemma add_comm64 : forall x y, f64_add x y = f64_add y x.
Proof.
  intros [s|s| |s m e] [s'|s'| |s' m' e']; unfold f64_add, SFadd; try reflexivity;
    try (destruct s, s'; reflexivity).
  rewrite (Z.min_comm e' e). f_equal. apply Z.add_comm.
Qed.
Lemma mul_comm64 : forall x y, f64_mul x y = f64_mul y x.
Proof.
  intros [s|s| |s m e] [s'|s'| |s' m' e']; unfold f64_mul, SFmul; try reflexivity; try (rewrite Bool.xorb_comm; reflexivity).
  rewrite Bool.xorb_comm, Pos.mul_comm, Z.add_comm. reflexivity.
Qed.
Lemma opp_opp64 : forall x, SFopp (SFopp x) = x.
Proof. intros [s|s| |s m e]; cbn; rewrite ?Bool.negb_involutive; reflexivity. Qed.
Section Laws.
  Variables (fcos fsin : f64 -> f64) (fatan2 fhypot : f64 -> f64 -> f64).
  #[local] Instance A : Arith f64 := Arith_f64 fcos fsin fatan2 fhypot.
  Lemma C121_commute_proof :
    (forall a b : Translation2 f64, tr_add a b = tr_add b a /\ tr_dot a b = tr_dot b a) /\
    (forall a b : Rotation2 f64, rot_add a b = rot_add b a) /\
    (forall a : Translation2 f64, tr_neg (tr_neg a) = a) /\ (forall a : Rotation2 f64, rot_neg (rot_neg a) = a).
  Proof.
    repeat split.
    - unfold tr_add. cbn. f_equal; apply add_comm64.
    - unfold tr_dot. cbn. rewrite (mul_comm64 (tX b)), (mul_comm64 (tY b)). reflexivity.
    - intros a b. unfold rot_add, rot_rotateBy. cbn. rewrite (mul_comm64 (rCos b)), (mul_comm64 (rSin b)). f_equal.
      rewrite (mul_comm64 (rCos b)), (mul_comm64 (rSin b)). apply add_comm64.
    - intros [x y]. unfold tr_neg. cbn. rewrite !opp_opp64. reflexivity.
    - intros [x y]. unfold rot_neg. cbn. rewrite opp_opp64. reflexivity.
  Qed.

  (** ** One rounded product of complex numbers *)
  Lemma within_number : forall k x, within k x -> number x.
  Proof. intros k x (D & F & _). split; assumption. Qed.
  Lemma add_real x y k : within k x -> within k y -> (-1074 <= k < 1023)%Z ->
    within (k + 1) (f64_add x y) /\ real (f64_add x y) = rnd (real x + real y).
  Proof.
    intros X Y K. split; [apply within_add; assumption|].
    destruct (to_B x (within_double _ _ X)) as (a & ->). destruct (to_B y (within_double _ _ Y)) as (b & ->).
    apply within_B in X, Y. destruct X as [Fx Bx], Y as [Fy By]. rewrite add_B, !real_B. destruct (plus_ext a b Fx Fy) as [N E].
    destruct (size_fin _ _ (k + 1) ltac:(lia) N E) as (F & V & S); [|exact V].
    rewrite <- double_pow. eapply Rle_trans; [apply Rabs_triang|]. lra.
  Qed.
  Lemma mul_within j k x y : within j x -> within k y -> (-1074 <= j + k <= 1023)%Z ->
    within (j + k) (f64_mul x y) /\ real (f64_mul x y) = rnd (real x * real y).
  Proof.
    intros X Y K. apply mul_real; [eapply within_number; eassumption|eapply within_number; eassumption|exact K|].
    destruct X as (_ & _ & X), Y as (_ & _ & Y). rewrite <- pow2 in X, Y. rewrite Rabs_mult, bpow_plus.
    apply Rmult_le_compat; auto using Rabs_pos.
  Qed.
  Lemma tiny_pos : 0 < tiny.
  Proof. unfold tiny. apply Rinv_0_lt_compat, pow_lt. lra. Qed.
  Lemma rnd_near r : Rabs (rnd r - r) <= roundoff * Rabs r + tiny / 2.
  Proof.
    destruct (rnd_error r) as (e & t & He & Ht & ->). replace (r * (1 + e) + t - r) with (e * r + t) by ring.
    eapply Rle_trans; [apply Rabs_triang|]. rewrite Rabs_mult. pose proof (Rabs_pos r). nra.
  Qed.
  Lemma sum_near p q : Rabs (rnd (rnd p + rnd q) - (p + q)) <= (2 * roundoff + roundoff * roundoff) * (Rabs p + Rabs q) + 2 * tiny.
  Proof.
    pose proof (rnd_near p) as P. pose proof (rnd_near q) as Q. pose proof (rnd_near (rnd p + rnd q)) as S.
    pose proof roundoff_small as U. pose proof tiny_pos as T.
    assert (B1 : Rabs (rnd p + rnd q - (p + q)) <= roundoff * (Rabs p + Rabs q) + tiny).
    { replace (rnd p + rnd q - (p + q)) with ((rnd p - p) + (rnd q - q)) by ring. eapply Rle_trans; [apply Rabs_triang|]. lra. }
    assert (B2 : Rabs (rnd p + rnd q) <= (1 + roundoff) * (Rabs p + Rabs q) + tiny).
    { replace (rnd p + rnd q) with ((rnd p + rnd q - (p + q)) + (p + q)) by ring. eapply Rle_trans; [apply Rabs_triang|].
      pose proof (Rabs_triang p q). lra. }
    replace (rnd (rnd p + rnd q) - (p + q)) with ((rnd (rnd p + rnd q) - (rnd p + rnd q)) + (rnd p + rnd q - (p + q))) by ring.
    eapply Rle_trans; [apply Rabs_triang|].
    assert (roundoff * Rabs (rnd p + rnd q) <= roundoff * ((1 + roundoff) * (Rabs p + Rabs q) + tiny)) by (apply Rmult_le_compat_l; lra).
    nra.
  Qed.
  Lemma abs_cauchy a b c d : Rabs (a * c) + Rabs (b * d) <= norm2 (a, b) * norm2 (c, d).
  Proof.
    pose proof (norm2_pos (a, b)) as P. pose proof (norm2_pos (c, d)) as Q.
    pose proof (norm2_sqr a b) as S. pose proof (norm2_sqr c d) as T. rewrite !Rabs_mult.
    pose proof (Rabs_pos a). pose proof (Rabs_pos b). pose proof (Rabs_pos c). pose proof (Rabs_pos d).
    apply Rsqr_incr_0_var; [|nra]. unfold Rsqr.
    replace (norm2 (a, b) * norm2 (c, d) * (norm2 (a, b) * norm2 (c, d))) with ((norm2 (a, b) * norm2 (a, b)) * (norm2 (c, d) * norm2 (c, d))) by ring.
    rewrite S, T.
    assert (E : forall x, x * x = Rabs x * Rabs x) by (intros x; unfold Rabs; destruct (Rcase_abs x); ring).
    rewrite (E a), (E b), (E c), (E d). pose proof (Rle_0_sqr (Rabs a * Rabs d - Rabs b * Rabs c)) as Z. unfold Rsqr in Z. nra.
  Qed.
  Lemma norm_box x y m : 0 <= m -> Rabs x <= m -> Rabs y <= m -> norm2 (x, y) <= 17 / 12 * m.
  Proof.
    intros M X Y. apply norm2_le; [lra|]. cbn [fst snd].
    assert (E : forall z, Rabs z <= m -> z * z <= m * m).
    { intros z Z. assert (H : z * z = Rabs z * Rabs z) by (unfold Rabs; destruct (Rcase_abs z); ring). rewrite H.
      apply Rmult_le_compat; auto using Rabs_pos. }
    pose proof (E x X). pose proof (E y Y). nra.
  Qed.
  Lemma product_near : forall j k x y c s, within j x -> within j y -> within k c -> within k s -> (-1074 <= j + k < 1023)%Z ->
    let X := f64_sub (f64_mul x c) (f64_mul y s) in let Y := f64_add (f64_mul x s) (f64_mul y c) in
    within (j + k + 1) X /\ within (j + k + 1) Y /\
    norm2 (real X - (real x * real c - real y * real s), real Y - (real x * real s + real y * real c)) <=
      3 * roundoff * (norm2 (real x, real y) * norm2 (real c, real s)) + 3 * tiny.
  Proof.
    intros j k x y c s Hx Hy Hc Hs K X Y.
    destruct (mul_within j k x c Hx Hc ltac:(lia)) as [W1 E1]. destruct (mul_within j k y s Hy Hs ltac:(lia)) as [W2 E2].
    destruct (mul_within j k x s Hx Hs ltac:(lia)) as [W3 E3]. destruct (mul_within j k y c Hy Hc ltac:(lia)) as [W4 E4].
    destruct (sub_real _ _ (j + k) W1 W2 ltac:(lia)) as [WX EX]. destruct (add_real _ _ (j + k) W3 W4 ltac:(lia)) as [WY EY].
    split; [exact WX|]. split; [exact WY|]. unfold X, Y. rewrite EX, EY, E1, E2, E3, E4.
    pose proof roundoff_small as U. pose proof tiny_pos as T.
    set (N := norm2 (real x, real y) * norm2 (real c, real s)).
    assert (Np : 0 <= N) by (apply Rmult_le_pos; apply norm2_pos).
    assert (Opp : rnd (real x * real c) - rnd (real y * real s) = rnd (real x * real c) + rnd (- (real y * real s))).
    { rewrite (round_NE_opp radix2 (SpecFloat.fexp 53 1024)). reflexivity. }
    rewrite Opp.
    pose proof (sum_near (real x * real c) (- (real y * real s))) as S1. rewrite Rabs_Ropp in S1.
    pose proof (sum_near (real x * real s) (real y * real c)) as S2.
    pose proof (abs_cauchy (real x) (real y) (real c) (real s)) as C1. fold N in C1.
    pose proof (abs_cauchy (real x) (real y) (real s) (real c)) as C2.
    assert (Sw : norm2 (real s, real c) = norm2 (real c, real s)) by (unfold norm2; cbn [fst snd]; f_equal; ring).
    rewrite Sw in C2. fold N in C2.
    set (m := (2 * roundoff + roundoff * roundoff) * N + 2 * tiny).
    eapply Rle_trans; [apply (norm_box _ _ m)|].
    - unfold m. nra.
    - unfold m. eapply Rle_trans; [|apply Rplus_le_compat_r, Rmult_le_compat_l; [nra|exact C1]].
      replace (real x * real c - real y * real s) with (real x * real c + - (real y * real s)) by ring. exact S1.
    - unfold m. eapply Rle_trans; [|apply Rplus_le_compat_r, Rmult_le_compat_l; [nra|exact C2]]. exact S2.
    - unfold m. assert (P : 0 <= roundoff * N) by (apply Rmult_le_pos; lra).
      assert (Q : roundoff * (roundoff * N) <= / 1000000 * (roundoff * N)) by (apply Rmult_le_compat_r; lra).
      replace (17 / 12 * ((2 * roundoff + roundoff * roundoff) * N + 2 * tiny))
        with (17 / 12 * (2 * (roundoff * N) + roundoff * (roundoff * N)) + 17 / 6 * tiny) by field.
      replace (3 * roundoff * N) with (3 * (roundoff * N)) by ring. lra.
  Qed.
  Lemma norm_turned v r : norm2 (turned v r) = norm2 v * norm2 r.
  Proof.
    destruct v as [x y], r as [c s]. unfold norm2, turned. cbn [fst snd]. rewrite <- sqrt_mult.
    - f_equal. ring.
    - nra.
    - nra.
  Qed.
  Lemma C121_rotate_proof : forall j k t r, vector_within j t -> rotation_within k r -> (-1074 <= j + k < 1023)%Z ->
    vector_within (j + k + 1) (tr_rotateBy t r) /\
    apart2 (vec (tr_rotateBy t r)) (turned (vec t) (dir r)) <= 3 * roundoff * (norm2 (vec t) * norm2 (dir r)) + 3 * tiny.
  Proof.
    intros j k [x y] [c s] [X Y] [C S] K. cbn [tX tY rCos rSin] in *.
    destruct (product_near j k x y c s X Y C S K) as (P1 & P2 & P3). split; [split; assumption|]. exact P3.
  Qed.
  Lemma near_length : forall delta r a, near_angle delta r a -> Rabs (norm2 (dir r) - 1) <= delta.
  Proof.
    intros delta r a [_ N]. unfold apart2 in N. cbn [fst snd] in N.
    assert (U : norm2 (cos a, sin a) = 1).
    { unfold norm2. cbn [fst snd]. pose proof (sin2_cos2 a) as T. unfold Rsqr in T.
      replace (cos a * cos a + sin a * sin a) with 1 by lra. apply sqrt_1. }
    set (c := fst (dir r)) in *. set (s := snd (dir r)) in *.
    assert (D : dir r = (c, s)) by reflexivity. rewrite D.
    pose proof (norm2_triangle (c - cos a) (s - sin a) (cos a) (sin a)) as T1.
    replace (c - cos a + cos a) with c in T1 by ring. replace (s - sin a + sin a) with s in T1 by ring.
    pose proof (norm2_triangle (- (c - cos a)) (- (s - sin a)) c s) as T2.
    replace (- (c - cos a) + c) with (cos a) in T2 by ring. replace (- (s - sin a) + s) with (sin a) in T2 by ring.
    assert (E : norm2 (- (c - cos a), - (s - sin a)) = norm2 (c - cos a, s - sin a)) by (unfold norm2; cbn [fst snd]; f_equal; ring).
    apply Rabs_le. lra.
  Qed.
  Lemma apart_triangle u v w : apart2 u w <= apart2 u v + apart2 v w.
  Proof.
    unfold apart2. pose proof (norm2_triangle (fst u - fst v) (snd u - snd v) (fst v - fst w) (snd v - snd w)) as T.
    replace (fst u - fst v + (fst v - fst w)) with (fst u - fst w) in T by ring.
    replace (snd u - snd v + (snd v - snd w)) with (snd u - snd w) in T by ring. exact T.
  Qed.
  Lemma turned_apart_r v r s : apart2 (turned v r) (turned v s) = norm2 v * apart2 r s.
  Proof.
    unfold apart2. rewrite <- norm_turned. f_equal. destruct v, r, s. unfold turned. cbn [fst snd]. f_equal; ring.
  Qed.
  Lemma turned_apart_l v w r : apart2 (turned v r) (turned w r) = apart2 v w * norm2 r.
  Proof.
    unfold apart2. rewrite <- norm_turned. f_equal. destruct v, w, r. unfold turned. cbn [fst snd]. f_equal; ring.
  Qed.
  Lemma tiny_small : 12 * tiny <= roundoff.
  Proof.
    unfold tiny, roundoff. replace (2 ^ 1074) with (2 ^ 53 * (16 * 2 ^ 1017)).
    2:{ replace 16 with (2 ^ 4) by ring. rewrite <- !pow_add. f_equal. }
    assert (P : 0 < 2 ^ 53) by (apply pow_lt; lra). assert (Q : 1 <= 2 ^ 1017) by (apply pow_R1_Rle; lra).
    rewrite Rinv_mult. assert (R : / (16 * 2 ^ 1017) <= / 16) by (apply Rinv_le_contravar; lra).
    pose proof (Rinv_0_lt_compat _ P). nra.
  Qed.
  Lemma C121_turn_proof : forall k t r a delta, vector_within k t -> (-1074 <= k < 1022)%Z -> delta <= 1 / 8 -> near_angle delta r a ->
    vector_within (k + 2) (tr_rotateBy t r) /\
    apart2 (vec (tr_rotateBy t r)) (turned (vec t) (cos a, sin a)) <= (delta + 4 * roundoff) * norm2 (vec t) + 3 * tiny /\
    Rabs (norm2 (vec (tr_rotateBy t r)) - norm2 (vec t)) <= (delta + 4 * roundoff) * norm2 (vec t) + 3 * tiny.
  Proof.
    intros k t r a delta Ht K D Hr. pose proof (near_length _ _ _ Hr) as L. destruct Hr as [Wr N].
    destruct (C121_rotate_proof k 1 t r Ht Wr ltac:(lia)) as [W E]. replace (k + 1 + 1)%Z with (k + 2)%Z in W by lia.
    split; [exact W|].
    assert (M : apart2 (vec (tr_rotateBy t r)) (turned (vec t) (cos a, sin a)) <= (delta + 4 * roundoff) * norm2 (vec t) + 3 * tiny).
    { eapply Rle_trans; [apply (apart_triangle _ (turned (vec t) (dir r)))|]. rewrite turned_apart_r.
      pose proof (norm2_pos (vec t)) as P. pose proof roundoff_small as U. apply Rabs_le_inv in L.
      assert (norm2 (vec t) * apart2 (dir r) (cos a, sin a) <= norm2 (vec t) * delta) by (apply Rmult_le_compat_l; assumption).
      assert (norm2 (vec t) * norm2 (dir r) <= norm2 (vec t) * (4 / 3)) by (apply Rmult_le_compat_l; lra).
      assert (roundoff * (norm2 (vec t) * norm2 (dir r)) <= roundoff * (norm2 (vec t) * (4 / 3))) by (apply Rmult_le_compat_l; lra).
      lra. }
    split; [exact M|].
    assert (U : norm2 (turned (vec t) (cos a, sin a)) = norm2 (vec t)).
    { rewrite norm_turned. unfold norm2 at 2. cbn [fst snd]. pose proof (sin2_cos2 a) as T. unfold Rsqr in T.
      replace (cos a * cos a + sin a * sin a) with 1 by lra. rewrite sqrt_1. ring. }
    rewrite <- U at 1. eapply Rle_trans; [|exact M]. unfold apart2.
    set (v := vec (tr_rotateBy t r)). set (w := turned (vec t) (cos a, sin a)). destruct v as [v1 v2], w as [w1 w2]. cbn [fst snd].
    pose proof (norm2_triangle (v1 - w1) (v2 - w2) w1 w2) as T1.
    replace (v1 - w1 + w1) with v1 in T1 by ring. replace (v2 - w2 + w2) with v2 in T1 by ring.
    pose proof (norm2_triangle (- (v1 - w1)) (- (v2 - w2)) v1 v2) as T2.
    replace (- (v1 - w1) + v1) with w1 in T2 by ring. replace (- (v2 - w2) + v2) with w2 in T2 by ring.
    assert (E2 : norm2 (- (v1 - w1), - (v2 - w2)) = norm2 (v1 - w1, v2 - w2)) by (unfold norm2; cbn [fst snd]; f_equal; ring).
    apply Rabs_le. lra.
  Qed.

  (** ** Sums of many rotations *)
  Lemma one_real : real (f64_lit 1) = 1 /\ within 1 (f64_lit 1).
  Proof.
    assert (E : f64_lit 1 = S754_finite false 4503599627370496 (-52)) by (vm_compute; reflexivity). rewrite E.
    assert (V : real (S754_finite false 4503599627370496 (-52)) = 1).
    { rewrite lit_pow. cbn [Z.add]. simpl. ring. }
    split; [exact V|]. split; [vm_compute; reflexivity|]. split; [exact I|]. rewrite V, Rabs_R1. simpl. lra.
  Qed.
  Lemma zero_within k : within k (S754_zero false).
  Proof. split; [reflexivity|]. split; [exact I|]. cbn [real]. rewrite Rabs_R0, <- pow2. apply bpow_ge_0. Qed.
  Lemma C121_drift_proof : forall delta ras, 0 <= delta <= 1 / 8 -> Forall (fun ra => near_angle delta (fst ra) (snd ra)) ras ->
    INR (length ras) * (delta + 4 * roundoff) <= 1 / 2 ->
    near_angle (2 * INR (length ras) * (delta + 4 * roundoff)) (fold_left rot_add (map fst ras) rot_default) (sum (map snd ras)).
  Proof.
    intros delta ras D. pose proof roundoff_small as U. pose proof tiny_small as T. pose proof tiny_pos as Tp.
    set (g := delta + 4 * roundoff). assert (G : 0 < g) by (unfold g; lra).
    induction ras as [|[r a] ras IH] using rev_ind; intros F H.
    - cbn [map fold_left sum length]. destruct one_real as [V W]. split.
      + split; cbn [rot_default rCos rSin nlit A Arith_f64]; [exact W|rewrite lit0_eq; apply zero_within].
      + unfold apart2, dir. cbn [rot_default rCos rSin nlit A Arith_f64 fst snd]. rewrite V, lit0_eq. cbn [real].
        rewrite cos_0, sin_0. unfold norm2. cbn [fst snd]. replace ((1 - 1) * (1 - 1) + (0 - 0) * (0 - 0)) with 0 by ring. rewrite sqrt_0. cbn [INR]. lra.
    - rewrite app_length in *. cbn [length] in *. rewrite plus_INR in *. cbn [INR] in *.
      apply Forall_app in F. destruct F as [F1 F2]. inversion F2 as [|? ? F3 _]; subst. cbn [fst snd] in F3.
      set (n := INR (length ras)) in *. assert (Np : 0 <= n) by apply pos_INR.
      specialize (IH F1 ltac:(nra)). rewrite !map_app. cbn [map fst snd]. rewrite fold_left_app. cbn [fold_left].
      set (z := fold_left rot_add (map fst ras) rot_default) in *. set (B := sum (map snd ras)) in *.
      assert (SB : sum (map snd ras ++ [a]) = B + a).
      { unfold B. clear. induction (map snd ras) as [|b l IHl]; cbn [app sum]; [ring|]. rewrite IHl. ring. }
      rewrite SB. pose proof (near_length _ _ _ IH) as Lz. pose proof (near_length _ _ _ F3) as Lr.
      destruct IH as [Wz Nz], F3 as [Wr Nr]. apply Rabs_le_inv in Lr, Lz.
      destruct z as [zc zs]. destruct r as [rc rs]. destruct Wz as [Wz1 Wz2], Wr as [Wr1 Wr2]. cbn [rCos rSin] in *.
      destruct (product_near 1 1 zc zs rc rs Wz1 Wz2 Wr1 Wr2 ltac:(lia)) as (P1 & P2 & P3).
      set (E := 2 * n * g) in *.
      set (w := rot_add (mkRot zc zs) (mkRot rc rs)).
      assert (Q : apart2 (dir w) (turned (dir (mkRot zc zs)) (dir (mkRot rc rs))) <=
                  3 * roundoff * (norm2 (dir (mkRot zc zs)) * norm2 (dir (mkRot rc rs))) + 3 * tiny) by exact P3.
      assert (CS : (cos (B + a), sin (B + a)) = turned (cos B, sin B) (cos a, sin a)).
      { unfold turned. cbn [fst snd]. rewrite cos_plus, sin_plus. f_equal; ring. }
      assert (UB : norm2 (cos B, sin B) = 1).
      { unfold norm2. cbn [fst snd]. pose proof (sin2_cos2 B) as T0. unfold Rsqr in T0. replace (cos B * cos B + sin B * sin B) with 1 by lra. apply sqrt_1. }
      assert (M : apart2 (dir w) (cos (B + a), sin (B + a)) <= 2 * (n + 1) * g).
      { rewrite CS. eapply Rle_trans; [apply (apart_triangle _ (turned (dir (mkRot zc zs)) (dir (mkRot rc rs))))|].
        pose proof (apart_triangle (turned (dir (mkRot zc zs)) (dir (mkRot rc rs))) (turned (cos B, sin B) (dir (mkRot rc rs)))
          (turned (cos B, sin B) (cos a, sin a))) as T3.
        rewrite turned_apart_l, turned_apart_r, UB in T3.
        set (x := norm2 (dir (mkRot zc zs))) in *. set (y := norm2 (dir (mkRot rc rs))) in *.
        assert (X : 0 <= x) by apply norm2_pos. assert (Y : 0 <= y) by apply norm2_pos.
        assert (H1 : x * y <= (1 + E) * (1 + delta)) by (apply Rmult_le_compat; lra).
        assert (H2 : apart2 (dir (mkRot zc zs)) (cos B, sin B) * y <= E * (1 + delta)).
        { apply Rmult_le_compat; [apply norm2_pos|exact Y|exact Nz|lra]. }
        assert (H3 : roundoff * (x * y) <= roundoff * ((1 + E) * (1 + delta))) by (apply Rmult_le_compat_l; lra).
        assert (E0 : 0 <= E) by (unfold E; nra).
        assert (E1 : E <= 1) by (unfold E; nra).
        assert (H4 : roundoff * ((1 + E) * (1 + delta)) <= roundoff * ((1 + E) * (9 / 8))) by (apply Rmult_le_compat_l; [lra|apply Rmult_le_compat_l; lra]).
        assert (H5 : E * delta + 4 * roundoff * E = E * g) by (unfold g; ring).
        assert (H6 : E * g <= g) by nra.
        assert (H7 : 2 * (n + 1) * g = E + 2 * g) by (unfold E; ring). rewrite H7.
        assert (H8 : 0 <= roundoff * E) by (apply Rmult_le_pos; lra). unfold g in *. nra. }
      split; [|exact M].
      assert (B2 : forall v, Rabs v <= norm2 (dir w) -> norm2 (dir w) <= 2).
      { intros v _. pose proof (norm2_triangle (fst (dir w) - cos (B + a)) (snd (dir w) - sin (B + a)) (cos (B + a)) (sin (B + a))) as T4.
        replace (fst (dir w) - cos (B + a) + cos (B + a)) with (fst (dir w)) in T4 by ring.
        replace (snd (dir w) - sin (B + a) + sin (B + a)) with (snd (dir w)) in T4 by ring.
        unfold apart2 in M. cbn [fst snd] in M.
        assert (UA : norm2 (cos (B + a), sin (B + a)) = 1).
        { unfold norm2. cbn [fst snd]. pose proof (sin2_cos2 (B + a)) as T0. unfold Rsqr in T0. replace (cos (B + a) * cos (B + a) + sin (B + a) * sin (B + a)) with 1 by lra. apply sqrt_1. }
        rewrite UA in T4. assert (2 * (n + 1) * g <= 1) by lra. cbn [fst snd] in *. change (norm2 (dir w)) with (norm2 (fst (dir w), snd (dir w))). lra. }
      assert (Comp : forall x y, Rabs x <= norm2 (x, y) /\ Rabs y <= norm2 (x, y)).
      { intros x y. pose proof (abs_cauchy x y 1 0) as C1. pose proof (abs_cauchy x y 0 1) as C2.
        assert (O1 : norm2 (1, 0) = 1) by (unfold norm2; cbn [fst snd]; replace (1 * 1 + 0 * 0) with 1 by ring; apply sqrt_1).
        assert (O2 : norm2 (0, 1) = 1) by (unfold norm2; cbn [fst snd]; replace (0 * 0 + 1 * 1) with 1 by ring; apply sqrt_1).
        rewrite O1, Rmult_1_r, Rmult_1_r, Rmult_0_r, Rabs_R0 in C1. rewrite O2, Rmult_1_r, Rmult_1_r, Rmult_0_r, Rabs_R0 in C2. lra. }
      destruct (Comp (real (rCos w)) (real (rSin w))) as [K1 K2].
      split; (split; [|split]); try (apply P1); try (apply P2); unfold powerRZ; simpl pow.
      + pose proof (B2 _ K1) as B3. change (norm2 (dir w)) with (norm2 (real (rCos w), real (rSin w))) in B3. cbn [Pos.to_nat Pos.iter_op pow]. lra.
      + pose proof (B2 _ K1) as B3. change (norm2 (dir w)) with (norm2 (real (rCos w), real (rSin w))) in B3. cbn [Pos.to_nat Pos.iter_op pow]. lra.
  Qed.

  (** ** Neutral and opposite elements *)
  Lemma add_opp x : finite x -> f64_add x (SFopp x) = S754_zero false /\ f64_add (SFopp x) x = S754_zero false.
  Proof.
    intros F. assert (H : f64_add x (SFopp x) = S754_zero false).
    { destruct x as [s|s| |s m e]; try contradiction; [destruct s; reflexivity|].
      unfold f64_add, SFadd, SFopp. 
      assert (Z : forall a b, (a = - b)%Z -> SpecFloat.binary_normalize fprec femax (a + b)%Z (Z.min e e) false = S754_zero false).
      { intros a b ->. rewrite Z.add_opp_diag_l. reflexivity. }
      apply Z. destruct s; cbn [negb cond_Zopp]; rewrite ?Z.opp_involutive; reflexivity. }
    split; [exact H|rewrite add_comm64; exact H].
  Qed.
  Lemma mul_opp x y : f64_mul x (SFopp y) = SFopp (f64_mul x y).
  Proof.
    destruct x as [s|s| |s m e], y as [s'|s'| |s' m' e']; unfold f64_mul, SFmul, SFopp; try reflexivity; try (destruct s, s'; reflexivity).
    assert (Z : forall b mx ex, SpecFloat.binary_round_aux fprec femax (negb b) mx ex loc_Exact = SFopp (SpecFloat.binary_round_aux fprec femax b mx ex loc_Exact)).
    { intros b mx ex. unfold SpecFloat.binary_round_aux. destruct (SpecFloat.shr_fexp fprec femax mx ex loc_Exact) as [mrs e1].
      destruct (SpecFloat.shr_fexp fprec femax (SpecFloat.round_nearest_even (SpecFloat.shr_m mrs) (SpecFloat.loc_of_shr_record mrs)) e1 loc_Exact) as [mrs' e2].
      destruct (SpecFloat.shr_m mrs') as [|q|q]; [reflexivity| |reflexivity]. destruct (e2 <=? femax - fprec)%Z; reflexivity. }
    replace (xorb s (negb s')) with (negb (xorb s s')) by (destruct s, s'; reflexivity). apply Z.
  Qed.
  Lemma exact_rnd k x : within k x -> rnd (real x) = real x.
  Proof. intros W. destruct (to_B x (within_double _ _ W)) as (b & ->). rewrite real_B. apply rnd_B. Qed.
  Lemma one_zero : rot_default = mkRot (f64_ofZ 1) (f64_ofZ 0).
  Proof. vm_compute. reflexivity. Qed.
  Lemma ofZ_1 : real (f64_ofZ 1) = 1 /\ within 0 (f64_ofZ 1).
  Proof.
    assert (E : f64_ofZ 1 = S754_finite false 4503599627370496 (-52)) by (vm_compute; reflexivity). rewrite E.
    assert (V : real (S754_finite false 4503599627370496 (-52)) = 1) by (rewrite lit_pow; simpl; ring).
    split; [exact V|]. split; [vm_compute; reflexivity|]. split; [exact I|]. rewrite V, Rabs_R1. simpl. lra.
  Qed.
  Lemma ofZ_0 : real (f64_ofZ 0) = 0 /\ within 0 (f64_ofZ 0).
  Proof. change (f64_ofZ 0) with (S754_zero false). split; [reflexivity|apply zero_within]. Qed.
  (** A product by 0 or 1 is exact, and so is the sum of it with a 0. *)
  Lemma unit_product : forall k x y c s, within k x -> within k y -> (0 <= k < 1023)%Z ->
    within 0 c -> within 0 s -> (real c = 1 /\ real s = 0 \/ real c = 0 /\ real s = 1) ->
    real (f64_sub (f64_mul x c) (f64_mul y s)) = real x * real c - real y * real s /\
    real (f64_add (f64_mul x s) (f64_mul y c)) = real x * real s + real y * real c.
  Proof.
    intros k x y c s X Y K C S V.
    destruct (mul_within k 0 x c X C ltac:(lia)) as [W1 E1]. destruct (mul_within k 0 y s Y S ltac:(lia)) as [W2 E2].
    destruct (mul_within k 0 x s X S ltac:(lia)) as [W3 E3]. destruct (mul_within k 0 y c Y C ltac:(lia)) as [W4 E4].
    destruct (sub_real _ _ (k + 0) W1 W2 ltac:(lia)) as [_ EX]. destruct (add_real _ _ (k + 0) W3 W4 ltac:(lia)) as [_ EY].
    rewrite EX, EY, E1, E2, E3, E4. pose proof (exact_rnd _ _ X) as RX. pose proof (exact_rnd _ _ Y) as RY.
    assert (RO : forall z, within k z -> rnd (- real z) = - real z) by (intros z Z; rewrite (round_NE_opp radix2 (SpecFloat.fexp 53 1024)), (exact_rnd _ _ Z); reflexivity).
    destruct V as [[-> ->]|[-> ->]]; rewrite ?Rmult_1_r, ?Rmult_0_r, ?rnd_0, ?RX, ?RY.
    - rewrite Rminus_0_r, Rplus_0_l, RX, RY. split; reflexivity.
    - unfold Rminus. rewrite Rplus_0_l, Rplus_0_r, RX. split; [apply RO, Y|reflexivity].
  Qed.
  Lemma C121_neutral_proof : forall k (t : Translation2 f64) (r : Rotation2 f64), (0 <= k < 500)%Z -> vector_within k t -> rotation_within k r ->
    vec (tr_add t tr_default) = vec t /\ tr_sub t t = tr_default /\
    vec (tr_rotateBy t rot_default) = vec t /\ vec (tr_rotateBy t quarter) = (- real (tY t), real (tX t)) /\
    dir (rot_add r rot_default) = dir r /\ rSin (rot_sub r r) = f64_ofZ 0 /\ tr_cross t t = f64_ofZ 0.
  Proof.
    intros k [x y] [c s] K [X Y] [C S]. cbn [tX tY rCos rSin] in *.
    destruct ofZ_1 as [V1 W1]. destruct ofZ_0 as [V0 W0].
    destruct (unit_product k x y (f64_ofZ 1) (f64_ofZ 0) X Y ltac:(lia) W1 W0 ltac:(auto)) as [A1 A2].
    destruct (unit_product k x y (f64_ofZ 0) (f64_ofZ 1) X Y ltac:(lia) W0 W1 ltac:(auto)) as [B1 B2].
    destruct (unit_product k c s (f64_ofZ 1) (f64_ofZ 0) C S ltac:(lia) W1 W0 ltac:(auto)) as [D1 D2].
    rewrite V1, V0 in *. rewrite one_zero.
    split; [|split; [|split; [|split; [|split; [|split]]]]].
    - unfold vec, tr_add, tr_default. cbn [tX tY nadd nlit A Arith_f64]. rewrite lit0_eq.
      destruct (add_real x (S754_zero false) k X (zero_within k) ltac:(lia)) as [_ EX].
      destruct (add_real y (S754_zero false) k Y (zero_within k) ltac:(lia)) as [_ EY].
      rewrite EX, EY. cbn [real]. rewrite !Rplus_0_r, (exact_rnd _ _ X), (exact_rnd _ _ Y). reflexivity.
    - unfold tr_sub, tr_add, tr_neg, tr_default. cbn [tX tY nadd nneg nlit A Arith_f64]. rewrite lit0_eq.
      rewrite (proj1 (add_opp x (within_fin _ _ X))), (proj1 (add_opp y (within_fin _ _ Y))). reflexivity.
    - unfold vec, tr_rotateBy. cbn [tX tY rCos rSin nadd nsub nmul A Arith_f64]. rewrite A1, A2. f_equal; ring.
    - unfold vec, tr_rotateBy, quarter. cbn [tX tY rCos rSin nadd nsub nmul A Arith_f64]. rewrite B1, B2. f_equal; ring.
    - unfold dir, rot_add, rot_rotateBy. cbn [rCos rSin nadd nsub nmul A Arith_f64]. rewrite D1. f_equal; [ring|].
      rewrite D2. ring.
    - unfold rot_sub, rot_add, rot_rotateBy, rot_neg. cbn [rCos rSin nadd nsub nmul nneg A Arith_f64]. rewrite mul_opp, (mul_comm64 s c).
      destruct (mul_within k k c s C S ltac:(lia)) as [W _]. apply (add_opp (f64_mul c s)). apply (within_fin _ _ W).
    - unfold tr_cross. cbn [tX tY nsub nmul A Arith_f64]. rewrite (mul_comm64 y x).
      destruct (mul_within k k x y X Y ltac:(lia)) as [W _]. set (p := f64_mul x y) in *.
      assert (F : finite p) by exact (within_fin _ _ W). clearbody p.
      destruct p as [s0|s0| |s0 m e]; try contradiction; [destruct s0; reflexivity|].
      unfold f64_sub, SFsub. 
      assert (Z : forall a, SpecFloat.binary_normalize fprec femax (a - a)%Z (Z.min e e) false = f64_ofZ 0) by (intros a; rewrite Z.sub_diag; reflexivity).
      apply Z.
  Qed.
  Lemma C121_cross_proof : forall k (a b : Translation2 f64), (0 <= k < 500)%Z -> vector_within k a -> vector_within k b ->
    real (tr_cross b a) = - real (tr_cross a b).
  Proof.
    intros k [x y] [x' y'] K [X Y] [X' Y']. cbn [tX tY] in *. unfold tr_cross. cbn [tX tY nsub nmul A Arith_f64].
    rewrite (mul_comm64 x' y), (mul_comm64 y' x).
    destruct (mul_within k k x y' X Y' ltac:(lia)) as [W1 _]. destruct (mul_within k k y x' Y X' ltac:(lia)) as [W2 _].
    destruct (sub_real _ _ (k + k) W1 W2 ltac:(lia)) as [_ ->]. destruct (sub_real _ _ (k + k) W2 W1 ltac:(lia)) as [_ ->].
    rewrite <- (round_NE_opp radix2 (SpecFloat.fexp 53 1024)). f_equal. ring.
  Qed.

  (** ** Laws that fail *)
  Lemma C121_refuted_proof :
    ~ (forall a b c : Rotation2 f64, rotation_within 1 a -> rotation_within 1 b -> rotation_within 1 c ->
         same_dir (rot_add (rot_add a b) c) (rot_add a (rot_add b c))) /\
    ~ same_dir (rot_sub rot_5_12_13 rot_5_12_13) rot_default /\
    SFeqb (tr_sqnorm (tr_rotateBy vec_31 rot_345)) (tr_sqnorm vec_31) = false.
  Proof.
    assert (Wi : forall n d, (let x := frac n d in valid_binary 53 1024 x = true /\ finite x /\ SFleb (f64_ofZ (-1)) x = true /\ SFleb x (f64_ofZ 1) = true) -> within 1 (frac n d)).
    { intros n d (D & F & L1 & L2). split; [exact D|]. split; [exact F|].
      assert (N1 : number (f64_ofZ 1)) by (split; [vm_compute; reflexivity|exact I]).
      assert (Nm : number (f64_ofZ (-1))) by (split; [vm_compute; reflexivity|exact I]).
      apply (fle_real (f64_ofZ (-1)) (frac n d) Nm (conj D F)) in L1. apply (fle_real (frac n d) (f64_ofZ 1) (conj D F) N1) in L2.
      rewrite (proj1 ofZ_1) in L2. 
      assert (E : f64_ofZ (-1) = SFopp (f64_ofZ 1)) by (vm_compute; reflexivity). rewrite E, real_opp, (proj1 ofZ_1) in L1.
      apply Rabs_le. simpl. lra. }
    assert (W1 : rotation_within 1 rot_345) by (split; apply Wi; vm_compute; repeat split; exact I).
    assert (W2 : rotation_within 1 rot_5_12_13) by (split; apply Wi; vm_compute; repeat split; exact I).
    split; [|split].
    - intros H. destruct (H rot_5_12_13 rot_345 rot_345 W2 W1 W1) as [E _]. vm_compute in E. discriminate E.
    - intros [E _]. vm_compute in E. discriminate E.
    - vm_compute. reflexivity.
  Qed.
End Laws.

(** ** A case *)
Lemma frac_near n d : (0 < n <= 100)%Z -> (0 < d <= 100)%Z -> (n <= d)%Z -> within 0 (frac n d) /\ Rabs (real (frac n d) - IZR n / IZR d) <= roundoff + tiny.
Proof.
  intros Hn Hd L. destruct (ofZ_exact n ltac:(lia)) as (a & Ea & Fa & Va). destruct (ofZ_exact d ltac:(lia)) as (b & Eb & Fb & Vb).
  assert (Pd : 0 < IZR d) by (apply IZR_lt; lia). assert (Pn : 0 < IZR n) by (apply IZR_lt; lia). apply IZR_le in L.
  assert (Q : 0 < IZR n / IZR d <= 1).
  { split; [apply Rdiv_lt_0_compat; lra|]. apply Rmult_le_reg_r with (IZR d); [exact Pd|]. unfold Rdiv. rewrite Rmult_assoc, Rinv_l; lra. }
  assert (Na : number (f64_ofZ n)) by (rewrite Ea; split; [apply of_B|apply finite_B; exact Fa]).
  assert (Nb : number (f64_ofZ d)) by (rewrite Eb; split; [apply of_B|apply finite_B; exact Fb]).
  assert (Ra : real (f64_ofZ n) = IZR n) by (rewrite Ea, real_B; exact Va).
  assert (Rb : real (f64_ofZ d) = IZR d) by (rewrite Eb, real_B; exact Vb).
  destruct (div_real _ _ 0 Na Nb ltac:(lra) ltac:(lia)) as [W E].
  { rewrite Ra, Rb, Rabs_right by lra. simpl. lra. }
  unfold frac. split; [exact W|]. rewrite E, Ra, Rb. pose proof (rnd_near (IZR n / IZR d)) as H. rewrite (Rabs_right (IZR n / IZR d)) in H by lra.
  pose proof roundoff_small. pose proof tiny_pos. nra.
Qed.
Lemma angle_345 : near_angle (2 * roundoff) rot_345 (atan (4 / 3)) /\ cos (atan (4 / 3)) = 3 / 5 /\ sin (atan (4 / 3)) = 4 / 5.
Proof.
  assert (Q : sqrt (1 + (4 / 3)²) = 5 / 3).
  { replace (1 + (4 / 3)²) with (5 / 3 * (5 / 3)) by (unfold Rsqr; field). apply sqrt_square. lra. }
  assert (C : cos (atan (4 / 3)) = 3 / 5) by (rewrite cos_atan, Q; field).
  assert (S : sin (atan (4 / 3)) = 4 / 5) by (rewrite sin_atan, Q; field).
  split; [|split; assumption].
  destruct (frac_near 3 5 ltac:(lia) ltac:(lia) ltac:(lia)) as [W1 E1]. destruct (frac_near 4 5 ltac:(lia) ltac:(lia) ltac:(lia)) as [W2 E2].
  split; [split; eapply within_mono; try eassumption; lia|]. rewrite C, S. unfold apart2, dir, rot_345. cbn [fst snd rCos rSin].
  pose proof tiny_small. pose proof roundoff_small. pose proof tiny_pos.
  eapply Rle_trans; [apply (norm_box _ _ (roundoff + tiny)); [lra|exact E1|exact E2]|]. lra.
Qed.
Lemma C121_case_proof : let ras := repeat (rot_345, atan (4 / 3)) 1000 in
  Forall (fun ra => near_angle (2 * roundoff) (fst ra) (snd ra)) ras /\ 0 <= 2 * roundoff <= 1 / 8 /\
  INR (length ras) * (2 * roundoff + 4 * roundoff) <= 1 / 2 /\ vector_within 100 vec_31 /\ rotation_within 100 rot_345.
Proof.
  intros ras. pose proof roundoff_small as U. split; [|split; [lra|split; [|split]]].
  - apply Forall_forall. intros ra H. apply repeat_spec in H. subst ra. apply angle_345.
  - unfold ras. rewrite repeat_length, INR_IZR_INZ. change (Z.of_nat 1000) with 1000%Z. lra.
  - assert (H : forall z, (Z.abs z <= 4)%Z -> within 100 (f64_ofZ z)).
    { intros z Hz. destruct (ofZ_exact z ltac:(lia)) as (a & Ea & Fa & Va). rewrite Ea. apply within_B. split; [exact Fa|].
      rewrite Va, <- abs_IZR. change (bpow radix2 100) with (IZR (2 ^ 100)). apply IZR_le. lia. }
    split; apply H; lia.
  - destruct angle_345 as [[[W1 W2] _] _]. split; eapply within_mono; try eassumption; lia.
Qed.
