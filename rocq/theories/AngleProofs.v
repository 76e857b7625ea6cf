(** AngleLinspace in double arithmetic: proofs for C97. *)
From Coq Require Import List ZArith QArith Qreals Reals Ratan Machin SpecFloat Lia Lra Psatz.
Import ListNotations.
From Flocq Require Import Core BinarySingleNaN Plus_error Relative.
From Verif Require Import Outcome Num NumF64 Util Builder Trajectory Spec SpecTrajectory SpecDouble DoubleFacts DoubleProofs.
Local Open Scope R_scope.

(** * The double nearest to pi *)
Definition qterm (n : nat) : Q :=
  let k := (2 * Z.of_nat n + 1)%Z in
  ((if Nat.even n then 1 else -1) * (2 * / inject_Z (k * 3 ^ k) + / inject_Z (k * 7 ^ k)))%Q.
Fixpoint qsum (n : nat) : Q := match n with O => qterm O | S k => Qred (qsum k + qterm n) end.
Lemma inject_R (z : Z) : Q2R (inject_Z z) = IZR z.
Proof. unfold Q2R, inject_Z. simpl. lra. Qed.
Lemma even_pow (n : nat) : (-1) ^ n = if Nat.even n then 1 else -1.
Proof.
  induction n as [|n IH]; [reflexivity|]. rewrite Nat.even_succ, <- Nat.negb_even. simpl pow. rewrite IH.
  destruct (Nat.even n); simpl; lra.
Qed.
Lemma ratan_Q (b : Z) (n : nat) : (0 < b)%Z ->
  Ratan_seq (/ IZR b) n = Q2R (/ inject_Z ((2 * Z.of_nat n + 1) * b ^ (2 * Z.of_nat n + 1))).
Proof.
  intros B. assert (P : (0 < b ^ (2 * Z.of_nat n + 1))%Z) by (apply Z.pow_pos_nonneg; lia).
  rewrite Q2R_inv, inject_R, mult_IZR.
  - unfold Ratan_seq. rewrite pow_inv. unfold Rdiv. rewrite Rinv_mult. rewrite Rmult_comm. f_equal; f_equal.
    + rewrite INR_IZR_INZ. f_equal. lia.
    + rewrite pow_IZR. f_equal. f_equal. lia.
  - intros E. apply Qeq_eqR in E. rewrite inject_R in E. replace (Q2R 0) with 0 in E by (unfold Q2R; simpl; lra).
    apply eq_IZR in E. assert ((2 * Z.of_nat n + 1) * b ^ (2 * Z.of_nat n + 1) <> 0)%Z; [|contradiction]. nia.
Qed.
Lemma qterm_R (n : nat) : Q2R (qterm n) = tg_alt PI_2_3_7_tg n.
Proof.
  unfold qterm, tg_alt, PI_2_3_7_tg. rewrite (ratan_Q 3), (ratan_Q 7) by lia. rewrite Q2R_mult, Q2R_plus, Q2R_mult.
  rewrite even_pow. f_equal; [destruct (Nat.even n); unfold Q2R; simpl; lra|].
  f_equal. f_equal. unfold Q2R. simpl. lra.
Qed.
Lemma qsum_R (n : nat) : Q2R (qsum n) = sum_f_R0 (tg_alt PI_2_3_7_tg) n.
Proof.
  induction n as [|n IH]; [apply qterm_R|]. cbn [qsum sum_f_R0]. rewrite (Qeq_eqR _ _ (Qred_correct _)), Q2R_plus, IH, qterm_R. reflexivity.
Qed.
Definition qpi : Q := 884279719003555 # 281474976710656.
Lemma pi_close : Rabs (Q2R qpi - PI) <= 2 * roundoff.
Proof.
  destruct (PI_2_3_7_ineq 9) as [_ U]. destruct (PI_2_3_7_ineq 9) as [L _].
  change (2 * 9)%nat with 18%nat in *. rewrite <- !qsum_R in *.
  assert (A : (4 * qsum 18 <= qpi + (2 # 9007199254740992))%Q) by (vm_compute; discriminate).
  assert (B : (qpi - (2 # 9007199254740992) <= 4 * qsum 19)%Q) by (vm_compute; discriminate).
  apply Qle_Rle in A, B. rewrite Q2R_mult, Q2R_plus in A. rewrite Q2R_mult, Q2R_minus in B.
  assert (E4 : Q2R 4 = 4) by (unfold Q2R; simpl; lra). rewrite E4 in A, B.
  assert (Eu : Q2R (2 # 9007199254740992) = 2 * roundoff).
  { unfold Q2R, roundoff. cbn [Qnum Qden]. f_equal. f_equal. rewrite (pow_IZR 2 53). reflexivity. }
  rewrite Eu in A, B. apply Rabs_le. lra.
Qed.

(** * One rounded operation *)
Lemma tiny_u : 0 < tiny <= roundoff.
Proof.
  unfold tiny, roundoff. split; [apply Rinv_0_lt_compat, pow_lt; lra|]. apply Rinv_le_contravar; [apply pow_lt; lra|].
  apply Rle_pow; [lra|]. lia.
Qed.
Lemma big_top : 2 ^ 100 <= top.
Proof.
  unfold top. replace (2 ^ 100) with (bpow radix2 100) by (rewrite pow2; unfold powerRZ; reflexivity). apply bpow_le. lia.
Qed.
Lemma near (z : B64) r M : is_nan z = false -> ext z = clamp (rnd r) -> Rabs r <= M -> M <= 2 ^ 50 ->
  is_finite z = true /\ Rabs (B2R z - r) <= roundoff * (M + 1).
Proof.
  intros N E L B. destruct (rnd_error r) as (e & t & He & Ht & Q). pose proof roundoff_small as U. pose proof tiny_u as T.
  pose proof (Rabs_pos r) as Pr.
  assert (K : Rabs (rnd r - r) <= roundoff * (M + 1)).
  { rewrite Q. replace (r * (1 + e) + t - r) with (e * r + t) by ring. eapply Rle_trans; [apply Rabs_triang|].
    rewrite Rabs_mult. assert (Rabs e * Rabs r <= roundoff * M) by (apply Rmult_le_compat; try apply Rabs_pos; assumption). lra. }
  destruct (clamp_fin z (rnd r) N E) as (F & V); [|rewrite V; auto].
  replace (rnd r) with ((rnd r - r) + r) by ring. eapply Rle_lt_trans; [apply Rabs_triang|].
  apply Rlt_le_trans with (2 ^ 100); [|apply big_top].
  replace (2 ^ 100) with (2 ^ 50 * 2 ^ 50) by (rewrite <- pow_add; reflexivity).
  assert (H4 : 4 <= 2 ^ 50) by (simpl; lra). nra.
Qed.
Lemma sub_near (x y : B64) M : is_finite x = true -> is_finite y = true -> Rabs (B2R x - B2R y) <= M -> M <= 2 ^ 50 ->
  exists z : B64, f64_sub (B2SF x) (B2SF y) = B2SF z /\ is_finite z = true /\ Rabs (B2R z - (B2R x - B2R y)) <= roundoff * (M + 1).
Proof. intros Fx Fy L B. exists (Bminus mode_NE x y). split; [apply sub_B|]. destruct (minus_ext x y Fx Fy). eapply near; eassumption. Qed.
Lemma add_near (x y : B64) M : is_finite x = true -> is_finite y = true -> Rabs (B2R x + B2R y) <= M -> M <= 2 ^ 50 ->
  exists z : B64, f64_add (B2SF x) (B2SF y) = B2SF z /\ is_finite z = true /\ Rabs (B2R z - (B2R x + B2R y)) <= roundoff * (M + 1).
Proof. intros Fx Fy L B. exists (Bplus mode_NE x y). split; [apply add_B|]. destruct (plus_ext x y Fx Fy). eapply near; eassumption. Qed.
Lemma mul_near (x y : B64) M : is_finite x = true -> is_finite y = true -> Rabs (B2R x * B2R y) <= M -> M <= 2 ^ 50 ->
  exists z : B64, f64_mul (B2SF x) (B2SF y) = B2SF z /\ is_finite z = true /\ Rabs (B2R z - B2R x * B2R y) <= roundoff * (M + 1).
Proof. intros Fx Fy L B. exists (Bmult mode_NE x y). split; [apply mul_B|]. destruct (mult_ext x y Fx Fy). eapply near; eassumption. Qed.
Lemma div_near (x y : B64) M : is_finite x = true -> is_finite y = true -> B2R y <> 0 -> Rabs (B2R x / B2R y) <= M -> M <= 2 ^ 50 ->
  exists z : B64, f64_div (B2SF x) (B2SF y) = B2SF z /\ is_finite z = true /\ Rabs (B2R z - B2R x / B2R y) <= roundoff * (M + 1).
Proof. intros Fx Fy N L B. exists (Bdiv mode_NE x y). split; [apply div_B|]. destruct (div_ext x y Fx Fy N). eapply near; eassumption. Qed.

(** * Truncation *)
Definition truncates (n : Z) (q : R) : Prop :=
  (0 <= q -> IZR n <= q < IZR n + 1 /\ 0 <= IZR n) /\ (q <= 0 -> IZR n - 1 < q <= IZR n /\ IZR n <= 0).
Lemma truncates_sign (s : bool) q y : 0 < y -> IZR q <= y < IZR q + 1 -> 0 <= IZR q ->
  truncates (if s then (- q)%Z else q) ((if s then -1 else 1) * y).
Proof. intros P B Q. unfold truncates. destruct s; rewrite ?opp_IZR; split; lra. Qed.
Lemma trunc_B (x : B64) : is_finite x = true ->
  exists (y : B64) n, f64_trunc (B2SF x) = B2SF y /\ is_finite y = true /\ B2R y = IZR n /\ truncates n (B2R x).
Proof.
  intros F. destruct x as [s| | |s m e H]; try discriminate.
  { exists (B754_zero s), 0%Z. unfold truncates. cbn. repeat split; lra. }
  assert (M : (Zpos m < 2 ^ 53)%Z).
  { pose proof H as H'. unfold bounded, canonical_mantissa in H'. apply andb_prop in H'. destruct H' as (H1 & _).
    apply Zeq_bool_eq in H1. unfold SpecFloat.fexp, SpecFloat.emin in H1.
    assert (D : (Zpos (digits2_pos m) <= 53)%Z) by lia. rewrite Digits.Zpos_digits2_pos in D.
    pose proof (Digits.Zdigits_correct radix2 (Zpos m)) as (_ & D2).
    simpl Z.abs in D2. eapply Z.lt_le_trans; [exact D2|]. apply (Z.pow_le_mono_r 2); lia. }
  assert (V : B2R (B754_finite s m e H : B64) = (if s then -1 else 1) * (IZR (Zpos m) * powerRZ 2 e)).
  { rewrite <- real_B. unfold real, B2SF. ring. }
  rewrite V. assert (Pm : 0 < IZR (Zpos m)) by (apply IZR_lt; lia).
  assert (Pe : 0 < powerRZ 2 e) by (apply powerRZ_lt; lra).
  unfold f64_trunc, B2SF at 1. destruct (Z.leb_spec 0 e) as [L|L].
  - exists (B754_finite s m e H), (if s then (- (Zpos m * 2 ^ e))%Z else (Zpos m * 2 ^ e)%Z).
    assert (W : IZR (Zpos m * 2 ^ e) = IZR (Zpos m) * powerRZ 2 e).
    { rewrite mult_IZR. f_equal. rewrite <- pow2, <- IZR_Zpower by assumption. reflexivity. }
    split; [reflexivity|]. split; [reflexivity|]. split; [rewrite V; destruct s; rewrite ?opp_IZR, W; lra|].
    apply truncates_sign; rewrite ?W; nra.
  - cbv zeta. set (t := (2 ^ (- e))%Z). set (q := (Zpos m / t)%Z). assert (T : (0 < t)%Z) by (apply Z.pow_pos_nonneg; lia).
    assert (Q0 : (0 <= q)%Z) by (apply Z.div_pos; lia). 
    assert (Q1 : (t * q <= Zpos m)%Z) by (apply Z.mul_div_le; lia).
    assert (Q2 : (Zpos m < t * (q + 1))%Z) by (pose proof (Z.mul_succ_div_gt (Zpos m) t T); lia).
    assert (W : powerRZ 2 e = / IZR t).
    { rewrite <- pow2. replace e with (- - e)%Z at 1 by ring. rewrite bpow_opp. f_equal. rewrite <- IZR_Zpower by lia. reflexivity. }
    assert (Tr : 0 < IZR t) by (apply IZR_lt; assumption).
    assert (B : IZR q <= IZR (Zpos m) * powerRZ 2 e < IZR q + 1).
    { rewrite W. apply IZR_le in Q1. apply IZR_lt in Q2. rewrite mult_IZR in Q1, Q2. rewrite plus_IZR in Q2.
      assert (X : IZR t * (IZR (Zpos m) * / IZR t) = IZR (Zpos m)) by (field; lra).
      split; [apply Rmult_le_reg_l with (IZR t)|apply Rmult_lt_reg_l with (IZR t)]; try assumption; rewrite X; assumption. }
    assert (Q3 : 0 <= IZR q) by (apply IZR_le; assumption).
    assert (G := truncates_sign s q _ (Rmult_lt_0_compat _ _ Pm Pe) B Q3).
    assert (Qm : (q <= Zpos m)%Z) by nia.
    clearbody q. destruct q as [|q|q]; [| |lia].
    + exists (B754_zero s), (if s then (- 0)%Z else 0%Z). split; [reflexivity|]. split; [reflexivity|].
      split; [destruct s; reflexivity|exact G].
    + destruct (ofZ_exact (if s then (- Zpos q)%Z else Zpos q)) as (b & Eb & Fb & Vb).
      { destruct s; lia. }
      exists b, (if s then (- Zpos q)%Z else Zpos q). auto.
Qed.

(** * The two truncations bring any difference into half a turn *)
Lemma wrap_first p E D q n D1 : 3 < p < 4 -> 0 <= E <= / 100 ->
  Rabs (q - (D + p) / (2 * p)) <= E -> truncates n q -> Rabs (D1 - (D - IZR n * (2 * p))) <= E ->
  - p - 9 * E <= D1 <= p + 9 * E \/ - 3 * p - 9 * E <= D1 <= - p + 9 * E.
Proof.
  intros P HE Q T H1. apply Rabs_le_inv in Q, H1. set (x := (D + p) / (2 * p)) in *.
  assert (X : D = x * (2 * p) - p) by (unfold x; field; lra). clearbody x.
  destruct (Rle_dec 0 q) as [S|S]; [destruct T as (T & _)|destruct T as (_ & T)]; destruct T as (T & _); try lra; [left|right];
    subst D; split; nra.
Qed.
Lemma wrap p E D q n D1 q' n' D2 : 3 < p < 4 -> 0 <= E <= / 100 ->
  Rabs (q - (D + p) / (2 * p)) <= E -> truncates n q -> Rabs (D1 - (D - IZR n * (2 * p))) <= E ->
  Rabs (q' - (D1 - p) / (2 * p)) <= E -> truncates n' q' -> Rabs (D2 - (D1 - IZR n' * (2 * p))) <= E ->
  Rabs D2 <= p + 10 * E /\ Rabs (D2 - (D - IZR (n + n') * (2 * p))) <= 2 * E.
Proof.
  intros P HE Q T H1 Q' T' H2. rewrite plus_IZR. pose proof (wrap_first p E D q n D1 P HE Q T H1) as A.
  apply Rabs_le_inv in Q, H1, Q', H2.
  set (x := (D + p) / (2 * p)) in *. set (y := (D1 - p) / (2 * p)) in *.
  assert (X : D = x * (2 * p) - p) by (unfold x; field; lra).
  assert (Y : D1 = y * (2 * p) + p) by (unfold y; field; lra).
  clearbody x y. split; [|apply Rabs_le; lra].
  assert (EP : 2 * E * p <= 8 * E) by nra.
  destruct (Rle_dec 0 q') as [S|S].
  - destruct T' as (T' & _). destruct (T' S) as (B & Z). 
    assert (Y1 : y <= / 2) by (apply Rmult_le_reg_r with (2 * p); [lra|]; destruct A; lra).
    assert (N : IZR n' = 0) by (apply le_IZR in Z; assert (n' < 1)%Z by (apply lt_IZR; lra); f_equal; lia).
    rewrite N in *. assert (p - 8 * E <= D1) by nra. apply Rabs_le. destruct A; lra.
  - destruct T' as (_ & T'). destruct (T' ltac:(lra)) as (B & _).
    assert (G : - p - 8 * E <= D1 - IZR n' * (2 * p) <= p + 8 * E) by (subst D1; split; nra).
    apply Rabs_le. lra.
Qed.

(** * The wrapped difference *)
Definition pi_B : B64 := @B754_finite 53 1024 false 7074237752028440 (-51) (eq_refl true).
Definition minus_pi_B : B64 := @B754_finite 53 1024 true 7074237752028440 (-51) (eq_refl true).
Definition turn_B : B64 := @B754_finite 53 1024 false 7074237752028440 (-50) (eq_refl true).
Definition rpi : R := Q2R qpi.
Lemma pi_val : B2R pi_B = rpi.
Proof.
  rewrite <- real_B. change (real (B2SF pi_B)) with (1 * IZR 7074237752028440 * powerRZ 2 (- (51))).
  rewrite powerRZ_neg'. change (powerRZ 2 51) with (2 ^ 51)%R. rewrite (pow_IZR 2 51). change (2 ^ Z.of_nat 51)%Z with 2251799813685248%Z.
  unfold rpi, Q2R, qpi. cbn [Qnum Qden]. lra.
Qed.
Lemma minus_pi_val : B2R minus_pi_B = - rpi.
Proof. rewrite <- pi_val, <- !real_B. unfold real. cbn [B2SF pi_B minus_pi_B]. ring. Qed.
Lemma turn_val : B2R turn_B = 2 * rpi.
Proof.
  rewrite <- pi_val, <- !real_B. unfold real. cbn [B2SF pi_B turn_B]. replace (-50)%Z with (1 + -51)%Z by lia.
  rewrite powerRZ_add by lra. rewrite powerRZ_1. ring.
Qed.
Lemma rpi_bound : 3 < rpi < 3.2.
Proof. unfold rpi, Q2R, qpi. cbn [Qnum Qden]. lra. Qed.
Lemma rpi_close : Rabs (rpi - PI) <= 2 * roundoff.
Proof. exact pi_close. Qed.

Section Angles.
  Variables (fcos fsin : f64 -> f64) (fatan2 fhypot : f64 -> f64 -> f64).
  #[local] Instance A64a : Arith f64 := Arith_f64 fcos fsin fatan2 fhypot.

  Lemma unfold_diff a b : angle_diff a b =
    let d := f64_sub b a in
    let d1 := f64_sub d (f64_mul (f64_trunc (f64_div (f64_sub d (B2SF minus_pi_B)) (B2SF turn_B))) (B2SF turn_B)) in
    f64_sub d1 (f64_mul (f64_trunc (f64_div (f64_sub d1 (B2SF pi_B)) (B2SF turn_B))) (B2SF turn_B)).
  Proof.
    unfold angle_diff. cbv zeta.
    assert (E : (nlit 2 * npi)%num = B2SF turn_B) by (vm_compute; reflexivity).
    rewrite E. reflexivity.
  Qed.

  Lemma stage (d c : B64) L : is_finite d = true -> is_finite c = true -> 4 <= L <= 2 ^ 45 ->
    Rabs (B2R d) <= L -> Rabs (B2R c) <= 3.2 ->
    exists (z : B64) q n,
      f64_sub (B2SF d) (f64_mul (f64_trunc (f64_div (f64_sub (B2SF d) (B2SF c)) (B2SF turn_B))) (B2SF turn_B)) = B2SF z /\
      is_finite z = true /\ truncates n q /\ Rabs (IZR n) <= / 2 * L /\
      Rabs (q - (B2R d - B2R c) / (2 * rpi)) <= 10 * (roundoff * L) /\
      Rabs (B2R z - (B2R d - IZR n * (2 * rpi))) <= 10 * (roundoff * L).
  Proof.
    intros Fd Fc HL Bd Bc. pose proof rpi_bound as P. pose proof roundoff_small as U.
    assert (B50 : 2 ^ 50 = 32 * 2 ^ 45) by (replace 50%nat with (5 + 45)%nat by reflexivity; rewrite pow_add; simpl pow at 1; lra).
    set (w := roundoff * L). assert (W : 0 < w <= / 100) .
    { unfold w. split; [nra|]. apply Rle_trans with (roundoff * 2 ^ 45); [apply Rmult_le_compat_l; lra|].
      unfold roundoff. replace (2 ^ 53) with (256 * 2 ^ 45) by (replace 53%nat with (8 + 45)%nat by reflexivity; rewrite pow_add; simpl pow at 2; lra).
      assert (0 < 2 ^ 45) by (apply pow_lt; lra). rewrite Rinv_mult, Rmult_assoc, Rinv_l by lra. lra. }
    assert (Uw : roundoff <= w / 4) by (unfold w; nra).
    apply Rabs_le_inv in Bd, Bc.
    destruct (sub_near d c (2 * L) Fd Fc) as (x & Ex & Fx & Hx); [apply Rabs_le; lra|lra|].
    rewrite Ex. replace (roundoff * (2 * L + 1)) with (2 * w + roundoff) in Hx by (unfold w; ring). apply Rabs_le_inv in Hx.
    assert (Ft : is_finite turn_B = true) by reflexivity.
    set (y := (B2R d - B2R c) / (2 * rpi)).
    assert (Y : B2R d - B2R c = y * (2 * rpi)) by (unfold y; field; lra).
    set (y1 := B2R x / (2 * rpi)). assert (Y1 : B2R x = y1 * (2 * rpi)) by (unfold y1; field; lra).
    assert (Dy : Rabs (y1 - y) <= w).
    { rewrite Y, Y1 in Hx. apply Rabs_le. split; nra. }
    assert (By : Rabs y <= / 3 * L) by (apply Rabs_le; split; nra).
    apply Rabs_le_inv in Dy, By. pose proof turn_val as TV.
    destruct (div_near x turn_B (/ 2 * L) Fx Ft) as (q & Eq & Fq & Hq); [rewrite TV; lra|rewrite TV; fold y1; apply Rabs_le; lra|lra|].
    rewrite TV in Hq. fold y1 in Hq. replace (roundoff * (/ 2 * L + 1)) with (/ 2 * w + roundoff) in Hq by (unfold w; ring).
    apply Rabs_le_inv in Hq. rewrite Eq.
    destruct (trunc_B q Fq) as (t & n & Et & Ft' & Vt & Tn). rewrite Et.
    assert (Bn : Rabs (IZR n) <= / 2 * L).
    { apply Rabs_le. destruct Tn as (T1 & T2). destruct (Rle_dec 0 (B2R q)) as [S|S]; [destruct (T1 S)|destruct (T2 ltac:(lra))]; lra. }
    pose proof (Rabs_le_inv _ _ Bn) as Bn'.
    destruct (mul_near t turn_B (4 * L) Ft' Ft) as (m & Em & Fm & Hm); [rewrite TV, Vt; apply Rabs_le; split; nra|lra|].
    rewrite TV, Vt in Hm. replace (roundoff * (4 * L + 1)) with (4 * w + roundoff) in Hm by (unfold w; ring). rewrite Em.
    apply Rabs_le_inv in Hm.
    assert (Bm : - (3.2 * L) <= IZR n * (2 * rpi) <= 3.2 * L) by (split; nra).
    destruct (sub_near d m (5 * L) Fd Fm) as (z & Ez & Fz & Hz); [apply Rabs_le; lra|lra|].
    replace (roundoff * (5 * L + 1)) with (5 * w + roundoff) in Hz by (unfold w; ring). apply Rabs_le_inv in Hz.
    exists z, (B2R q), n. split; [assumption|]. split; [assumption|]. split; [assumption|]. split; [assumption|].
    split; apply Rabs_le; lra.
  Qed.

  Lemma diff_B (a b : B64) : is_finite a = true -> is_finite b = true ->
    Rabs (B2R a) + Rabs (B2R b) + 4 <= 2 ^ 40 ->
    let w := roundoff * (Rabs (B2R a) + Rabs (B2R b) + 4) in
    exists (z : B64) j, @angle_diff f64 _ _ (B2SF a) (B2SF b) = B2SF z /\ is_finite z = true /\
      Rabs (B2R z) <= PI + 252 * w /\ Rabs (B2R z - (B2R b - B2R a - 2 * PI * IZR j)) <= 60 * w.
  Proof.
    intros Fa Fb HM w. set (M := Rabs (B2R a) + Rabs (B2R b) + 4) in *.
    pose proof rpi_bound as P. pose proof roundoff_small as U. pose proof (Rabs_le_inv _ _ rpi_close) as C.
    assert (Ma : Rabs (B2R a) <= M - 4 - Rabs (B2R b)) by (unfold M; lra). pose proof (Rabs_pos (B2R a)) as Pa. pose proof (Rabs_pos (B2R b)) as Pb.
    assert (M4 : 4 <= M) by (unfold M; lra).
    assert (P40 : 1 < 2 ^ 40) by (simpl; lra).
    assert (B50 : 2 ^ 50 = 1024 * 2 ^ 40) by (replace 50%nat with (10 + 40)%nat by reflexivity; rewrite pow_add; simpl pow at 1; lra).
    assert (B45 : 2 ^ 45 = 32 * 2 ^ 40) by (replace 45%nat with (5 + 40)%nat by reflexivity; rewrite pow_add; simpl pow at 1; lra).
    assert (W : 0 < w <= / 8192).
    { unfold w. split; [nra|]. apply Rle_trans with (roundoff * 2 ^ 40); [apply Rmult_le_compat_l; lra|].
      unfold roundoff. replace (2 ^ 53) with (8192 * 2 ^ 40) by (replace 53%nat with (13 + 40)%nat by reflexivity; rewrite pow_add; simpl pow at 2; lra).
      rewrite Rinv_mult, Rmult_assoc, Rinv_l by lra. lra. }
    assert (Uw : 0 < roundoff <= w / 4) by (unfold w; nra).
    assert (BD : Rabs (B2R b - B2R a) <= M - 4).
    { eapply Rle_trans; [apply Rabs_triang|]. rewrite Rabs_Ropp. lra. }
    destruct (sub_near b a (M - 4) Fb Fa BD) as (d & Ed & Fd & Hd); [lra|].
    assert (Hd' : Rabs (B2R d - (B2R b - B2R a)) <= w) by (eapply Rle_trans; [exact Hd|]; unfold w; nra).
    apply Rabs_le_inv in Hd', BD. rewrite unfold_diff. cbv zeta. rewrite Ed.
    destruct (stage d minus_pi_B M Fd eq_refl) as (d1 & q & n & E1 & F1 & T & Bn & Q & H1);
      [lra|apply Rabs_le; lra|rewrite minus_pi_val; apply Rabs_le; lra|].
    rewrite E1. rewrite minus_pi_val in Q. unfold Rminus in Q at 2. rewrite Ropp_involutive in Q. fold w in Q, H1.
    assert (R1 : Rabs (B2R d1) <= 10).
    { pose proof (wrap_first rpi (10 * w) (B2R d) q n (B2R d1) ltac:(lra) ltac:(lra) Q T H1) as [A|A]; apply Rabs_le; lra. }
    destruct (stage d1 pi_B 10 F1 eq_refl) as (z & q' & n' & E2 & F2 & T' & Bn' & Q' & H2);
      [lra|assumption|rewrite pi_val; apply Rabs_le; lra|].
    rewrite pi_val in Q'.
    assert (LE : 10 * (roundoff * 10) <= 25 * w) by lra.
    destruct (wrap rpi (25 * w) (B2R d) q n (B2R d1) q' n' (B2R z)) as (G1 & G2); try assumption; try lra.
    exists z, (n + n')%Z. split; [exact E2|]. split; [exact F2|].
    apply Rabs_le_inv in G1, G2, Bn, Bn'. split; [apply Rabs_le; lra|]. rewrite plus_IZR in *.
    set (N := IZR n + IZR n') in *. assert (BN : - (2 * M) <= N <= 2 * M) by (unfold N; lra).
    assert (K : Rabs (N * (rpi - PI)) <= 4 * w).
    { rewrite Rabs_mult. apply Rle_trans with (2 * M * (2 * roundoff)); [|unfold w; lra].
      apply Rmult_le_compat; try apply Rabs_pos; [apply Rabs_le; assumption|apply rpi_close]. }
    apply Rabs_le_inv in K. apply Rabs_le. lra.
  Qed.

  Lemma C97_proof a b n : is_double a -> is_double b -> finite a -> finite b -> (Z.of_nat n <= 2 ^ 53)%Z ->
    Rabs (real a) + Rabs (real b) + 4 <= 2 ^ 40 ->
    exists j : Z, let d := real b - real a - 2 * PI * IZR j in
      Rabs d <= PI + 320 * (roundoff * (Rabs (real a) + Rabs (real b) + 4)) /\
      forall k v, nth_error (AngleLinspace a b n) k = Some v -> is_double v /\ finite v /\
      Rabs (real v - (real a + INR (S k) * d / INR n)) <= 80 * (roundoff * (Rabs (real a) + Rabs (real b) + 4)).
  Proof.
    intros (x & ->)%to_B (y & ->)%to_B. rewrite !finite_B, !real_B. intros Fx Fy Hn HM.
    destruct (diff_B x y Fx Fy HM) as (z & j & Ez & Fz & Bz & Cz). set (M := Rabs (B2R x) + Rabs (B2R y) + 4) in *.
    set (w := roundoff * M) in *. exists j. cbv zeta. set (d := B2R y - B2R x - 2 * PI * IZR j) in *.
    pose proof (Rabs_pos (B2R x)) as Px. pose proof (Rabs_pos (B2R y)) as Py. pose proof roundoff_small as U.
    pose proof rpi_bound as PB. pose proof (Rabs_le_inv _ _ rpi_close) as PC.
    assert (Mx : Rabs (B2R x) <= M - 4) by (unfold M; lra).
    assert (P40 : 1 < 2 ^ 40) by (simpl; lra).
    assert (B50 : 2 ^ 50 = 1024 * 2 ^ 40) by (replace 50%nat with (10 + 40)%nat by reflexivity; rewrite pow_add; simpl pow at 1; lra).
    assert (W : 0 < w <= / 8192).
    { unfold w. split; [nra|]. apply Rle_trans with (roundoff * 2 ^ 40); [apply Rmult_le_compat_l; lra|].
      unfold roundoff. replace (2 ^ 53) with (8192 * 2 ^ 40) by (replace 53%nat with (13 + 40)%nat by reflexivity; rewrite pow_add; simpl pow at 2; lra).
      rewrite Rinv_mult, Rmult_assoc, Rinv_l by lra. lra. }
    assert (Uw : 0 < roundoff <= w / 4) by (unfold w; nra).
    apply Rabs_le_inv in Bz, Cz. apply Rabs_le_inv in Mx. split; [apply Rabs_le; lra|]. intros k v Hv.
    unfold AngleLinspace in Hv. rewrite Ez in Hv.
    destruct (add_near x z M Fx Fz) as (t & Et & Ft & Ht); [apply Rabs_le; lra|lra|].
    change (nadd (B2SF x) (B2SF z)) with (f64_add (B2SF x) (B2SF z)) in Hv. rewrite Et in Hv.
    assert (Ht' : Rabs (B2R t - (B2R x + B2R z)) <= 2 * w) by (eapply Rle_trans; [exact Ht|]; unfold w; nra).
    apply Rabs_le_inv in Ht'.
    destruct (entry fcos fsin fatan2 fhypot _ _ _ _ _ Hv) as (Lk & Ev).
    assert (N1 : 1 <= INR n) by (apply (le_INR 1); lia). assert (Nk : 1 <= INR (S k) <= INR n) by (split; [apply (le_INR 1)|apply le_INR]; lia).
    assert (N53 : INR n <= 2 ^ 53).
    { rewrite INR_IZR_INZ. replace (2 ^ 53) with (IZR (2 ^ 53)) by (rewrite (pow_IZR 2 53); reflexivity). apply IZR_le, Hn. }
    destruct (nat_B (S k)) as (bk & Ek & Fk & Vk); [lia|]. destruct (nat_B n) as (bn & En & Fn & Vn); [lia|].
    rewrite Ek, En in Ev.
    destruct (sub_near t x 5 Ft Fx) as (s & Es & Fs & Hs); [apply Rabs_le; lra|simpl; lra|]. rewrite Es in Ev. apply Rabs_le_inv in Hs.
    destruct (quot_B s bn Fs Fn ltac:(lra)) as (Fq & Vq). rewrite div_B in Ev. set (q := Bdiv mode_NE s bn) in *. clearbody q.
    destruct (rnd_error (B2R s / B2R bn)) as (e & t' & He & Ht0 & Eq). rewrite <- Vq in Eq. rewrite Vn in Eq.
    assert (Tn : INR n * tiny <= 1).
    { apply Rle_trans with (2 ^ 53 * tiny); [apply Rmult_le_compat_r; [apply Rlt_le, tiny_u|assumption]|].
      unfold tiny. apply Rmult_le_reg_r with (2 ^ 1074); [apply pow_lt; lra|]. rewrite Rmult_assoc, Rinv_l by (apply pow_nonzero; lra).
      rewrite Rmult_1_r, Rmult_1_l. apply Rle_pow; [lra|lia]. }
    assert (Bq : Rabs (B2R bk * B2R q) <= 8).
    { rewrite Vk, Eq. replace (INR (S k) * (B2R s / INR n * (1 + e) + t')) with (INR (S k) / INR n * (B2R s * (1 + e)) + INR (S k) * t') by (field; lra).
      eapply Rle_trans; [apply Rabs_triang|]. rewrite (Rabs_mult (INR (S k))), (Rabs_mult (INR (S k) / INR n)).
      assert (R1 : 0 <= INR (S k) / INR n <= 1).
      { split; [apply Rmult_le_pos; [lra|apply Rlt_le, Rinv_0_lt_compat; lra]|]. apply Rmult_le_reg_r with (INR n); [lra|].
        unfold Rdiv. rewrite Rmult_assoc, Rinv_l by lra. lra. }
      rewrite (Rabs_pos_eq (INR (S k) / INR n)), (Rabs_pos_eq (INR (S k))) by lra.
      assert (R2 : Rabs (B2R s * (1 + e)) <= 6).
      { rewrite Rabs_mult. assert (Rabs (B2R s) <= 5.1) by (apply Rabs_le; lra).
        assert (Rabs (1 + e) <= 1.01) by (apply Rabs_le_inv in He; apply Rabs_le; lra).
        pose proof (Rabs_pos (B2R s)). pose proof (Rabs_pos (1 + e)). nra. }
      assert (R3 : INR (S k) * Rabs t' <= 1).
      { apply Rle_trans with (INR n * tiny); [|assumption]. pose proof tiny_u. apply Rmult_le_compat; try apply Rabs_pos; lra. }
      pose proof (Rabs_pos (B2R s * (1 + e))). nra. }
    destruct (mul_near bk q 8 Fk Fq Bq) as (m & Em & Fm & Hm); [simpl; lra|]. rewrite Em in Ev. apply Rabs_le_inv in Hm, Bq.
    destruct (add_near x m (M + 10) Fx Fm) as (v' & Ev' & Fv & _); [apply Rabs_le; lra|lra|]. rewrite Ev' in Ev. subst v.
    split; [apply of_B|]. split; [apply finite_B, Fv|].
    assert (X := C84_error fcos fsin fatan2 fhypot (B2SF x) (B2SF t) n (of_B _) (of_B _) (proj2 (finite_B _) Fx) (proj2 (finite_B _) Ft)
      Hn k _ Hv (proj2 (finite_B _) Fv)). rewrite !real_B in X.
    assert (Y : Rabs (B2R t - B2R x) <= 5) by (apply Rabs_le; lra). pose proof (Rabs_pos (B2R t - B2R x)) as Y0.
    assert (Tn2 : (INR n + 2) * tiny <= roundoff).
    { apply Rle_trans with (2 ^ 55 * tiny).
      - apply Rmult_le_compat_r; [apply Rlt_le, tiny_u|]. replace (2 ^ 55) with (4 * 2 ^ 53) by (replace 55%nat with (2 + 53)%nat by reflexivity; rewrite pow_add; simpl pow at 2; lra).
        assert (1 <= 2 ^ 53) by (apply pow_R1_Rle; lra). lra.
      - unfold tiny, roundoff. apply Rmult_le_reg_r with (2 ^ 1074); [apply pow_lt; lra|]. rewrite Rmult_assoc, Rinv_l by (apply pow_nonzero; lra).
        replace (2 ^ 1074) with (2 ^ 53 * 2 ^ 1021) by (rewrite <- pow_add; reflexivity).
        rewrite <- Rmult_assoc, Rinv_l by (apply pow_nonzero; lra). rewrite Rmult_1_r, Rmult_1_l. apply Rle_pow; [lra|lia]. }
    assert (X' : Rabs (B2R v' - (B2R x + INR (S k) * (B2R t - B2R x) / INR n)) <= 8 * w).
    { eapply Rle_trans; [exact X|]. assert (roundoff * (Rabs (B2R x) + 5 * Rabs (B2R t - B2R x)) <= roundoff * (7 * M)); [|unfold w in *; lra].
      apply Rmult_le_compat_l; [lra|]. assert (Rabs (B2R x) <= M - 4) by (unfold M; lra). lra. }
    assert (Z : Rabs (INR (S k) * (B2R t - B2R x) / INR n - INR (S k) * d / INR n) <= 62 * w).
    { replace (INR (S k) * (B2R t - B2R x) / INR n - INR (S k) * d / INR n) with (INR (S k) / INR n * (B2R t - B2R x - d)) by (field; lra).
      assert (R1 : 0 <= INR (S k) / INR n <= 1).
      { split; [apply Rmult_le_pos; [lra|apply Rlt_le, Rinv_0_lt_compat; lra]|]. apply Rmult_le_reg_r with (INR n); [lra|].
        unfold Rdiv. rewrite Rmult_assoc, Rinv_l by lra. lra. }
      assert (R2 : Rabs (B2R t - B2R x - d) <= 62 * w) by (apply Rabs_le; lra). pose proof (Rabs_pos (B2R t - B2R x - d)).
      rewrite Rabs_mult, (Rabs_pos_eq (INR (S k) / INR n)) by lra. nra. }
    clearbody d. set (g1 := INR (S k) * (B2R t - B2R x) / INR n) in *. set (g2 := INR (S k) * d / INR n) in *. clearbody g1 g2.
    rewrite real_B. apply Rabs_le_inv in X', Z. apply Rabs_le. lra.
  Qed.
End Angles.

(** Three radians to minus three: the short way, through pi. *)
Lemma short_case : forall fcos fsin fatan2 fhypot, exists v,
  is_double (f64_lit 3) /\ is_double (f64_lit (-3)) /\ finite (f64_lit 3) /\ finite (f64_lit (-3)) /\
  nth_error (@AngleLinspace f64 (Arith_f64 fcos fsin fatan2 fhypot) Dbl_f64 (f64_lit 3) (f64_lit (-3)) 2) 0 = Some v /\
  fle (f64_lit (3141592653 # 1000000000)) v /\ fle v (f64_lit (3141592654 # 1000000000)).
Proof. intros. eexists. repeat split; try (vm_compute; reflexivity); exact I. Qed.
(** Far from zero the result can be more than a turn away: from 0 towards 10^18. *)
Lemma huge_case : forall fcos fsin fatan2 fhypot, exists b v, is_double b /\ finite b /\
  nth_error (@AngleLinspace f64 (Arith_f64 fcos fsin fatan2 fhypot) Dbl_f64 fzero b 1) 0 = Some v /\ flt (f64_lit 8) v.
Proof.
  intros. exists (f64_ofZ (10 ^ 18)). eexists. split; [vm_compute; reflexivity|]. split; [exact I|].
  split; vm_compute; reflexivity.
Qed.
Lemma bound_case : Rabs (real (f64_lit 3)) + Rabs (real (f64_lit (-3))) + 4 <= 2 ^ 40.
Proof.
  assert (A : f64_lit 3 = f64_ofZ 3) by reflexivity. assert (B : f64_lit (-3) = f64_ofZ (-3)) by reflexivity. rewrite A, B.
  destruct (ofZ_exact 3) as (x & -> & _ & Vx); [lia|]. destruct (ofZ_exact (-3)) as (y & -> & _ & Vy); [lia|].
  rewrite !real_B, Vx, Vy, !Rabs_Zabs. simpl. lra.
Qed.
