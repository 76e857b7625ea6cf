(** The distance of a point from a segment, computed with doubles: C133. *)
From Coq Require Import List ZArith Lia Lra Psatz Reals SpecFloat QArith.
From Flocq Require Import Core BinarySingleNaN Plus_error Sterbenz.
From Verif Require Import Num NumR NumF64 Geometry Constraints SpecDouble SpecRounding SpecLine
  DoubleFacts DoubleProofs DoubleGuess RoundingFacts.
Local Open Scope R_scope.

Lemma within_number k x : within k x -> number x.
Proof. intros (D & F & _). split; assumption. Qed.
Lemma within_up k k' x : within k x -> (k <= k')%Z -> within k' x.
Proof. intros (D & F & L) K. split; [exact D|split; [exact F|]]. rewrite <- pow2 in *. eapply Rle_trans; [exact L|]. apply bpow_le; exact K. Qed.
Lemma rnd_number x : number x -> rnd (real x) = real x.
Proof. intros (D & _). destruct (to_B x D) as (b & ->). rewrite real_B. apply rnd_B. Qed.
Lemma rnd_opp r : rnd (- r) = - rnd r.
Proof. apply round_NE_opp. Qed.
Lemma add_real x y k : within k x -> within k y -> (-1074 <= k < 1023)%Z ->
  within (k + 1) (f64_add x y) /\ real (f64_add x y) = rnd (real x + real y).
Proof.
  intros X Y K. destruct (to_B x (within_double _ _ X)) as (a & ->). destruct (to_B y (within_double _ _ Y)) as (b & ->).
  apply within_B in X, Y. destruct X as [Fx Bx], Y as [Fy By]. rewrite add_B, !real_B. destruct (plus_ext a b Fx Fy) as [N E].
  destruct (size_fin _ _ (k + 1) ltac:(lia) N E) as (F & V & S); [|split; [apply within_B; auto|exact V]].
  rewrite <- double_pow. eapply Rle_trans; [apply Rabs_triang|]. lra.
Qed.
Lemma flt_zero_r d : number d -> flt d fzero <-> real d < 0.
Proof.
  intros (D & F). destruct d as [| | |s m e]; try contradiction.
  - unfold flt, fzero. cbn. split; [discriminate|lra].
  - assert (0 < IZR (Zpos m)) by (apply IZR_lt; lia). assert (0 < powerRZ 2 e) by (apply powerRZ_lt; lra).
    unfold flt, fzero, real. destruct s; cbn; split; intros H'; try discriminate; try reflexivity; nra.
Qed.
(** Half of one and the sign of the double, times the double. *)
Definition half_step (c : f64) (x : f64) : f64 := f64_mul (f64_mul c (f64_add (f64_lit 1) (f64_sign x))) x.
Lemma one_real : real (S754_finite false 4503599627370496 (-52)) = 1.
Proof. rewrite lit_pow. simpl. lra. Qed.
Lemma one_within : within 0 (f64_lit 1).
Proof.
  assert (E : f64_lit 1 = S754_finite false 4503599627370496 (-52)) by (vm_compute; reflexivity).
  rewrite E. split; [reflexivity|split; [exact Logic.I|]]. rewrite one_real, Rabs_R1. simpl. lra.
Qed.
Lemma one_is : real (f64_lit 1) = 1.
Proof. assert (E : f64_lit 1 = S754_finite false 4503599627370496 (-52)) by (vm_compute; reflexivity). rewrite E. apply one_real. Qed.
Lemma zero_mul_l s x k : within k x -> (-1074 <= k <= 1023)%Z -> within k (f64_mul (S754_zero s) x) /\ real (f64_mul (S754_zero s) x) = 0.
Proof.
  intros W K. destruct (mul_real (S754_zero s) x k) as (A & B); [split; [reflexivity|exact Logic.I]|exact (within_number _ _ W)|exact K| |].
  - cbn [real]. rewrite Rmult_0_l, Rabs_R0. apply bpow_ge_0.
  - split; [exact A|]. rewrite B. cbn [real]. rewrite Rmult_0_l. apply rnd_0.
Qed.
Lemma half_step_real (s : bool) x k : within k x -> (-1074 <= k <= 1023)%Z ->
  let y := half_step (f64_lit (if s then -1 # 2 else 1 # 2)) x in
  within k y /\ real y = (if s then -1 else 1) * Rmax 0 (real x).
Proof.
  intros W K y. unfold y, half_step, f64_sign. pose proof (within_number _ _ W) as N.
  destruct (SFltb (S754_zero false) x) eqn:L1.
  - apply (flt_zero x N) in L1.
    assert (E : f64_mul (f64_lit (if s then -1 # 2 else 1 # 2)) (f64_add (f64_lit 1) (f64_ofZ 1)) = S754_finite s 4503599627370496 (-52)) by (destruct s; vm_compute; reflexivity).
    assert (S1 : real (S754_finite s 4503599627370496 (-52)) = if s then -1 else 1) by (rewrite lit_pow; destruct s; simpl; lra).
    rewrite E. destruct (mul_real (S754_finite s 4503599627370496 (-52)) x k) as (A & B); [split; [destruct s; reflexivity|exact Logic.I]|exact N|exact K| |].
    + rewrite S1, pow2. destruct W as (_ & _ & W). destruct s.
      * replace (-1 * real x) with (- real x) by ring. rewrite Rabs_Ropp. exact W.
      * replace (1 * real x) with (real x) by ring. exact W.
    + split; [exact A|]. rewrite B, S1, Rmax_right by lra. destruct s.
      * replace (-1 * real x) with (- real x) by ring. rewrite rnd_opp, (rnd_number x N). ring.
      * replace (1 * real x) with (real x) by ring. rewrite (rnd_number x N). ring.
  - assert (L1' : ~ 0 < real x) by (intros H; apply (flt_zero x N) in H; unfold flt, fzero in H; congruence).
    rewrite Rmax_left by lra. destruct (SFltb x (S754_zero false)) eqn:L2.
    + assert (E : f64_mul (f64_lit (if s then -1 # 2 else 1 # 2)) (f64_add (f64_lit 1) (f64_ofZ (-1))) = S754_zero s) by (destruct s; vm_compute; reflexivity).
      rewrite E. destruct (zero_mul_l s x k W K) as (A & B). split; [exact A|]. rewrite B. ring.
    + assert (Z : real x = 0).
      { destruct (Rtotal_order (real x) 0) as [H|[H|H]]; [|exact H|contradiction].
        apply (flt_zero_r x N) in H. unfold flt, fzero in H. congruence. }
      destruct (real_zero x (proj1 N) (proj2 N) Z) as (u & ->).
      assert (E : exists v, f64_mul (f64_mul (f64_lit (if s then -1 # 2 else 1 # 2)) (f64_add (f64_lit 1) (S754_zero false))) (S754_zero u) = S754_zero v)
        by (exists (xorb s u); destruct s, u; vm_compute; reflexivity).
      destruct E as (v & ->). split; [|cbn [real]; ring]. split; [reflexivity|split; [exact Logic.I|]]. cbn [real]. rewrite Rabs_R0. rewrite <- pow2. apply bpow_ge_0.
Qed.

(** The bounded parameter. *)
Definition bounded (t : f64) : f64 :=
  let m := f64_add (half_step (f64_lit (-1 # 2)) (f64_sub (f64_lit 1) t)) (f64_lit 1) in
  f64_add (half_step (f64_lit (1 # 2)) (f64_sub (f64_lit 0) m)) m.
Definition turned (t : R) : R := rnd (1 - Rmax 0 (rnd (1 - t))).
Lemma bounded_real t : within 1000 t -> within 1004 (bounded t) /\ real (bounded t) = Rmax 0 (turned (real t)).
Proof.
  intros W. unfold bounded. pose proof (within_up 0 1000 _ one_within ltac:(lia)) as W1.
  destruct (sub_real (f64_lit 1) t 1000 W1 W ltac:(lia)) as (Wd & Ed).
  destruct (half_step_real true _ 1001 Wd ltac:(lia)) as (Wh & Eh). cbv zeta in Wh, Eh.
  destruct (add_real _ (f64_lit 1) 1001 Wh (within_up _ 1001 _ W1 ltac:(lia)) ltac:(lia)) as (Wm & Em).
  set (m := f64_add _ (f64_lit 1)) in *.
  assert (Rm : real m = turned (real t)).
  { rewrite Em, Eh, Ed, one_is. unfold turned. f_equal. ring. }
  assert (W0 : within 1002 (f64_lit 0)).
  { rewrite lit0_eq. split; [reflexivity|split; [exact Logic.I|]]. cbn [real]. rewrite Rabs_R0, <- pow2. apply bpow_ge_0. }
  destruct (sub_real (f64_lit 0) m 1002 W0 Wm ltac:(lia)) as (We & Ee).
  assert (Ee' : real (f64_sub (f64_lit 0) m) = - real m).
  { rewrite Ee, lit0_eq. cbn [real]. replace (0 - real m) with (- real m) by ring. rewrite rnd_opp, (rnd_number m (within_number _ _ Wm)). reflexivity. }
  destruct (half_step_real false _ 1003 We ltac:(lia)) as (Wg & Eg). cbv zeta in Wg, Eg. rewrite Ee' in Eg.
  destruct (add_real _ m 1003 Wg (within_up _ 1003 _ Wm ltac:(lia)) ltac:(lia)) as (Wr & Er).
  split; [exact Wr|]. rewrite Er, Eg, <- Rm. destruct (Rle_dec 0 (real m)) as [P|P].
  - rewrite Rmax_left, Rmax_right by lra. replace (1 * 0 + real m) with (real m) by ring. apply rnd_number. exact (within_number _ _ Wm).
  - rewrite Rmax_right, Rmax_left by lra. replace (1 * - real m + real m) with 0 by ring. apply rnd_0.
Qed.
Notation fmt := (generic_format radix2 (SpecFloat.fexp 53 1024)).
Lemma fmt_number x : number x -> fmt (real x).
Proof. intros (D & _). destruct (to_B x D) as (b & ->). rewrite real_B. apply generic_format_B2R. Qed.
Lemma fmt_1 : fmt 1.
Proof. rewrite <- one_is. apply fmt_number. exact (within_number _ _ one_within). Qed.
Lemma fmt_half : fmt (1 / 2).
Proof. replace (1/2) with (bpow radix2 (-1)) by (cbn; lra). apply generic_format_bpow. cbn. lia. Qed.
Lemma rnd_fmt r : fmt r -> rnd r = r.
Proof. intros F. apply round_generic; [typeclasses eauto|exact F]. Qed.
Lemma rnd_above x r : fmt x -> x <= r -> x <= rnd r.
Proof. intros F L. rewrite <- (rnd_fmt x F). apply rnd_le. exact L. Qed.
Lemma rnd_below x r : fmt x -> r <= x -> rnd r <= x.
Proof. intros F L. rewrite <- (rnd_fmt x F). apply rnd_le. exact L. Qed.
Lemma fmt_rnd r : fmt (rnd r).
Proof. apply generic_format_round; typeclasses eauto. Qed.
Lemma fmt_sub x y : fmt x -> fmt y -> y / 2 <= x <= 2 * y -> fmt (x - y).
Proof. intros X Y L. apply sterbenz; [typeclasses eauto|typeclasses eauto|exact X|exact Y|exact L]. Qed.
Lemma half_ulp t : 0 < t <= 1 / 2 -> Rabs (rnd (1 - t) - (1 - t)) <= / 2 ^ 54.
Proof.
  intros T. eapply Rle_trans; [apply error_le_half_ulp; typeclasses eauto|].
  rewrite ulp_neq_0 by lra. unfold cexp. rewrite (mag_unique radix2 (1 - t) 0).
  - change (SpecFloat.fexp 53 1024 0) with (-53)%Z. rewrite pow2. simpl. lra.
  - rewrite Rabs_pos_eq by lra. cbn. lra.
Qed.
Lemma turned_ok t : fmt t -> let r := Rmax 0 (turned t) in
  0 <= r <= 1 /\ Rabs (r - Rmax 0 (Rmin t 1)) <= / 2 ^ 54 /\ (t <= 0 \/ 1 / 2 <= t -> r = Rmax 0 (Rmin t 1)).
Proof.
  intros Ft r. assert (P54 : 0 < / 2 ^ 54) by (apply Rinv_0_lt_compat, pow_lt; lra).
  assert (Ex : t <= 0 \/ 1 / 2 <= t -> r = Rmax 0 (Rmin t 1)).
  { intros [L|L].
    - rewrite Rmin_left by lra. rewrite (Rmax_left 0 t) by lra. unfold r. apply Rmax_left. unfold turned. apply rnd_below; [apply generic_format_0|].
      assert (1 <= rnd (1 - t)) by (apply rnd_above; [exact fmt_1|lra]). pose proof (Rmax_r 0 (rnd (1 - t))). lra.
    - destruct (Rle_dec t 1) as [U|U].
      + assert (F : rnd (1 - t) = 1 - t) by (apply rnd_fmt, fmt_sub; [exact fmt_1|exact Ft|lra]).
        unfold r, turned. rewrite F, (Rmax_right 0 (1 - t)) by lra. replace (1 - (1 - t)) with t by ring. rewrite (rnd_fmt t Ft), Rmin_left by lra. reflexivity.
      + assert (F : rnd (1 - t) <= 0) by (rewrite <- rnd_0; apply rnd_le; lra).
        unfold r, turned. rewrite (Rmax_left 0 (rnd (1 - t))) by lra. rewrite Rminus_0_r, (rnd_fmt 1 fmt_1), Rmin_right by lra. reflexivity. }
  destruct (Rle_dec t 0) as [L|L]; [|destruct (Rle_dec (1 / 2) t) as [L'|L']].
  1, 2: rewrite Ex by tauto; split; [split; [apply Rmax_l|apply Rmax_lub; [lra|apply Rmin_r]]|split; [|reflexivity]];
    unfold Rminus; rewrite Rplus_opp_r, Rabs_R0; lra.
  split; [|split; [|exact Ex]]; clear Ex.
  - split; [apply Rmax_l|]. apply Rmax_lub; [lra|]. unfold turned. apply rnd_below; [exact fmt_1|]. pose proof (Rmax_l 0 (rnd (1 - t))). lra.
  - pose proof (half_ulp t ltac:(lra)) as H.
    assert (A : 1 / 2 <= rnd (1 - t)) by (apply rnd_above; [exact fmt_half|lra]).
    assert (B : rnd (1 - t) <= 1) by (apply rnd_below; [exact fmt_1|lra]).
    assert (F : fmt (1 - rnd (1 - t))) by (apply fmt_sub; [exact fmt_1|apply fmt_rnd|lra]).
    unfold r, turned. rewrite (Rmax_right 0 (rnd (1 - t))), (rnd_fmt _ F) by lra. rewrite (Rmax_right 0), Rmin_left, Rmax_right by lra.
    replace (1 - rnd (1 - t) - t) with (- (rnd (1 - t) - (1 - t))) by ring. rewrite Rabs_Ropp. exact H.
Qed.

(** A coordinate of the point measured to. *)
Lemma lerp_real a b r : within 1000 a -> within 1000 b -> within 1004 r -> 0 <= real r <= 1 ->
  let q := f64_add a (f64_mul r (f64_sub b a)) in
  within 1002 q /\ real q = rnd (real a + rnd (real r * rnd (real b - real a))).
Proof.
  intros A B W L q. unfold q. destruct (sub_real b a 1000 B A ltac:(lia)) as (Wd & Ed).
  destruct (mul_real r (f64_sub b a) 1001 (within_number _ _ W) (within_number _ _ Wd) ltac:(lia)) as (Wp & Ep).
  { destruct Wd as (_ & _ & Ld). change (1000 + 1)%Z with 1001%Z in Ld. rewrite <- pow2 in Ld. rewrite Rabs_mult, (Rabs_pos_eq (real r)) by lra.
    pose proof (Rabs_pos (real (f64_sub b a))). nra. }
  destruct (add_real a _ 1001 (within_up _ 1001 _ A ltac:(lia)) Wp ltac:(lia)) as (Wq & Eq).
  split; [exact Wq|]. rewrite Eq, Ep, Ed. reflexivity.
Qed.
Lemma lerp_near a b r : 0 <= r <= 1 ->
  Rabs (rnd (a + rnd (r * rnd (b - a))) - (a + r * (b - a))) <= roundoff * (Rabs a + 4 * Rabs (b - a)) + 3 * tiny.
Proof.
  intros L. set (d := b - a). pose proof roundoff_small as U. assert (P : 0 < tiny) by (unfold tiny; apply Rinv_0_lt_compat, pow_lt; lra).
  destruct (rnd_error d) as (e1 & t1 & A1 & B1 & C1). destruct (rnd_error (r * rnd d)) as (e2 & t2 & A2 & B2 & C2).
  destruct (rnd_error (a + rnd (r * rnd d))) as (e3 & t3 & A3 & B3 & C3). rewrite C3, C2, C1.
  pose proof (Rabs_pos d) as Pd. pose proof (Rabs_pos a) as Pa.
  set (E1 := d * e1 + t1). assert (H1 : Rabs E1 <= roundoff * Rabs d + / 2 * tiny).
  { unfold E1. eapply Rle_trans; [apply Rabs_triang|]. rewrite Rabs_mult. nra. }
  set (E2 := (r * (d + E1)) * e2 + t2). assert (Hd : Rabs (d + E1) <= (1 + roundoff) * Rabs d + / 2 * tiny).
  { eapply Rle_trans; [apply Rabs_triang|]. lra. }
  assert (Hr : Rabs (r * (d + E1)) <= (1 + roundoff) * Rabs d + / 2 * tiny).
  { rewrite Rabs_mult, (Rabs_pos_eq r) by lra. pose proof (Rabs_pos (d + E1)). nra. }
  assert (H2 : Rabs E2 <= roundoff * ((1 + roundoff) * Rabs d + / 2 * tiny) + / 2 * tiny).
  { unfold E2. eapply Rle_trans; [apply Rabs_triang|]. rewrite Rabs_mult, Rmult_comm. apply Rplus_le_compat; [|exact B2].
    apply Rmult_le_compat; auto using Rabs_pos. }
  set (p := r * (d + E1) + E2). assert (Hp : Rabs p <= (1 + roundoff) * Rabs d + / 2 * tiny + (roundoff * ((1 + roundoff) * Rabs d + / 2 * tiny) + / 2 * tiny)).
  { unfold p. eapply Rle_trans; [apply Rabs_triang|]. lra. }
  set (E3 := (a + p) * e3 + t3). assert (H3 : Rabs E3 <= roundoff * (Rabs a + ((1 + roundoff) * Rabs d + / 2 * tiny + (roundoff * ((1 + roundoff) * Rabs d + / 2 * tiny) + / 2 * tiny))) + / 2 * tiny).
  { unfold E3. eapply Rle_trans; [apply Rabs_triang|]. rewrite Rabs_mult, Rmult_comm. apply Rplus_le_compat; [|exact B3].
    apply Rmult_le_compat; auto using Rabs_pos. eapply Rle_trans; [apply Rabs_triang|]. lra. }
  replace ((a + (r * (d * (1 + e1) + t1) * (1 + e2) + t2)) * (1 + e3) + t3 - (a + r * d)) with (r * E1 + E2 + E3) by (unfold E3, p, E2, E1; ring).
  assert (H0 : Rabs (r * E1) <= roundoff * Rabs d + / 2 * tiny).
  { rewrite Rabs_mult, (Rabs_pos_eq r) by lra. pose proof (Rabs_pos E1). nra. }
  eapply Rle_trans; [eapply Rle_trans; [apply Rabs_triang|apply Rplus_le_compat_r, Rabs_triang]|].
  eapply Rle_trans; [apply Rplus_le_compat; [apply Rplus_le_compat; [exact H0|exact H2]|exact H3]|].
  set (u := roundoff) in *. set (D := Rabs d) in *. set (A := Rabs a) in *.
  assert (UU : 0 <= u * u * D) by nra. assert (UD : u * u * D <= / 1000000 * (u * D)) by nra. assert (UUU : u * u * u * D <= / 1000000 * (u * D)) by nra.
  assert (UT : u * tiny <= / 1000000 * tiny) by nra. assert (UUT : u * u * tiny <= / 1000000 * tiny) by nra. nra.
Qed.

Section Measure.
  Variables (fcos fsin : f64 -> f64) (fatan2 fhypot : f64 -> f64 -> f64).
  Local Instance A64 : Arith f64 := Arith_f64 fcos fsin fatan2 fhypot.
  Definition measured (s e p : Translation2 f64) : Translation2 f64 :=
    let r := bounded (along s e p) in
    mkTr (f64_add (tX s) (f64_mul r (f64_sub (tX e) (tX s)))) (f64_add (tY s) (f64_mul r (f64_sub (tY e) (tY s)))).
  Lemma measure_is s e p : LinePointDistance (fun x => x) (fun x => x) s e p = apart2 (measured s e p) p.
  Proof.
    cbv beta iota zeta delta [LinePointDistance lpd_max lpd_min lpd_lerp apart2 measured bounded half_step along tr_dot tr_sqnorm tr_add tr_map tr_neg tX tY
      A64 Arith_f64 nadd nsub nmul ndiv nneg nlit nsign]. reflexivity.
  Qed.
  Lemma coordinate a b t : within 1000 a -> within 1000 b -> within 1000 t ->
    let q := f64_add a (f64_mul (bounded t) (f64_sub b a)) in
    part_way a b (real (bounded t)) q /\ (real t <= 0 -> real q = real a).
  Proof.
    intros A B W q. destruct (bounded_real t W) as (Wr & Er).
    destruct (turned_ok (real t) (fmt_number _ (within_number _ _ W))) as (L & _ & Ex). rewrite <- Er in L, Ex.
    destruct (lerp_real a b (bounded t) A B Wr L) as (Wq & Eq). fold q in Wq, Eq. split.
    - split; [exact (within_fin _ _ Wq)|]. rewrite Eq. apply lerp_near. exact L.
    - intros T. rewrite Eq, (Ex (or_introl T)), Rmin_left, Rmax_left by lra.
      rewrite Rmult_0_l, rnd_0, Rplus_0_r. apply rnd_number. exact (within_number _ _ A).
  Qed.
  Lemma C133_measured_proof s e p : at_reach s -> at_reach e -> within 1000 (along s e p) ->
    let t := real (along s e p) in exists r q,
      LinePointDistance (fun x => x) (fun x => x) s e p = apart2 q p /\
      0 <= r <= 1 /\ Rabs (r - Rmax 0 (Rmin t 1)) <= / 2 ^ 54 /\ (t <= 0 \/ 1 / 2 <= t -> r = Rmax 0 (Rmin t 1)) /\
      part_way (tX s) (tX e) r (tX q) /\ part_way (tY s) (tY e) r (tY q) /\
      (t <= 0 -> real (tX q) = real (tX s) /\ real (tY q) = real (tY s)).
  Proof.
    intros (Sx & Sy) (Ex & Ey) W t. exists (real (bounded (along s e p))), (measured s e p).
    split; [apply measure_is|]. destruct (bounded_real _ W) as (_ & Er). fold t in Er.
    destruct (turned_ok t (fmt_number _ (within_number _ _ W))) as (L & H & X). rewrite <- Er in L, H, X.
    split; [exact L|]. split; [exact H|]. split; [exact X|].
    destruct (coordinate _ _ _ Sx Ex W) as (Px & Qx), (coordinate _ _ _ Sy Ey W) as (Py & Qy).
    split; [exact Px|]. split; [exact Py|]. intros T. split; [exact (Qx T)|exact (Qy T)].
  Qed.
End Measure.

Lemma within_small (s : bool) m e k : valid_binary 53 1024 (S754_finite s m e) = true -> (Zpos m <= 2 ^ 53)%Z -> (53 + e <= k)%Z -> within k (S754_finite s m e).
Proof.
  intros V M K. split; [exact V|]. split; [exact Logic.I|]. cbn [real]. rewrite <- !pow2.
  assert (P : 0 < IZR (Zpos m)) by (apply IZR_lt; lia). pose proof (bpow_gt_0 radix2 e) as E.
  assert (A : Rabs ((if s then -1 else 1) * IZR (Z.pos m) * bpow radix2 e) = IZR (Zpos m) * bpow radix2 e).
  { rewrite !Rabs_mult, (Rabs_pos_eq (IZR _)), (Rabs_pos_eq (bpow _ _)) by lra. destruct s; [rewrite Rabs_left by lra|rewrite Rabs_R1]; ring. }
  rewrite A. apply Rle_trans with (bpow radix2 (53 + e)); [|apply bpow_le; exact K].
  rewrite bpow_plus. apply Rmult_le_compat_r; [lra|]. change (bpow radix2 53) with (IZR (2 ^ 53)). apply IZR_le. exact M.
Qed.
Lemma within_zero s k : within k (S754_zero s).
Proof. split; [reflexivity|split; [exact Logic.I|]]. cbn [real]. rewrite Rabs_R0, <- pow2. apply bpow_ge_0. Qed.

(** The cases. *)
Definition spot (x : f64) : Translation2 f64 := mkTr x (S754_zero false).
Definition f8 : f64 := S754_finite false 4503599627370496 (-49).
Definition f4 : f64 := S754_finite false 4503599627370496 (-50).
Definition tenth : f64 := S754_finite false 7205759403792794 (-56).
Definition m1 : f64 := S754_finite true 4503599627370496 (-52).
Lemma spot_reach s m e : valid_binary 53 1024 (S754_finite s m e) = true -> (Zpos m <= 2 ^ 53)%Z -> (53 + e <= 1000)%Z -> at_reach (spot (S754_finite s m e)).
Proof. intros V M K. split; [apply within_small; assumption|apply within_zero]. Qed.
Lemma reach8 : at_reach (spot f8).
Proof. apply spot_reach; [reflexivity|lia|lia]. Qed.
Lemma reach4 : at_reach (spot f4).
Proof. apply spot_reach; [reflexivity|lia|lia]. Qed.
Lemma reach_tenth : at_reach (spot tenth).
Proof. apply spot_reach; [reflexivity|lia|lia]. Qed.
Lemma reach0 : at_reach (spot fzero).
Proof. split; apply within_zero. Qed.
Lemma along_end : within 1000 (along (spot f8) (spot tenth) (spot fzero)) /\ 1 <= real (along (spot f8) (spot tenth) (spot fzero)).
Proof.
  assert (A : along (spot f8) (spot tenth) (spot fzero) = S754_finite false 4560607217590376 (-52)) by (vm_compute; reflexivity).
  rewrite A. split; [apply within_small; [reflexivity|lia|lia]|]. cbn [real]. rewrite <- pow2.
  change (bpow radix2 (-52)) with (/ IZR 4503599627370496). lra.
Qed.
Lemma along_inside : within 1000 (along (spot fzero) (spot f4) (spot tenth)) /\ 0 < real (along (spot fzero) (spot f4) (spot tenth)) < 1 / 2.
Proof.
  assert (A : along (spot fzero) (spot f4) (spot tenth) = S754_finite false 7205759403792794 (-58)) by (vm_compute; reflexivity).
  rewrite A. split; [apply within_small; [reflexivity|lia|lia]|]. cbn [real]. rewrite <- pow2.
  change (bpow radix2 (-58)) with (/ IZR 288230376151711744). lra.
Qed.
Lemma along_before : within 1000 (along (spot fzero) (spot f4) (spot m1)) /\ real (along (spot fzero) (spot f4) (spot m1)) <= 0.
Proof.
  assert (A : along (spot fzero) (spot f4) (spot m1) = S754_finite true 4503599627370496 (-54)) by (vm_compute; reflexivity).
  rewrite A. split; [apply within_small; [reflexivity|lia|lia]|]. cbn [real]. rewrite <- pow2.
  change (bpow radix2 (-54)) with (/ IZR 18014398509481984). lra.
Qed.
Lemma C133_end_proof fcos fsin fatan2 fhypot : exists s e p, at_reach s /\ at_reach e /\ within 1000 (along s e p) /\ 1 <= real (along s e p) /\
  @LinePointDistance f64 f64 f64 (Arith_f64 fcos fsin fatan2 fhypot) (Arith_f64 fcos fsin fatan2 fhypot) (Arith_f64 fcos fsin fatan2 fhypot)
    (fun x => x) (fun x => x) s e p <> apart2 e p.
Proof.
  exists (spot f8), (spot tenth), (spot fzero). destruct along_end as (W & L).
  split; [exact reach8|]. split; [exact reach_tenth|]. split; [exact W|]. split; [exact L|].
  rewrite measure_is. intros H. vm_compute in H. discriminate H.
Qed.
Lemma inside_value fcos fsin fatan2 fhypot : @LinePointDistance f64 f64 f64 (Arith_f64 fcos fsin fatan2 fhypot) (Arith_f64 fcos fsin fatan2 fhypot) (Arith_f64 fcos fsin fatan2 fhypot)
  (fun x => x) (fun x => x) (spot fzero) (spot f4) (spot tenth) = S754_finite false 5066549580791808 (-159).
Proof. rewrite measure_is. vm_compute. reflexivity. Qed.
