(** Timestamps and interpolation in double precision: C83, C84. *)
From Coq Require Import List ZArith Reals SpecFloat Lia Lra Psatz.
Import ListNotations.
From Flocq Require Import Core BinarySingleNaN Plus_error Relative.
From Verif Require Import Outcome Num NumR NumF64 Util Builder Trajectory Spec SpecTrajectory SpecDouble DoubleFacts
  UtilFacts TrajectoryProofs.
Local Open Scope R_scope.

Lemma fle_trans a b c : is_double a -> is_double b -> is_double c -> fle a b -> fle b c -> fle a c.
Proof.
  intros (x & ->)%to_B (y & ->)%to_B (z & ->)%to_B (A & B & C)%fle_B (D & E & F)%fle_B.
  apply fle_B. repeat split; try assumption. lra.
Qed.
Lemma fle_refl a b : is_double a -> is_double b -> fle a b -> fle a a /\ fle b b.
Proof.
  intros (x & ->)%to_B (y & ->)%to_B (A & B & C)%fle_B. split; apply fle_B; repeat split; try assumption; lra.
Qed.
Lemma zero_B : fzero = B2SF (B754_zero false : B64).
Proof. reflexivity. Qed.
Lemma zero_double : is_double fzero.
Proof. reflexivity. Qed.
Lemma add_double a b : is_double a -> is_double b -> is_double (f64_add a b).
Proof. intros (x & ->)%to_B (y & ->)%to_B. rewrite add_B. apply of_B. Qed.
Lemma inf_of (b : B64) : is_finite b = false -> is_nan b = false -> 0 <= ext b -> b = B754_infinity false.
Proof. pose proof top_pos. destruct b as [|s| |]; try discriminate. destruct s; cbn; [lra|reflexivity]. Qed.
Lemma add_up t d : is_double t -> is_double d -> fle fzero t -> fle fzero d ->
  fle t (f64_add t d) /\ fle d (f64_add t d).
Proof.
  intros (x & ->)%to_B (y & ->)%to_B Hx Hy. rewrite zero_B in *. apply fle_B in Hx, Hy.
  destruct Hx as (_ & Nx & Px), Hy as (_ & Ny & Py). cbn [ext B2R] in Px, Py. rewrite add_B.
  destruct (is_finite x) eqn:Fx; [destruct (is_finite y) eqn:Fy|].
  - destruct (plus_ext x y Fx Fy) as (N & E).
    rewrite (ext_fin x Fx) in Px. rewrite (ext_fin y Fy) in Py.
    assert (X : clamp (rnd (B2R x)) = ext x).
    { rewrite rnd_B, <- ext_fin by assumption. apply clamp_id, ext_bound. }
    assert (Y : clamp (rnd (B2R y)) = ext y).
    { rewrite rnd_B, <- ext_fin by assumption. apply clamp_id, ext_bound. }
    split; apply fle_B; (split; [assumption|split; [assumption|]]); rewrite E; [rewrite <- X|rewrite <- Y]; apply clamp_mono, rnd_le; lra.
  - apply inf_of in Fy; [subst y|assumption..]. 
    assert (Q : Bplus mode_NE x (B754_infinity false) = B754_infinity false) by (destruct x; easy).
    rewrite Q. split; apply fle_B; repeat split; try assumption; try lra. apply ext_bound.
  - apply inf_of in Fx; [subst x|assumption..].
    assert (Q : Bplus mode_NE (B754_infinity false) y = B754_infinity false) by (destruct y as [|[]| |]; try easy; cbn in Py; pose proof top_pos; lra).
    rewrite Q. split; apply fle_B; repeat split; try assumption; try lra. apply ext_bound.
Qed.

Lemma sum_up l : forall t, is_double t -> fle fzero t -> Forall is_double l -> Forall (fle fzero) l ->
  is_double (fold_left f64_add l t) /\ fle t (fold_left f64_add l t).
Proof.
  induction l as [|d l IH]; intros t Dt Pt D P; cbn [fold_left].
  - split; [assumption|]. eapply fle_refl; [apply zero_double|eassumption|eassumption].
  - inversion D as [|? ? D1 D2]; inversion P as [|? ? P1 P2]; subst.
    destruct (add_up t d Dt D1 Pt P1) as (U & _).
    assert (Da := add_double t d Dt D1).
    destruct (IH _ Da) as (A & B); [eapply fle_trans; [apply zero_double|exact Dt| | |]; eassumption|assumption..|].
    split; [assumption|]. eapply fle_trans; [exact Dt|exact Da|exact A|exact U|exact B].
Qed.
Lemma fin_below a b : is_double a -> is_double b -> fle fzero a -> fle a b -> finite b -> finite a.
Proof.
  intros (x & ->)%to_B (y & ->)%to_B Hx Hy F. rewrite zero_B in *. apply fle_B in Hx, Hy. apply finite_B in F. apply finite_B.
  destruct Hx as (_ & N & P), Hy as (_ & _ & L). cbn [ext B2R] in P. destruct (is_finite x) eqn:Fx; [reflexivity|].
  apply inf_of in Fx; [subst x|assumption..]. pose proof (ext_lt y F). cbn [ext] in L. lra.
Qed.
Lemma real_pos a : is_double a -> fle fzero a -> 0 <= real a.
Proof.
  intros (x & ->)%to_B Hx. rewrite zero_B in *. apply fle_B in Hx. rewrite real_B. destruct Hx as (_ & N & P).
  destruct (is_finite x) eqn:Fx; [rewrite (ext_fin x Fx) in P; exact P|]. destruct x; try discriminate; cbn; lra.
Qed.
Lemma u_ro_eq : u_ro radix2 53 = roundoff.
Proof.
  unfold u_ro, roundoff. change (bpow radix2 (-53 + 1)) with (/ IZR (2 ^ 52)).
  change (2 ^ 53) with (2 * 2 ^ 52). rewrite (pow_IZR 2 52). change (2 ^ Z.of_nat 52)%Z with (2 ^ 52)%Z.
  rewrite Rinv_mult. reflexivity.
Qed.
Lemma roundoff_small : 0 < roundoff < / 1000000.
Proof. unfold roundoff. split; [apply Rinv_0_lt_compat, pow_lt; lra|]. apply Rinv_lt_contravar; [|]; [apply Rmult_lt_0_compat; [lra|apply pow_lt; lra]|]. cbn [pow]. lra. Qed.
(** One addition of doubles: relative error. *)
Lemma add_error t d : is_double t -> is_double d -> finite t -> finite d -> finite (f64_add t d) ->
  exists e, Rabs e <= roundoff /\ real (f64_add t d) = (real t + real d) * (1 + e).
Proof.
  intros (x & ->)%to_B (y & ->)%to_B. rewrite add_B, !finite_B, !real_B. intros Fx Fy Fz.
  destruct (plus_ext x y Fx Fy) as (_ & E). destruct (fin_ext _ _ Fz E) as (E' & _). rewrite E'.
  destruct (FLT_plus_error_N_ex radix2 (-1074) 53 (fun z => negb (Z.even z)) (B2R x) (B2R y)
    (generic_format_B2R 53 1024 x) (generic_format_B2R 53 1024 y)) as (e & B & Q).
  exists e. split; [|exact Q]. eapply Rle_trans; [exact B|]. rewrite u_ro_eq.
  pose proof roundoff_small as S. apply Rmult_le_reg_r with (1 + roundoff); [lra|].
  unfold Rdiv. rewrite Rmult_assoc, Rinv_l by lra. nra.
Qed.

Lemma firstn_S (A : Type) (l : list A) n x : nth_error l n = Some x -> firstn (S n) l = firstn n l ++ [x].
Proof.
  revert n. induction l as [|a l IH]; intros [|n] H; try discriminate; cbn in *; [congruence|]. f_equal. apply IH, H.
Qed.
Lemma Forall_firstn' (A : Type) (P : A -> Prop) l : Forall P l -> forall n, Forall P (firstn n l).
Proof. intros H. induction H as [|a l Ha Hl IH]; intros [|n]; cbn; auto. Qed.

Definition clock (l : list f64) (k : nat) : f64 := fold_left f64_add (firstn k l) fzero.
Lemma clock_S l k d : nth_error l k = Some d -> clock l (S k) = f64_add (clock l k) d.
Proof. intros H. unfold clock. rewrite (firstn_S _ _ _ _ H), fold_left_app. reflexivity. Qed.
Lemma zero_zero : fle fzero fzero.
Proof. reflexivity. Qed.
Lemma clock_ok l k : Forall is_double l -> Forall (fle fzero) l -> is_double (clock l k) /\ fle fzero (clock l k).
Proof. intros D P. apply sum_up; [reflexivity|reflexivity|apply Forall_firstn'; assumption..]. Qed.
Lemma clock_step l k d : Forall is_double l -> Forall (fle fzero) l -> nth_error l k = Some d ->
  fle (clock l k) (clock l (S k)) /\ fle d (clock l (S k)).
Proof.
  intros D P H. rewrite (clock_S _ _ _ H). destruct (clock_ok l k D P) as (A & B).
  pose proof (nth_error_In _ _ H) as I. rewrite Forall_forall in D, P. apply add_up; auto.
Qed.
Lemma clock_mono l j k : Forall is_double l -> Forall (fle fzero) l -> (j <= k <= length l)%nat -> fle (clock l j) (clock l k).
Proof.
  intros D P (J & K). induction J as [|k J IH].
  - destruct (clock_ok l j D P) as (A & B). eapply fle_refl; [apply zero_double|exact A|exact B].
  - destruct (nth_error l k) as [d|] eqn:E; [|apply nth_error_None in E; lia].
    apply fle_trans with (clock l k); [apply clock_ok; assumption..|apply IH; lia|apply (proj1 (clock_step l k d D P E))].
Qed.
Lemma sum_snoc l x : sum (l ++ [x]) = sum l + x.
Proof. rewrite sum_app. cbn [sum]. ring. Qed.
Lemma sum_nonneg l : Forall (fun x => 0 <= x) l -> 0 <= sum l.
Proof. induction 1; cbn [sum]; lra. Qed.
Lemma clock_error l k : Forall is_double l -> Forall (fle fzero) l -> (k <= length l)%nat -> finite (clock l k) ->
  Rabs (real (clock l k) - sum (map real (firstn k l))) <= ((1 + roundoff) ^ (k - 1) - 1) * sum (map real (firstn k l)).
Proof.
  intros D P. pose proof roundoff_small as U. induction k as [|k IH]; intros K F.
  { cbn [firstn map sum]. change (real (clock l 0)) with 0. rewrite Rminus_0_r, Rabs_R0. lra. }
  destruct (nth_error l k) as [d|] eqn:E; [|apply nth_error_None in E; lia].
  destruct (clock_step l k d D P E) as (S1 & S2). destruct (clock_ok l k D P) as (A & B). destruct (clock_ok l (S k) D P) as (A' & B').
  pose proof (nth_error_In _ _ E) as I. rewrite Forall_forall in D, P. pose proof (D d I) as Dd. pose proof (P d I) as Pd.
  pose proof (fin_below _ _ A A' B S1 F) as Fk. pose proof (fin_below _ _ Dd A' Pd S2 F) as Fd.
  specialize (IH ltac:(lia) Fk). rewrite (firstn_S _ _ _ _ E), map_app. cbn [map]. rewrite sum_snoc.
  set (S := sum (map real (firstn k l))) in *. rewrite (clock_S _ _ _ E) in *.
  pose proof (real_pos d Dd Pd) as R0.
  assert (R1 : 0 <= S).
  { apply sum_nonneg, Forall_map, Forall_firstn', Forall_forall. intros x X. apply real_pos; auto. }
  destruct k as [|k].
  - cbn [Nat.sub pow]. unfold S. cbn [firstn map sum].
    change (clock l 0) with fzero in *. 
    assert (Q : f64_add fzero d = d \/ real (f64_add fzero d) = real d) by (destruct d as [[]| | |]; cbn; auto).
    destruct Q as [->| ->]; replace (real d - (0 + real d)) with 0 by ring; rewrite Rabs_R0; lra.
  - destruct (add_error _ _ A Dd Fk Fd F) as (e & Be & ->). replace (Datatypes.S (Datatypes.S k) - 1)%nat with (Datatypes.S (Datatypes.S k - 1)) by lia.
    set (p := (Datatypes.S k - 1)%nat) in *. cbn [pow]. set (t := real (clock l (Datatypes.S k))) in *.
    assert (G : 1 <= (1 + roundoff) ^ p) by (apply pow_R1_Rle; lra). set (q := (1 + roundoff) ^ p) in *.
    replace ((t + real d) * (1 + e) - (S + real d)) with ((t - S) * (1 + e) + e * (S + real d)) by ring.
    eapply Rle_trans; [apply Rabs_triang|]. rewrite !Rabs_mult, (Rabs_pos_eq (S + real d)) by lra.
    assert (X : Rabs (1 + e) <= 1 + roundoff) by (eapply Rle_trans; [apply Rabs_triang|]; rewrite Rabs_R1; lra).
    apply Rle_trans with ((q - 1) * S * (1 + roundoff) + roundoff * (S + real d)).
    { apply Rplus_le_compat; [apply Rmult_le_compat; try apply Rabs_pos; assumption|apply Rmult_le_compat_r; lra]. }
    assert (0 <= (q - 1) * real d) by (apply Rmult_le_pos; lra). nra.
Qed.

Section WithLibm.
  Variables (fcos fsin : f64 -> f64) (fatan2 fhypot : f64 -> f64 -> f64).
  #[local] Instance A64 : Arith f64 := Arith_f64 fcos fsin fatan2 fhypot.

  Lemma stamps N m (s : solution f64) l : well_shaped N m s -> HolonomicTrajectory s = Ok l ->
    length l = S (length (s_dt s)) /\
    forall k p, nth_error l k = Some p -> (k <= length (s_dt s))%nat /\ h_timestamp p = clock (s_dt s) k.
  Proof.
    intros W E. pose proof W as (L0 & L1 & _). rewrite (trajectory_ok N m s W) in E. apply ok_inj in E. subst l.
    unfold last_sample in *. split; [rewrite map_length, seq_length, L0; reflexivity|].
    intros k p Hk. rewrite nth_error_map_seq in Hk. destruct (_ <? _)%nat eqn:B; [|discriminate].
    apply Nat.ltb_lt in B. injection Hk as <-. split; [lia|]. reflexivity.
  Qed.
  Lemma C83_order N m (s : solution f64) l : well_shaped N m s -> HolonomicTrajectory s = Ok l ->
    Forall is_double (s_dt s) -> Forall (fle fzero) (s_dt s) ->
    (forall p, nth_error l 0 = Some p -> h_timestamp p = fzero) /\
    (forall j k p q, (j <= k)%nat -> nth_error l j = Some p -> nth_error l k = Some q ->
       fle (h_timestamp p) (h_timestamp q)) /\
    (forall k p d, nth_error l (S k) = Some p -> nth_error (s_dt s) k = Some d -> fle d (h_timestamp p)).
  Proof.
    intros W E D P. destruct (stamps N m s l W E) as (L & T). split; [|split].
    - intros p H. apply (T _ _ H).
    - intros j k p q J Hp Hq. destruct (T _ _ Hp) as (_ & ->), (T _ _ Hq) as (K & ->). apply clock_mono; auto.
    - intros k p d Hp Hd. destruct (T _ _ Hp) as (_ & ->). apply clock_step; assumption.
  Qed.
  Lemma C83_error N m (s : solution f64) l : well_shaped N m s -> HolonomicTrajectory s = Ok l ->
    Forall is_double (s_dt s) -> Forall (fle fzero) (s_dt s) ->
    forall k p, nth_error l k = Some p -> finite (h_timestamp p) ->
    Rabs (real (h_timestamp p) - sum (map real (firstn k (s_dt s)))) <=
      ((1 + roundoff) ^ (k - 1) - 1) * sum (map real (firstn k (s_dt s))).
  Proof.
    intros W E D P k p Hp F. destruct (stamps N m s l W E) as (_ & T). destruct (T _ _ Hp) as (K & Q). rewrite Q in *.
    apply clock_error; assumption.
  Qed.
End WithLibm.

(** ** Interpolation *)
Lemma nat_B i : (Z.of_nat i <= 2 ^ 53)%Z -> exists b : B64, f64_ofZ (Z.of_nat i) = B2SF b /\ is_finite b = true /\ B2R b = INR i.
Proof.
  intros H. destruct (ofZ_exact (Z.of_nat i)) as (b & E & F & V); [lia|]. exists b. rewrite INR_IZR_INZ. auto.
Qed.
Lemma plus_mono (a p q : B64) : is_finite a = true -> is_nan p = false -> is_nan q = false -> ext p <= ext q ->
  is_nan (Bplus mode_NE a p) = false /\ is_nan (Bplus mode_NE a q) = false /\
  ext (Bplus mode_NE a p) <= ext (Bplus mode_NE a q).
Proof.
  intros Fa Np Nq L. pose proof top_pos as T.
  assert (I : forall x : B64, is_nan x = false -> is_finite x = false ->
    Bplus mode_NE a x = x /\ (ext x = top \/ ext x = - top)).
  { intros x N F. split; [|apply not_fin_ext; assumption]. destruct x; try discriminate. destruct a; try discriminate; reflexivity. }
  destruct (is_finite p) eqn:Fp, (is_finite q) eqn:Fq.
  - destruct (plus_ext a p Fa Fp) as (N1 & E1), (plus_ext a q Fa Fq) as (N2 & E2). split; [assumption|]. split; [assumption|].
    rewrite E1, E2. apply clamp_mono, rnd_le. rewrite !ext_fin in L by assumption. lra.
  - destruct (I q Nq Fq) as (Q & D). rewrite Q. destruct (plus_ext a p Fa Fp) as (N1 & _).
    split; [assumption|]. split; [assumption|]. destruct D as [D|D]; rewrite D in *; [apply ext_bound|]. pose proof (ext_lt p Fp). lra.
  - destruct (I p Np Fp) as (Q & D). rewrite Q. destruct (plus_ext a q Fa Fq) as (N1 & _).
    split; [assumption|]. split; [assumption|]. destruct D as [D|D]; rewrite D in *; [pose proof (ext_lt q Fq); lra|apply ext_bound].
  - destruct (I p Np Fp) as (-> & _), (I q Nq Fq) as (-> & _). auto.
Qed.
(** Small multiples and quotients of finite doubles. *)
Lemma quot_B (s n : B64) : is_finite s = true -> is_finite n = true -> 1 <= B2R n ->
  is_finite (Bdiv mode_NE s n) = true /\ B2R (Bdiv mode_NE s n) = rnd (B2R s / B2R n).
Proof.
  intros Fs Fn N. destruct (div_ext s n Fs Fn ltac:(lra)) as (A & E). apply clamp_fin; [assumption..|].
  pose proof (ext_lt s Fs) as L. rewrite ext_fin in L by assumption.
  assert (X : Rabs (B2R s / B2R n) <= Rabs (B2R s)).
  { unfold Rdiv. rewrite Rabs_mult, (Rabs_pos_eq (/ B2R n)) by (apply Rlt_le, Rinv_0_lt_compat; lra).
    rewrite <- (Rmult_1_r (Rabs (B2R s))) at 2. apply Rmult_le_compat_l; [apply Rabs_pos|].
    rewrite <- Rinv_1. apply Rinv_le_contravar; lra. }
  apply Rle_lt_trans with (Rabs (B2R s)); [|apply Rabs_def1; lra].
  apply Rabs_le. pose proof (Rabs_pos (B2R s)) as P.
  assert (Y : rnd (Rabs (B2R s)) = Rabs (B2R s)) by (apply round_generic; [typeclasses eauto|apply generic_format_abs, generic_format_B2R]).
  assert (Y' : rnd (- Rabs (B2R s)) = - Rabs (B2R s)) by (apply round_generic; [typeclasses eauto|apply generic_format_opp, generic_format_abs, generic_format_B2R]).
  apply Rabs_le_inv in X. split; [rewrite <- Y'|rewrite <- Y]; apply rnd_le; lra.
Qed.

Section Interpolation.
  Variables (fcos fsin : f64 -> f64) (fatan2 fhypot : f64 -> f64 -> f64).
  #[local] Instance A64' : Arith f64 := Arith_f64 fcos fsin fatan2 fhypot.

  Lemma entry a b n k v : nth_error (Linspace a b n) k = Some v ->
    (k < n)%nat /\ v = f64_add a (f64_mul (f64_ofZ (Z.of_nat (S k))) (f64_div (f64_sub b a) (f64_ofZ (Z.of_nat n)))).
  Proof.
    intros H. unfold Linspace in H. rewrite nth_error_map_seq in H. destruct (k <? n)%nat eqn:L; [|discriminate].
    apply Nat.ltb_lt in L. split; [assumption|]. injection H as <-. reflexivity.
  Qed.
  Lemma C84_order a b n : is_double a -> is_double b -> finite a -> finite b -> finite (f64_sub b a) ->
    (Z.of_nat n <= 2 ^ 53)%Z -> forall j k v w, (j <= k)%nat ->
    nth_error (Linspace a b n) j = Some v -> nth_error (Linspace a b n) k = Some w ->
    is_double v /\ is_double w /\
    (fle a b -> fle a v /\ fle v w) /\ (fle b a -> fle v a /\ fle w v).
  Proof.
    intros (x & ->)%to_B (y & ->)%to_B Fx Fy Fs Hn j k v w Hjk Hv Hw.
    apply entry in Hv as (Lj & ->). apply entry in Hw as (Lk & ->).
    apply finite_B in Fx, Fy. rewrite sub_B in *. apply finite_B in Fs. set (s := Bminus mode_NE y x) in *.
    destruct (minus_ext y x Fy Fx) as (_ & Es). fold s in Es. destruct (fin_ext s _ Fs Es) as (Vs & _).
    destruct (nat_B n Hn) as (bn & -> & Fn & Vn). destruct (nat_B (S j)) as (bj & -> & Fj & Vj); [lia|].
    destruct (nat_B (S k)) as (bk & -> & Fk & Vk); [lia|].
    assert (N1 : 1 <= INR n) by (change 1 with (INR 1); apply le_INR; lia).
    assert (J1 : 1 <= INR (S j)) by (change 1 with (INR 1); apply le_INR; lia).
    assert (JK : INR (S j) <= INR (S k)) by (apply le_INR; lia).
    rewrite div_B. destruct (quot_B s bn Fs Fn ltac:(rewrite Vn; exact N1)) as (Fq & Vq). set (q := Bdiv mode_NE s bn) in *.
    rewrite !mul_B, !add_B. destruct (mult_ext bj q Fj Fq) as (Nj & Ej), (mult_ext bk q Fk Fq) as (Nk & Ek).
    set (pj := Bmult mode_NE bj q) in *. set (pk := Bmult mode_NE bk q) in *.
    split; [apply of_B|]. split; [apply of_B|].
    set (z := B754_zero false : B64). assert (Ez : ext z = clamp (rnd 0)).
    { rewrite rnd_0, clamp_id; [reflexivity|]. pose proof top_pos. lra. }
    assert (Ax' : ext (Bplus mode_NE x z) = ext x).
    { destruct (plus_ext x z Fx eq_refl) as (_ & E). rewrite E. cbn [B2R z]. rewrite Rplus_0_r, rnd_B, <- ext_fin by assumption.
      apply clamp_id, ext_bound. }
    assert (Nx : is_nan x = false) by (destruct x; easy).
    assert (Iv : 0 < / INR n) by (apply Rinv_0_lt_compat; lra).
    split; intros (_ & _ & O)%fle_B; rewrite !ext_fin in O by assumption.
    - assert (S0 : 0 <= B2R s) by (rewrite Vs, <- rnd_0; apply rnd_le; lra).
      assert (Q0 : 0 <= B2R q) by (rewrite Vq, <- rnd_0, Vn; apply rnd_le; apply Rmult_le_pos; lra).
      assert (Z1 : ext z <= ext pj) by (rewrite Ez, Ej; apply clamp_mono, rnd_le; rewrite Vj; apply Rmult_le_pos; lra).
      assert (Z2 : ext pj <= ext pk) by (rewrite Ej, Ek; apply clamp_mono, rnd_le; rewrite Vj, Vk; apply Rmult_le_compat_r; lra).
      destruct (plus_mono x z pj Fx eq_refl Nj Z1) as (_ & A2 & A3), (plus_mono x pj pk Fx Nj Nk Z2) as (B1 & B2 & B3).
      rewrite Ax' in A3. split; apply fle_B; auto.
    - assert (S0 : B2R s <= 0) by (rewrite Vs, <- rnd_0; apply rnd_le; lra).
      assert (Q0 : B2R q <= 0) by (rewrite Vq, <- rnd_0, Vn; apply rnd_le; unfold Rdiv; nra).
      assert (Z1 : ext pj <= ext z) by (rewrite Ez, Ej; apply clamp_mono, rnd_le; rewrite Vj; nra).
      assert (Z2 : ext pk <= ext pj) by (rewrite Ej, Ek; apply clamp_mono, rnd_le; rewrite Vj, Vk; nra).
      destruct (plus_mono x pj z Fx Nj eq_refl Z1) as (A1 & _ & A3), (plus_mono x pk pj Fx Nk Nj Z2) as (B1 & B2 & B3).
      rewrite Ax' in A3. split; apply fle_B; auto.
  Qed.

  Lemma tiny_eq : bpow radix2 (-1074) = tiny.
  Proof.
    unfold tiny. change (-1074)%Z with (- (1074))%Z. rewrite (bpow_opp radix2 1074). f_equal. rewrite (pow_IZR 2 1074). reflexivity.
  Qed.
  Lemma rnd_error r : exists e t, Rabs e <= roundoff /\ Rabs t <= / 2 * tiny /\ rnd r = r * (1 + e) + t.
  Proof.
    destruct (error_N_FLT radix2 (-1074) 53 ltac:(lia) (fun z => negb (Z.even z)) r) as (e & t & A & B & _ & C).
    exists e, t. fold (u_ro radix2 53) in A. rewrite u_ro_eq in A. rewrite tiny_eq in B. auto.
  Qed.
  Lemma C84_error a b n : is_double a -> is_double b -> finite a -> finite b ->
    (Z.of_nat n <= 2 ^ 53)%Z -> forall k v, nth_error (Linspace a b n) k = Some v -> finite v ->
    Rabs (real v - (real a + INR (S k) * (real b - real a) / INR n)) <=
      roundoff * (Rabs (real a) + 5 * Rabs (real b - real a)) + (INR n + 2) * tiny.
  Proof.
    intros (x & ->)%to_B (y & ->)%to_B Fx Fy Hn k v Hv Fv. apply entry in Hv as (Lk & ->).
    apply finite_B in Fx, Fy. rewrite sub_B in *. set (s := Bminus mode_NE y x) in *.
    destruct (nat_B n Hn) as (bn & En & Fn & Vn). rewrite En in *. destruct (nat_B (S k)) as (bk & Ek & Fk & Vk); [lia|]. rewrite Ek in *.
    rewrite div_B, mul_B, add_B in *. apply finite_B in Fv. rewrite !real_B.
    assert (N1 : 1 <= INR n) by (change 1 with (INR 1); apply le_INR; lia).
    assert (K1 : 1 <= INR (S k)) by (change 1 with (INR 1); apply le_INR; lia).
    assert (KN : INR (S k) <= INR n) by (apply le_INR; lia).
    destruct (minus_ext y x Fy Fx) as (Ns & Es). fold s in Ns, Es.
    assert (Fs : is_finite s = true).
    { destruct (is_finite s) eqn:F; [reflexivity|]. exfalso. destruct s as [|z| |]; try discriminate.
      destruct bn as [|z'| |z' mn en Hbn]; try discriminate; [cbn [B2R] in Vn; lra|].
      destruct bk as [|z''| |z'' mk ek Hbk]; try discriminate; [cbn [B2R] in Vk; lra|].
      destruct x; discriminate. }
    destruct (fin_ext s _ Fs Es) as (Vs & _).
    destruct (quot_B s bn Fs Fn ltac:(rewrite Vn; exact N1)) as (Fq & Vq). set (q := Bdiv mode_NE s bn) in *.
    destruct (mult_ext bk q Fk Fq) as (Np & Ep). set (p := Bmult mode_NE bk q) in *.
    assert (Fp : is_finite p = true).
    { destruct (is_finite p) eqn:F; [reflexivity|]. exfalso. destruct p as [|z| |]; try discriminate. destruct x; discriminate. }
    destruct (fin_ext p _ Fp Ep) as (Vp & _). destruct (plus_ext x p Fx Fp) as (_ & Er). destruct (fin_ext _ _ Fv Er) as (-> & _).
    destruct (FLT_plus_error_N_ex radix2 (-1074) 53 (fun z => negb (Z.even z)) (B2R y) (- B2R x)
      (generic_format_B2R 53 1024 y) (generic_format_opp _ _ _ (generic_format_B2R 53 1024 x))) as (e1 & B1 & Q1).
    destruct (FLT_plus_error_N_ex radix2 (-1074) 53 (fun z => negb (Z.even z)) (B2R x) (B2R p)
      (generic_format_B2R 53 1024 x) (generic_format_B2R 53 1024 p)) as (e4 & B4 & Q4).
    pose proof roundoff_small as U.
    assert (SU : u_ro radix2 53 / (1 + u_ro radix2 53) <= roundoff).
    { rewrite u_ro_eq. apply Rmult_le_reg_r with (1 + roundoff); [lra|]. unfold Rdiv. rewrite Rmult_assoc, Rinv_l by lra. nra. }
    assert (B1' : Rabs e1 <= roundoff) by lra. assert (B4' : Rabs e4 <= roundoff) by lra. clear B1 B4.
    change (rnd (B2R x + B2R p) = (B2R x + B2R p) * (1 + e4)) in Q4. rewrite Q4.
    change (rnd (B2R y + - B2R x) = (B2R y + - B2R x) * (1 + e1)) in Q1. fold (B2R y - B2R x) in Q1. rewrite Q1 in Vs.
    destruct (rnd_error (B2R s / B2R bn)) as (e2 & t2 & B2 & T2 & Q2). rewrite Q2 in Vq.
    destruct (rnd_error (B2R bk * B2R q)) as (e3 & t3 & B3 & T3 & Q3). rewrite Q3 in Vp.
    rewrite Vp, Vq, Vs, Vn, Vk. clear Q1 Q2 Q3 Q4 Vp Vq Vs Vn Vk Er Ep Es En Ek SU.
    set (A := B2R x). set (D := B2R y - A). set (i := INR (S k)) in *. set (m := INR n) in *. set (u := roundoff) in *.
    assert (TP : 0 < tiny) by (unfold tiny; apply Rinv_0_lt_compat, pow_lt; lra). set (w := tiny) in *.
    clearbody A D i m u w. clear -U B1' B2 B3 B4' T2 T3 N1 K1 KN TP.
    set (c := i / m). assert (C : 0 <= c <= 1).
    { unfold c. split; [apply Rmult_le_pos; [lra|apply Rlt_le, Rinv_0_lt_compat; lra]|].
      apply Rmult_le_reg_r with m; [lra|]. unfold Rdiv. rewrite Rmult_assoc, Rinv_l by lra. lra. }
    replace ((A + (i * (D * (1 + e1) / m * (1 + e2) + t2) * (1 + e3) + t3)) * (1 + e4) - (A + i * D / m))
      with (A * e4 + D * c * ((1 + e1) * (1 + e2) * (1 + e3) * (1 + e4) - 1) + (i * t2 * (1 + e3) + t3) * (1 + e4))
      by (unfold c; field; lra).
    apply Rabs_le_inv in B1', B2, B3, B4'.
    assert (E : Rabs ((1 + e1) * (1 + e2) * (1 + e3) * (1 + e4) - 1) <= 5 * u).
    { assert (X1 : -21 / 10 * u <= (1 + e1) * (1 + e2) - 1 <= 21 / 10 * u) by (split; nra).
      assert (X2 : -21 / 10 * u <= (1 + e3) * (1 + e4) - 1 <= 21 / 10 * u) by (split; nra).
      set (f := (1 + e1) * (1 + e2) - 1) in *. set (g := (1 + e3) * (1 + e4) - 1) in *.
      replace ((1 + e1) * (1 + e2) * (1 + e3) * (1 + e4) - 1) with (f + g + f * g) by (unfold f, g; ring).
      clearbody f g. apply Rabs_le. split; nra. }
    assert (G : Rabs ((i * t2 * (1 + e3) + t3) * (1 + e4)) <= (m + 2) * w).
    { rewrite Rabs_mult. assert (Rabs (1 + e4) <= 11 / 10) by (apply Rabs_le; lra).
      assert (Rabs (i * t2 * (1 + e3) + t3) <= m * (/ 2 * w) * (11 / 10) + / 2 * w).
      { eapply Rle_trans; [apply Rabs_triang|]. apply Rplus_le_compat; [|assumption]. rewrite !Rabs_mult, (Rabs_pos_eq i) by lra.
        apply Rmult_le_compat; [apply Rmult_le_pos; [lra|apply Rabs_pos]|apply Rabs_pos| |apply Rabs_le; lra].
        apply Rmult_le_compat; try lra. apply Rabs_pos. }
      apply Rle_trans with ((m * (/ 2 * w) * (11 / 10) + / 2 * w) * (11 / 10)).
      { apply Rmult_le_compat; try apply Rabs_pos; assumption. }
      assert (0 < m * w) by (apply Rmult_lt_0_compat; lra). lra. }
    eapply Rle_trans; [apply Rabs_triang|]. apply Rplus_le_compat; [|exact G].
    eapply Rle_trans; [apply Rabs_triang|]. rewrite !Rabs_mult, (Rabs_pos_eq c) by lra.
    assert (Rabs e4 <= u) by (apply Rabs_le; lra). pose proof (Rabs_pos A). pose proof (Rabs_pos D).
    assert (Rabs A * Rabs e4 <= Rabs A * u) by (apply Rmult_le_compat_l; assumption).
    assert (Rabs D * c <= Rabs D) by nra.
    assert (Rabs D * c * Rabs ((1 + e1) * (1 + e2) * (1 + e3) * (1 + e4) - 1) <= Rabs D * (5 * u)).
    { apply Rmult_le_compat; try assumption; [apply Rmult_le_pos; lra|apply Rabs_pos]. }
    lra.
  Qed.
End Interpolation.
