(** Facts about double arithmetic, through Flocq's model of it. *)
From Coq Require Import List ZArith Reals SpecFloat Lia Lra Psatz.
Import ListNotations.
From Flocq Require Import Core BinarySingleNaN Plus_error Relative.
From Verif Require Import NumF64 SpecDouble.
Local Open Scope R_scope.

Notation B64 := (binary_float 53 1024).
#[export] Instance P53 : FLX.Prec_gt_0 53 := eq_refl _.
#[export] Instance P1024 : Prec_lt_emax 53 1024 := eq_refl _.
Notation rnd := (round radix2 (SpecFloat.fexp 53 1024) ZnearestE).

Lemma rne s m l : round_nearest_even m l = choice_mode mode_NE s m l.
Proof. case l; [reflexivity|intro c]. case c; [ | reflexivity..]. now simpl; unfold Round.cond_incr; case Z.even. Qed.
Lemma bra sx mx ex lx : SpecFloat.binary_round_aux 53 1024 sx mx ex lx = binary_round_aux 53 1024 mode_NE sx mx ex lx.
Proof.
  unfold SpecFloat.binary_round_aux, binary_round_aux. set (z := shr_fexp _ _ _).
  case z; intros a b; simpl. now rewrite (rne sx).
Qed.
Lemma br s m e : SpecFloat.binary_round 53 1024 s m e = binary_round 53 1024 mode_NE s m e.
Proof.
  unfold SpecFloat.binary_round, binary_round, shl_align_fexp.
  set (z := shl_align _ _ _); case z as [mz ez]. apply bra.
Qed.
Lemma bn m e s : SpecFloat.binary_normalize 53 1024 m e s = B2SF (binary_normalize 53 1024 P53 P1024 mode_NE m e s).
Proof. case m as [ | p | p]; [now simpl| |]; simpl; rewrite B2SF_SF2B; apply br. Qed.
Lemma add_B (x y : B64) : f64_add (B2SF x) (B2SF y) = B2SF (Bplus mode_NE x y).
Proof.
  unfold f64_add, fprec, femax. destruct x, y; try reflexivity; try (simpl; now case Bool.eqb). apply bn.
Qed.
Lemma sub_B (x y : B64) : f64_sub (B2SF x) (B2SF y) = B2SF (Bminus mode_NE x y).
Proof.
  unfold f64_sub, fprec, femax. destruct x, y; try reflexivity; try (simpl; now case Bool.eqb).
  simpl. unfold Zminus. rewrite <- cond_Zopp_negb. apply bn.
Qed.
Lemma mul_B (x y : B64) : f64_mul (B2SF x) (B2SF y) = B2SF (Bmult mode_NE x y).
Proof.
  unfold f64_mul, fprec, femax. destruct x, y; try reflexivity. simpl. rewrite B2SF_SF2B. apply bra.
Qed.
Lemma div_B (x y : B64) : f64_div (B2SF x) (B2SF y) = B2SF (Bdiv mode_NE x y).
Proof.
  unfold f64_div, fprec, femax. destruct x, y; try reflexivity. simpl. rewrite B2SF_SF2B.
  set (z := SFdiv_core_binary _ _ _ _ _ _). case z as [[mz ez] lz]. apply bra.
Qed.
Lemma ofZ_B z : f64_ofZ z = B2SF (binary_normalize 53 1024 P53 P1024 mode_NE z 0 false).
Proof. apply bn. Qed.
Lemma to_B x : is_double x -> exists b : B64, x = B2SF b.
Proof. intros H. exists (SF2B x H). symmetry. apply B2SF_SF2B. Qed.
Lemma of_B (b : B64) : is_double (B2SF b).
Proof. apply valid_binary_B2SF. Qed.
Lemma pow2 e : bpow radix2 e = powerRZ 2 e.
Proof. apply bpow_powerRZ. Qed.
Lemma real_B (b : B64) : real (B2SF b) = B2R b.
Proof.
  destruct b as [| | |s m e H]; try reflexivity. unfold real, B2SF, B2R, F2R. cbn [Fnum Fexp]. rewrite pow2.
  destruct s; cbn [cond_Zopp Z.opp]; cbv iota.
  - change (IZR (Z.neg m)) with (- IZR (Z.pos m)). ring.
  - ring.
Qed.
Lemma finite_B (b : B64) : finite (B2SF b) <-> is_finite b = true.
Proof. destruct b; cbn; split; (easy || trivial). Qed.

(** Order of doubles as order of reals, infinities at +-2^1024. *)
Definition top : R := bpow radix2 1024.
Definition ext (b : B64) : R :=
  match b with B754_infinity s => if s then - top else top | _ => B2R b end.
Definition clamp (r : R) : R := Rmax (- top) (Rmin top r).
Lemma top_pos : 0 < top.
Proof. apply bpow_gt_0. Qed.
Lemma ext_fin (b : B64) : is_finite b = true -> ext b = B2R b.
Proof. destruct b; easy. Qed.
Lemma ext_bound (b : B64) : - top <= ext b <= top.
Proof.
  pose proof top_pos as T. destruct b as [|s| |s m e H] eqn:E; try (cbn; lra); try (destruct s; cbn; lra).
  rewrite ext_fin by easy. pose proof (abs_B2R_lt_emax 53 1024 (B754_finite s m e H)) as A. fold top in A.
  apply Rabs_def2 in A. lra.
Qed.
Lemma ext_lt (b : B64) : is_finite b = true -> - top < ext b < top.
Proof.
  intros F. rewrite ext_fin by easy. pose proof (abs_B2R_lt_emax 53 1024 b) as A. fold top in A.
  apply Rabs_def2 in A. lra.
Qed.
Lemma clamp_mono a b : a <= b -> clamp a <= clamp b.
Proof. intros H. unfold clamp. apply Rle_max_compat_l. apply Rle_min_compat_l, H. Qed.
Lemma clamp_id a : - top <= a <= top -> clamp a = a.
Proof. intros H. unfold clamp. rewrite Rmin_right, Rmax_right; lra. Qed.
Lemma fle_B (a b : B64) : fle (B2SF a) (B2SF b) <-> is_nan a = false /\ is_nan b = false /\ ext a <= ext b.
Proof.
  pose proof top_pos as T. change (fle (B2SF a) (B2SF b)) with (Bleb a b = true).
  destruct (is_finite a) eqn:Fa, (is_finite b) eqn:Fb.
  - rewrite Bleb_correct by assumption. rewrite !ext_fin by assumption.
    split; [intros H|intros (_ & _ & H)].
    + split; [destruct a; easy|]. split; [destruct b; easy|]. revert H. case Rle_bool_spec; easy.
    + apply Rle_bool_true, H.
  - pose proof (ext_lt a Fa) as L. destruct b as [|s| |]; try discriminate.
    + destruct s; cbn [ext is_nan]; destruct a as [sa|sa| |sa ma ea Ha]; try discriminate; cbn; split; try easy; try (intros (_ & _ & H); cbn in *; lra); intros _; repeat split; cbn in L |- *; try lra; try destruct sa; cbn in *; lra.
    + split; [|easy]. destruct a as [sa|sa| |sa ma ea Ha]; try discriminate; cbn; easy.
  - pose proof (ext_lt b Fb) as L. destruct a as [|s| |]; try discriminate.
    + destruct s; cbn [ext is_nan]; destruct b as [sa|sa| |sa ma ea Ha]; try discriminate; cbn; split; try easy; try (intros (_ & _ & H); cbn in *; lra); intros _; repeat split; cbn in L |- *; try lra.
    + split; [|easy]. destruct b as [sa|sa| |sa ma ea Ha]; try discriminate; cbn; easy.
  - destruct a as [|s| |], b as [|s'| |]; try discriminate; try (split; easy).
    destruct s, s'; cbn; split; try easy; try (intros (_ & _ & H); lra); intros _; repeat split; lra.
Qed.
Lemma clamp_rnd r : rnd r = rnd r -> Rabs (rnd r) < top -> clamp (rnd r) = rnd r.
Proof. intros _ H. apply Rabs_def2 in H. apply clamp_id. lra. Qed.
Lemma over_ext (z : B64) s r : B2SF z = binary_overflow 53 1024 mode_NE s ->
  top <= Rabs (rnd r) -> (if s then r <= 0 else 0 <= r) ->
  is_nan z = false /\ ext z = clamp (rnd r).
Proof.
  intros E L S. cbn in E. destruct z as [|s'| |]; try discriminate. injection E as ->. split; [reflexivity|].
  assert (Z : rnd 0 = 0) by (apply round_0; typeclasses eauto). pose proof top_pos as T.
  destruct s; cbn [ext].
  - assert (rnd r <= 0) by (rewrite <- Z; apply round_le; [typeclasses eauto..|exact S]).
    rewrite Rabs_left1 in L by assumption. unfold clamp. rewrite Rmin_right, Rmax_left; lra.
  - assert (0 <= rnd r) by (rewrite <- Z; apply round_le; [typeclasses eauto..|exact S]).
    rewrite Rabs_pos_eq in L by assumption. unfold clamp. rewrite Rmin_left, Rmax_right; lra.
Qed.
Lemma sign_B (x : B64) : if Bsign x then B2R x <= 0 else 0 <= B2R x.
Proof.
  destruct x as [s|s| |s m e H]; try (cbn; destruct s; lra); [cbn; lra|].
  cbn [Bsign]. unfold B2R. destruct s; [apply F2R_le_0|apply F2R_ge_0]; cbn; lia.
Qed.
Lemma plus_ext (x y : B64) : is_finite x = true -> is_finite y = true ->
  is_nan (Bplus mode_NE x y) = false /\ ext (Bplus mode_NE x y) = clamp (rnd (B2R x + B2R y)).
Proof.
  intros Fx Fy. pose proof (Bplus_correct 53 1024 P53 P1024 mode_NE x y Fx Fy) as H. cbn [round_mode] in H.
  fold top in H. revert H. case Rlt_bool_spec; intros L H.
  - destruct H as (E & F & _). split; [destruct (Bplus mode_NE x y); easy|].
    rewrite ext_fin by assumption. rewrite E. symmetry. apply clamp_rnd; easy.
  - destruct H as (E & S). eapply over_ext; [exact E|exact L|].
    pose proof (sign_B x) as X. pose proof (sign_B y) as Y. rewrite <- S in Y. destruct (Bsign x); lra.
Qed.
Lemma minus_ext (x y : B64) : is_finite x = true -> is_finite y = true ->
  is_nan (Bminus mode_NE x y) = false /\ ext (Bminus mode_NE x y) = clamp (rnd (B2R x - B2R y)).
Proof.
  intros Fx Fy. pose proof (Bminus_correct 53 1024 P53 P1024 mode_NE x y Fx Fy) as H. cbn [round_mode] in H.
  fold top in H. revert H. case Rlt_bool_spec; intros L H.
  - destruct H as (E & F & _). split; [destruct (Bminus mode_NE x y); easy|].
    rewrite ext_fin by assumption. rewrite E. symmetry. apply clamp_rnd; easy.
  - destruct H as (E & S). eapply over_ext; [exact E|exact L|].
    pose proof (sign_B x) as X. pose proof (sign_B y) as Y. rewrite S in X. rewrite S. destruct (Bsign y); cbn [negb] in *; lra.
Qed.
Lemma mult_ext (x y : B64) : is_finite x = true -> is_finite y = true ->
  is_nan (Bmult mode_NE x y) = false /\ ext (Bmult mode_NE x y) = clamp (rnd (B2R x * B2R y)).
Proof.
  intros Fx Fy. pose proof (Bmult_correct 53 1024 P53 P1024 mode_NE x y) as H. cbn [round_mode] in H.
  fold top in H. revert H. case Rlt_bool_spec; intros L H.
  - destruct H as (E & F & _). rewrite Fx, Fy in F. cbn in F. split; [destruct (Bmult mode_NE x y); easy|].
    rewrite ext_fin by assumption. rewrite E. symmetry. apply clamp_rnd; easy.
  - eapply over_ext; [exact H|exact L|].
    pose proof (sign_B x) as X. pose proof (sign_B y) as Y. destruct (Bsign x), (Bsign y); cbn [xorb] in *; nra.
Qed.
Lemma div_ext (x y : B64) : is_finite x = true -> is_finite y = true -> B2R y <> 0 ->
  is_nan (Bdiv mode_NE x y) = false /\ ext (Bdiv mode_NE x y) = clamp (rnd (B2R x / B2R y)).
Proof.
  intros Fx Fy N. pose proof (Bdiv_correct 53 1024 P53 P1024 mode_NE x y N) as H. cbn [round_mode] in H.
  fold top in H. revert H. case Rlt_bool_spec; intros L H.
  - destruct H as (E & F & _). rewrite Fx in F. split; [destruct (Bdiv mode_NE x y); easy|].
    rewrite ext_fin by assumption. rewrite E. symmetry. apply clamp_rnd; easy.
  - eapply over_ext; [exact H|exact L|].
    pose proof (sign_B x) as X. pose proof (sign_B y) as Y.
    assert (I : if Bsign y then / B2R y <= 0 else 0 <= / B2R y).
    { destruct (Bsign y); [apply Rlt_le, Rinv_lt_0_compat|apply Rlt_le, Rinv_0_lt_compat]; lra. }
    unfold Rdiv. destruct (Bsign x), (Bsign y); cbn [xorb] in *; nra.
Qed.
Lemma fin_ext (z : B64) r : is_finite z = true -> ext z = clamp r -> B2R z = r /\ Rabs r < top.
Proof.
  intros F E. pose proof (ext_lt z F) as L. pose proof top_pos as T. rewrite ext_fin in * by assumption. unfold clamp in E.
  unfold Rmax, Rmin in E. destruct (Rle_dec top r); destruct Rle_dec in E; try lra.
  split; [lra|]. apply Rabs_def1; lra.
Qed.
Lemma not_fin_ext (z : B64) : is_nan z = false -> is_finite z = false -> ext z = top \/ ext z = - top.
Proof. destruct z as [|s| |]; try discriminate. destruct s; cbn; auto. Qed.
Lemma clamp_fin (z : B64) r : is_nan z = false -> ext z = clamp r -> Rabs r < top -> is_finite z = true /\ B2R z = r.
Proof.
  intros N E L. apply Rabs_def2 in L. rewrite clamp_id in E by lra.
  destruct (is_finite z) eqn:F.
  - rewrite ext_fin in E by assumption. auto.
  - destruct (not_fin_ext z N F); lra.
Qed.
Lemma rnd_le a b : a <= b -> rnd a <= rnd b.
Proof. apply round_le; typeclasses eauto. Qed.
Lemma rnd_0 : rnd 0 = 0.
Proof. apply round_0; typeclasses eauto. Qed.
Lemma rnd_B (b : B64) : rnd (B2R b) = B2R b.
Proof. apply round_generic; [typeclasses eauto|apply generic_format_B2R]. Qed.
Lemma ofZ_exact z : (Z.abs z <= 2 ^ 53)%Z ->
  exists b : B64, f64_ofZ z = B2SF b /\ is_finite b = true /\ B2R b = IZR z.
Proof.
  intros L. exists (binary_normalize 53 1024 P53 P1024 mode_NE z 0 false). split; [apply ofZ_B|].
  pose proof (binary_normalize_correct 53 1024 P53 P1024 mode_NE z 0 false) as H. cbn [round_mode] in H.
  assert (E : F2R (Float radix2 z 0) = IZR z) by (unfold F2R; cbn; ring). rewrite E in H.
  assert (G : rnd (IZR z) = IZR z).
  { apply round_generic; [typeclasses eauto|]. 
    destruct (Z.eq_dec (Z.abs z) (2 ^ 53)) as [Q|Q].
    - assert (P : generic_format radix2 (SpecFloat.fexp 53 1024) (IZR (2 ^ 53))).
      { change (IZR (2 ^ 53)) with (bpow radix2 53). apply generic_format_bpow. cbn. lia. }
      destruct (Z.abs_spec z) as [[_ A]|[_ A]]; [replace z with (2 ^ 53)%Z by lia|replace z with (- 2 ^ 53)%Z by lia; rewrite opp_IZR; apply generic_format_opp]; exact P.
    - rewrite <- E. apply generic_format_F2R. intros NZ. unfold cexp. rewrite mag_F2R_Zdigits by assumption.
      assert (L' : (Z.abs z < 2 ^ 53)%Z) by (apply Z.le_neq; auto).
      assert (D : (Zdigits radix2 z <= 53)%Z) by (apply Zdigits_le_Zpower; exact L').
      unfold SpecFloat.fexp, emin. lia. }
  rewrite G in H. rewrite Rlt_bool_true in H; [easy|].
  rewrite <- abs_IZR. change (bpow radix2 1024) with (IZR (2 ^ 1024)). apply IZR_lt.
  apply Z.le_lt_trans with (2 ^ 53)%Z; [exact L|]. reflexivity.
Qed.
