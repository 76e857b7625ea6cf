(** A problem of doubles, read over the reals. *)
From Coq Require Import List Lia Lra Psatz Reals SpecFloat.
Import ListNotations.
From Flocq Require Import Core BinarySingleNaN Plus_error.
From Verif Require Import Outcome Num NumR NumF64 Geometry Expr Constraints Util Builder Guess Generator
  Spec SpecBuilder SpecPhysics SpecTrajectory SpecDouble SpecRounding Semantics
  UtilFacts GeometryFacts BuilderFacts BuilderHistory ConstraintFacts ConstraintProofs GuessFacts GuessProofs GeneratorFacts
  SeedFacts FeasibleFacts GeneratorProofs DoubleFacts DoubleProofs DoubleGuess WidthProofs.
Local Open Scope R_scope.

(** ** Constants *)
Lemma constant_fin k : finite k -> constant k = EConst (real k).
Proof. destruct k; simpl; intros F; try contradiction; reflexivity. Qed.
Lemma exact_le a k : finite k -> exact_constraint (CLe a (EConst k)) = CLe (exactly a) (EConst (real k)).
Proof. destruct k; simpl; intros F; try contradiction; reflexivity. Qed.
Lemma exact_ge a k : finite k -> exact_constraint (CGe a (EConst k)) = CGe (exactly a) (EConst (real k)).
Proof. destruct k; simpl; intros F; try contradiction; reflexivity. Qed.
Lemma lit_0 : constant (f64_lit 0) = EConst (Q2R 0).
Proof. rewrite Q2R_0. vm_compute. reflexivity. Qed.
Lemma lit_pow (s : bool) e : real (S754_finite s 4503599627370496 e) = (if s then -1 else 1) * powerRZ 2 (52 + e).
Proof.
  unfold real.
  rewrite powerRZ_add by lra. replace (powerRZ 2 52) with (IZR (Zpos 4503599627370496)); [ring|].
  rewrite <- pow2. reflexivity.
Qed.
Lemma lit_1 : constant (f64_lit 1) = EConst (Q2R 1).
Proof.
  rewrite Q2R_1. assert (E : f64_lit 1 = S754_finite false 4503599627370496 (-52)) by (vm_compute; reflexivity).
  rewrite E, constant_fin by exact Logic.I. rewrite lit_pow. simpl. f_equal. lra.
Qed.
Lemma lit_half : constant (f64_lit (1 # 2)) = EConst (Q2R (1 # 2)).
Proof.
  rewrite Q2R_half. assert (E : f64_lit (1 # 2) = S754_finite false 4503599627370496 (-53)) by (vm_compute; reflexivity).
  rewrite E, constant_fin by exact Logic.I. rewrite lit_pow. simpl. f_equal. lra.
Qed.
Lemma lit_mhalf : constant (f64_lit (-1 # 2)) = EConst (Q2R (-1 # 2)).
Proof.
  rewrite Q2R_mhalf. assert (E : f64_lit (-1 # 2) = S754_finite true 4503599627370496 (-53)) by (vm_compute; reflexivity).
  rewrite E, constant_fin by exact Logic.I. rewrite lit_pow. simpl. f_equal. lra.
Qed.
Lemma real_opp k : real (SFopp k) = - real k.
Proof. destruct k as [| | |[] m e]; simpl; ring. Qed.
Lemma finite_opp k : finite k -> finite (SFopp k).
Proof. destruct k; simpl; tauto. Qed.
Lemma lit0_eq : f64_lit 0 = S754_zero false.
Proof. vm_compute. reflexivity. Qed.
Lemma real_zero k : is_double k -> finite k -> real k = 0 -> exists s, k = S754_zero s.
Proof.
  destruct k as [s| | |s m e]; simpl; intros D F E; try contradiction; [eauto|].
  exfalso. assert (0 < IZR (Zpos m)) by (apply IZR_lt; lia). assert (0 < powerRZ 2 e) by (apply powerRZ_lt; lra).
  destruct s; nra.
Qed.
Lemma eqb_zero k : is_double k -> finite k -> SFeqb k (f64_lit 0) = Reqb (real k) 0.
Proof.
  intros D F. rewrite lit0_eq. unfold Reqb. destruct (Req_EM_T (real k) 0) as [E|E].
  - destruct (real_zero k D F E) as (s & ->). reflexivity.
  - destruct k as [s| | |s m e]; simpl in *; try contradiction. destruct s; reflexivity.
Qed.

(** ** Rounded operations *)
Lemma mul_real x y k : number x -> number y -> (-1074 <= k <= 1023)%Z -> Rabs (real x * real y) <= bpow radix2 k ->
  within k (f64_mul x y) /\ real (f64_mul x y) = rnd (real x * real y).
Proof.
  intros (Dx & Fx) (Dy & Fy) K L. destruct (to_B x Dx) as (a & ->). destruct (to_B y Dy) as (b & ->).
  rewrite finite_B in Fx, Fy. rewrite !real_B in *. rewrite mul_B. destruct (mult_ext a b Fx Fy) as [N E].
  destruct (size_fin _ _ k K N E L) as (F & V & S). rewrite real_B. split; [apply within_B; auto|exact V].
Qed.
Lemma div_real x y k : number x -> number y -> real y <> 0 -> (-1074 <= k <= 1023)%Z -> Rabs (real x / real y) <= bpow radix2 k ->
  within k (f64_div x y) /\ real (f64_div x y) = rnd (real x / real y).
Proof.
  intros (Dx & Fx) (Dy & Fy) Z K L. destruct (to_B x Dx) as (a & ->). destruct (to_B y Dy) as (b & ->).
  rewrite finite_B in Fx, Fy. rewrite !real_B in *. rewrite div_B. destruct (div_ext a b Fx Fy Z) as [N E].
  destruct (size_fin _ _ k K N E L) as (F & V & S). rewrite real_B. split; [apply within_B; auto|exact V].
Qed.
Lemma sub_real x y k : within k x -> within k y -> (-1074 <= k < 1023)%Z ->
  within (k + 1) (f64_sub x y) /\ real (f64_sub x y) = rnd (real x - real y).
Proof.
  intros X Y K. split; [apply within_sub; assumption|].
  destruct (to_B x (within_double _ _ X)) as (a & ->). destruct (to_B y (within_double _ _ Y)) as (b & ->).
  apply within_B in X, Y. destruct X as [Fx Bx], Y as [Fy By]. rewrite sub_B, !real_B. destruct (minus_ext a b Fx Fy) as [N E].
  destruct (size_fin _ _ (k + 1) ltac:(lia) N E) as (F & V & S); [|exact V].
  rewrite <- double_pow. unfold Rminus. eapply Rle_trans; [apply Rabs_triang|]. rewrite Rabs_Ropp. lra.
Qed.
Lemma sub_zero x y k : within k x -> within k y -> (-1074 <= k < 1023)%Z -> real (f64_sub x y) = 0 <-> real x = real y.
Proof.
  intros X Y K. destruct (sub_real x y k X Y K) as (_ & ->). split.
  - intros Z. destruct (Req_dec (real x) (real y)) as [|N]; [assumption|exfalso]. revert Z.
    destruct (to_B x (within_double _ _ X)) as (a & ->). destruct (to_B y (within_double _ _ Y)) as (b & ->).
    rewrite !real_B in *. apply round_plus_neq_0; try typeclasses eauto.
    + apply generic_format_B2R.
    + apply generic_format_opp, generic_format_B2R.
    + lra.
  - intros ->. replace (real y - real y) with 0 by ring. apply rnd_0.
Qed.
Lemma square_real v k : within k v -> (-1074 <= k + k <= 1023)%Z ->
  finite (f64_mul v v) /\ real (f64_mul v v) = rnd (real v * real v) /\ 0 <= real (f64_mul v v).
Proof.
  intros (D & F & L) K. rewrite <- pow2 in L.
  destruct (mul_real v v (k + k) (conj D F) (conj D F) K) as (W & E).
  { rewrite Rabs_mult, bpow_plus. apply Rmult_le_compat; auto using Rabs_pos. }
  split; [exact (within_fin _ _ W)|]. split; [exact E|]. rewrite E, <- rnd_0. apply rnd_le. nra.
Qed.
Lemma real_abs k : real (SFabs k) = Rabs (real k).
Proof.
  destruct k as [| | |s m e]; simpl; try (symmetry; apply Rabs_R0).
  assert (0 < IZR (Zpos m)) by (apply IZR_lt; lia). assert (0 < powerRZ 2 e) by (apply powerRZ_lt; lra).
  destruct s; [rewrite Rabs_left by nra|rewrite Rabs_right by nra]; ring.
Qed.
Lemma finite_abs k : finite k -> finite (SFabs k).
Proof. destruct k; simpl; tauto. Qed.
Lemma double_abs k : is_double k -> is_double (SFabs k).
Proof. destruct k; simpl; unfold is_double; simpl; tauto. Qed.
Lemma fle_real a b : number a -> number b -> fle a b <-> real a <= real b.
Proof.
  intros (Da & Fa) (Db & Fb). destruct (to_B a Da) as (x & ->). destruct (to_B b Db) as (y & ->).
  rewrite finite_B in Fa, Fb. rewrite fle_B, !real_B, !ext_fin by assumption.
  destruct x, y; try discriminate; cbn; tauto.
Qed.
Lemma flt_zero d : number d -> flt fzero d <-> 0 < real d.
Proof.
  intros (D & F). destruct d as [s| | |s m e]; simpl in F; try contradiction; unfold flt, SFltb, fzero; cbn.
  - split; [discriminate|lra].
  - assert (0 < IZR (Zpos m)) by (apply IZR_lt; lia). assert (0 < powerRZ 2 e) by (apply powerRZ_lt; lra).
    destruct s; split; try discriminate; intros; try reflexivity; nra.
Qed.

Opaque f64_lit f64_mul f64_sub f64_add f64_div SFopp SFeqb.

Section Maps.
  Variables (fcos fsin : f64 -> f64) (fatan2 fhypot : f64 -> f64 -> f64).
  Local Instance A64 : Arith f64 := Arith_f64 fcos fsin fatan2 fhypot.

  Ltac lits := repeat first [rewrite lit_0 | rewrite lit_1 | rewrite lit_half | rewrite lit_mhalf].

  Lemma kin_map T m s i : map exact_constraint (@kin_cons f64 A64 T m s i) = @kin_cons R _ T m s i.
  Proof.
    unfold kin_cons, tr_eq, rot_eq, pos, vel, acc, heading, sv, dtv. cbn. lits. reflexivity.
  Qed.
  Lemma nonneg_map T m s : exact_constraint (CGe (@dtv f64 T m s) (nlit 0)) = CGe (@dtv R T m s) (nlit 0).
  Proof.
    change (@nlit (expr f64) _ 0) with (EConst (f64_lit 0)). rewrite exact_ge by (rewrite lit0_eq; exact Logic.I).
    rewrite lit0_eq. cbn [real exactly dtv]. change (@nlit (expr R) _ 0) with (EConst (Q2R 0)). rewrite Q2R_0. reflexivity.
  Qed.

  (** ** Dynamics *)
  Definition effective_module (md : swerve_module f64) : swerve_module R :=
    mkModule (real_point (m_translation md)) 1 (l_speed computed md) (l_force computed md).
  Definition effective (d : drivetrain f64) : drivetrain R :=
    mkDrivetrain (real (d_mass d)) (real (d_moi d)) (map effective_module (d_modules d)).

  Lemma exactly_fold (g : nat -> expr f64) (g' : nat -> expr R) l : (forall j, In j l -> exactly (g j) = g' j) ->
    forall e e', exactly e = e' ->
    exactly (fold_left (fun t j => EAdd t (g j)) l e) = fold_left (fun t j => EAdd t (g' j)) l e'.
  Proof.
    intros E. induction l as [|j l IH]; intros e e' Ee; cbn [fold_left]; [exact Ee|].
    apply IH; [intros k Hk; apply E; right; exact Hk|]. cbn [exactly]. rewrite Ee, (E j (or_introl eq_refl)). reflexivity.
  Qed.
  Lemma fold_map {A B C} (f : A -> B -> A) (g : C -> B) l : forall a, fold_left f (map g l) a = fold_left (fun a c => f a (g c)) l a.
  Proof. induction l as [|x l IH]; intros a; simpl; [reflexivity|apply IH]. Qed.
  Lemma force_map m i (v : forall K, nat -> nat -> nat -> expr K) : (forall j, exactly (v f64 m i j) = v R m i j) ->
    exactly (fold_left nadd (map (v f64 m i) (seq 0 m)) (nlit 0)) = fold_left nadd (map (v R m i) (seq 0 m)) (nlit 0).
  Proof.
    intros E. rewrite !fold_map. cbn [nadd Arith_expr].
    apply (exactly_fold (fun j => v f64 m i j) (fun j => v R m i j)); [intros j _; apply E|].
    cbn [exactly]. exact lit_0.
  Qed.
  Definition numbered_module (md : swerve_module f64) : Prop := numbers (m_translation md).
  Lemma tau_map m ms i : Forall numbered_module ms ->
    exactly (@tau_net f64 A64 m ms i) = @tau_net R _ m (map real_module ms) i.
  Proof.
    intros F. unfold tau_net. rewrite map_length. cbn [nadd Arith_expr].
    apply exactly_fold; [|cbn [exactly]; exact lit_0].
    intros j Hj. apply in_seq in Hj.
    rewrite (nth_indep (map real_module ms) module0 (real_module module0)) by (rewrite map_length; lia).
    rewrite map_nth. set (md := nth j ms module0).
    assert (N : numbered_module md) by (rewrite Forall_forall in F; apply F, nth_In; lia).
    destruct N as ((_ & N1) & (_ & N2)). unfold heading, sv, fxv, fyv. cbn.
    rewrite (constant_fin _ N1), (constant_fin _ N2). reflexivity.
  Qed.
  Lemma power_map m ms i j : (j < length ms)%nat -> Forall numbered_module ms ->
    (forall md, In md ms -> let v := f64_mul (m_wheelRadius md) (m_wheelMaxAngularVelocity md) in
       let f := f64_div (m_wheelMaxTorque md) (m_wheelRadius md) in
       finite (f64_mul v v) /\ 0 <= real (f64_mul v v) /\ finite (f64_mul f f) /\ 0 <= real (f64_mul f f)) ->
    map exact_constraint (@power_cons f64 A64 m ms i j) = @power_cons R _ m (map effective_module ms) i j.
  Proof.
    intros Hj F L. unfold power_cons.
    rewrite (nth_indep (map effective_module ms) module0 (effective_module module0)) by (rewrite map_length; lia).
    rewrite map_nth. set (md := nth j ms module0).
    assert (Hin : In md ms) by (apply nth_In; lia).
    assert (N : numbered_module md) by (rewrite Forall_forall in F; apply F, Hin).
    destruct N as ((_ & N1) & (_ & N2)).
    destruct (L md Hin) as (F1 & P1 & F2 & P2). cbv zeta in *.
    cbn [map]. change (@nmul f64 A64) with f64_mul. change (@ndiv f64 A64) with f64_div.
    rewrite (exact_le _ _ F1), (exact_le _ _ F2).
    cbn [effective_module m_wheelRadius m_wheelMaxAngularVelocity m_wheelMaxTorque m_translation l_speed l_force computed].
    unfold vel, heading, sv, fxv, fyv. cbn.
    rewrite (constant_fin _ N1), (constant_fin _ N2).
    f_equal; [|f_equal]; f_equal; f_equal.
    - rewrite Rmult_1_l, sqrt_sqrt by exact P1. reflexivity.
    - unfold Rdiv. rewrite Rinv_1, Rmult_1_r, sqrt_sqrt by exact P2. reflexivity.
  Qed.

  (** ** Time steps *)
  Definition near_module (md : swerve_module f64) : Prop :=
    within 1000 (tX (m_translation md)) /\ within 1000 (tY (m_translation md)).
  Definition separate (l : limits) (ms : list (swerve_module f64)) (x : R) : Prop :=
    forall a b, In (a, b) (consecutive ms) ->
      (real (tX (m_translation a)) <> real (tX (m_translation b)) -> x <= l_gap l (tX (m_translation a)) (tX (m_translation b))) /\
      (real (tY (m_translation a)) <> real (tY (m_translation b)) -> x <= l_gap l (tY (m_translation a)) (tY (m_translation b))).
  Lemma gap_number x y : within 1000 x -> within 1000 y -> number (SFabs (f64_sub x y)).
  Proof.
    intros X Y. pose proof (within_sub 1000 x y ltac:(lia) X Y) as W.
    split; [apply double_abs, (within_double _ _ W)|apply finite_abs, (within_fin _ _ W)].
  Qed.
  Lemma width64 ms : Forall near_module ms -> forall x,
    match @width_of f64 A64 _ ms with Some k => finite k /\ (x <= real k <-> separate computed ms x) | None => separate computed ms x end.
  Proof.
    intros F x. rewrite Forall_forall in F.
    assert (P : Forall SpecDouble.placed ms).
    { apply Forall_forall. intros md H. destruct (F md H) as (X & Y). split; eapply within_double; eassumption. }
    pose proof (narrow_width fcos fsin fatan2 fhypot ms P) as NW.
    assert (PN : forall x y, within 1000 x -> within 1000 y ->
      (finite (SFabs (f64_sub x y)) /\ flt fzero (SFabs (f64_sub x y))) <-> real x <> real y).
    { intros u v U V. pose proof (gap_number u v U V) as G. rewrite (flt_zero _ G), real_abs.
      rewrite <- (sub_zero u v 1000 U V ltac:(lia)). split.
      - intros (_ & L) Z. rewrite Z, Rabs_R0 in L. lra.
      - intros Z. split; [exact (proj2 G)|apply Rabs_pos_lt, Z]. }
    assert (NM : forall i a, nth_error ms i = Some a -> near_module a) by (intros i a E; apply F, (nth_error_In _ _ E)).
    destruct (width_of ms) as [k|]; cbn [narrowest] in NW.
    - destruct NW as (G & Fk & Lk & Min). split; [exact Fk|].
      destruct G as (i & a & b & Ha & Hb & E). destruct (NM _ _ Ha) as (Xa & Ya), (NM _ _ Hb) as (Xb & Yb).
      assert (Nk : number k) by (destruct E as [-> | ->]; apply gap_number; assumption).
      split.
      + intros L a' b' H. apply In_consecutive in H. destruct H as (j & Ha' & Hb').
        destruct (NM _ _ Ha') as (Xa' & Ya'), (NM _ _ Hb') as (Xb' & Yb'). cbn [l_gap computed].
        split; intros N; (eapply Rle_trans; [exact L|]); rewrite <- real_abs;
          (apply fle_real; [exact Nk|apply gap_number; assumption|]); apply Min.
        * exists j, a', b'. auto.
        * apply PN; assumption.
        * apply PN; assumption.
        * exists j, a', b'. auto.
        * apply PN; assumption.
        * apply PN; assumption.
      + intros S. destruct (S a b) as (S1 & S2); [apply In_consecutive; eauto|]. cbn [l_gap computed] in S1, S2.
        destruct E as [-> | ->]; rewrite real_abs; [apply S1|apply S2]; apply PN; auto.
    - intros a b H. apply In_consecutive in H. destruct H as (j & Ha & Hb).
      destruct (NM _ _ Ha) as (Xa & Ya), (NM _ _ Hb) as (Xb & Yb).
      split; intros N; exfalso.
      + apply (NW (SFabs (f64_sub (tX (m_translation a)) (tX (m_translation b))))); [exists j, a, b; auto|].
        apply PN; assumption.
      + apply (NW (SFabs (f64_sub (tY (m_translation a)) (tY (m_translation b))))); [exists j, a, b; auto|].
        apply PN; assumption.
  Qed.
  Lemma step_sat64 env T m ms s : Forall near_module ms ->
    (forall md, In md ms -> finite (m_wheelRadius md) /\ finite (m_wheelMaxAngularVelocity md)) ->
    (sat_all env (map exact_constraint (@step_cons f64 A64 _ T m ms s)) <->
     forall md, In md ms -> separate computed ms
       (env (T * width m + s)%nat * real (m_wheelRadius md) * real (m_wheelMaxAngularVelocity md))).
  Proof.
    intros F N. unfold step_cons. rewrite map_map, sat_all_map.
    assert (one : forall md, In md ms -> (sat env (exact_constraint (width_cons (width_of ms) (dtv T m s) md)) <->
      separate computed ms (env (T * width m + s)%nat * real (m_wheelRadius md) * real (m_wheelMaxAngularVelocity md)))).
    { intros md H. destruct (N md H) as (N1 & N2).
      pose proof (width64 ms F (env (T * width m + s)%nat * real (m_wheelRadius md) * real (m_wheelMaxAngularVelocity md))) as W.
      unfold width_cons. destruct (width_of ms) as [k|].
      - destruct W as (Fk & W). rewrite <- W. rewrite (exact_le _ _ Fk). unfold dtv. cbn.
        rewrite (constant_fin _ N1), (constant_fin _ N2). cbn. tauto.
      - unfold dtv. cbn. rewrite (constant_fin _ N1), (constant_fin _ N2). cbn. tauto. }
    split; intros G md H; apply one; auto.
  Qed.

  (** ** Requested constraints *)
  Lemma exactly_max (a b : expr f64) : exactly (lpd_max a b) = lpd_max (exactly a) (exactly b).
  Proof. unfold lpd_max. cbn. lits. reflexivity. Qed.
  Lemma exactly_min (a b : expr f64) : exactly (lpd_min a b) = lpd_min (exactly a) (exactly b).
  Proof. unfold lpd_min. cbn. lits. reflexivity. Qed.
  Lemma exactly_line_point (a b : Translation2 (expr f64)) p : numbers p ->
    exactly (LinePointDistance (fun e => e) EConst a b p) =
    LinePointDistance (fun e => e) EConst (tr_map exactly a) (tr_map exactly b) (real_point p).
  Proof.
    intros ((_ & F1) & (_ & F2)). unfold LinePointDistance. cbn -[lpd_max lpd_min].
    rewrite !exactly_max, !exactly_min. cbn -[lpd_max lpd_min]. lits.
    rewrite (constant_fin _ F1), (constant_fin _ F2).
    rewrite (constant_fin _ (finite_opp _ F1)), (constant_fin _ (finite_opp _ F2)), !real_opp. reflexivity.
  Qed.
  Lemma exactly_point_line (a b : Translation2 f64) (p : Translation2 (expr f64)) : numbers a -> numbers b ->
    exact_difference (tX b) (tX a) -> exact_difference (tY b) (tY a) ->
    exactly (LinePointDistance EConst (fun e => e) a b p) =
    LinePointDistance EConst (fun e => e) (real_point a) (real_point b) (tr_map exactly p).
  Proof.
    intros ((_ & F1) & (_ & F2)) ((_ & F3) & (_ & F4)) (E1 & E1') (E2 & E2'). unfold LinePointDistance. cbn -[lpd_max lpd_min].
    rewrite !exactly_max, !exactly_min. cbn -[lpd_max lpd_min]. lits.
    rewrite (constant_fin _ F1), (constant_fin _ F2), ?(constant_fin _ F3), ?(constant_fin _ F4), (constant_fin _ E1), (constant_fin _ E2), E1', E2'.
    reflexivity.
  Qed.
  Lemma exactly_place m i p : numbers p ->
    tr_map exactly (place (mkPose (pos m i) (heading m i)) p) = place (mkPose (pos m i) (heading m i)) (real_point p).
  Proof.
    intros ((_ & F1) & (_ & F2)). unfold place, pos, heading, sv, tr_map. cbn.
    rewrite (constant_fin _ F1), (constant_fin _ F2). reflexivity.
  Qed.
  Lemma root_square v : within 500 v ->
    finite (f64_mul v v) /\ real (f64_mul v v) = sqrt (real (f64_mul v v)) * sqrt (real (f64_mul v v)).
  Proof.
    intros W. destruct (square_real v 500 W ltac:(lia)) as (F & _ & P). split; [exact F|]. rewrite sqrt_sqrt; auto.
  Qed.
  Lemma sq_cap x y v : within 500 v -> (x * x + y * y <= real (f64_mul v v) <-> norm2 (x, y) <= sqrt (real (f64_mul v v))).
  Proof.
    intros W. destruct (root_square v W) as (_ & E). rewrite E at 1. rewrite sum_sqr_bound.
    rewrite (Rabs_right (sqrt _)) by (apply Rle_ge, sqrt_pos). reflexivity.
  Qed.
  Lemma zero_square v : within 500 v -> real v = 0 -> real (f64_mul v v) = 0.
  Proof.
    intros W Z. destruct (square_real v 500 W ltac:(lia)) as (_ & E & _). rewrite E, Z, Rmult_0_l. apply rnd_0.
  Qed.
  Lemma cap_sat env vx vy v : within 500 v ->
    (sat_all env (map exact_constraint (if SFeqb v (f64_lit 0) then [CEq (EVar vx) (nlit 0); CEq (EVar vy) (nlit 0)]
       else [CLe (tr_sqnorm (mkTr (EVar vx) (EVar vy))) (EConst (f64_mul v v))])) <->
     norm2 (env vx, env vy) <= sqrt (real (f64_mul v v))).
  Proof.
    intros W. rewrite (eqb_zero v (within_double _ _ W) (within_fin _ _ W)). unfold Reqb.
    destruct (Req_EM_T (real v) 0) as [Z|Z].
    - rewrite (zero_square v W Z), sqrt_0, norm2_zero. cbn [map]. rewrite !sat_all_cons, sat_all_nil. cbn. lits.
      cbn. rewrite Q2R_0. tauto.
    - rewrite <- (sq_cap _ _ v W). cbn [map]. rewrite (exact_le _ _ (proj1 (root_square v W))).
      rewrite !sat_all_cons, sat_all_nil. cbn. tauto.
  Qed.

  Ltac hide i m := repeat match goal with
    | |- context [(i * width m + ?k)%nat] => let n := fresh "n" in set (n := (i * width m + k)%nat); clearbody n
    end.
  Section At.
    Variables (env : nat -> R) (T m : nat) (N : list nat).
    Hypothesis HT : T = (1 + list_sum N)%nat.
    Let sol := read_solution T m N env.

    Lemma applied64 : forall i c, (i < T)%nat -> ordinary_constraint fcos c ->
      (sat_all env (map exact_constraint (@applied f64 A64 _ m i c)) <-> demands_up_to fcos computed (at_sample sol i) c).
    Proof.
      intros i c Hi O.
      pose proof (sample_val env T m N i Hi) as SV.
      pose proof (fun c' P => applied_sat env T m N i c' Hi P) as AS. fold sol in SV, AS.
      destruct c as [v|a b p v|v|u|v|f tol|p a b v|r f v|p|t]; cbn [ordinary_constraint] in O.
      - destruct O as (D & F). unfold applied. cbn [Apply demands_up_to].
        change (@neqb f64 Dbl_f64 v (nlit 0)) with (SFeqb v (f64_lit 0)). rewrite (eqb_zero v D F). unfold Reqb.
        rewrite SV. cbn [q_w]. rewrite Rabs_bounds. unfold sv. hide i m.
        destruct (Req_EM_T (real v) 0) as [Z|Z].
        + cbn [map]. rewrite !sat_all_cons, sat_all_nil. cbn. lits. cbn. rewrite Q2R_0, Z.
          split; [intros ((_ & _ & E) & _)|]; intros; repeat split; lra.
        + cbn [map]. change (@nneg f64 A64) with SFopp. rewrite (exact_le _ _ F), (exact_ge _ _ (finite_opp _ F)), real_opp.
          rewrite !sat_all_cons, sat_all_nil. cbn.
          split; [intros ((_ & _ & E) & (_ & _ & E') & _)|]; intros; repeat split; lra.
      - destruct O as (Na & Nb & Np & W). destruct (root_square v W) as (F & E).
        cbn [demands_up_to]. set (k := sqrt (real (f64_mul v v))) in *.
        specialize (AS (LinePoint (real_point a) (real_point b) (real_point p) k) Logic.I). cbn [demands] in AS.
        rewrite (Rabs_right k) in AS by (apply Rle_ge, sqrt_pos). cbn [l_min computed]. fold k. rewrite <- AS.
        unfold applied. cbn [Apply map]. change (@nmul f64 A64) with f64_mul. rewrite (exact_ge _ _ F), E.
        cbn [nmul Arith_expr exactly]. rewrite (exactly_line_point _ _ _ Np), !exactly_place by assumption. reflexivity.
      - unfold applied, acc, sv. cbn [Apply demands_up_to]. rewrite SV. exact (cap_sat env _ _ v O).
      - destruct O as ((_ & F1) & (_ & F2)). unfold applied, vel, sv. cbn [Apply demands_up_to]. rewrite SV. hide i m.
        cbn [map]. rewrite !sat_all_cons, sat_all_nil. cbn. rewrite (constant_fin _ F1), (constant_fin _ F2). cbn.
        rewrite !Rmult_1_r. tauto.
      - unfold applied, vel, sv. cbn [Apply demands_up_to]. rewrite SV. exact (cap_sat env _ _ v O).
      - destruct O as (((_ & F1) & (_ & F2)) & (_ & F3)). unfold applied, pos, heading, sv. cbn [Apply demands_up_to]. rewrite SV. hide i m.
        cbn [map]. rewrite !sat_all_cons, sat_all_nil. cbn.
        rewrite (constant_fin _ F1), (constant_fin _ F2), (constant_fin _ F3). cbn.
        unfold dist2. cbn [fst snd pt real_point tX tY].
        match goal with |- context [(?x - real (tX f)) * _ + (?y - _) * _] =>
          replace ((x - real (tX f)) * (x - real (tX f)) + (y - real (tY f)) * (y - real (tY f)))
            with ((real (tX f) - x) * (real (tX f) - x) + (real (tY f) - y) * (real (tY f) - y)) by ring end.
        split; [intros ((_ & _ & E) & _); apply Rge_le; exact E|intros E; repeat split; apply Rle_ge; exact E].
      - destruct O as (Np & Na & Nb & W & Ex & Ey). destruct (root_square v W) as (F & E).
        cbn [demands_up_to]. set (k := sqrt (real (f64_mul v v))) in *.
        specialize (AS (PointLine (real_point p) (real_point a) (real_point b) k) Logic.I). cbn [demands] in AS.
        rewrite (Rabs_right k) in AS by (apply Rle_ge, sqrt_pos). cbn [l_min computed]. fold k. rewrite <- AS.
        unfold applied. cbn [Apply map]. change (@nmul f64 A64) with f64_mul. rewrite (exact_ge _ _ F), E.
        cbn [nmul Arith_expr exactly]. rewrite (exactly_point_line _ _ _ Na Nb Ex Ey), !exactly_place by assumption. reflexivity.
      - destruct O as (Nr & ((_ & F1) & (_ & F2)) & W). destruct (root_square v W) as (F & E).
        cbn [demands_up_to]. set (k := sqrt (real (f64_mul v v))) in *.
        specialize (AS (PointPoint (real_point r) (real_point f) k) Logic.I). cbn [demands] in AS.
        rewrite (Rabs_right k) in AS by (apply Rle_ge, sqrt_pos). cbn [l_min computed]. fold k. rewrite <- AS.
        unfold applied. cbn [Apply map]. change (@nmul f64 A64) with f64_mul. rewrite (exact_ge _ _ F), E.
        destruct Nr as ((_ & G1) & (_ & G2)). unfold place, pos, heading, sv. cbn.
        rewrite (constant_fin _ F1), (constant_fin _ F2), (constant_fin _ G1), (constant_fin _ G2). reflexivity.
      - destruct O as (((_ & F1) & (_ & F2)) & (_ & F3) & (_ & F4)). unfold applied, pos, heading, sv, unit_heading. cbn [Apply demands_up_to].
        rewrite SV. hide i m. unfold pose_eq, tr_eq, rot_eq. cbn [map app]. rewrite !sat_all_cons, sat_all_nil. cbn. lits.
        rewrite (constant_fin _ F1), (constant_fin _ F2), (constant_fin _ F3), (constant_fin _ F4). cbn. rewrite Q2R_0, Q2R_1.
        unfold unit_heading; cbn [q_c q_s]; split; intros G; repeat match goal with H : _ /\ _ |- _ => destruct H end; repeat split; lra.
      - destruct O as ((_ & F1) & (_ & F2)). unfold applied, pos, heading, sv. cbn [Apply demands_up_to].
        rewrite SV. hide i m. unfold tr_eq. cbn [map]. rewrite !sat_all_cons, sat_all_nil. cbn.
        rewrite (constant_fin _ F1), (constant_fin _ F2). cbn. tauto.
    Qed.
  End At.
End Maps.
