(** The time step limit in double arithmetic: proofs for C98. *)
From Coq Require Import List ZArith Reals SpecFloat Lia Lra.
Import ListNotations.
From Flocq Require Import Core BinarySingleNaN.
From Verif Require Import Outcome Num NumF64 Util Geometry Expr Builder Generator Spec SpecBuilder SpecGenerator SpecDouble
  DoubleFacts DoubleProofs GeneratorFacts SeedFacts GeneratorProofs.

(** A double that is not negative, or NaN: what |x| can be. *)
Definition magnitude (d : f64) : Prop := exists b : B64, d = B2SF (Babs b).
Lemma magnitude_sub x y : is_double x -> is_double y -> magnitude (SFabs (f64_sub x y)).
Proof.
  intros (a & ->)%to_B (b & ->)%to_B. rewrite sub_B. exists (Bminus mode_NE a b). destruct (Bminus mode_NE a b); reflexivity.
Qed.
Lemma flt_or (a b : B64) : is_nan a = false -> is_nan b = false -> SFltb (B2SF a) (B2SF b) = false -> fle (B2SF b) (B2SF a).
Proof.
  intros Na Nb H. pose proof (Bcompare_swap 53 1024 a b) as S. unfold Bcompare in S. unfold fle, SFleb, SFltb in *.
  rewrite S. destruct (SFcompare (B2SF a) (B2SF b)) as [c|] eqn:E; [destruct c; easy|].
  exfalso. destruct a as [|[]| |[]], b as [|[]| |[]]; try discriminate;
    simpl in E; repeat match type of E with context [match ?c with _ => _ end] => destruct c end; discriminate.
Qed.
Lemma flt_fle (a b : f64) : flt a b -> fle a b.
Proof. unfold flt, fle, SFltb, SFleb. destruct SFcompare as [[]|]; easy. Qed.
Lemma magnitude_double d : magnitude d -> is_double d.
Proof. intros (b & ->). apply of_B. Qed.

Section Widths.
  Variables (fcos fsin : f64 -> f64) (fatan2 fhypot : f64 -> f64 -> f64).
  #[local] Instance A64w : Arith f64 := Arith_f64 fcos fsin fatan2 fhypot.

  Lemma narrow_step (G : f64 -> Prop) w d : (forall x, G x -> magnitude x) -> magnitude d -> narrowest G w ->
    narrowest (fun x => G x \/ x = d) (width_min w d).
  Proof.
    intros GM Md H. unfold width_min. change (neqb d (nlit 0)) with (SFeqb d fzero).
    destruct (SFeqb d fzero) eqn:Z.
    { assert (Q : ~ flt fzero d).
      { destruct Md as (b & ->). destruct b as [s|s| |s m e He]; cbn in *; try discriminate; intros X; discriminate. }
      destruct w as [m|]; cbn [narrowest] in *.
      - destruct H as (A & B & C & D). repeat split; auto. intros x [X| ->] F L; [auto|contradiction].
      - intros x [X| ->]; [auto|]. intros (_ & X). contradiction. }
    assert (P : finite d -> flt fzero d).
    { destruct Md as (b & ->). destruct b as [s|s| |s m e He]; cbn in *; try discriminate; try easy. }
    destruct w as [m|]; cbn [narrowest] in *.
    - destruct H as (A & B & C & D). change (nltb d m) with (SFltb d m). 
      destruct (SFltb d m) eqn:L; cbn [narrowest].
      + assert (Dd := magnitude_double d Md). assert (Dm := magnitude_double m (GM m A)).
        assert (F : finite d).
        { destruct Md as (b & ->). destruct m as [s|s| |s p e]; try easy; destruct b; try easy; discriminate. }
        split; [auto|]. split; [exact F|]. split; [auto|]. intros x [X| ->] Fx Lx.
        * apply fle_trans with m; auto; [apply magnitude_double, GM, X|apply flt_fle, L].
        * destruct (to_B d Dd) as (b & ->). apply fle_B. apply finite_B in F. destruct b; try discriminate; repeat split; apply Rle_refl.
      + split; [auto|]. split; [auto|]. split; [auto|]. intros x [X| ->] Fx Lx; [auto|].
        destruct (to_B _ (magnitude_double _ Md)) as (b & ->). destruct (to_B _ (magnitude_double _ (GM m A))) as (c & ->).
        apply finite_B in B, Fx. apply flt_or; [destruct b|destruct c|]; easy.
    - change (nltinf d) with (SFltb d (S754_infinity false)). destruct (SFltb d (S754_infinity false)) eqn:L; cbn [narrowest].
      + assert (F : finite d) by (destruct Md as (b & ->); destruct b; easy).
        split; [auto|]. split; [exact F|]. split; [auto|]. intros x [X| ->] Fx Lx; [exfalso; apply (H x X); auto|].
        destruct (to_B _ (magnitude_double _ Md)) as (b & ->). apply fle_B. apply finite_B in F. destruct b; try discriminate; repeat split; apply Rle_refl.
      + intros x [X| ->]; [auto|]. intros (F & _). destruct Md as (b & ->). destruct b; easy.
  Qed.
  Lemma narrow_ext G G' w : (forall x, G x <-> G' x) -> narrowest G w -> narrowest G' w.
  Proof.
    intros E H. destruct w as [m|]; cbn [narrowest] in *.
    - destruct H as (A & B & C & D). rewrite <- E. repeat split; auto. intros d X. apply D, E, X.
    - intros d X. apply H, E, X.
  Qed.
  Definition gap_of (ab : swerve_module f64 * swerve_module f64) (d : f64) : Prop :=
    d = SFabs (f64_sub (tX (m_translation (fst ab))) (tX (m_translation (snd ab)))) \/
    d = SFabs (f64_sub (tY (m_translation (fst ab))) (tY (m_translation (snd ab)))).
  Lemma narrow_fold l : forall (G : f64 -> Prop) w, (forall x, G x -> magnitude x) ->
    (forall ab, In ab l -> placed (fst ab) /\ placed (snd ab)) -> narrowest G w ->
    narrowest (fun x => G x \/ exists ab, In ab l /\ gap_of ab x) (fold_left pair_width l w).
  Proof.
    induction l as [|[a b] l IH]; intros G w GM P H; cbn [fold_left].
    - eapply narrow_ext; [|exact H]. intros x. split; [auto|]. intros [X|(ab & X & _)]; [exact X|destruct X].
    - destruct (P (a, b) (or_introl eq_refl)) as ((A1 & A2) & (B1 & B2)). cbn [fst snd] in *.
      set (dx := SFabs (f64_sub (tX (m_translation a)) (tX (m_translation b)))).
      set (dy := SFabs (f64_sub (tY (m_translation a)) (tY (m_translation b)))).
      assert (Mx : magnitude dx) by (apply magnitude_sub; assumption). assert (My : magnitude dy) by (apply magnitude_sub; assumption).
      change (pair_width w (a, b)) with (width_min (width_min w dx) dy).
      eapply narrow_ext; [|apply (IH (fun x => (G x \/ x = dx) \/ x = dy))].
      + intros x. split.
        * intros [[[X|X]|X]|(ab & X & Y)]; [left; exact X| | |]; right; [exists (a, b)..|exists ab]; (split; [|]); try (left; reflexivity); unfold gap_of; cbn [fst snd]; auto.
          right. exact X.
        * intros [X|(ab & [<-|X] & Y)]; [auto| |right; eauto]. destruct Y as [Y|Y]; left; [left; right|right]; exact Y.
      + intros x [[X| ->]| ->]; auto.
      + intros ab X. apply P. right. exact X.
      + apply narrow_step; [intros x [X| ->]; auto|exact My|]. apply narrow_step; assumption.
  Qed.
  Lemma In_consecutive {A} (l : list A) a b : In (a, b) (consecutive l) <->
    exists i, nth_error l i = Some a /\ nth_error l (S i) = Some b.
  Proof.
    induction l as [|x l IH]; [split; [intros []|intros (i & H & _); destruct i; discriminate]|].
    destruct l as [|y l]; [split; [intros []|intros (i & _ & H); destruct i as [|[|i]]; discriminate]|].
    change (consecutive (x :: y :: l)) with ((x, y) :: consecutive (y :: l)). cbn [In]. rewrite IH. split.
    - intros [H|(i & H1 & H2)]; [injection H as -> ->; exists 0%nat; split; reflexivity|exists (S i); auto].
    - intros ([|i] & H1 & H2); [left; cbn in *; congruence|right; exists i; auto].
  Qed.
  Lemma narrow_width ms : Forall placed ms -> narrowest (gap ms) (width_of ms).
  Proof.
    intros P. rewrite Forall_forall in P. unfold width_of.
    eapply narrow_ext; [|apply (narrow_fold (consecutive ms) (fun _ => False) None)].
    - intros x. split.
      + intros [[]|([a b] & X & Y)]. apply In_consecutive in X. destruct X as (i & X1 & X2). exists i, a, b. auto.
      + intros (i & a & b & X1 & X2 & Y). right. exists (a, b). split; [apply In_consecutive; eauto|exact Y].
    - intros x [].
    - intros [a b] X. apply In_consecutive in X. destruct X as (i & X1 & X2). split; apply P; eapply nth_error_In; eassumption.
    - intros d [].
  Qed.
  Lemma C98_proof asserts h handle d (g : gen f64) : generator asserts h handle d g -> Forall placed (d_modules d) ->
    exists w, narrowest (gap (d_modules d)) w /\
    length (v_dt (g_vars g)) = length (counts asserts h) /\
    forall dt md, In dt (v_dt (g_vars g)) -> In md (d_modules d) ->
    let advance := EMul (EMul dt (EConst (m_wheelRadius md))) (EConst (m_wheelMaxAngularVelocity md)) in
    In (match w with Some k => CLe advance (EConst k) | None => CLeInf advance end) (pr_cons (g_problem g)).
  Proof.
    intros (C & D) P. exists (width_of (d_modules d)). split; [apply narrow_width, P|].
    destruct (construct_inversion _ _ _ (run_ops_inv_new asserts h) C) as (L & d' & p & D' & -> & _ & Q & _).
    unfold path in D. assert (d' = d) by congruence. subst d'. cbn [g_vars g_problem]. rewrite Q.
    split; [cbn; rewrite map_length, seq_length; reflexivity|]. intros dt md Hdt Hm. cbv zeta.
    cbn [v_dt layout layout_upto] in Hdt. apply in_map_iff in Hdt. destruct Hdt as (s & <- & Hs).
    unfold problem_cons. apply in_or_app. left. apply in_flat_map. exists s. split; [exact Hs|].
    unfold step_cons. apply in_map_iff. exists md. split; [reflexivity|exact Hm].
  Qed.
End Widths.

(** Two modules one above the other, one x computed as 0.1 + 0.2, the other written as 0.3. *)
Definition post (x y : f64) : swerve_module f64 := mkModule (mkTr x y) (f64_lit 1) (f64_lit 1) (f64_lit 1).
Definition posts : list (swerve_module f64) :=
  [post (f64_add (f64_lit (1 # 10)) (f64_lit (2 # 10))) (f64_lit 1); post (f64_lit (3 # 10)) (f64_lit (-1))].
Definition post_history : list (op f64) :=
  [OSetDrivetrain (mkDrivetrain (f64_lit 1) (f64_lit 1) posts); OPoseWpt 0 fzero fzero fzero;
   OPoseWpt 1 (f64_lit 1) fzero fzero; OControlIntervalCounts [3%nat]].
Lemma gap_two a b d : gap [a; b] d ->
  d = SFabs (f64_sub (tX (m_translation a)) (tX (m_translation b))) \/
  d = SFabs (f64_sub (tY (m_translation a)) (tY (m_translation b))).
Proof.
  intros (i & a' & b' & Ha & Hb & E). destruct i as [|[|[|i]]]; try discriminate. injection Ha as <-. injection Hb as <-. exact E.
Qed.
Lemma posts_placed : Forall placed posts.
Proof. repeat constructor; vm_compute; reflexivity. Qed.
Lemma post_case : forall fcos fsin fatan2 fhypot asserts,
  exists h d g, @generator f64 (Arith_f64 fcos fsin fatan2 fhypot) Dbl_f64 asserts h 0 d g /\ Forall placed (d_modules d) /\
  length (v_dt (g_vars g)) = 1%nat /\
  forall w, narrowest (gap (d_modules d)) w -> exists k, w = Some k /\ flt k (f64_lit (1 # 10000000000000000)).
Proof.
  intros fcos fsin fatan2 fhypot asserts. set (A := Arith_f64 fcos fsin fatan2 fhypot).
  exists post_history, (mkDrivetrain (f64_lit 1) (f64_lit 1) posts).
  assert (I := @run_ops_inv_new f64 A Dbl_f64 asserts post_history).
  destruct (@construct_ok f64 A Dbl_f64 (run_ops asserts post_history new_builder) 0%Z
    (mkDrivetrain (f64_lit 1) (f64_lit 1) posts) I) as (p & C & _).
  { apply Nat.ltb_lt. destruct asserts; vm_compute; reflexivity. }
  { destruct asserts; vm_compute; reflexivity. }
  eexists. split; [split; [exact C|destruct asserts; vm_compute; reflexivity]|]. split; [exact posts_placed|].
  split; [cbn [g_vars v_dt layout]; rewrite map_length, seq_length; destruct asserts; vm_compute; reflexivity|]. cbn [d_modules].
  set (x := SFabs (f64_sub (f64_add (f64_lit (1 # 10)) (f64_lit (2 # 10))) (f64_lit (3 # 10)))).
  assert (G : gap posts x) by (exists 0%nat; do 2 eexists; repeat split; left; reflexivity).
  assert (F : finite x) by exact Logic.I.
  assert (L : flt fzero x) by (vm_compute; reflexivity).
  intros w H. destruct w as [k|]; cbn [narrowest] in H; [|exfalso; exact (H x G (conj F L))].
  destruct H as (Gk & Fk & Pk & D). exists k. split; [reflexivity|].
  unfold posts in Gk. apply gap_two in Gk. cbn [m_translation tX tY post] in Gk.
  destruct Gk as [E|E]; [rewrite E; vm_compute; reflexivity|].
  exfalso. specialize (D x G F L). rewrite E in D. vm_compute in D. discriminate D.
Qed.
