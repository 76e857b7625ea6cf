(** What rounding the limits changes, and what it does not. *)
From Coq Require Import List Lia Lra Psatz Reals SpecFloat.
Import ListNotations.
From Flocq Require Import Core BinarySingleNaN.
From Verif Require Import Outcome Num NumR NumF64 Geometry Expr Constraints Util Builder Guess Generator
  Spec SpecBuilder SpecPhysics SpecTrajectory SpecGenerator SpecDouble SpecRounding Semantics
  UtilFacts GeometryFacts BuilderFacts BuilderHistory ConstraintFacts ConstraintProofs GuessFacts GuessProofs GeneratorFacts
  SeedFacts FeasibleFacts GeneratorProofs TrajectoryProofs DoubleFacts DoubleProofs DoubleGuess WidthProofs RoundingFacts RoundingProofs.
Local Open Scope R_scope.
Opaque f64_lit f64_mul f64_sub f64_add f64_div SFopp SFeqb.

(** ** Bounds *)
Definition slack : R := / 2 ^ 530.
Definition half_tiny : R := / 2 * tiny.
Definition root_tiny : R := / 2 ^ 537.
Lemma small_facts : 0 < root_tiny /\ 0 < half_tiny /\ root_tiny * root_tiny = 2 * half_tiny /\ half_tiny <= root_tiny /\
  4 * root_tiny <= slack.
Proof.
  assert (T : tiny = root_tiny * root_tiny).
  { unfold tiny, root_tiny. rewrite <- Rinv_mult. f_equal. rewrite <- pow_add. f_equal. }
  assert (P : 0 < root_tiny) by (apply Rinv_0_lt_compat, pow_lt; lra).
  assert (L : root_tiny <= 1).
  { unfold root_tiny. rewrite <- Rinv_1. apply Rinv_le_contravar; [lra|]. apply pow_R1_Rle. lra. }
  unfold half_tiny. rewrite T. repeat split; try nra; try assumption.
  unfold slack, root_tiny. replace (2 ^ 537) with (2 ^ 530 * 2 ^ 7) by (rewrite <- pow_add; f_equal).
  rewrite Rinv_mult. assert (0 < / 2 ^ 530) by (apply Rinv_0_lt_compat, pow_lt; lra).
  replace (2 ^ 7) with 128 by (simpl; ring). lra.
Qed.
Lemma rnd_near x : 0 <= x -> x * (1 - roundoff) - half_tiny <= rnd x <= x * (1 + roundoff) + half_tiny /\ 0 <= rnd x.
Proof.
  intros P. assert (Q : 0 <= rnd x) by (rewrite <- rnd_0; apply rnd_le, P). split; [|exact Q].
  destruct (rnd_error x) as (e & t & E & T & ->). apply Rabs_bounds in E, T. fold half_tiny in T.
  pose proof roundoff_small. nra.
Qed.
Lemma root_near V : 0 <= V -> V * (1 - roundoff) - root_tiny <= sqrt (rnd (V * V)) <= V * (1 + roundoff) + root_tiny.
Proof.
  intros P. pose proof roundoff_small as U. destruct small_facts as (Q0 & T0 & QT & TQ & _).
  set (u := roundoff) in *. set (q := root_tiny) in *. set (t := half_tiny) in *.
  destruct (rnd_near (V * V)) as ((L & H) & N); [nra|]. fold u t in L, H. split.
  - destruct (Rle_dec (V * (1 - u) - q) 0) as [G|G]; [pose proof (sqrt_pos (rnd (V * V))); lra|].
    apply Rle_trans with (sqrt ((V * (1 - u) - q) * (V * (1 - u) - q))).
    + rewrite sqrt_square by lra. lra.
    + apply sqrt_le_1_alt. set (a := V * (1 - u)) in *.
      assert ((a - q) * (a - q) <= a * a - q * q) by nra.
      assert (a * a <= V * V * (1 - u)).
      { unfold a. replace (V * (1 - u) * (V * (1 - u))) with (V * V * (1 - u) * (1 - u)) by ring.
        rewrite <- (Rmult_1_r (V * V * (1 - u))) at 2. apply Rmult_le_compat_l; [|lra]. apply Rmult_le_pos; nra. }
      lra.
  - rewrite <- (sqrt_square (V * (1 + u) + q)) by nra. apply sqrt_le_1_alt.
    assert (V * V * (1 + u) <= V * (1 + u) * (V * (1 + u))).
    { replace (V * (1 + u) * (V * (1 + u))) with (V * V * (1 + u) * (1 + u)) by ring.
      rewrite <- (Rmult_1_r (V * V * (1 + u))) at 1. apply Rmult_le_compat_l; [|lra]. apply Rmult_le_pos; nra. }
    assert (0 <= V * (1 + u) * q) by (apply Rmult_le_pos; nra). nra.
Qed.
Lemma more_less x : 0 <= x -> less x <= x <= more x.
Proof.
  intros P. unfold less, more. destruct (Req_EM_T x 0); [lra|]. pose proof roundoff_small.
  destruct small_facts as (? & _ & _ & _ & S). fold slack. nra.
Qed.
Lemma root_zero : sqrt (rnd (0 * 0)) = 0.
Proof. rewrite Rmult_0_l, rnd_0. apply sqrt_0. Qed.
Lemma root_sandwich x : 0 <= x -> less x <= sqrt (rnd (x * x)) <= more x.
Proof.
  intros P. unfold less, more. destruct (Req_EM_T x 0) as [->|N]; [rewrite root_zero; lra|].
  pose proof roundoff_small. destruct small_facts as (? & _ & _ & _ & S). fold slack. pose proof (root_near x P). nra.
Qed.
Lemma rnd_sandwich x : 0 <= x -> less x <= sqrt (rnd (rnd x * rnd x)) <= more x.
Proof.
  intros P. unfold less, more. destruct (Req_EM_T x 0) as [->|N]; [rewrite rnd_0, root_zero; lra|].
  pose proof roundoff_small as U. destruct small_facts as (Q & T & QT & TQ & S). fold slack.
  destruct (rnd_near x P) as ((L & H) & V0). destruct (root_near (rnd x) V0) as (L' & H').
  set (u := roundoff) in *. set (q := root_tiny) in *. set (t := half_tiny) in *. set (V := rnd x) in *. set (S' := sqrt _) in *.
  assert (V * (1 + u) <= (x * (1 + u) + t) * (1 + u)) by (apply Rmult_le_compat_r; lra).
  assert ((x * (1 - u) - t) * (1 - u) <= V * (1 - u)) by (apply Rmult_le_compat_r; lra).
  assert (0 <= u * u <= u) by nra. assert (0 <= x * (u * u) <= x * u) by nra. nra.
Qed.
Lemma gap_sandwich x : less (Rabs x) <= Rabs (rnd x) <= more (Rabs x).
Proof.
  unfold less, more. destruct (Req_EM_T (Rabs x) 0) as [Z|N].
  - assert (x = 0) as -> by (destruct (Req_dec x 0); [assumption|exfalso; revert Z; now apply Rabs_no_R0]).
    rewrite rnd_0, Rabs_R0. lra.
  - destruct (rnd_error x) as (e & t & E & T & ->). apply Rabs_bounds in E, T. fold half_tiny in T.
    pose proof roundoff_small. destruct small_facts as (? & _ & _ & ? & S). fold slack. revert N.
    unfold Rabs. destruct (Rcase_abs x), (Rcase_abs (x * (1 + e) + t)); intros N; split; nra.
Qed.

(** ** Monotonicity *)
Definition tighter (l l' : limits) (d : drivetrain f64) : Prop :=
  (forall md, In md (d_modules d) -> l_speed l md <= l_speed l' md /\ l_force l md <= l_force l' md) /\
  (forall m1 m2, In (m1, m2) (consecutive (d_modules d)) ->
     l_gap l (tX (m_translation m1)) (tX (m_translation m2)) <= l_gap l' (tX (m_translation m1)) (tX (m_translation m2)) /\
     l_gap l (tY (m_translation m1)) (tY (m_translation m2)) <= l_gap l' (tY (m_translation m1)) (tY (m_translation m2))) /\
  (forall k, within 500 k -> l_max l k <= l_max l' k /\ l_min l' k <= l_min l k).
Lemma obeys_mono l l' d N sol : tighter l l' d -> obeys_up_to l d N sol -> obeys_up_to l' d N sol.
Proof.
  intros (M & G & _) (O1 & O2). split.
  - intros i Hi. destruct (O1 i Hi) as (T & S & K). split; [exact T|]. split; [|exact K].
    intros md m1 m2 H1 H2. destruct (S md m1 m2 H1 H2) as (X & Y). destruct (G m1 m2 H2) as (GX & GY).
    split; intros D; [specialize (X D)|specialize (Y D)]; cbv zeta in *; lra.
  - intros i Hi. destruct (O2 i Hi) as (W & V & F). split; [exact W|]. split.
    + intros md H. destruct (M md H). specialize (V md H). lra.
    + intros md f H. destruct (M md (in_combine_l _ _ _ _ H)). specialize (F md f H). lra.
Qed.
Lemma demands_mono fcos l l' d s c : tighter l l' d -> ordinary_constraint fcos c ->
  demands_up_to fcos l s c -> demands_up_to fcos l' s c.
Proof.
  intros (_ & _ & M) O D.
  assert (C : forall k a b q, within 500 k -> clear_of_segment a b q (sqrt (l_min l k)) -> clear_of_segment a b q (sqrt (l_min l' k))).
  { intros k a b q W H p Hp. destruct (M k W) as (_ & M2). specialize (H p Hp). pose proof (sqrt_le_1_alt _ _ M2). lra. }
  destruct c; cbn in O, D |- *; try exact D.
  all: first [destruct (M _ O); lra | destruct O as (_ & _ & O), (M _ O); lra |
    destruct O as (_ & _ & _ & O), D as (D1 & D2); split; [exact D1|exact (C _ _ _ _ O D2)] |
    destruct O as (_ & _ & _ & O & _), D as (D1 & D2); split; [exact D1|exact (C _ _ _ _ O D2)]].
Qed.
Lemma meets_mono fcos l l' d N sol at_wpt to_wpt : tighter l l' d ->
  (forall w c, In c (at_wpt w) \/ In c (to_wpt w) -> ordinary_constraint fcos c) ->
  meets_up_to fcos l N sol at_wpt to_wpt -> meets_up_to fcos l' N sol at_wpt to_wpt.
Proof.
  intros T O (M1 & M2). split.
  - intros w c Hw Hc. apply (demands_mono fcos l l' d); auto. apply (O w); auto.
  - intros w c i Hw Hc Hi. apply (demands_mono fcos l l' d); auto; [apply (O w); auto|]. exact (M2 w c i Hw Hc Hi).
Qed.
Lemma consecutive_in {A} (ms : list A) m1 m2 : In (m1, m2) (consecutive ms) -> In m1 ms /\ In m2 ms.
Proof.
  unfold consecutive. intros H. split; [exact (in_combine_l _ _ _ _ H)|]. apply in_combine_r in H.
  destruct ms; [exact H|right; exact H].
Qed.
Lemma computed_between d : ordinary_drivetrain d -> tighter (stricter documented) computed d /\ tighter computed (looser documented) d.
Proof.
  intros (_ & _ & O). rewrite Forall_forall in O.
  assert (M : forall md, In md (d_modules d) ->
    (less (l_speed documented md) <= l_speed computed md <= more (l_speed documented md)) /\
    (less (l_force documented md) <= l_force computed md <= more (l_force documented md))).
  { intros md H. specialize (O md H). destruct (ordinary_speed md O) as (V & EV), (ordinary_force md O) as (F & EF). cbv zeta in *.
    destruct (square_real _ 500 V ltac:(lia)) as (_ & SV & _). destruct (square_real _ 500 F ltac:(lia)) as (_ & SF & _).
    destruct O as (_ & _ & _ & _ & _ & Pr & Pw & Pt & _).
    unfold computed. cbn [l_speed l_force]. rewrite SV, SF, EV, EF. split; apply rnd_sandwich; cbn [l_speed l_force documented].
    - apply Rmult_le_pos; lra.
    - apply Rmult_le_pos; [lra|]. left. apply Rinv_0_lt_compat, Pr. }
  assert (G : forall a b, within 1000 a -> within 1000 b -> less (l_gap documented a b) <= l_gap computed a b <= more (l_gap documented a b)).
  { intros a b A B. destruct (sub_real a b 1000 A B ltac:(lia)) as (_ & E). unfold computed, documented. cbn [l_gap]. rewrite E. apply gap_sandwich. }
  assert (GX : forall m1 m2, In (m1, m2) (consecutive (d_modules d)) ->
    within 1000 (tX (m_translation m1)) /\ within 1000 (tX (m_translation m2)) /\
    within 1000 (tY (m_translation m1)) /\ within 1000 (tY (m_translation m2))).
  { intros m1 m2 H. apply consecutive_in in H. destruct (O m1 (proj1 H)) as (? & ? & _), (O m2 (proj2 H)) as (? & ? & _). auto. }
  assert (L : forall k, within 500 k -> less (Rabs (real k)) <= sqrt (real (f64_mul k k)) <= more (Rabs (real k))).
  { intros k W. destruct (square_real k 500 W ltac:(lia)) as (_ & -> & _).
    replace (real k * real k) with (Rabs (real k) * Rabs (real k)) by (rewrite <- Rabs_mult; apply Rabs_pos_eq; nra).
    apply root_sandwich, Rabs_pos. }
  split; (split; [|split]).
  - intros md H. destruct (M md H). cbn. split; tauto.
  - intros m1 m2 H. destruct (GX m1 m2 H) as (? & ? & ? & ?). split; apply G; assumption.
  - intros k W. split; apply L, W.
  - intros md H. destruct (M md H). cbn. split; tauto.
  - intros m1 m2 H. destruct (GX m1 m2 H) as (? & ? & ? & ?). split; apply G; assumption.
  - intros k W. split; apply L, W.
Qed.

(** ** The theorems *)
Lemma meets_ext' fcos l N sol a a' t t' : (forall w, a w = a' w) -> (forall w, t w = t' w) ->
  meets_up_to fcos l N sol a t -> meets_up_to fcos l N sol a' t'.
Proof.
  intros Ea Et (M1 & M2). split.
  - intros w c Hw Hc. apply M1; [exact Hw|]. rewrite Ea. exact Hc.
  - intros w c i Hw Hc Hi. apply (M2 w c i); try assumption. rewrite Et. exact Hc.
Qed.
Lemma uniform_steps_read T m N env : T = (1 + list_sum N)%nat -> uniform_steps N (read_solution T m N env).
Proof.
  intros -> s k Hs Hk. change (waypoint_sample N s) with (start N s).
  pose proof (step_val env _ m N eq_refl s k Hs Hk) as E1. pose proof (step_val env _ m N eq_refl s 0%nat Hs ltac:(lia)) as E2.
  change (S (start N s + k)) with (1 + start N s + k)%nat. rewrite E1, <- E2. f_equal. lia.
Qed.
Section Theorems.
  Variables (fcos fsin : f64 -> f64) (fatan2 fhypot : f64 -> f64 -> f64) (asserts : bool) (h : list (op f64)).
  Variables (handle : Z) (d : drivetrain f64) (g : gen f64).
  Hypothesis OP : ordinary_path fcos fsin fatan2 fhypot asserts h handle d g.
  Theorem computed_exact : forall sol, solved (over_reals g) sol <-> fits fcos fsin fatan2 fhypot asserts h computed d sol.
  Proof.
    destruct OP as ((Hg & Hd) & PC & AR & Pos & Od & Oc). set (A := Arith_f64 fcos fsin fatan2 fhypot) in *.
    pose proof (@run_ops_inv_new f64 A Dbl_f64 asserts h) as Inv. unfold counts in *.
    assert (EW : forall w, constraints_at (@path f64 A Dbl_f64 asserts h) w = @wpt_requests f64 A [] h w)
      by (intros w; exact (proj1 (C11_proof asserts h PC AR w))).
    assert (ES : forall w, segment_constraints_to (@path f64 A Dbl_f64 asserts h) w = @sgmt_requests f64 A [] h w)
      by (intros w; exact (proj2 (C11_proof asserts h PC AR w))).
    unfold fits, counts. fold A.
    set (b := @path f64 A Dbl_f64 asserts h) in *.
    assert (Oc' : forall w c, In c (constraints_at b w) \/ In c (segment_constraints_to b w) -> ordinary_constraint fcos c).
    { intros w c. rewrite EW, ES. apply Oc. }
    destruct (over_cons fcos fsin fatan2 fhypot b handle g d Inv Hg Hd) as (_ & L & RD).
    intros sol. cbv zeta. split.
    - intros (env & F & E). rewrite RD in E. injection E as <-.
      destruct (physics64 fcos fsin fatan2 fhypot b handle g d Inv Hg Hd Od Oc' env F) as (P & M).
      split; [apply read_shape; reflexivity|]. split; [apply uniform_steps_read; reflexivity|]. split; [exact P|].
      revert M. apply meets_ext'; assumption.
    - intros (Sh & U & P & M). destruct (read_onto _ _ _ Sh U) as (env & E). exists env. split; [|rewrite RD, E; reflexivity].
      apply (physics64_back fcos fsin fatan2 fhypot b handle g d Inv Hg Hd Od Oc' Pos env); rewrite E; [exact P|].
      revert M. apply meets_ext'; intros w; symmetry; auto.
  Qed.
  Theorem within_looser : forall sol, solved (over_reals g) sol -> fits fcos fsin fatan2 fhypot asserts h (looser documented) d sol.
  Proof.
    intros sol Sv. apply computed_exact in Sv. destruct Sv as (Sh & U & P & M), OP as (_ & _ & _ & _ & Od & Oc).
    destruct (computed_between d Od) as (_ & T). split; [exact Sh|]. split; [exact U|]. split.
    - exact (obeys_mono _ _ _ _ _ T P).
    - exact (meets_mono _ _ _ _ _ _ _ _ T Oc M).
  Qed.
  Theorem stricter_enough : forall sol, fits fcos fsin fatan2 fhypot asserts h (stricter documented) d sol -> solved (over_reals g) sol.
  Proof.
    intros sol (Sh & U & P & M). apply computed_exact. destruct OP as (_ & _ & _ & _ & Od & Oc).
    destruct (computed_between d Od) as (T & _). split; [exact Sh|]. split; [exact U|]. split.
    - exact (obeys_mono _ _ _ _ _ T P).
    - exact (meets_mono _ _ _ _ _ _ _ _ T Oc M).
  Qed.
End Theorems.

(** ** The documented limits are C60's *)
Lemma documented_physics d N sol : obeys_up_to documented d N sol <-> obeys_physics turns_up_to_half (real_drivetrain d) N sol.
Proof.
  unfold obeys_up_to, obeys_physics. split; intros (O1 & O2); split.
  - intros i Hi. destruct (O1 i Hi) as (T & S & K). split; [|exact K]. split; [exact T|].
    intros md a b Hmd Hab. cbn [d_modules real_drivetrain] in *. apply in_map_iff in Hmd. destruct Hmd as (md' & <- & Hmd).
    unfold consecutive in Hab. change (map real_module (d_modules d)) with (map real_module (d_modules d)) in Hab.
    assert (E : tl (map real_module (d_modules d)) = map real_module (tl (d_modules d))) by (destruct (d_modules d); reflexivity).
    rewrite E in Hab. destruct (in_combine_map _ _ _ _ _ Hab) as (a' & -> & H). 
    assert (exists b', b = real_module b' /\ In (a', b') (combine (d_modules d) (tl (d_modules d)))) as (b' & -> & H').
    { clear -H. revert H. generalize (tl (d_modules d)) as k. generalize (d_modules d) as l.
      induction l as [|x l IH]; intros [|y k]; cbn [map combine In]; try tauto.
      intros [E|H]; [injection E as -> <-; eauto|]. destruct (IH k H) as (b' & ? & ?). eauto. }
    exact (S md' a' b' Hmd H').
  - intros i Hi. destruct (O2 i Hi) as (W & V & F). split; [exact W|]. split.
    + intros md H. apply in_map_iff in H. destruct H as (md' & <- & H). exact (V md' H).
    + intros md f H. destruct (in_combine_map _ _ _ _ _ H) as (md' & -> & H'). exact (F md' f H').
  - intros i Hi. destruct (O1 i Hi) as ((T & S) & K). split; [exact T|]. split; [|exact K].
    intros md m1 m2 Hmd Hp. apply (S (real_module md) (real_module m1) (real_module m2)).
    + cbn. apply in_map, Hmd.
    + cbn [d_modules real_drivetrain]. unfold consecutive in *.
      assert (E : tl (map real_module (d_modules d)) = map real_module (tl (d_modules d))) by (destruct (d_modules d); reflexivity).
      rewrite E. revert Hp. generalize (tl (d_modules d)) as k. generalize (d_modules d) as l.
      induction l as [|x l IH]; intros [|y k]; cbn [map combine In]; try tauto.
      intros [E'|H']; [injection E' as -> ->; left; reflexivity|right; apply IH, H'].
  - intros i Hi. destruct (O2 i Hi) as (W & V & F). split; [exact W|]. split.
    + intros md H. exact (V (real_module md) (in_map _ _ _ H)).
    + intros md f H. exact (F (real_module md) f (combine_map_in _ _ _ _ _ H)).
Qed.
Lemma documented_demands fcos s c : exact_angles fcos c -> (demands_up_to fcos documented s c <-> demands s (real_constraint c)).
Proof.
  intros E. destruct c; cbn [exact_angles] in E;
    cbn [demands_up_to demands real_constraint real_rotation real_point rCos rSin pTr pRot tX tY l_max l_min documented]; try tauto.
  - unfold exact_rotation in E. set (cu := real (rCos _)) in *. set (su := real (rSin _)) in *. split.
    + intros H. exists (q_vx s * cu + q_vy s * su).
      assert ((q_vx s * su - q_vy s * cu) ^ 2 = 0).
      { replace ((q_vx s * su - q_vy s * cu) ^ 2) with ((q_vx s ^ 2 + q_vy s ^ 2) * (cu ^ 2 + su ^ 2) - (q_vx s * cu + q_vy s * su) ^ 2) by ring.
        rewrite E, H. ring. }
      assert (Z : q_vx s * su - q_vy s * cu = 0) by nra. split.
      * transitivity (q_vx s * (cu ^ 2 + su ^ 2)); [rewrite E; ring|]. 
        transitivity ((q_vx s * cu + q_vy s * su) * cu + su * (q_vx s * su - q_vy s * cu)); [ring|rewrite Z; ring].
      * transitivity (q_vy s * (cu ^ 2 + su ^ 2)); [rewrite E; ring|].
        transitivity ((q_vx s * cu + q_vy s * su) * su - cu * (q_vx s * su - q_vy s * cu)); [ring|rewrite Z; ring].
    + intros (k & -> & ->). transitivity (k ^ 2 * (cu ^ 2 + su ^ 2) ^ 2); [ring|]. rewrite E. 
      transitivity (k ^ 2 * (cu ^ 2 + su ^ 2)); [rewrite E; ring|ring].
  - rewrite E. tauto.
  - unfold exact_rotation in E. unfold unit_heading. set (cu := real (rCos _)) in *. set (su := real (rSin _)) in *. split.
    + intros (X & Y & U & Z). split; [exact X|]. split; [exact Y|].
      set (k := q_c s * cu + q_s s * su).
      assert (C1 : q_c s = k * cu).
      { unfold k. transitivity (q_c s * (cu ^ 2 + su ^ 2)); [rewrite E; ring|].
        transitivity ((q_c s * cu + q_s s * su) * cu + su * (q_c s * su - q_s s * cu)); [ring|rewrite Z; ring]. }
      assert (C2 : q_s s = k * su).
      { unfold k. transitivity (q_s s * (cu ^ 2 + su ^ 2)); [rewrite E; ring|].
        transitivity ((q_c s * cu + q_s s * su) * su - cu * (q_c s * su - q_s s * cu)); [ring|rewrite Z; ring]. }
      assert (K : k * k = 1).
      { rewrite <- U, C1, C2. transitivity (k * k * (cu ^ 2 + su ^ 2)); [rewrite E; ring|ring]. }
      assert ((k - 1) * (k + 1) = 0) by lra. apply Rmult_integral in H. destruct H as [H|H].
      * left. rewrite C1, C2. replace k with 1 by lra. split; ring.
      * right. rewrite C1, C2. replace k with (-1) by lra. split; ring.
    + intros (X & Y & [[-> ->]|[-> ->]]); (split; [exact X|]; split; [exact Y|]; split; [|ring]); rewrite <- E; ring.
Qed.

(** ** Limits too small to square *)
Lemma tiny_square k : within 500 k -> Rabs (real k) <= powerRZ 2 (-538) -> real (f64_mul k k) = 0.
Proof.
  intros W B. destruct (square_real k 500 W ltac:(lia)) as (_ & -> & _).
  assert (Q : real k * real k <= bpow radix2 (-1076)).
  { replace (real k * real k) with (Rabs (real k) * Rabs (real k)) by (rewrite <- Rabs_mult; apply Rabs_pos_eq; nra).
    change (-1076)%Z with (-538 + -538)%Z. rewrite bpow_plus, !pow2. apply Rmult_le_compat; auto using Rabs_pos. }
  destruct (Req_dec (real k * real k) 0) as [->|N]; [apply rnd_0|].
  unfold rnd. assert (P : 0 < real k * real k) by nra. set (x := real k * real k) in *.
  destruct (mag radix2 x) as (ex & Hex). specialize (Hex N). rewrite Rabs_pos_eq in Hex by lra.
  apply round_N_small_pos with (ex := ex); [exact Hex|].
  assert (ex - 1 < -1075)%Z by (apply (lt_bpow radix2); apply Rle_lt_trans with x; [apply Hex|];
    apply Rle_lt_trans with (1 := Q); apply bpow_lt; lia).
  unfold SpecFloat.fexp, SpecFloat.emin. lia.
Qed.
Lemma norm2_zero a b : norm2 (a, b) <= 0 -> a = 0 /\ b = 0.
Proof.
  unfold norm2. cbn [fst snd]. intros H. pose proof (sqrt_pos (a * a + b * b)).
  assert (Z : sqrt (a * a + b * b) = 0) by lra. apply sqrt_eq_0 in Z; [|nra]. apply Rplus_sqr_eq_0, Z.
Qed.
Lemma tiny_stops : forall fcos fsin fatan2 fhypot asserts h handle d g sol w m,
  let A := Arith_f64 fcos fsin fatan2 fhypot in
  ordinary_path fcos fsin fatan2 fhypot asserts h handle d g -> solved (over_reals g) sol ->
  (w <= length (@counts f64 A Dbl_f64 asserts h))%nat ->
  In (LinearVelocityMaxMagnitude m) (@wpt_requests f64 A [] h w) -> Rabs (real m) <= powerRZ 2 (-538) ->
  let s := at_sample sol (waypoint_sample (@counts f64 A Dbl_f64 asserts h) w) in q_vx s = 0 /\ q_vy s = 0.
Proof.
  intros fcos fsin fatan2 fhypot asserts h handle d g sol w m A OP Sv Hw Hc B s.
  apply (computed_exact _ _ _ _ _ _ _ _ _ OP) in Sv. destruct Sv as (_ & _ & _ & M & _).
  specialize (M w _ Hw Hc). fold A s in M. cbn [demands_up_to computed l_max] in M.
  rewrite tiny_square in M; [|destruct OP as (_ & _ & _ & _ & _ & Oc); exact (Oc w _ (or_introl Hc))|exact B].
  rewrite sqrt_0 in M. apply norm2_zero, M.
Qed.

(** ** Directions *)
Lemma direction_cases fcos l s u : demands_up_to fcos l s (LinearVelocityDirection u) <->
  (q_vx s = 0 /\ q_vy s = 0) \/
  (size2 u = 1 /\ exists k, q_vx s = k * real (rCos u) /\ q_vy s = k * real (rSin u)) \/
  (1 < size2 u /\ (q_vx s * real (rSin u) - q_vy s * real (rCos u)) ^ 2 = (q_vx s ^ 2 + q_vy s ^ 2) * (size2 u - 1)).
Proof.
  cbn [demands_up_to]. unfold size2. set (a := real (rCos u)). set (b := real (rSin u)). set (x := q_vx s). set (y := q_vy s).
  assert (LG : (x * a + y * b) ^ 2 + (x * b - y * a) ^ 2 = (x ^ 2 + y ^ 2) * (a ^ 2 + b ^ 2)) by ring.
  split.
  - intros H. destruct (Rlt_le_dec (a ^ 2 + b ^ 2) 1) as [L|L].
    + left. assert (0 <= (x * b - y * a) ^ 2) by apply pow2_ge_0. assert ((x ^ 2 + y ^ 2) * (1 - (a ^ 2 + b ^ 2)) <= 0) by lra.
      assert (x ^ 2 + y ^ 2 <= 0) by nra. apply Rplus_sqr_eq_0. unfold Rsqr. nra.
    + destruct (Req_dec (a ^ 2 + b ^ 2) 1) as [E|N].
      * right. left. split; [exact E|]. exists (x * a + y * b).
        assert (Z : x * b - y * a = 0) by (rewrite E in LG; nra). split.
        -- transitivity (x * (a ^ 2 + b ^ 2)); [rewrite E; ring|].
           transitivity ((x * a + y * b) * a + b * (x * b - y * a)); [ring|rewrite Z; ring].
        -- transitivity (y * (a ^ 2 + b ^ 2)); [rewrite E; ring|].
           transitivity ((x * a + y * b) * b - a * (x * b - y * a)); [ring|rewrite Z; ring].
      * right. right. split; [lra|]. lra.
  - intros [[-> ->]|[[E (k & -> & ->)]|[L H]]].
    + ring.
    + transitivity (k ^ 2 * (a ^ 2 + b ^ 2) ^ 2); [ring|]. rewrite E. transitivity (k ^ 2 * (a ^ 2 + b ^ 2)); [rewrite E; ring|ring].
    + lra.
Qed.
