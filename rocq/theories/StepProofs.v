(** What one time step can do: how far the robot moves and turns (C72-C74). *)
From Coq Require Import List Lia Lra Psatz Reals ZArith Permutation.
Import ListNotations.
From Verif Require Import Outcome Num NumR Geometry Expr Constraints Util Builder Guess Generator Trajectory
  Spec SpecBuilder SpecPhysics SpecTrajectory SpecGenerator SpecStep Semantics
  UtilFacts GeometryFacts BuilderFacts BuilderHistory ConstraintFacts GuessFacts GeneratorFacts SeedFacts FeasibleFacts
  GeneratorProofs HistoryFacts SolutionProofs TrajectoryProofs GeneratorCases LimitProofs OrderProofs.
Local Open Scope nat_scope.
Open Scope R_scope.

(** No wheel at top speed travels farther than a spacing in one step. *)
Lemma spacing_step : forall d s dt md, spacing d s -> step_within d dt -> In md (d_modules d) ->
  dt * wheel_limit md <= s.
Proof.
  intros d s dt md (Ps & a & b & Hab & E) [_ St] Hm. destruct (St md a b Hm Hab) as [SX SY].
  unfold wheel_limit. rewrite <- Rmult_assoc. destruct E as [E|E]; rewrite E; [apply SX|apply SY];
    intros Q; rewrite Q, Rminus_eq_0, Rabs_R0 in E; lra.
Qed.

Lemma dist2_norm : forall p q, dist2 p q = norm2 (fst q - fst p, snd q - snd p).
Proof. intros [a b] [c e]. unfold dist2, norm2. cbn [fst snd]. f_equal. ring. Qed.
Lemma dist2_tri : forall p q r, dist2 p r <= dist2 p q + dist2 q r.
Proof.
  intros [a b] [c e] [f g]. rewrite !dist2_norm. cbn [fst snd].
  replace (f - a) with ((c - a) + (f - c)) by ring. replace (g - b) with ((e - b) + (g - e)) by ring.
  apply norm2_triangle.
Qed.
Lemma dist2_self : forall p, dist2 p p = 0.
Proof.
  intros [a b]. rewrite dist2_norm. cbn [fst snd]. unfold norm2. cbn [fst snd].
  replace ((a - a) * (a - a) + (b - b) * (b - b)) with 0 by ring. apply sqrt_0.
Qed.

Section Run.
  Variables (asserts : bool) (h : list (op R)) (handle : Z) (d : drivetrain R) (g : gen R) (sol : solution R).
  Hypotheses (G : generator asserts h handle d g) (Sv : solved g sol) (W : real_wheels d).
  Let N := counts asserts h.

  Lemma dt_nonneg : forall i, (1 <= i <= last_sample N)%nat -> 0 <= step_to sol i.
  Proof. intros i Hi. apply (C21_proof asserts h handle d g sol G Sv i Hi). Qed.

  (** ** Distance *)
  Lemma step_length : forall s i, centred d -> spacing d s -> (1 <= i <= last_sample N)%nat ->
    unit_heading (at_sample sol i) ->
    dist2 (position (at_sample sol (i - 1))) (position (at_sample sol i)) <= s.
  Proof.
    intros s i Ce Sp Hi U.
    pose proof (C21_proof asserts h handle d g sol G Sv i Hi) as St.
    pose proof (dt_nonneg i Hi) as Dt.
    pose proof (speed_limit_proof asserts h handle d g sol G Sv W Ce i (proj2 Hi) U) as B.
    destruct (C16_steps_proof asserts h handle d g sol G Sv i Hi) as [[MX MY] _].
    set (q := at_sample sol i) in *. set (dt := step_to sol i) in *.
    rewrite dist2_norm. unfold position. cbn [fst snd].
    replace (q_x q - q_x (at_sample sol (i - 1))) with (dt * q_vx q) by lra.
    replace (q_y q - q_y (at_sample sol (i - 1))) with (dt * q_vy q) by lra.
    rewrite norm2_scale, Rabs_right by lra.
    assert (L : (0 < length (d_modules d))%nat).
    { destruct Sp as (_ & a & b & Hab & _). destruct (consecutive_in _ _ _ Hab) as [Ha _].
      destruct (d_modules d); [destruct Ha|simpl; lia]. }
    assert (Bs : dt * sum (map wheel_limit (d_modules d)) <= INR (length (d_modules d)) * s).
    { assert (X : forall l, (forall md, In md l -> dt * wheel_limit md <= s) ->
                dt * sum (map wheel_limit l) <= INR (length l) * s).
      { induction l as [|md l IH]; intros Hl; cbn [map sum length]; [simpl; lra|].
        rewrite S_INR. pose proof (Hl md (or_introl eq_refl)).
        specialize (IH (fun m Hm => Hl m (or_intror Hm))). lra. }
      apply X. intros md Hm. apply (spacing_step d s dt md Sp St Hm). }
    apply (Rmult_le_reg_l (INR (length (d_modules d)))); [apply lt_0_INR; exact L|].
    apply Rle_trans with (dt * sum (map wheel_limit (d_modules d))); [|exact Bs].
    replace (INR (length (d_modules d)) * (dt * norm2 (q_vx q, q_vy q)))
      with (dt * (INR (length (d_modules d)) * norm2 (q_vx q, q_vy q))) by ring.
    apply Rmult_le_compat_l; [exact Dt|exact B].
  Qed.

  Lemma reach : forall s, centred d -> spacing d s -> headings_unit N sol ->
    forall i n, (i + n <= last_sample N)%nat ->
    dist2 (position (at_sample sol i)) (position (at_sample sol (i + n))) <= INR n * s.
  Proof.
    intros s Ce Sp U i n. induction n as [|n IH]; intros Hn.
    - rewrite Nat.add_0_r, dist2_self. simpl. lra.
    - eapply Rle_trans; [apply (dist2_tri _ (position (at_sample sol (i + n))))|].
      pose proof (step_length s (i + S n) Ce Sp ltac:(lia) (U (i + S n)%nat Hn)) as B.
      replace (i + S n - 1)%nat with (i + n)%nat in B by lia.
      specialize (IH ltac:(lia)). rewrite S_INR. lra.
  Qed.

  (** ** Turning *)
  Lemma pair_turn : forall i ma mb, (i <= last_sample N)%nat -> In ma (d_modules d) -> In mb (d_modules d) ->
    Rabs (q_w (at_sample sol i)) * dist2 (pt (m_translation ma)) (pt (m_translation mb))
      <= wheel_limit ma + wheel_limit mb.
  Proof.
    intros i ma mb Hi Ha Hb.
    destruct (solved_physics asserts h handle d g sol G Sv W) as [_ P]. destruct (P i Hi) as (_ & Wh & _).
    set (q := at_sample sol i) in *.
    pose proof (Wh ma Ha) as Ba. pose proof (Wh mb Hb) as Bb. fold (wheel_limit ma) in Ba. fold (wheel_limit mb) in Bb.
    destruct ma as [[xa ya] ra wa ta]. destruct mb as [[xb yb] rb wb tb].
    unfold pt. cbn [m_translation tX tY] in *.
    rewrite dist2_norm, <- norm2_scale. cbn [fst snd].
    unfold wheel_velocity in Ba, Bb. cbn [tX tY] in Ba, Bb.
    set (ux := q_vx q * q_c q + q_vy q * q_s q) in *. set (uy := q_vy q * q_c q - q_vx q * q_s q) in *.
    set (w := q_w q) in *.
    pose proof (norm2_triangle (- (ux - ya * w)) (- (uy + xa * w)) (ux - yb * w) (uy + xb * w)) as T.
    assert (E1 : norm2 (- (ux - ya * w), - (uy + xa * w)) = norm2 (ux - ya * w, uy + xa * w))
      by (unfold norm2; cbn [fst snd]; f_equal; ring).
    rewrite E1 in T.
    assert (E2 : norm2 (- (ux - ya * w) + (ux - yb * w), - (uy + xa * w) + (uy + xb * w)) = norm2 (w * (xb - xa), w * (yb - ya)))
      by (unfold norm2; cbn [fst snd]; f_equal; ring).
    rewrite E2 in T. eapply Rle_trans; [exact T|]. lra.
  Qed.
  Lemma pair_turn_step : forall s i ma mb, (1 <= i <= last_sample N)%nat -> In ma (d_modules d) -> In mb (d_modules d) ->
    spacing d s ->
    Rabs (q_w (at_sample sol i) * step_to sol i) * dist2 (pt (m_translation ma)) (pt (m_translation mb)) <= 2 * s.
  Proof.
    intros s i ma mb Hi Ha Hb Sp. pose proof (C21_proof asserts h handle d g sol G Sv i Hi) as St.
    pose proof (dt_nonneg i Hi) as Dt. pose proof (pair_turn i ma mb (proj2 Hi) Ha Hb) as B.
    pose proof (spacing_step d s _ ma Sp St Ha). pose proof (spacing_step d s _ mb Sp St Hb).
    rewrite Rabs_mult, (Rabs_right (step_to sol i)) by lra.
    pose proof (Rmult_le_compat_l _ _ _ Dt B). lra.
  Qed.

  Lemma norm2_ge_x : forall x y, Rabs x <= norm2 (x, y).
  Proof.
    intros x y. unfold norm2. cbn [fst snd]. rewrite <- sqrt_Rsqr_abs. apply sqrt_le_1_alt. unfold Rsqr. nra.
  Qed.
  Lemma norm2_ge_y : forall x y, Rabs y <= norm2 (x, y).
  Proof.
    intros x y. unfold norm2. cbn [fst snd]. rewrite <- sqrt_Rsqr_abs. apply sqrt_le_1_alt. unfold Rsqr. nra.
  Qed.
  Lemma turn_two : forall s i, (1 <= i <= last_sample N)%nat -> spacing d s ->
    Rabs (q_w (at_sample sol i) * step_to sol i) <= 2.
  Proof.
    intros s i Hi Sp. pose proof Sp as (Ps & a & b & Hab & E). destruct (consecutive_in _ _ _ Hab) as [Ha Hb].
    pose proof (pair_turn_step s i a b Hi Ha Hb Sp) as B.
    assert (L : s <= dist2 (pt (m_translation a)) (pt (m_translation b))).
    { rewrite dist2_norm. unfold pt. cbn [fst snd]. destruct E as [->| ->]; rewrite Rabs_minus_sym;
        [apply norm2_ge_x|apply norm2_ge_y]. }
    pose proof (Rabs_pos (q_w (at_sample sol i) * step_to sol i)) as P.
    apply (Rmult_le_reg_r s); [exact Ps|]. eapply Rle_trans; [|exact B]. apply Rmult_le_compat_l; assumption.
  Qed.

  Lemma rectangular_spacing : forall a b, 0 < a -> 0 < b -> rectangular a b d -> spacing d (2 * a) /\ spacing d (2 * b).
  Proof.
    intros a b Ha Hb Rc.
    assert (In1 : forall c, In c [(a, b); (a, - b); (- a, b); (- a, - b)] -> exists md, In md (d_modules d) /\ pt (m_translation md) = c).
    { intros c Hc. apply (Permutation_in _ (Permutation_sym Rc)) in Hc. apply in_map_iff in Hc.
      destruct Hc as (md & E & Hm). exists md. split; assumption. }
    assert (Of : forall md, In md (d_modules d) ->
      (tX (m_translation md) = a \/ tX (m_translation md) = - a) /\ (tY (m_translation md) = b \/ tY (m_translation md) = - b)).
    { intros md Hm. assert (I : In (pt (m_translation md)) [(a, b); (a, - b); (- a, b); (- a, - b)])
        by (apply (Permutation_in _ Rc), (in_map (fun md => pt (m_translation md))); exact Hm).
      unfold pt in I. simpl in I. destruct I as [E|[E|[E|[E|[]]]]]; injection E as <- <-; tauto. }
    destruct (In1 (a, b) ltac:(simpl; tauto)) as (m1 & I1 & E1). unfold pt in E1. injection E1 as X1 Y1.
    destruct (In1 (- a, - b) ltac:(simpl; tauto)) as (m2 & I2 & E2). unfold pt in E2. injection E2 as X2 Y2.
    split; (split; [lra|]).
    - destruct (consecutive_differ (fun md => tX (m_translation md)) (d_modules d) m1 m2 I1 I2) as (x & y & Hxy & D).
      { cbv beta. rewrite X1, X2. lra. }
      exists x, y. split; [exact Hxy|]. left. cbv beta in D. destruct (consecutive_in _ _ _ Hxy) as [Hx Hy].
      destruct (Of x Hx) as [[Ex|Ex] _]; destruct (Of y Hy) as [[Ey|Ey] _]; rewrite Ex, Ey in *; try (contradiction D; reflexivity).
      + rewrite Rabs_right; lra.
      + rewrite Rabs_left; lra.
    - destruct (consecutive_differ (fun md => tY (m_translation md)) (d_modules d) m1 m2 I1 I2) as (x & y & Hxy & D).
      { cbv beta. rewrite Y1, Y2. lra. }
      exists x, y. split; [exact Hxy|]. right. cbv beta in D. destruct (consecutive_in _ _ _ Hxy) as [Hx Hy].
      destruct (Of x Hx) as [_ [Ex|Ex]]; destruct (Of y Hy) as [_ [Ey|Ey]]; rewrite Ex, Ey in *; try (contradiction D; reflexivity).
      + rewrite Rabs_right; lra.
      + rewrite Rabs_left; lra.
  Qed.

  Lemma turn_rectangular : forall a b i, 0 < a -> 0 < b -> rectangular a b d -> (1 <= i <= last_sample N)%nat ->
    Rabs (q_w (at_sample sol i) * step_to sol i) <= sqrt 2.
  Proof.
    intros a b i Ha Hb Rc Hi. destruct (rectangular_spacing a b Ha Hb Rc) as [SA SB].
    assert (In1 : forall c, In c [(a, b); (a, - b); (- a, b); (- a, - b)] -> exists md, In md (d_modules d) /\ pt (m_translation md) = c).
    { intros c Hc. apply (Permutation_in _ (Permutation_sym Rc)) in Hc. apply in_map_iff in Hc.
      destruct Hc as (md & E & Hm). exists md. split; assumption. }
    destruct (In1 (a, b) ltac:(simpl; tauto)) as (m1 & I1 & E1).
    destruct (In1 (- a, - b) ltac:(simpl; tauto)) as (m2 & I2 & E2).
    pose proof (pair_turn_step _ i m1 m2 Hi I1 I2 SA) as BA. pose proof (pair_turn_step _ i m1 m2 Hi I1 I2 SB) as BB.
    rewrite E1, E2 in BA, BB. rewrite dist2_norm in BA, BB. cbn [fst snd] in BA, BB.
    set (t := Rabs _) in *. assert (P : 0 <= t) by apply Rabs_pos.
    set (n := norm2 (- a - a, - b - b)) in *.
    assert (Q : n * n = 4 * (a * a) + 4 * (b * b)) by (unfold n; rewrite norm2_sqr; ring).
    assert (Pn : 0 <= n) by apply norm2_pos.
    apply Rsqr_incr_0_var; [|apply sqrt_pos]. rewrite Rsqr_sqrt by lra. unfold Rsqr.
    destruct (Rle_lt_dec a b) as [L|L].
    - assert (X : (t * n) * (t * n) <= (2 * (2 * a)) * (2 * (2 * a))).
      { apply Rmult_le_compat; try exact BA; apply Rmult_le_pos; assumption. }
      replace (t * n * (t * n)) with (t * t * (n * n)) in X by ring. rewrite Q in X.
      assert (Y : t * t * (8 * (a * a)) <= t * t * (4 * (a * a) + 4 * (b * b))).
      { apply Rmult_le_compat_l; [nra|]. nra. }
      apply (Rmult_le_reg_r (8 * (a * a))); [nra|]. lra.
    - assert (X : (t * n) * (t * n) <= (2 * (2 * b)) * (2 * (2 * b))).
      { apply Rmult_le_compat; try exact BB; apply Rmult_le_pos; assumption. }
      replace (t * n * (t * n)) with (t * t * (n * n)) in X by ring. rewrite Q in X.
      assert (Y : t * t * (8 * (b * b)) <= t * t * (4 * (a * a) + 4 * (b * b))).
      { apply Rmult_le_compat_l; [nra|]. nra. }
      apply (Rmult_le_reg_r (8 * (b * b))); [nra|]. lra.
  Qed.

  (** Below a quarter turn the headings tell which way it went. *)
  Lemma turn_side : forall i, (1 <= i <= last_sample N)%nat -> unit_heading (at_sample sol (i - 1)) ->
    Rabs (q_w (at_sample sol i) * step_to sol i) < PI / 2 ->
    let a := at_sample sol (i - 1) in let b := at_sample sol i in
    (0 < alignment a b /\ turns a b (step_to sol i)) \/ (alignment a b < 0 /\ turns_opposite a b (step_to sol i)).
  Proof.
    intros i Hi U Sm a b.
    assert (C : 0 < cos (q_w b * step_to sol i)).
    { apply cos_gt_0; unfold b; destruct (Rabs_def2 _ _ Sm); lra. }
    destruct (C18_partial_proof asserts h handle d g sol G Sv i Hi U) as [T|T]; [left|right]; fold a b in T;
      (split; [|exact T]); destruct T as [T1 T2]; unfold alignment; rewrite T1, T2; unfold unit_heading in U; fold a in U.
    - replace (_ + _) with (cos (q_w b * step_to sol i) * (q_c a * q_c a + q_s a * q_s a)) by ring. rewrite U. lra.
    - replace (_ + _) with (- cos (q_w b * step_to sol i) * (q_c a * q_c a + q_s a * q_s a)) by ring. rewrite U. lra.
  Qed.
End Run.

Lemma sqrt2_quarter : sqrt 2 < PI / 2.
Proof.
  apply Rlt_trans with (3/2).
  - apply Rsqr_incrst_0; [|apply sqrt_pos|lra]. rewrite Rsqr_sqrt by lra. unfold Rsqr. lra.
  - pose proof PI2_3_2. lra.
Qed.

Lemma C72_proof : forall asserts h handle d g sol, generator asserts h handle d g -> solved g sol ->
  real_wheels d -> centred d -> forall s, spacing d s ->
  forall i, (1 <= i <= last_sample (counts asserts h))%nat -> unit_heading (at_sample sol i) ->
  dist2 (position (at_sample sol (i - 1))) (position (at_sample sol i)) <= s.
Proof. intros. eapply step_length; eassumption. Qed.

Lemma C73_reach_proof : forall asserts h handle d g sol, generator asserts h handle d g -> solved g sol ->
  real_wheels d -> centred d -> forall s, spacing d s -> headings_unit (counts asserts h) sol ->
  forall i j, (i <= j <= last_sample (counts asserts h))%nat ->
  dist2 (position (at_sample sol i)) (position (at_sample sol j)) <= INR (j - i) * s.
Proof.
  intros asserts h handle d g sol G Sv W Ce s Sp U i j Hij.
  pose proof (reach asserts h handle d g sol G Sv W s Ce Sp U i (j - i) ltac:(lia)) as B.
  replace (i + (j - i))%nat with j in B by lia. exact B.
Qed.

Lemma waypoint_position : forall asserts h handle d g sol i x y a, good_history asserts h ->
  generator asserts h handle d g -> solved g sol ->
  In (OPoseWpt i x y a) h \/ In (OTranslationWpt i x y a) h -> (i <= length (counts asserts h))%nat ->
  position (at_sample sol (waypoint_sample (counts asserts h) i)) = (x, y).
Proof.
  intros asserts h handle d g sol i x y a GH G Sv [H|H] Hi; unfold position.
  - destruct (C28_solution_proof asserts h handle d g sol i x y a GH G Sv H Hi) as (-> & -> & _). reflexivity.
  - destruct (C29_solution_proof asserts h handle d g sol i x y a GH G Sv H Hi) as (-> & ->). reflexivity.
Qed.

Lemma between_sum : forall N i j, (i <= j)%nat ->
  (waypoint_sample N j = waypoint_sample N i + list_sum (firstn (j - i) (skipn i N)))%nat.
Proof.
  unfold waypoint_sample. induction N as [|n N IH]; intros i j Hij.
  - rewrite skipn_nil, !firstn_nil. reflexivity.
  - destruct i as [|i]; [simpl skipn; rewrite Nat.sub_0_r; reflexivity|].
    destruct j as [|j]; [lia|]. simpl. rewrite (IH i j) by lia. lia.
Qed.
Lemma C73_unreachable_proof : forall asserts h handle d g, good_history asserts h ->
  generator asserts h handle d g -> real_wheels d -> centred d -> forall s, spacing d s ->
  forall i j x y a x' y' a' k u v b,
  In (OPoseWpt i x y a) h \/ In (OTranslationWpt i x y a) h ->
  In (OPoseWpt j x' y' a') h \/ In (OTranslationWpt j x' y' a') h ->
  In (OPoseWpt k u v b) h -> (i <= j)%nat -> (j <= length (counts asserts h))%nat -> (k <= length (counts asserts h))%nat ->
  INR (list_sum (firstn (j - i) (skipn i (counts asserts h)))) * s < dist2 (x, y) (x', y') ->
  ~ exists sol, solved g sol.
Proof.
  intros asserts h handle d g GH G W Ce s Sp i j x y a x' y' a' k u v b Hi Hj Hk Hij Lj Lk Far [sol Sv].
  pose proof (C17_partial_proof asserts h handle d g sol k u v b GH G Sv Hk Lk) as U.
  set (N := counts asserts h) in *.
  assert (M : (waypoint_sample N i <= waypoint_sample N j <= last_sample N)%nat).
  { split; [apply waypoint_sample_mono; exact Hij|].
    rewrite <- (waypoint_sample_past N (length N)) by lia. apply waypoint_sample_mono. exact Lj. }
  pose proof (C73_reach_proof asserts h handle d g sol G Sv W Ce s Sp U _ _ M) as B.
  unfold N in B. rewrite (waypoint_position asserts h handle d g sol i x y a GH G Sv Hi) in B by (unfold N in *; lia).
  rewrite (waypoint_position asserts h handle d g sol j x' y' a' GH G Sv Hj) in B by exact Lj.
  fold N in B.
  replace (waypoint_sample N j - waypoint_sample N i)%nat with (list_sum (firstn (j - i) (skipn i N))) in B; [lra|].
  rewrite (between_sum N i j Hij). lia.
Qed.

Lemma C74_proof : forall asserts h handle d g sol, generator asserts h handle d g -> solved g sol ->
  real_wheels d -> forall i, (1 <= i <= last_sample (counts asserts h))%nat ->
  (forall s, spacing d s -> Rabs (q_w (at_sample sol i) * step_to sol i) <= 2) /\
  (forall a b, 0 < a -> 0 < b -> rectangular a b d ->
     Rabs (q_w (at_sample sol i) * step_to sol i) <= sqrt 2).
Proof.
  intros asserts h handle d g sol G Sv W i Hi. split.
  - intros s Sp. exact (turn_two asserts h handle d g sol G Sv W s i Hi Sp).
  - intros a b Ha Hb Rc. exact (turn_rectangular asserts h handle d g sol G Sv W a b i Ha Hb Rc Hi).
Qed.
Lemma C74_side_proof : forall asserts h handle d g sol, generator asserts h handle d g -> solved g sol ->
  real_wheels d -> forall a b, 0 < a -> 0 < b -> rectangular a b d ->
  forall i, (1 <= i <= last_sample (counts asserts h))%nat -> unit_heading (at_sample sol (i - 1)) ->
  let p := at_sample sol (i - 1) in let q := at_sample sol i in
  (0 < alignment p q /\ turns p q (step_to sol i)) \/ (alignment p q < 0 /\ turns_opposite p q (step_to sol i)).
Proof.
  intros asserts h handle d g sol G Sv W a b Ha Hb Rc i Hi U.
  apply (turn_side asserts h handle d g sol G Sv i Hi U).
  eapply Rle_lt_trans; [|exact sqrt2_quarter].
  exact (turn_rectangular asserts h handle d g sol G Sv W a b i Ha Hb Rc Hi).
Qed.
