(** The order in which modules are listed: C23. *)
From Coq Require Import List Lia Lra Psatz Reals ZArith Permutation.
Import ListNotations.
From Verif Require Import Outcome Num NumR Geometry Expr Constraints Util Builder Guess Generator Trajectory
  Spec SpecBuilder SpecPhysics SpecTrajectory SpecGenerator Semantics
  UtilFacts GeometryFacts BuilderFacts BuilderHistory ConstraintFacts GuessFacts GeneratorFacts SeedFacts FeasibleFacts
  GeneratorProofs HistoryFacts SolutionProofs TrajectoryProofs GeneratorCases LimitProofs.
Local Open Scope nat_scope.

(** ** Setting the drivetrain last *)
Section Any.
  Context {K : Type} {HA : Arith K} {HD : Dbl K}.
  Lemma last_counts : forall asserts (h : list (op K)) d, counts asserts (h ++ [OSetDrivetrain d]) = counts asserts h.
  Proof. intros. unfold counts, path. rewrite run_ops_app. reflexivity. Qed.
  Lemma last_wpt : forall (h : list (op K)) d w, wpt_requests [] (h ++ [OSetDrivetrain d]) w = wpt_requests [] h w.
  Proof. intros. rewrite wpt_requests_app. simpl. apply app_nil_r. Qed.
  Lemma last_sgmt : forall (h : list (op K)) d w, sgmt_requests [] (h ++ [OSetDrivetrain d]) w = sgmt_requests [] h w.
  Proof. intros. rewrite sgmt_requests_app. simpl. apply app_nil_r. Qed.
End Any.
Lemma last_good : forall asserts h d, good_history asserts h -> good_history asserts (h ++ [OSetDrivetrain d]).
Proof.
  intros asserts h d (P & Q & R0). split; [apply Forall_app; split; [exact P|repeat constructor]|].
  split; [apply Forall_app; split; [exact Q|repeat constructor]|].
  apply all_returned_app. split; [exact R0|]. split; [reflexivity|exact I].
Qed.

Open Scope R_scope.

Lemma sum_perm : forall a b, Permutation a b -> sum a = sum b.
Proof.
  intros a b P. induction P; simpl; [reflexivity|rewrite IHP; reflexivity|ring|rewrite IHP1; exact IHP2].
Qed.

(** ** Physics does not depend on the order *)
Lemma newton_order : forall d d' s fs fs', reordered d d' ->
  length fs = length (d_modules d) -> length fs' = length (d_modules d') ->
  Permutation (combine (d_modules d) fs) (combine (d_modules d') fs') ->
  newton d s fs -> newton d' s fs'.
Proof.
  intros d d' s fs fs' (M & J & _) L L' P (N1 & N2 & N3). unfold newton. rewrite <- M, <- J, <- N1, <- N2, <- N3.
  rewrite <- (combine_snd fst (d_modules d) fs), <- (combine_snd snd (d_modules d) fs) by (symmetry; exact L).
  rewrite <- (combine_snd fst (d_modules d') fs'), <- (combine_snd snd (d_modules d') fs') by (symmetry; exact L').
  repeat split; apply sum_perm, Permutation_map, Permutation_sym; exact P.
Qed.
Lemma wheels_order : forall d d' s, reordered d d' -> wheels_within d s -> wheels_within d' s.
Proof.
  intros d d' s (_ & _ & P) W md Hmd. apply W. apply (Permutation_in _ (Permutation_sym P)). exact Hmd.
Qed.
Lemma forces_order : forall d d' fs fs', Permutation (combine (d_modules d) fs) (combine (d_modules d') fs') ->
  forces_within d fs -> forces_within d' fs'.
Proof.
  intros d d' fs fs' P F md f Hin. apply F. apply (Permutation_in _ (Permutation_sym P)). exact Hin.
Qed.
Lemma same_motion_samples : forall a b, same_motion a b ->
  (forall i, at_sample a i = at_sample b i) /\ (forall i, step_to a i = step_to b i).
Proof.
  intros a b (E1 & E2 & E3 & E4 & E5 & E6 & E7 & E8 & E9 & E10 & E11). split; intros i.
  - unfold at_sample. rewrite E2, E3, E4, E5, E6, E7, E8, E9, E10, E11. reflexivity.
  - unfold step_to. rewrite E1. reflexivity.
Qed.

Section Order.
  Variables (asserts : bool) (h : list (op R)) (handle : Z) (d d' : drivetrain R) (g g' : gen R).
  Hypothesis Gd : good_history asserts h.
  Hypothesis G : generator asserts (h ++ [OSetDrivetrain d]) handle d g.
  Hypothesis G' : generator asserts (h ++ [OSetDrivetrain d']) handle d' g'.
  Hypothesis Or : reordered d d'.
  Hypothesis W : real_wheels d.
  Hypothesis St : forall dt, step_within d dt -> step_within d' dt.
  Let N := counts asserts h.
  Hypothesis Pos : forall n, In n N -> (1 <= n)%nat.

  Lemma order_transfer : forall sol sol', solved g sol ->
    well_shaped N (length (d_modules d')) sol' -> same_motion sol sol' ->
    (forall i, (i <= last_sample N)%nat -> same_forces d d' sol sol' i) -> solved g' sol'.
  Proof.
    intros sol sol' Sv Sh SM SF.
    pose proof (last_good asserts h d Gd) as Gd1. pose proof (last_good asserts h d' Gd) as Gd2.
    pose proof (solved_shape asserts _ handle d g sol G Sv) as Sh0. rewrite last_counts in Sh0. fold N in Sh0.
    pose proof Sv as (env & F & E).
    assert (Pos1 : forall n, In n (counts asserts (h ++ [OSetDrivetrain d])) -> (1 <= n)%nat)
      by (rewrite last_counts; exact Pos).
    pose proof (proj1 (C15_proof asserts _ handle d g Gd1 G W Pos1 env sol E) F) as [[P1 P2] [M1 M2]].
    pose proof (uniform_read asserts _ handle d g env sol G E) as U.
    rewrite last_counts in P1, P2, M1, M2, U. fold N in P1, P2, M1, M2, U.
    destruct (same_motion_samples sol sol' SM) as [A B].
    assert (W' : real_wheels d').
    { intros md Hmd. apply W. destruct Or as (_ & _ & P). apply (Permutation_in _ (Permutation_sym P)). exact Hmd. }
    apply (solved_intro asserts (h ++ [OSetDrivetrain d']) handle d' g' sol' Gd2 G' W');
      rewrite last_counts; fold N; try assumption.
    - intros s k Hs Hk. rewrite <- !B. apply U; assumption.
    - split.
      + intros i Hi. cbv zeta. rewrite <- !A, <- !B. destruct (P1 i Hi) as (S1 & S2). split; [apply St; exact S1|exact S2].
      + intros i Hi. rewrite <- !A. destruct (P2 i Hi) as (Nw & Wh & Fo). split; [|split].
        * apply (newton_order d d' _ (forces sol i) (forces sol' i) Or); try exact Nw.
          -- apply (forces_length N _ sol i Sh0 Hi).
          -- apply (forces_length N _ sol' i Sh Hi).
          -- apply SF. exact Hi.
        * apply (wheels_order d d' _ Or Wh).
        * apply (forces_order d d' _ _ (SF i Hi) Fo).
    - split.
      + intros w c Hw Hc. rewrite last_wpt in Hc. rewrite <- A. apply M1; [exact Hw|]. rewrite last_wpt. exact Hc.
      + intros w c i Hw Hc Hi. rewrite last_sgmt in Hc. rewrite <- A. apply (M2 w); try assumption.
        rewrite last_sgmt. exact Hc.
  Qed.

  (** Forces can always be rearranged. *)
  Lemma rearrange_row : forall {A B : Type} (ms ms' : list A) (fs : list B), Permutation ms ms' -> length fs = length ms ->
    exists fs', length fs' = length ms' /\ Permutation (combine ms fs) (combine ms' fs').
  Proof.
    intros A B ms ms' fs P L.
    assert (E : map fst (combine ms fs) = ms).
    { rewrite <- (map_id ms) at 2. apply (combine_fst (fun a => a)). symmetry. exact L. }
    rewrite <- E in P. apply Permutation_sym, Permutation_map_inv in P. destruct P as (l' & E' & P').
    exists (map snd l'). split; [rewrite E', !map_length; reflexivity|].
    eapply Permutation_trans; [exact P'|]. rewrite E'.
    assert (X : l' = combine (map fst l') (map snd l')).
    { clear. induction l' as [|[a b] l IH]; [reflexivity|]. cbn [map combine fst snd]. rewrite <- IH. reflexivity. }
    rewrite <- X. apply Permutation_refl.
  Qed.
  Lemma rearrange_rows : forall (ms ms' : list (swerve_module R)) (fX fY : list (list R)), Permutation ms ms' ->
    Forall (fun r => length r = length ms) fX -> Forall (fun r => length r = length ms) fY -> length fX = length fY ->
    exists FX' FY', length FX' = length fX /\ length FY' = length fX /\
      Forall (fun r => length r = length ms') FX' /\ Forall (fun r => length r = length ms') FY' /\
      forall i, (i < length fX)%nat -> Permutation (combine ms (combine (nth i fX []) (nth i fY [])))
                  (combine ms' (combine (nth i FX' []) (nth i FY' []))).
  Proof.
    intros ms ms' fX fY P. revert fY. induction fX as [|x fX IH]; intros [|y fY] F1 F2 L; try discriminate.
    - exists [], []. repeat split; try constructor. intros i Hi. simpl in Hi. lia.
    - inversion F1; subst. inversion F2; subst.
      destruct (IH fY H2 H4 ltac:(injection L; auto)) as (FX' & FY' & L1 & L2 & G1 & G2 & Q).
      destruct (rearrange_row ms ms' (combine x y) P) as (fs' & L3 & P3);
        [rewrite combine_length, H1, H3; apply Nat.min_id|].
      exists (map fst fs' :: FX'), (map snd fs' :: FY').
      assert (X : combine (map fst fs') (map snd fs') = fs').
      { clear. induction fs' as [|[a b] l IH]; [reflexivity|]. cbn [map combine fst snd]. rewrite IH. reflexivity. }
      split; [simpl; lia|]. split; [simpl; lia|].
      split; [constructor; [rewrite map_length; exact L3|exact G1]|].
      split; [constructor; [rewrite map_length; exact L3|exact G2]|].
      intros [|i] Hi; cbn [nth]; [rewrite X; exact P3|]. apply Q. simpl in Hi. lia.
  Qed.

  Lemma order_exists : forall sol, solved g sol -> exists sol', solved g' sol' /\ same_motion sol sol' /\
    forall i, (i <= last_sample N)%nat -> same_forces d d' sol sol' i.
  Proof.
    intros sol Sv.
    pose proof (solved_shape asserts _ handle d g sol G Sv) as Sh. rewrite last_counts in Sh. fold N in Sh.
    pose proof Sh as (L0 & L1 & L2 & L3 & L4 & L5 & L6 & L7 & L8 & L9 & L10 & LX & LY & FX & FY).
    destruct Or as (_ & _ & P).
    destruct (rearrange_rows (d_modules d) (d_modules d') (s_moduleFX sol) (s_moduleFY sol) P FX FY ltac:(lia))
      as (FX' & FY' & LX' & LY' & GX & GY & Q).
    set (sol' := mkSolution (s_dt sol) (s_x sol) (s_y sol) (s_thetacos sol) (s_thetasin sol) (s_vx sol) (s_vy sol)
      (s_omega sol) (s_ax sol) (s_ay sol) (s_alpha sol) FX' FY').
    assert (SM : same_motion sol sol') by (repeat split).
    assert (SF : forall i, (i <= last_sample N)%nat -> same_forces d d' sol sol' i).
    { intros i Hi. apply Q. lia. }
    exists sol'. split; [|split; assumption].
    apply (order_transfer sol sol' Sv); try assumption.
    unfold sol'. repeat split; cbn [s_dt s_x s_y s_thetacos s_thetasin s_vx s_vy s_omega s_ax s_ay s_alpha s_moduleFX s_moduleFY];
      try assumption; lia.
  Qed.
End Order.

(** ** Rectangular drivetrains *)
Lemma consecutive_in : forall {A} (l : list A) x y, In (x, y) (consecutive l) -> In x l /\ In y l.
Proof.
  intros A l x y H. unfold consecutive in H. split; [eapply in_combine_l; exact H|].
  apply in_combine_r in H. destruct l; [destruct H|right; exact H].
Qed.
(** If not all elements agree on [f], two consecutive ones disagree. *)
Lemma consecutive_differ : forall {A} (f : A -> R) (l : list A) x y, In x l -> In y l -> f x <> f y ->
  exists a b, In (a, b) (consecutive l) /\ f a <> f b.
Proof.
  intros A f l. induction l as [|c l IH]; intros x y Hx Hy D; [destruct Hx|].
  destruct l as [|e l]; [destruct Hx as [<-|[]]; destruct Hy as [<-|[]]; contradiction|].
  destruct (Req_dec (f c) (f e)) as [E|E]; [|exists c, e; split; [left; reflexivity|exact E]].
  assert (X : forall z, In z (c :: e :: l) -> exists z', In z' (e :: l) /\ f z' = f z).
  { intros z [<-|Hz]; [exists e; split; [left; reflexivity|symmetry; exact E]|exists z; split; [exact Hz|reflexivity]]. }
  destruct (X x Hx) as (x' & Hx' & Ex). destruct (X y Hy) as (y' & Hy' & Ey).
  destruct (IH x' y' Hx' Hy' ltac:(rewrite Ex, Ey; exact D)) as (a & b & Hab & Dab).
  exists a, b. split; [right; exact Hab|exact Dab].
Qed.

Lemma rectangular_step : forall a b d dt, 0 < a -> 0 < b -> rectangular a b d ->
  (step_within d dt <-> 0 <= dt /\ forall md, In md (d_modules d) ->
     dt * m_wheelRadius md * m_wheelMaxAngularVelocity md <= 2 * a /\
     dt * m_wheelRadius md * m_wheelMaxAngularVelocity md <= 2 * b).
Proof.
  intros a b d dt Ha Hb Rc. unfold rectangular in Rc.
  assert (C : forall md, In md (d_modules d) ->
    (tX (m_translation md) = a \/ tX (m_translation md) = - a) /\
    (tY (m_translation md) = b \/ tY (m_translation md) = - b)).
  { intros md Hmd. assert (I : In (pt (m_translation md)) [(a, b); (a, - b); (- a, b); (- a, - b)]).
    { apply (Permutation_in _ Rc). apply (in_map (fun md => pt (m_translation md))). exact Hmd. }
    unfold pt in I. simpl in I. destruct I as [E|[E|[E|[E|[]]]]]; injection E as <- <-; tauto. }
  assert (Ex : forall c, In c [(a, b); (a, - b); (- a, b); (- a, - b)] ->
    exists md, In md (d_modules d) /\ pt (m_translation md) = c).
  { intros c Hc. apply (Permutation_in _ (Permutation_sym Rc)) in Hc. apply in_map_iff in Hc.
    destruct Hc as (md & E & Hm). exists md. split; assumption. }
  destruct (Ex (a, b) ltac:(simpl; tauto)) as (m1 & I1 & E1). unfold pt in E1. injection E1 as X1 Y1.
  destruct (Ex (- a, b) ltac:(simpl; tauto)) as (m2 & I2 & E2). unfold pt in E2. injection E2 as X2 Y2.
  destruct (Ex (a, - b) ltac:(simpl; tauto)) as (m3 & I3 & E3). unfold pt in E3. injection E3 as X3 Y3.
  destruct (consecutive_differ (fun md => tX (m_translation md)) (d_modules d) m1 m2 I1 I2 ltac:(lra))
    as (u & v & Huv & Duv).
  destruct (consecutive_differ (fun md => tY (m_translation md)) (d_modules d) m1 m3 I1 I3 ltac:(lra))
    as (u' & v' & Huv' & Duv').
  assert (A2 : Rabs (2 * a) = 2 * a) by (apply Rabs_right; lra).
  assert (B2 : Rabs (2 * b) = 2 * b) by (apply Rabs_right; lra).
  unfold step_within. split.
  - intros [P S]. split; [exact P|]. intros md Hmd. split.
    + destruct (S md u v Hmd Huv) as [Sx _]. specialize (Sx Duv).
      destruct (consecutive_in _ _ _ Huv) as [Iu Iv]. destruct (C u Iu) as [Cu _]. destruct (C v Iv) as [Cv _].
      destruct Cu as [Cu|Cu], Cv as [Cv|Cv]; rewrite Cu, Cv in *; try lra.
      * replace (a - - a) with (2 * a) in Sx by ring. lra.
      * replace (- a - a) with (- (2 * a)) in Sx by ring. rewrite Rabs_Ropp in Sx. lra.
    + destruct (S md u' v' Hmd Huv') as [_ Sy]. specialize (Sy Duv').
      destruct (consecutive_in _ _ _ Huv') as [Iu Iv]. destruct (C u' Iu) as [_ Cu]. destruct (C v' Iv) as [_ Cv].
      destruct Cu as [Cu|Cu], Cv as [Cv|Cv]; rewrite Cu, Cv in *; try lra.
      * replace (b - - b) with (2 * b) in Sy by ring. lra.
      * replace (- b - b) with (- (2 * b)) in Sy by ring. rewrite Rabs_Ropp in Sy. lra.
  - intros [P S]. split; [exact P|]. intros md x y Hmd Hxy. destruct (S md Hmd) as [Sa Sb].
    destruct (consecutive_in _ _ _ Hxy) as [Ix Iy]. destruct (C x Ix) as [Cx Cx']. destruct (C y Iy) as [Cy Cy'].
    split; intros D.
    + destruct Cx as [Cx|Cx], Cy as [Cy|Cy]; rewrite Cx, Cy in *; try lra.
      * replace (a - - a) with (2 * a) by ring. lra.
      * replace (- a - a) with (- (2 * a)) by ring. rewrite Rabs_Ropp. lra.
    + destruct Cx' as [Cx'|Cx'], Cy' as [Cy'|Cy']; rewrite Cx', Cy' in *; try lra.
      * replace (b - - b) with (2 * b) by ring. lra.
      * replace (- b - b) with (- (2 * b)) by ring. rewrite Rabs_Ropp. lra.
Qed.
Lemma rectangular_order : forall a b d d', 0 < a -> 0 < b -> rectangular a b d -> reordered d d' ->
  forall dt, step_within d dt -> step_within d' dt.
Proof.
  intros a b d d' Ha Hb Rc (_ & _ & P) dt S.
  assert (Rc' : rectangular a b d').
  { unfold rectangular in *. eapply Permutation_trans; [|exact Rc]. apply Permutation_map, Permutation_sym. exact P. }
  apply (rectangular_step a b d' dt Ha Hb Rc'). apply (rectangular_step a b d dt Ha Hb Rc) in S.
  destruct S as [S1 S2]. split; [exact S1|]. intros md Hmd. apply S2. apply (Permutation_in _ (Permutation_sym P)). exact Hmd.
Qed.

(** ** The order matters otherwise *)
Definition row_of (a b c : R) : drivetrain R := mkDrivetrain 2 1 [wheel a 0; wheel b 0; wheel c 0].
Definition still : solution R :=
  mkSolution [1/2] [0; 0] [0; 0] [1; 1] [0; 0] [0; 0] [0; 0] [0; 0] [0; 0] [0; 0] [0; 0]
    [[0; 0; 0]; [0; 0; 0]] [[0; 0; 0]; [0; 0; 0]].
Definition wait : list (op R) := [OPoseWpt 0 0 0 0; OPoseWpt 1 0 0 0; OControlIntervalCounts [1%nat]].

Lemma wait_generator : forall d, exists g, generator true (wait ++ [OSetDrivetrain d]) 0 d g.
Proof. intros d. apply generator_exists; [apply Nat.ltb_lt; reflexivity|reflexivity]. Qed.
Lemma wait_good : good_history true wait.
Proof. repeat split; repeat constructor. Qed.
Lemma row_wheels : forall a b c, real_wheels (row_of a b c).
Proof. intros a b c md [<-|[<-|[<-|[]]]]; simpl; lra. Qed.
Lemma still_solved : forall g, generator true (wait ++ [OSetDrivetrain (row_of 0 3 1)]) 0 (row_of 0 3 1) g -> solved g still.
Proof.
  intros g G.
  apply (solved_intro true _ 0 _ g still (last_good true wait _ wait_good) G (row_wheels 0 3 1));
    rewrite last_counts; change (counts true wait) with [1%nat].
  - intros n [<-|[]]. lia.
  - repeat split; repeat constructor.
  - intros s k Hs Hk. simpl in Hs. assert (s = 0)%nat as -> by lia. simpl in Hk.
    assert (k = 0)%nat as -> by lia. reflexivity.
  - split.
    + intros i Hi. simpl in Hi. assert (i = 1)%nat as -> by lia. split; [|split; [|split]].
      * unfold step_to. simpl. split; [lra|]. intros md a b Hm Hab. simpl in Hab.
        destruct Hab as [E|[E|[]]]; injection E as <- <-; simpl;
          destruct Hm as [<-|[<-|[<-|[]]]]; simpl; split; intros X; try lra;
          [rewrite Rabs_left by lra|rewrite Rabs_left by lra|rewrite Rabs_left by lra
          |rewrite Rabs_right by lra|rewrite Rabs_right by lra|rewrite Rabs_right by lra]; lra.
      * unfold moves, at_sample, step_to; simpl; split; ring.
      * unfold turns_up_to_half, at_sample, step_to; simpl. replace (0 * (1 / 2)) with 0 by ring; rewrite cos_0, sin_0. left. split; ring.
      * unfold accelerates, at_sample, step_to; simpl; repeat split; ring.
    + intros i Hi. simpl in Hi. assert (i = 0 \/ i = 1)%nat as [->| ->] by lia; (split; [|split]).
      1,4: unfold newton, forces, at_sample, cross2, turned; simpl; repeat split; ring.
      1,3: intros md Hm; simpl in Hm; unfold wheel_velocity, at_sample; simpl;
        destruct Hm as [<-|[<-|[<-|[]]]]; simpl; apply norm2_le; lra.
      all: intros md f Hf; unfold forces in Hf; simpl in Hf; destruct Hf as [E|[E|[E|[]]]]; injection E as <- <-; simpl;
        apply norm2_le; lra.
  - split.
    + intros w c Hw Hc. rewrite last_wpt in Hc. simpl in Hw. assert (w = 0 \/ w = 1)%nat as [->| ->] by lia;
        simpl in Hc; destruct Hc as [<-|[]]; simpl; (split; [reflexivity|split; [reflexivity|]]);
        rewrite cos_0, sin_0; left; split; lra.
    + intros w c i Hw Hc Hi. rewrite last_sgmt in Hc. simpl in Hw. assert (w = 1)%nat as -> by lia. destruct Hc.
Qed.

Lemma C23_refuted_proof : ~ (forall asserts h handle d d' g g' sol, good_history asserts h ->
  generator asserts (h ++ [OSetDrivetrain d]) handle d g ->
  generator asserts (h ++ [OSetDrivetrain d']) handle d' g' ->
  reordered d d' -> real_wheels d -> (forall n, In n (counts asserts h) -> (1 <= n)%nat) ->
  solved g sol -> exists sol', solved g' sol' /\ same_motion sol sol').
Proof.
  intros H.
  destruct (wait_generator (row_of 0 3 1)) as [g G]. destruct (wait_generator (row_of 0 1 3)) as [g' G'].
  destruct (H true wait 0%Z (row_of 0 3 1) (row_of 0 1 3) g g' still wait_good G G') as (sol' & Sv & SM).
  - repeat split. simpl. apply perm_skip, Permutation_cons_append with (l := [wheel 1 0]).
  - apply row_wheels.
  - change (counts true wait) with [1%nat]. intros n [<-|[]]. lia.
  - apply still_solved. exact G.
  - destruct (solved_motion true _ 0 _ g' sol' G' Sv) as [M _].
    destruct (M 1%nat) as ((_ & S) & _); [rewrite last_counts; change (counts true wait) with [1%nat]; simpl; lia|].
    destruct (same_motion_samples still sol' SM) as [_ B]. rewrite <- B in S. unfold step_to in S. simpl in S.
    destruct (S (wheel 0 0) (wheel 0 0) (wheel 1 0) ltac:(tauto) ltac:(tauto)) as [X _].
    simpl in X. specialize (X ltac:(lra)). rewrite Rabs_left in X by lra. lra.
Qed.
