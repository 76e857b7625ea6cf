(** Facing a target up to more than a quarter turn, between samples (C117). *)
From Coq Require Import List Lia Lra Psatz Reals ZArith.
Import ListNotations.
From Verif Require Import Outcome Num NumR Geometry Expr Constraints Util Builder Guess Generator Trajectory
  Spec SpecBuilder SpecPhysics SpecTrajectory SpecGenerator SpecStep SpecObstacle SpecDrive SpecBetween SpecLoad SpecBalance
  BuilderFacts BuilderHistory GeneratorFacts HistoryFacts GeneratorProofs SolutionProofs TrajectoryProofs
  GeneratorCases StepProofs DashProofs BetweenProofs LoadProofs BalanceProofs JumpProofs.
Open Scope R_scope.

(** A step to the side with a target behind the robot. *)
Definition sidelong (c : constraint R) : list (op R) := jump cart 0 1 0 ++ [OSgmtConstraint 0 1 c].
Definition sidestep : solution R := jump_plan cart 0 1 0 (1/2) [(0, 4); (0, 4)].
Definition midstep : state := mkState 0 (1/2) 1 0 0 1 0 0 2 0.

Lemma sidelong_counts : forall asserts c, counts asserts (sidelong c) = [1%nat].
Proof. destruct asserts; reflexivity. Qed.
Lemma sidelong_good : forall asserts c, proper_constraint c -> good_history asserts (sidelong c).
Proof.
  intros asserts c P. destruct (jump_good cart 0 1 0 asserts) as (A & B & C). unfold sidelong. split; [|split].
  - apply Forall_app. split; [exact A|]. constructor; [|constructor]. repeat split; try apply Z.ltb_lt; try reflexivity. lia.
  - apply Forall_app. split; [exact B|]. constructor; [exact P|constructor].
  - destruct asserts; repeat split; reflexivity.
Qed.
Lemma sidestep_start : at_sample sidestep 0 = mkState 0 0 1 0 0 0 0 0 0 0.
Proof.
  unfold at_sample, sidestep, jump_plan.
  cbn [nth s_x s_y s_thetacos s_thetasin s_vx s_vy s_omega s_ax s_ay s_alpha]. rewrite Ropp_0, cos_0, sin_0. reflexivity.
Qed.
Lemma sidestep_finish : at_sample sidestep 1 = mkState 0 1 1 0 0 2 0 0 4 0.
Proof.
  unfold at_sample, sidestep, jump_plan.
  cbn [nth s_x s_y s_thetacos s_thetasin s_vx s_vy s_omega s_ax s_ay s_alpha]. f_equal; field.
Qed.
Lemma sidestep_step : step_to sidestep 1 = 1/2.
Proof. reflexivity. Qed.
Lemma sidestep_turns : turns (at_sample sidestep 0) (at_sample sidestep 1) (step_to sidestep 1).
Proof. rewrite sidestep_start, sidestep_finish. unfold turns. cbn [q_c q_s q_w]. rewrite Rmult_0_l, cos_0, sin_0. split; ring. Qed.
Lemma midstep_between : between (at_sample sidestep 0) (at_sample sidestep 1) (step_to sidestep 1) (1/2) midstep.
Proof.
  rewrite sidestep_start, sidestep_finish, sidestep_step. unfold between, SpecBetween.mix, midstep. cbn [q_x q_y q_c q_s q_vx q_vy q_w q_ax q_ay q_al].
  replace (1 / 2 * (0 * (1 / 2))) with 0 by ring. rewrite cos_0, sin_0. repeat split; lra.
Qed.
Lemma sidelong_solved : forall asserts c, proper_constraint c ->
  demands (at_sample sidestep 0) c -> demands (at_sample sidestep 1) c ->
  exists g, generator asserts (sidelong c) 7 cart g /\ solved g sidestep.
Proof.
  intros asserts c P D0 D1.
  destruct (jump_generator cart 0 1 0 asserts 7) as [g G].
  destruct (generator_exists asserts (sidelong c) 7 cart) as [g' G'];
    [destruct asserts; apply Nat.ltb_lt; reflexivity|reflexivity|].
  assert (Sv : solved g sidestep).
  { assert (E1 : 1 / (1/2) = 2) by field. assert (E2 : 0 / (1/2) = 0) by field.
    assert (N2 : norm2 (0, 2) = 2) by (unfold norm2; cbn [fst snd]; replace (0 * 0 + 2 * 2) with (2 * 2) by ring; apply sqrt_square; lra).
    assert (N4 : norm2 (0, 4) = 4) by (unfold norm2; cbn [fst snd]; replace (0 * 0 + 4 * 4) with (4 * 4) by ring; apply sqrt_square; lra).
    apply (jump_solved cart 0 1 0 (1/2) cart_wheels) with (asserts := asserts) (handle := 7%Z); [lra| |exact G|reflexivity| | |].
    - apply cart_steps. lra.
    - intros md f [E|[E|[]]]; injection E as <- <-; rewrite N4; simpl; lra.
    - unfold newton, turned, cross2. cbn [cart d_mass d_moi d_modules wheel m_translation tX tY map fst snd sum combine q_c q_s q_ax q_ay q_al]. repeat split; field.
    - intros md Hm. rewrite E1, E2, N2, Rabs_R0. destruct Hm as [<-|[<-|[]]]; unfold wheel_limit; simpl; lra. }
  destruct Sv as (env & F & E).
  pose proof (jump_good cart 0 1 0 asserts) as Gd. pose proof (sidelong_good asserts c P) as Gd'.
  assert (X : jump cart 0 1 0 ++ [] = jump cart 0 1 0) by apply app_nil_r.
  destruct (C14_proof asserts (jump cart 0 1 0) 0 1 c [] 7 cart g g' env sidestep Gd') as [E' Q]; rewrite ?X; try assumption.
  - destruct asserts; apply Nat.ltb_lt; reflexivity.
  - exists g'. split; [exact G'|]. exists env. split; [|exact E']. apply Q. split; [exact F|]. rewrite X, jump_counts.
    intros _ i Hi. change (waypoint_sample [1%nat] 0) with 0%nat in Hi. change (waypoint_sample [1%nat] 1) with 1%nat in Hi.
    assert (i = 0 \/ i = 1)%nat as [-> | ->] by lia; assumption.
Qed.

(** A target [c] behind the middle of the step. *)
Lemma behind_seen : forall tol s x y, cos tol < 0 -> (y = 1/2 \/ y = -(1/2)) -> q_x s = 0 -> q_c s = 1 -> q_s s = 0 -> q_y s = x + y ->
  demands s (PointAt (mkTr (cos tol / 2) x) tol).
Proof.
  intros tol s x y C Hy X Hc Hs Y. cbn [demands]. rewrite dist2_norm. unfold pt. cbn [tX tY fst snd]. rewrite X, Hc, Hs, Y.
  set (c := cos tol) in *.
  assert (L : 1/2 <= norm2 (c / 2 - 0, x - (x + y))).
  { unfold norm2. cbn [fst snd]. rewrite <- (sqrt_square (1/2)) by lra. apply sqrt_le_1_alt. destruct Hy as [-> | ->]; nra. }
  pose proof (Rmult_le_compat_neg_l c _ _ (Rlt_le _ _ C) L). lra.
Qed.

Lemma C117_tolerance_proof : forall tol,
  (forall asserts h handle d g sol, good_history asserts h -> generator asserts h handle d g -> solved g sol ->
   let N := counts asserts h in forall f t target, In (OSgmtConstraint f t (PointAt target tol)) h -> (f <= length N)%nat ->
   forall i, (waypoint_sample N f < i <= waypoint_sample N t)%nat -> unit_heading (at_sample sol (i - 1)) ->
   turns (at_sample sol (i - 1)) (at_sample sol i) (step_to sol i) -> q_w (at_sample sol i) = 0 ->
   forall share q, between (at_sample sol (i - 1)) (at_sample sol i) (step_to sol i) share q -> demands q (PointAt target tol))
  <-> 0 <= cos tol \/ cos tol = -1.
Proof.
  intros tol. split.
  - intros H. destruct (Rle_dec 0 (cos tol)) as [C|C]; [left; exact C|]. right. apply Rnot_le_lt in C.
    set (tg := mkTr (cos tol / 2) (1/2)).
    destruct (sidelong_solved true (PointAt tg tol) I) as (g & G & Sv).
    + rewrite sidestep_start. apply (behind_seen tol _ (1/2) (-(1/2))); cbn [q_x q_y q_c q_s]; lra.
    + rewrite sidestep_finish. apply (behind_seen tol _ (1/2) (1/2)); cbn [q_x q_y q_c q_s]; lra.
    + pose proof (H true (sidelong (PointAt tg tol)) 7%Z cart g sidestep (sidelong_good true (PointAt tg tol) I) G Sv 0%nat 1%nat tg) as X. cbv zeta in X.
      rewrite sidelong_counts in X.
      specialize (X ltac:(apply in_or_app; right; left; reflexivity) ltac:(simpl; lia) 1%nat ltac:(unfold waypoint_sample; simpl; lia)).
      change (1 - 1)%nat with 0%nat in X.
      specialize (X ltac:(rewrite sidestep_start; unfold unit_heading; cbn [q_c q_s]; ring) sidestep_turns ltac:(rewrite sidestep_finish; reflexivity) (1/2) midstep midstep_between).
      unfold tg in X. cbn [demands] in X. rewrite dist2_norm in X. unfold pt, midstep in X. cbn [q_x q_y q_c q_s tX tY fst snd] in X.
      assert (E : norm2 (cos tol / 2 - 0, 1/2 - 1/2) = - cos tol / 2).
      { unfold norm2. cbn [fst snd]. replace (_ + _) with ((- cos tol / 2) * (- cos tol / 2)) by field. apply sqrt_square. lra. }
      rewrite E in X. pose proof (COS_bound tol). nra.
  - intros Ct asserts h handle d g sol GH G Sv N f t target Ho Hf i Hi U T Z share q Bt. destruct Ct as [Ct|Ct].
    + exact (C117_facing_proof asserts h handle d g sol GH G Sv f t target tol Ho Hf Ct i Hi T Z share q Bt).
    + cbn [demands]. rewrite Ct, dist2_norm. unfold pt. cbn [fst snd].
      destruct Bt as (_ & _ & _ & Bc & Bs & _). rewrite Z, Rmult_0_l, Rmult_0_r, cos_0, sin_0 in Bc, Bs.
      assert (U' : q_c q * q_c q + q_s q * q_s q = 1) by (unfold unit_heading in U; rewrite Bc, Bs; nra).
      set (u := tX target - q_x q). set (v := tY target - q_y q).
      assert (A : Rabs (q_c q * u + q_s q * v) <= norm2 (u, v)).
      { unfold norm2. cbn [fst snd]. rewrite <- sqrt_Rsqr_abs. apply sqrt_le_1_alt. unfold Rsqr.
        pose proof (Rle_0_sqr (q_c q * v - q_s q * u)) as S. unfold Rsqr in S.
        assert (Id : (q_c q * u + q_s q * v) * (q_c q * u + q_s q * v) + (q_c q * v - q_s q * u) * (q_c q * v - q_s q * u) = (q_c q * q_c q + q_s q * q_s q) * (u * u + v * v)) by ring.
        rewrite U' in Id. lra. }
      pose proof (Rle_abs (- (q_c q * u + q_s q * v))) as B. rewrite Rabs_Ropp in B. lra.
Qed.
