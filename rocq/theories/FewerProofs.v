(** Robots with a module less (C132). *)
From Coq Require Import List Lia Lra Psatz Reals ZArith Permutation Classical.
Import ListNotations.
From Verif Require Import Outcome Num NumR Geometry Expr Constraints Util Builder Guess Generator Trajectory
  Spec SpecBuilder SpecPhysics SpecTrajectory SpecGenerator SpecStep SpecChange SpecEnergy SpecLoad SpecBalance SpecHaste SpecFurther
  BuilderFacts BuilderHistory GeneratorFacts HistoryFacts GeneratorProofs SolutionProofs TrajectoryProofs GeometryFacts
  GeneratorCases StepProofs LimitProofs OrderProofs HardwareProofs LegProofs ConstraintFacts PartsProofs EnergyProofs LoadProofs BalanceProofs JumpProofs HasteProofs RedesignProofs FurtherProofs.
Open Scope R_scope.

Lemma nth_firstn : forall k (l : list (list R)) i, nth i (map (firstn k) l) [] = firstn k (nth i l []).
Proof. intros k l i. rewrite <- (map_nth (firstn k)). rewrite firstn_nil. reflexivity. Qed.
Lemma split_last : forall {A} (l : list A) k, length l = S k -> exists x, l = firstn k l ++ [x].
Proof.
  intros A l k H. destruct (skipn k l) as [|x r] eqn:E.
  - pose proof (skipn_length k l) as L. rewrite E in L. cbn in L. lia.
  - exists x. pose proof (skipn_length k l) as L. rewrite E in L. cbn [length] in L.
    assert (r = []) as -> by (apply length_zero_iff_nil; lia). rewrite <- E. symmetry. apply firstn_skipn.
Qed.

Lemma C132_keeps_proof : forall asserts h handle m i ms md g g', good_history asserts h ->
  generator asserts h handle (mkDrivetrain m i (ms ++ [md])) g ->
  generator asserts (h ++ [OSetDrivetrain (mkDrivetrain m i ms)]) handle (mkDrivetrain m i ms) g' ->
  turning_wheels ms -> turning_wheels [md] -> (forall n, In n (counts asserts h) -> (1 <= n)%nat) ->
  m_wheelMaxTorque md = 0 -> forall sol, solved g sol -> solved g' (without (length ms) sol).
Proof.
  intros asserts h handle m i ms md g g' GH G G' Tw Tm Pos Tz sol Sv.
  set (d := mkDrivetrain m i (ms ++ [md])) in *. set (d' := mkDrivetrain m i ms) in *.
  pose proof (turning_real m i _ (further_turning ms md Tw Tm) : real_wheels d) as W. pose proof (turning_real m i ms Tw : real_wheels d') as W'.
  apply (solved_exact asserts h handle d g GH G W Pos) in Sv. destruct Sv as (Sh & U & (P1 & P2) & M1 & M2).
  pose proof Sh as (_ & _ & _ & _ & _ & _ & _ & _ & _ & _ & _ & L1 & L2 & FX & FY).
  assert (Ln : length (d_modules d) = S (length ms)) by (cbn [d d_modules]; rewrite app_length; cbn [length]; lia).
  rewrite Ln in FX, FY.
  assert (Fs : forall j, (j <= last_sample (counts asserts h))%nat ->
    exists f, forces sol j = forces (without (length ms) sol) j ++ [f] /\ length (forces (without (length ms) sol) j) = length ms).
  { intros j Hj. rewrite Forall_forall in FX, FY.
    pose proof (FX (nth j (s_moduleFX sol) []) ltac:(apply nth_In; lia)) as A. pose proof (FY (nth j (s_moduleFY sol) []) ltac:(apply nth_In; lia)) as B.
    destruct (split_last _ _ A) as (x & Ex). destruct (split_last _ _ B) as (y & Ey). exists (x, y).
    unfold forces, without. cbn [s_moduleFX s_moduleFY]. rewrite !nth_firstn. rewrite Ex at 1. rewrite Ey at 1.
    rewrite combine_more by (rewrite !firstn_length; lia). split; [reflexivity|]. rewrite combine_length, !firstn_length. lia. }
  apply (solved_intro asserts (h ++ [OSetDrivetrain d']) handle d' g' (without (length ms) sol) (last_good asserts h d' GH) G' W'); rewrite ?last_counts.
  - exact Pos.
  - destruct Sh as (S0 & S1 & S2 & S3 & S4 & S5 & S6 & S7 & S8 & S9 & S10 & S11 & S12 & _).
    unfold well_shaped, without. cbv zeta.
    cbn [s_dt s_x s_y s_thetacos s_thetasin s_vx s_vy s_omega s_ax s_ay s_alpha s_moduleFX s_moduleFY].
    rewrite !map_length. repeat (split; [assumption|]). cbn [d' d_modules].
    split; apply Forall_map; [revert FX|revert FY]; apply Forall_impl; intros r E; rewrite firstn_length; lia.
  - exact U.
  - split.
    + intros j Hj. cbv zeta. change (at_sample (without (length ms) sol)) with (at_sample sol). change (step_to (without (length ms) sol) j) with (step_to sol j).
      destruct (P1 j Hj) as (St & Re). split; [exact (further_steps ms md m i _ St)|exact Re].
    + intros j Hj. change (at_sample (without (length ms) sol) j) with (at_sample sol j).
      destruct (P2 j Hj) as (Nw & Wh & Fw). destruct (Fs j Hj) as (f & E & L). rewrite E in Nw, Fw.
      assert (Z : f = (0, 0)).
      { specialize (Fw md f). cbn [d d_modules] in Fw. rewrite combine_more in Fw by lia.
        specialize (Fw ltac:(apply in_or_app; right; left; reflexivity)). rewrite Tz in Fw. unfold Rdiv in Fw. rewrite Rmult_0_l in Fw.
        destruct f as [f1 f2]. apply norm2_zero in Fw. destruct Fw as [-> ->]. reflexivity. }
      subst f. split; [|split].
      * destruct Nw as (N1 & N2 & N3). cbn [d d_modules d_mass d_moi] in *. unfold newton. cbn [d' d_modules d_mass d_moi].
        rewrite combine_more in N3 by lia. rewrite !map_app in N1, N2, N3. cbn [map fst snd] in N1, N2, N3. rewrite !sum_more in N1, N2, N3.
        unfold cross2 at 2 in N3. cbn [fst snd] in N3. repeat split; lra.
      * intros c Hc. apply Wh. apply in_or_app. left. exact Hc.
      * intros c f Hc. apply Fw. cbn [d d_modules]. rewrite combine_more by lia. apply in_or_app. left. exact Hc.
  - split; intros w c Hw; rewrite ?last_wpt, ?last_sgmt; [apply M1|apply M2]; exact Hw.
Qed.

Lemma C132_lost_proof : forall ms md T T', turning_wheels ms -> turning_wheels [md] -> longest_step ms T -> longest_step (ms ++ [md]) T' ->
  sum (map force_limit ms) * (T * T) < sum (map force_limit (ms ++ [md])) * (T' * T') -> ~ good_as (ms ++ [md]) ms.
Proof.
  intros ms md T T' Tw Tm (T0 & LT) (T0' & LT') Few. pose proof (further_turning ms md Tw Tm) as Tw'.
  apply (jump_lost (ms ++ [md]) ms T' Tw' Tw T0'); [apply LT'; lra|].
  intros dt Hd. apply LT in Hd. eapply Rle_lt_trans; [|exact Few].
  apply Rmult_le_compat_l; [|nra]. apply sum_nonneg_all. intros c Hc. apply (limits_pos ms Tw c Hc).
Qed.

Lemma C132_exact_proof : forall ms md, turning_wheels ms -> turning_wheels [md] -> some_apart ms -> steps_kept ms (ms ++ [md]) ->
  (good_as (ms ++ [md]) ms <-> m_wheelMaxTorque md = 0).
Proof.
  intros ms md Tw Tm Ap Sk. split.
  - intros K. destruct (Tm md (or_introl eq_refl)) as (R0 & _ & Q0). destruct Q0 as [Q0|Q0]; [|symmetry; exact Q0]. exfalso.
    destruct (apart_longest ms Tw Ap) as (T & T0 & LT). revert K. apply (C132_lost_proof ms md T T Tw Tm (conj T0 LT)).
    + split; [exact T0|]. intros m i dt. split.
      * intros H. apply (LT 1 1), (further_steps ms md m i dt H).
      * intros H. apply (LT 1 1) in H. exact (Sk dt H).
    + rewrite map_app. cbn [map]. rewrite sum_more. assert (P : 0 < force_limit md) by (apply Rdiv_lt_0_compat; assumption).
      pose proof (Rmult_lt_0_compat _ _ P (Rmult_lt_0_compat _ _ T0 T0)). lra.
  - intros Tz asserts h handle m i g g' GH Hm Hi Pos G G' (sol & Sv). exists (without (length ms) sol).
    exact (C132_keeps_proof asserts h handle m i ms md g g' GH G G' Tw Tm Pos Tz sol Sv).
Qed.

(** The cart with a third module at the place of the second. *)
Definition third (t : R) : swerve_module R := mkModule (mkTr (-1) (-1)) 1 4 t.
Lemma third_turning : forall t, 0 <= t -> turning_wheels [third t].
Proof. intros t Ht md [<-|[]]. cbn. lra. Qed.
Lemma third_steps : forall t, 0 <= t -> steps_kept (d_modules cart) (d_modules cart ++ [third t]).
Proof.
  intros t Ht. exact (proj1 (C131_lost_proof (d_modules cart) (third t) cart_turning (third_turning t Ht) cart_apart
    (C131_double_proof [wheel 1 1] (wheel (-1) (-1)) t cart_turning Ht))).
Qed.
Lemma cart_longest : longest_step (d_modules cart) (1/2).
Proof.
  split; [lra|]. intros m i dt. split.
  - intros (P & H). split; [exact P|]. destruct (H (wheel 1 1) (wheel 1 1) (wheel (-1) (-1))) as [X _]; [left; reflexivity|left; reflexivity|].
    cbn in X. specialize (X ltac:(lra)). rewrite Rabs_right in X; lra.
  - intros (P & L). split; [exact P|]. cbn [d_modules cart]. intros c a b Hc [E|[]]. injection E as <- <-.
    assert (m_wheelRadius c = 1 /\ m_wheelMaxAngularVelocity c = 4) as [-> ->] by (destruct Hc as [<-|[<-|[]]]; split; reflexivity).
    cbn. rewrite Rabs_right; lra.
Qed.
Lemma third_longest : forall t, 0 <= t -> longest_step (d_modules cart ++ [third t]) (1/2).
Proof.
  intros t Ht. destruct cart_longest as (T0 & LT). split; [exact T0|]. intros m i dt. split.
  - intros H. apply (LT 1 1), (further_steps _ (third t) m i dt H).
  - intros H. apply (LT 1 1) in H. exact (third_steps t Ht dt H).
Qed.
