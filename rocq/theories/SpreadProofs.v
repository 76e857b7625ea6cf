(** Robots with their modules farther out (C129). *)
From Coq Require Import List Lia Lra Psatz Reals ZArith Permutation.
Import ListNotations.
From Verif Require Import Outcome Num NumR Geometry Expr Constraints Util Builder Guess Generator Trajectory
  Spec SpecBuilder SpecPhysics SpecTrajectory SpecGenerator SpecChange SpecEnergy SpecLoad SpecBalance SpecHaste
  BuilderFacts BuilderHistory GeneratorFacts HistoryFacts GeneratorProofs SolutionProofs TrajectoryProofs
  GeneratorCases LimitProofs OrderProofs HardwareProofs LegProofs ConstraintFacts PartsProofs EnergyProofs LoadProofs BalanceProofs JumpProofs HasteProofs.
Open Scope R_scope.

Lemma set_twice : forall asserts h (d d' : drivetrain R), path asserts ((h ++ [OSetDrivetrain d]) ++ [OSetDrivetrain d']) = path asserts (h ++ [OSetDrivetrain d']).
Proof. intros asserts h d d'. unfold path. rewrite !run_ops_app. generalize (run_ops asserts h new_builder). intros b. reflexivity. Qed.
Lemma set_generator : forall asserts h handle (d d' : drivetrain R) g,
  generator asserts ((h ++ [OSetDrivetrain d]) ++ [OSetDrivetrain d']) handle d' g <-> generator asserts (h ++ [OSetDrivetrain d']) handle d' g.
Proof. intros. unfold generator. rewrite set_twice. tauto. Qed.

Section Spread.
  Variable s : R.
  Hypothesis s0 : 0 < s.
  Let out (md : swerve_module R) := mkModule (mkTr (s * tX (m_translation md)) (s * tY (m_translation md)))
    (m_wheelRadius md) (m_wheelMaxAngularVelocity md) (m_wheelMaxTorque md).
  Lemma spread_turning : forall ms, turning_wheels ms -> turning_wheels (spread s ms).
  Proof. intros ms Tw md Hm. apply in_map_iff in Hm. destruct Hm as (a & <- & Ha). exact (Tw a Ha). Qed.
  Lemma spread_steps : forall ms m i m' i' dt, step_within (mkDrivetrain m i (spread s ms)) (s * dt) <-> step_within (mkDrivetrain m' i' ms) dt.
  Proof.
    assert (X : forall x y, (s * x <> s * y <-> x <> y) /\ Rabs (s * x - s * y) = s * Rabs (x - y)).
    { intros x y. split.
      - split; intros N E; apply N; [rewrite E; reflexivity|]. apply (Rmult_eq_reg_l s); [exact E|lra].
      - rewrite <- (Rabs_pos_eq s) at 3 by lra. rewrite <- Rabs_mult. f_equal. ring. }
    assert (L : forall a b, s * a <= s * b <-> a <= b) by (intros a b; split; intros Q; [apply (Rmult_le_reg_l s); assumption|apply Rmult_le_compat_l; lra]).
    intros ms m i m' i' dt. split; intros (P & H); (split; [nra|]); cbn [d_modules] in *; intros md a b Hm Hab.
    - destruct (H (out md) (out a) (out b)) as [Hx Hy].
      + apply in_map_iff. exists md. split; [reflexivity|exact Hm].
      + unfold spread. rewrite consecutive_map. apply in_map_iff. exists (a, b). split; [reflexivity|exact Hab].
      + cbn [out m_translation tX tY m_wheelRadius m_wheelMaxAngularVelocity] in Hx, Hy.
        split; intros N; [specialize (Hx (proj2 (proj1 (X _ _)) N)) | specialize (Hy (proj2 (proj1 (X _ _)) N))];
          [rewrite (proj2 (X _ _)) in Hx; rewrite !Rmult_assoc in Hx; apply (proj1 (L _ _)) in Hx; rewrite <- !Rmult_assoc in Hx; exact Hx
          |rewrite (proj2 (X _ _)) in Hy; rewrite !Rmult_assoc in Hy; apply (proj1 (L _ _)) in Hy; rewrite <- !Rmult_assoc in Hy; exact Hy].
    - apply in_map_iff in Hm. destruct Hm as (md0 & <- & Hm). unfold spread in Hab. rewrite consecutive_map in Hab. apply in_map_iff in Hab.
      destruct Hab as ((a0, b0) & E & Hab). injection E as <- <-. destruct (H md0 a0 b0 Hm Hab) as [Hx Hy].
      cbn [fst snd m_translation tX tY m_wheelRadius m_wheelMaxAngularVelocity].
      split; intros N; apply (proj1 (proj1 (X _ _))) in N; rewrite (proj2 (X _ _)), !Rmult_assoc; apply (proj2 (L _ _)); rewrite <- !Rmult_assoc; [apply Hx|apply Hy]; exact N.
  Qed.

  Hypothesis s1 : 1 <= s.
  Lemma tuned_pairs : forall f t ms, in_pairs ms -> in_pairs (tuned f t ms).
  Proof.
    intros f t ms P. unfold in_pairs, tuned in *. rewrite map_map.
    apply (Permutation_map (fun md => mkModule (m_translation md) (m_wheelRadius md) (f * m_wheelMaxAngularVelocity md) (t * m_wheelMaxTorque md))) in P.
    rewrite map_map in P. exact P.
  Qed.
  Lemma spread_wheels : forall m i m' i' ms q, in_pairs ms -> wheels_within (mkDrivetrain m i (tuned (/ s) 1 ms)) q -> wheels_within (mkDrivetrain m' i' (spread s ms)) q.
  Proof.
    intros m i m' i' ms q P Wh md Hm. apply in_map_iff in Hm. destruct Hm as (a & <- & Ha).
    assert (Hb : In (across a) ms) by (apply (Permutation_in _ P), in_map, Ha).
    assert (Q : forall b, In b ms -> norm2 (wheel_velocity q (m_translation b)) <= m_wheelRadius b * (/ s * m_wheelMaxAngularVelocity b)).
    { intros b Ib. exact (Wh _ (in_map (fun md => mkModule (m_translation md) (m_wheelRadius md) (/ s * m_wheelMaxAngularVelocity md) (1 * m_wheelMaxTorque md)) ms b Ib)). }
    pose proof (Q a Ha) as Qa. pose proof (Q _ Hb) as Qb. unfold across in Qb. unfold wheel_velocity in *.
    cbn [m_translation tX tY m_wheelRadius m_wheelMaxAngularVelocity] in *.
    set (x := tX (m_translation a)) in *. set (y := tY (m_translation a)) in *. set (L := m_wheelRadius a * m_wheelMaxAngularVelocity a).
    set (vx := q_vx q * q_c q + q_vy q * q_s q) in *. set (vy := q_vy q * q_c q - q_vx q * q_s q) in *.
    replace (m_wheelRadius a * (/ s * m_wheelMaxAngularVelocity a)) with (L / s) in Qa, Qb by (unfold L; field; lra).
    set (A := (1 + s) / 2). set (B := (s - 1) / 2).
    replace (vx - s * y * q_w q) with (A * (vx - y * q_w q) + - B * (vx - - y * q_w q)) by (unfold A, B; field).
    replace (vy + s * x * q_w q) with (A * (vy + x * q_w q) + - B * (vy + - x * q_w q)) by (unfold A, B; field).
    eapply Rle_trans; [apply norm2_triangle|]. rewrite !norm2_scale, Rabs_Ropp, !Rabs_pos_eq by (unfold A, B; lra).
    apply Rle_trans with (A * (L / s) + B * (L / s)); [apply Rplus_le_compat; apply Rmult_le_compat_l; try assumption; unfold A, B; lra|].
    apply Req_le. unfold A, B. field. lra.
  Qed.
  Lemma C129_wider_proof : forall asserts h handle m i ms g, good_history asserts h -> generator asserts h handle (mkDrivetrain m i ms) g ->
    turning_wheels ms -> in_pairs ms -> (forall n, In n (counts asserts h) -> (1 <= n)%nat) ->
    exists g', generator asserts (h ++ [OSetDrivetrain (mkDrivetrain m i (spread s ms))]) handle (mkDrivetrain m i (spread s ms)) g' /\
      forall sol, solved g sol -> exists sol', solved g' sol' /\ same_motion (slowed s sol) sol'.
  Proof.
    intros asserts h handle m i ms g GH G Tw P Pos.
    assert (i0 : 0 < / s) by (apply Rinv_0_lt_compat; exact s0).
    assert (i1 : / s <= 1) by (rewrite <- Rinv_1; apply Rinv_le_contravar; lra).
    destruct (C128_slower_proof (/ s) 1 i0 Rle_0_1 i1 ltac:(nra) asserts h handle m i ms g GH G Tw Pos) as (g1 & G1 & Q1). rewrite Rinv_inv in Q1.
    set (ms1 := tuned (/ s) 1 ms) in *. set (d1 := mkDrivetrain m i ms1) in *.
    pose proof (tuned_turning (/ s) 1 i0 Rle_0_1 ms Tw : turning_wheels ms1) as Tw1.
    pose proof (last_good asserts h d1 GH) as GH1.
    assert (Pos1 : forall n, In n (counts asserts (h ++ [OSetDrivetrain d1])) -> (1 <= n)%nat) by (rewrite last_counts; exact Pos).
    destruct (C125_balanced_proof asserts (h ++ [OSetDrivetrain d1]) handle d1 g1 1 (/ s) GH1 G1 (turning_real m i ms1 Tw1)
      (paired_balanced d1 (turning_real m i ms1 Tw1) (tuned_pairs (/ s) 1 ms P)) ltac:(lra) ltac:(lra) Pos1) as (g2 & G2 & Q2).
    set (d2 := relieved 1 (/ s) d1) in *. apply set_generator in G2.
    pose proof (last_good asserts h d2 GH) as GH2.
    assert (Pos2 : forall n, In n (counts asserts (h ++ [OSetDrivetrain d2])) -> (1 <= n)%nat) by (rewrite last_counts; exact Pos).
    set (d3 := mkDrivetrain m i (spread s ms)).
    assert (Len : length (d_modules d3) = length (d_modules d2)) by (cbn [d3 d2 relieved d1 d_modules]; unfold ms1, spread, tuned; rewrite !map_length; reflexivity).
    destruct (same_solution asserts (h ++ [OSetDrivetrain d2]) handle d2 g2 d3 GH2 G2 (turning_real _ _ ms1 Tw1) (turning_real m i _ (spread_turning ms Tw)) Len Pos2)
      as (g3 & G3 & Q3). apply set_generator in G3.
    exists g3. split; [exact G3|]. intros sol Sv. destruct (Q2 _ (Q1 sol Sv)) as (sol' & Sv' & Sm). exists sol'. split; [|exact Sm].
    apply (Q3 sol' Sv'). intros (P1 & P2). split.
    - intros j Hj. destruct (P1 j Hj) as (St & Rest). split; [|exact Rest].
      apply (tuned_steps (/ s) 1 i0 ms _ _ m i) in St. apply (spread_steps ms m i m i) in St.
      replace (s * (/ s * step_to sol' j)) with (step_to sol' j) in St by (field; lra). exact St.
    - intros j Hj. destruct (P2 j Hj) as ((N1 & N2 & N3) & Wh & Fo). split; [|split].
      + unfold newton. split; [rewrite N1; cbn; ring|]. split; [rewrite N2; cbn; ring|].
        cbn [d3 d_modules d_moi]. transitivity (s * (d_moi d2 * q_al (at_sample sol' j))); [|cbn; field; lra]. rewrite <- N3, <- sum_mul.
        cbn [d2 relieved d1 d_modules]. unfold ms1, tuned, spread. clear. revert ms. generalize (forces sol' j).
        induction l as [|f fs IH]; intros [|a l]; try reflexivity. cbn [map combine sum]. rewrite IH. f_equal.
        cbn [fst snd m_translation]. unfold cross2, turned. cbn [fst snd tX tY]. ring.
      + apply (spread_wheels _ _ m i ms _ P Wh).
      + intros md fo Hf. cbn [d3 d_modules] in Hf.
        assert (X : exists a, out a = md /\ In (mkModule (m_translation a) (m_wheelRadius a) (/ s * m_wheelMaxAngularVelocity a) (1 * m_wheelMaxTorque a), fo)
                      (combine (d_modules d2) (forces sol' j))).
        { cbn [d2 relieved d1 d_modules]. unfold ms1, tuned. revert Hf. unfold spread. clear. revert ms. generalize (forces sol' j).
          induction l as [|f fs IH]; intros [|a l] Hf; try contradiction Hf.
          cbn [map combine] in Hf. destruct Hf as [E|Hf].
          - injection E as <- <-. exists a. split; [reflexivity|left; reflexivity].
          - destruct (IH l Hf) as (b & E & I). exists b. split; [exact E|right; exact I]. }
        destruct X as (a & <- & I). specialize (Fo _ _ I). cbn [m_wheelMaxTorque m_wheelRadius out] in *. rewrite Rmult_1_l in Fo. exact Fo.
  Qed.
End Spread.

Lemma C129_exact_proof : forall ms s, turning_wheels ms -> in_pairs ms -> some_apart ms -> 0 < s ->
  (good_as ms (spread s ms) <-> 1 <= s).
Proof.
  intros ms s Tw P Ap s0. split.
  - intros K. destruct (apart_longest ms Tw Ap) as (T & T0 & L). assert (S : step_within (mkDrivetrain 1 1 ms) T) by (apply L; lra).
    pose proof (C127_steps_proof ms _ Tw (spread_turning s ms Tw) K T S) as S'.
    replace T with (s * (T / s)) in S' by (field; lra). apply (spread_steps s s0 ms 1 1 1 1), L in S'. destruct S' as [_ S'].
    apply (Rmult_le_reg_r (T / s)); [apply Rmult_lt_0_compat; [exact T0|apply Rinv_0_lt_compat, s0]|].
    replace (s * (T / s)) with T by (field; lra). lra.
  - intros s1 asserts h handle m i g g' GH Hm Hi Pos G G' (sol & Sv).
    destruct (C129_wider_proof s s0 s1 asserts h handle m i ms g GH G Tw P Pos) as (g2 & G2 & Q).
    destruct G' as [C1 _], G2 as [C2 _]. rewrite C1 in C2. injection C2 as ->. destruct (Q sol Sv) as (sol' & Sv' & _). exists sol'. exact Sv'.
Qed.

(** Modules of the same limits at the same place. *)
Definition same_limits (a b : swerve_module R) : Prop :=
  m_translation a = m_translation b /\ wheel_limit a = wheel_limit b /\ force_limit a = force_limit b.
Lemma limits_good : forall ms ms', turning_wheels ms -> turning_wheels ms' -> Forall2 same_limits ms ms' -> good_as ms ms'.
Proof.
  intros ms ms' Tw Tw' F asserts h handle m i g g' GH Hm Hi Pos G G' (sol & Sv).
  set (d := mkDrivetrain m i ms) in *. set (d' := mkDrivetrain m i ms') in *.
  destruct (same_solution asserts h handle d g d' GH G (turning_real m i ms Tw) (turning_real m i ms' Tw') (Forall2_len _ _ _ F) Pos) as (g2 & G2 & Q).
  destruct G' as [C1 _], G2 as [C2 _]. rewrite C1 in C2. injection C2 as ->. exists sol. apply (Q sol Sv). intros (P1 & P2). split.
  - intros j Hj. destruct (P1 j Hj) as ((S0 & S) & Rest). split; [|exact Rest]. split; [exact S0|]. cbn [d' d_modules]. intros md a b Im Iab.
    destruct (pair_in _ _ _ F md Im) as (md0 & Im0 & _ & Em & _). destruct (pair_consecutive _ _ _ F a b Iab) as (a0 & b0 & Iab0 & (Ea & _) & (Eb & _)).
    rewrite <- Ea, <- Eb. rewrite Rmult_assoc. fold (wheel_limit md). rewrite <- Em. unfold wheel_limit. rewrite <- Rmult_assoc. exact (S md0 a0 b0 Im0 Iab0).
  - intros j Hj. destruct (P2 j Hj) as ((N1 & N2 & N3) & Wh & Fo). split; [|split].
    + split; [exact N1|]. split; [exact N2|]. transitivity (d_moi d * q_al (at_sample sol j)); [|reflexivity]. rewrite <- N3.
      cbn [d d' d_modules]. clear - F. revert F. generalize (forces sol j). intros fs F. revert fs.
      induction F as [|a b l l' E F IH]; intros [|f fs]; try reflexivity. cbn [combine map sum fst snd]. rewrite IH. destruct E as (E & _). rewrite E. reflexivity.
    + intros md Im. destruct (pair_in _ _ _ F md Im) as (md0 & Im0 & Et & Em & _). fold (wheel_limit md). rewrite <- Em, <- Et. exact (Wh md0 Im0).
    + intros md f If. destruct (pair_combine _ _ _ F _ md f If) as (md0 & If0 & _ & _ & Ef). fold (force_limit md). rewrite <- Ef. exact (Fo md0 f If0).
Qed.
Lemma good_trans : forall a b c, length b = length a -> turning_wheels a -> turning_wheels b -> good_as a b -> good_as b c -> good_as a c.
Proof.
  intros a b c Len Ta Tb Kab Kbc asserts h handle m i g g' GH Hm Hi Pos G G' S.
  destruct (same_solution asserts h handle _ g (mkDrivetrain m i b) GH G (turning_real m i a Ta) (turning_real m i b Tb) Len Pos) as (g1 & G1 & _).
  apply (Kbc asserts (h ++ [OSetDrivetrain (mkDrivetrain m i b)]) handle m i g1 g' (last_good asserts h _ GH) Hm Hi).
  - rewrite last_counts. exact Pos.
  - exact G1.
  - apply set_generator. exact G'.
  - exact (Kab asserts h handle m i g g1 GH Hm Hi Pos G G1 S).
Qed.
Lemma C128_gears_proof : forall ms f, turning_wheels ms -> some_torque ms -> some_apart ms -> 0 < f -> (good_as ms (geared f ms) <-> f <= 1).
Proof.
  intros ms f Tw St Ap f0. assert (g0 : 0 < / f) by (apply Rinv_0_lt_compat; exact f0).
  unfold geared. rewrite (C128_exact_proof ms f (/ f) Tw St Ap f0 (Rlt_le _ _ g0)). split; [intros (Q & _); exact Q|]. intros Q. split; [exact Q|].
  assert (1 <= / f) by (rewrite <- Rinv_1; apply Rinv_le_contravar; lra). nra.
Qed.
Lemma C128_wheels_proof : forall ms r, turning_wheels ms -> some_torque ms -> some_apart ms -> 0 < r -> (good_as ms (rewheeled r ms) <-> r <= 1).
Proof.
  intros ms r Tw St Ap r0. assert (i0 : 0 < / r) by (apply Rinv_0_lt_compat; exact r0). rewrite <- (C128_gears_proof ms r Tw St Ap r0).
  pose proof (tuned_turning r (/ r) r0 (Rlt_le _ _ i0) ms Tw : turning_wheels (geared r ms)) as Tg.
  assert (Tr : turning_wheels (rewheeled r ms)).
  { intros md Hm. apply in_map_iff in Hm. destruct Hm as (a & <- & Ha). destruct (Tw a Ha) as (A & B & C). cbn [m_wheelRadius m_wheelMaxAngularVelocity m_wheelMaxTorque]. repeat split; nra. }
  assert (E : forall md, In md ms -> same_limits (mkModule (m_translation md) (m_wheelRadius md) (r * m_wheelMaxAngularVelocity md) (/ r * m_wheelMaxTorque md))
     (mkModule (m_translation md) (r * m_wheelRadius md) (m_wheelMaxAngularVelocity md) (m_wheelMaxTorque md))).
  { intros md Hm. destruct (Tw md Hm) as (A & _). unfold same_limits, wheel_limit, force_limit.
    cbn [m_translation m_wheelRadius m_wheelMaxAngularVelocity m_wheelMaxTorque]. split; [reflexivity|]. split; [ring|]. field. lra. }
  assert (F : Forall2 same_limits (geared r ms) (rewheeled r ms) /\ Forall2 same_limits (rewheeled r ms) (geared r ms)).
  { unfold geared, tuned, rewheeled. clear - E. induction ms as [|a l IH]; [split; constructor|].
    destruct IH as [I1 I2]; [intros md Hm; apply E; right; exact Hm|]. pose proof (E a (or_introl eq_refl)) as (E1 & E2 & E3).
    split; constructor; try assumption; repeat split; try assumption; symmetry; assumption. }
  destruct F as [F1 F2]. split; intros K.
  - apply (good_trans ms (rewheeled r ms) _ (map_length _ _) Tw Tr K). exact (limits_good _ _ Tr Tg F2).
  - apply (good_trans ms (geared r ms) _ (map_length _ _) Tw Tg K). exact (limits_good _ _ Tg Tr F1).
Qed.
