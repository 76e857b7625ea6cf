(** Robots rebuilt on another scale (C130). *)
From Coq Require Import List Lia Lra Psatz Reals ZArith Permutation Classical.
Import ListNotations.
From Verif Require Import Outcome Num NumR Geometry Expr Constraints Util Builder Guess Generator Trajectory
  Spec SpecBuilder SpecPhysics SpecTrajectory SpecGenerator SpecChange SpecEnergy SpecLoad SpecBalance SpecHaste SpecRedesign
  BuilderFacts BuilderHistory GeneratorFacts HistoryFacts GeneratorProofs SolutionProofs TrajectoryProofs
  GeneratorCases LimitProofs OrderProofs HardwareProofs LegProofs ConstraintFacts PartsProofs EnergyProofs LoadProofs BalanceProofs JumpProofs HasteProofs SpreadProofs.
Open Scope R_scope.

Lemma abs_first : forall x y, Rabs x <= norm2 (x, y).
Proof.
  intros x y. unfold norm2. cbn [fst snd]. rewrite <- sqrt_Rsqr_abs. apply sqrt_le_1_alt. unfold Rsqr.
  pose proof (Rle_0_sqr y) as Q. unfold Rsqr in Q. lra.
Qed.

Lemma abs_sides : forall a b, Rabs a <= b -> - b <= a <= b.
Proof. intros a b H. pose proof (Rle_abs a). pose proof (Rle_abs (- a)) as Q. rewrite Rabs_Ropp in Q. lra. Qed.

Section Rebuilt.
  Variables r f t s : R.
  Hypotheses (r0 : 0 < r) (f0 : 0 < f) (t0 : 0 <= t) (s0 : 0 < s).
  Let up (md : swerve_module R) := mkModule (mkTr (s * tX (m_translation md)) (s * tY (m_translation md)))
    (r * m_wheelRadius md) (f * m_wheelMaxAngularVelocity md) (t * m_wheelMaxTorque md).
  Let F := f * r.
  Lemma F_pos : 0 < F.
  Proof. apply Rmult_lt_0_compat; assumption. Qed.
  Lemma rebuilt_turning : forall ms, turning_wheels ms -> turning_wheels (rebuilt r f t s ms).
  Proof.
    intros ms Tw md Hm. apply in_map_iff in Hm. destruct Hm as (a & <- & Ha). destruct (Tw a Ha) as (A & B & C).
    cbn [m_wheelRadius m_wheelMaxAngularVelocity m_wheelMaxTorque].
    split; [apply Rmult_lt_0_compat; assumption|]. split; [apply Rmult_lt_0_compat; assumption|apply Rmult_le_pos; assumption].
  Qed.
  Lemma rebuilt_wheel : forall md, wheel_limit (up md) = F * wheel_limit md.
  Proof. intros md. unfold wheel_limit, up, F. cbn [m_wheelRadius m_wheelMaxAngularVelocity]. ring. Qed.
  Lemma rebuilt_force : forall md, 0 < m_wheelRadius md -> force_limit (up md) = t / r * force_limit md.
  Proof. intros md H. unfold force_limit, up. cbn [m_wheelRadius m_wheelMaxTorque]. field. lra. Qed.
  Lemma rebuilt_arm : forall md, arm (up md) = s * arm md.
  Proof.
    intros md. unfold arm, up, pt. cbn [m_translation tX tY]. rewrite norm2_scale, Rabs_pos_eq by lra. reflexivity.
  Qed.
  Lemma rebuilt_steps : forall ms m i m' i' dt, step_within (mkDrivetrain m i (rebuilt r f t s ms)) (s / F * dt) <-> step_within (mkDrivetrain m' i' ms) dt.
  Proof.
    pose proof F_pos as F0.
    assert (X : forall x y, (s * x <> s * y <-> x <> y) /\ Rabs (s * x - s * y) = s * Rabs (x - y)).
    { intros x y. split.
      - split; intros N E; apply N; [rewrite E; reflexivity|]. apply (Rmult_eq_reg_l s); [exact E|lra].
      - rewrite <- (Rabs_pos_eq s) at 3 by lra. rewrite <- Rabs_mult. f_equal. ring. }
    assert (L : forall a b, s * a <= s * b <-> a <= b) by (intros a b; split; intros Q; [apply (Rmult_le_reg_l s); assumption|apply Rmult_le_compat_l; lra]).
    assert (K0 : 0 < s / F) by (apply Rmult_lt_0_compat; [exact s0|apply Rinv_0_lt_compat, F0]).
    assert (E : forall dt md, s / F * dt * (r * m_wheelRadius md) * (f * m_wheelMaxAngularVelocity md) = s * (dt * m_wheelRadius md * m_wheelMaxAngularVelocity md))
      by (intros dt md; unfold F; field; lra).
    intros ms m i m' i' dt. split; intros (P & H).
    - split; [apply (Rmult_le_reg_l (s / F)); lra|]. cbn [d_modules] in *. intros md a b Hm Hab.
      destruct (H (up md) (up a) (up b)) as [Hx Hy].
      + apply in_map_iff. exists md. split; [reflexivity|exact Hm].
      + unfold rebuilt. rewrite consecutive_map. apply in_map_iff. exists (a, b). split; [reflexivity|exact Hab].
      + cbn [up m_translation tX tY m_wheelRadius m_wheelMaxAngularVelocity] in Hx, Hy. rewrite E, (proj2 (X _ _)) in Hx. rewrite E, (proj2 (X _ _)) in Hy.
        split; intros N; apply (proj1 (L _ _)); [apply Hx|apply Hy]; apply (proj1 (X _ _)); exact N.
    - split; [apply Rmult_le_pos; lra|]. cbn [d_modules] in *. intros md a b Hm Hab.
      apply in_map_iff in Hm. destruct Hm as (md0 & <- & Hm). unfold rebuilt in Hab. rewrite consecutive_map in Hab. apply in_map_iff in Hab.
      destruct Hab as ((a0, b0) & E' & Hab). injection E' as <- <-. destruct (H md0 a0 b0 Hm Hab) as [Hx Hy].
      cbn [fst snd m_translation tX tY m_wheelRadius m_wheelMaxAngularVelocity]. rewrite E, !(proj2 (X _ _)).
      split; intros N; apply (proj1 (proj1 (X _ _))) in N; apply (proj2 (L _ _)); [apply Hx|apply Hy]; exact N.
  Qed.
  Lemma rebuilt_longest : forall ms T m i dt, longest_step ms T -> step_within (mkDrivetrain m i (rebuilt r f t s ms)) dt -> 0 <= dt <= s / F * T.
  Proof.
    pose proof F_pos as F0. intros ms T m i dt (_ & L) H.
    assert (K0 : 0 < s / F) by (apply Rmult_lt_0_compat; [exact s0|apply Rinv_0_lt_compat, F0]).
    replace dt with (s / F * (dt * (F / s))) in H by (field; lra). apply (proj1 (rebuilt_steps ms m i m i _)), (proj1 (L _ _ _)) in H.
    replace dt with (s / F * (dt * (F / s))) by (field; lra). split; [apply Rmult_le_pos; lra|apply Rmult_le_compat_l; lra].
  Qed.
  Lemma rebuilt_total : forall ms, turning_wheels ms -> sum (map force_limit (rebuilt r f t s ms)) = t / r * sum (map force_limit ms).
  Proof.
    intros ms Tw. unfold rebuilt. rewrite map_map, <- sum_mul. apply sum_ext. intros md Hm. apply rebuilt_force, Tw, Hm.
  Qed.
  Lemma rebuilt_levers : forall ms, turning_wheels ms ->
    sum (map (fun md => arm md * force_limit md) (rebuilt r f t s ms)) = s * (t / r) * sum (map (fun md => arm md * force_limit md) ms).
  Proof.
    intros ms Tw. unfold rebuilt. rewrite map_map, <- sum_mul. apply sum_ext. intros md Hm. fold (up md).
    rewrite rebuilt_arm, rebuilt_force by apply Tw, Hm. ring.
  Qed.

  (** ** Robots that keep every path *)
  Variables k j : R.
  Hypotheses (k0 : 0 < k) (j0 : 0 < j) (s1 : 1 <= s) (Fs : F <= s) (Hk : k * (F * F) * r <= t * (s * s)) (Hj : j * (F * F) * r <= t * (s * s * s)).
  Lemma rebuilt_wheels : forall m i m' i' t' ms q, in_pairs ms -> wheels_within (mkDrivetrain m i (tuned (F / s) t' ms)) q ->
    wheels_within (mkDrivetrain m' i' (rebuilt r f t s ms)) q.
  Proof.
    pose proof F_pos as F0. intros m i m' i' t' ms q P Wh md Hm. apply in_map_iff in Hm. destruct Hm as (a & <- & Ha). fold (up a).
    assert (Hb : In (across a) ms) by (apply (Permutation_in _ P), in_map, Ha).
    assert (Q : forall b, In b ms -> norm2 (wheel_velocity q (m_translation b)) <= m_wheelRadius b * (F / s * m_wheelMaxAngularVelocity b)).
    { intros b Ib. exact (Wh _ (in_map (fun md => mkModule (m_translation md) (m_wheelRadius md) (F / s * m_wheelMaxAngularVelocity md) (t' * m_wheelMaxTorque md)) ms b Ib)). }
    fold (wheel_limit (up a)). rewrite rebuilt_wheel.
    pose proof (Q a Ha) as Qa. pose proof (Q _ Hb) as Qb. unfold across in Qb. unfold wheel_velocity, up in *.
    cbn [m_translation tX tY m_wheelRadius m_wheelMaxAngularVelocity] in *.
    set (x := tX (m_translation a)) in *. set (y := tY (m_translation a)) in *. set (L := wheel_limit a).
    set (vx := q_vx q * q_c q + q_vy q * q_s q) in *. set (vy := q_vy q * q_c q - q_vx q * q_s q) in *.
    replace (m_wheelRadius a * (F / s * m_wheelMaxAngularVelocity a)) with (F * L / s) in Qa, Qb by (unfold L, wheel_limit; field; lra).
    set (A := (1 + s) / 2). set (B := (s - 1) / 2).
    replace (vx - s * y * q_w q) with (A * (vx - y * q_w q) + - B * (vx - - y * q_w q)) by (unfold A, B; field).
    replace (vy + s * x * q_w q) with (A * (vy + x * q_w q) + - B * (vy + - x * q_w q)) by (unfold A, B; field).
    eapply Rle_trans; [apply norm2_triangle|]. rewrite !norm2_scale, Rabs_Ropp, !Rabs_pos_eq by (unfold A, B; lra).
    apply Rle_trans with (A * (F * L / s) + B * (F * L / s)); [apply Rplus_le_compat; apply Rmult_le_compat_l; try assumption; unfold A, B; lra|].
    apply Req_le. unfold A, B. field. lra.
  Qed.
  Lemma C130_keeps_proof : forall asserts h handle m i ms g, good_history asserts h -> generator asserts h handle (mkDrivetrain m i ms) g ->
    turning_wheels ms -> in_pairs ms -> (forall n, In n (counts asserts h) -> (1 <= n)%nat) ->
    exists g', generator asserts (h ++ [OSetDrivetrain (mkDrivetrain (k * m) (j * i) (rebuilt r f t s ms))]) handle (mkDrivetrain (k * m) (j * i) (rebuilt r f t s ms)) g' /\
      forall sol, solved g sol -> exists sol', solved g' sol' /\ same_motion (slowed (s / F) sol) sol'.
  Proof.
    intros asserts h handle m i ms g GH G Tw P Pos. pose proof F_pos as F0.
    assert (FF : 0 < F * F) by (apply Rmult_lt_0_compat; assumption). assert (ss : 0 < s * s) by (apply Rmult_lt_0_compat; assumption).
    assert (tp : 0 < t).
    { destruct t0 as [Q|Q]; [exact Q|]. rewrite <- Q in Hk. assert (0 < k * (F * F) * r) by (apply Rmult_lt_0_compat; [apply Rmult_lt_0_compat; assumption|assumption]). lra. }
    set (f1 := F / s). assert (f1p : 0 < f1) by (apply Rmult_lt_0_compat; [exact F0|apply Rinv_0_lt_compat, s0]).
    assert (f11 : f1 <= 1) by (apply (Rmult_le_reg_r s); [exact s0|]; replace (f1 * s) with F by (unfold f1; field; lra); lra).
    assert (f1q : 0 <= f1 * f1) by (apply Rmult_le_pos; lra).
    destruct (C128_slower_proof f1 (f1 * f1) f1p f1q f11 (Rle_refl _) asserts h handle m i ms g GH G Tw Pos) as (g1 & G1 & Q1).
    replace (/ f1) with (s / F) in Q1 by (unfold f1; field; lra).
    set (ms1 := tuned f1 (f1 * f1) ms) in *. set (d1 := mkDrivetrain m i ms1) in *.
    pose proof (tuned_turning f1 (f1 * f1) f1p f1q ms Tw : turning_wheels ms1) as Tw1.
    pose proof (last_good asserts h d1 GH) as GH1.
    assert (Pos1 : forall n, In n (counts asserts (h ++ [OSetDrivetrain d1])) -> (1 <= n)%nat) by (rewrite last_counts; exact Pos).
    set (l := t / r / (f1 * f1)).
    assert (lp : 0 < l).
    { unfold l. apply Rmult_lt_0_compat; [apply Rmult_lt_0_compat; [exact tp|apply Rinv_0_lt_compat, r0]|]. apply Rinv_0_lt_compat, Rmult_lt_0_compat; exact f1p. }
    assert (El : l = t * (s * s) / ((F * F) * r)) by (unfold l, f1; field; lra).
    assert (k1 : 0 <= k / l <= 1).
    { split; [apply Rlt_le, Rmult_lt_0_compat; [exact k0|apply Rinv_0_lt_compat, lp]|].
      apply (Rmult_le_reg_r (t * (s * s))); [apply Rmult_lt_0_compat; assumption|]. rewrite Rmult_1_l.
      replace (k / l * (t * (s * s))) with (k * (F * F) * r) by (rewrite El; field; lra). exact Hk. }
    assert (j1 : 0 <= j / (l * s) <= 1).
    { split; [apply Rlt_le, Rmult_lt_0_compat; [exact j0|apply Rinv_0_lt_compat, Rmult_lt_0_compat; assumption]|].
      apply (Rmult_le_reg_r (t * (s * s * s))); [apply Rmult_lt_0_compat; [exact tp|apply Rmult_lt_0_compat; assumption]|]. rewrite Rmult_1_l.
      replace (j / (l * s) * (t * (s * s * s))) with (j * (F * F) * r) by (rewrite El; field; lra). exact Hj. }
    destruct (C125_balanced_proof asserts (h ++ [OSetDrivetrain d1]) handle d1 g1 (k / l) (j / (l * s)) GH1 G1 (turning_real m i ms1 Tw1)
      (paired_balanced d1 (turning_real m i ms1 Tw1) (tuned_pairs f1 (f1 * f1) ms P)) k1 j1 Pos1) as (g2 & G2 & Q2).
    set (d2 := relieved (k / l) (j / (l * s)) d1) in *. apply set_generator in G2.
    pose proof (last_good asserts h d2 GH) as GH2.
    assert (Pos2 : forall n, In n (counts asserts (h ++ [OSetDrivetrain d2])) -> (1 <= n)%nat) by (rewrite last_counts; exact Pos).
    set (d3 := mkDrivetrain (k * m) (j * i) (rebuilt r f t s ms)).
    assert (Len : length (d_modules d3) = length (d_modules d2)) by (cbn [d3 d2 relieved d1 d_modules]; unfold ms1, rebuilt, tuned; rewrite !map_length; reflexivity).
    destruct (other_drivetrain asserts (h ++ [OSetDrivetrain d2]) handle d2 g2 d3 GH2 G2 (turning_real _ _ ms1 Tw1) (turning_real _ _ _ (rebuilt_turning ms Tw)) Len Pos2)
      as (g3 & G3 & Q3). apply set_generator in G3. rewrite last_counts in Q3.
    exists g3. split; [exact G3|]. intros sol Sv. destruct (Q2 _ (Q1 sol Sv)) as (sol' & Sv' & Sm). exists (scaled_forces l sol').
    split; [|destruct Sm as (? & ? & ? & ? & ? & ? & ? & ? & ? & ? & ?); repeat split; assumption].
    apply (Q3 sol' (scaled_forces l sol') Sv'); [reflexivity|reflexivity| |].
    - intros (S0 & S1 & S2 & S3 & S4 & S5 & S6 & S7 & S8 & S9 & S10 & S11 & S12 & F1 & F2).
      unfold well_shaped, scaled_forces. cbv zeta.
      cbn [s_dt s_x s_y s_thetacos s_thetasin s_vx s_vy s_omega s_ax s_ay s_alpha s_moduleFX s_moduleFY].
      rewrite !map_length. repeat (split; [assumption|]).
      split; apply Forall_map; [revert F1|revert F2]; apply Forall_impl; intros row; rewrite map_length; auto.
    - intros (P1 & P2). split.
      + intros n Hn. destruct (P1 n Hn) as (St & Rest). split; [|exact Rest]. change (step_to (scaled_forces l sol') n) with (step_to sol' n).
        apply (tuned_steps f1 (f1 * f1) f1p ms _ _ m i) in St. apply (proj2 (rebuilt_steps ms (k * m) (j * i) m i _)) in St.
        replace (s / F * (f1 * step_to sol' n)) with (step_to sol' n) in St by (unfold f1; field; lra). exact St.
      + intros n Hn. destruct (P2 n Hn) as ((N1 & N2 & N3) & Wh & Fo). change (at_sample (scaled_forces l sol') n) with (at_sample sol' n).
        rewrite scaled_forces_at. split; [|split].
        * unfold newton. rewrite !map_map. cbn [fst snd d3 d_mass d_moi d_modules].
          assert (E1 : d_mass d2 = k / l * m) by reflexivity. assert (E2 : d_moi d2 = j / (l * s) * i) by reflexivity.
          split; [|split].
          -- transitivity (l * (d_mass d2 * q_ax (at_sample sol' n))); [rewrite <- N1; apply sum_scaled; reflexivity|rewrite E1; field; lra].
          -- transitivity (l * (d_mass d2 * q_ay (at_sample sol' n))); [rewrite <- N2; apply sum_scaled; reflexivity|rewrite E1; field; lra].
          -- transitivity (l * s * (d_moi d2 * q_al (at_sample sol' n))); [|rewrite E2; field; lra]. rewrite <- N3, <- sum_mul.
             cbn [d2 relieved d1 d_modules]. unfold ms1, tuned, rebuilt. clear. revert ms. generalize (forces sol' n).
             induction l0 as [|fo fs IH]; intros [|a ls]; try reflexivity. cbn [map combine sum]. rewrite IH. f_equal.
             cbn [fst snd m_translation]. unfold cross2, turned. cbn [fst snd tX tY]. ring.
        * apply (rebuilt_wheels (k / l * m) (j / (l * s) * i) (k * m) (j * i) (f1 * f1) ms _ P Wh).
        * intros md fo Hf. cbn [d3 d_modules] in Hf. rewrite combine_map_r in Hf. apply in_map_iff in Hf. destruct Hf as ((m0, fo0) & E & Hf).
          cbn [fst snd] in E. injection E as <- <-.
          assert (X : exists a, In a ms /\ up a = m0 /\ In (mkModule (m_translation a) (m_wheelRadius a) (f1 * m_wheelMaxAngularVelocity a) (f1 * f1 * m_wheelMaxTorque a), fo0)
                        (combine (d_modules d2) (forces sol' n))).
          { cbn [d2 relieved d1 d_modules]. unfold ms1, tuned. revert Hf. unfold rebuilt. clear. revert ms. generalize (forces sol' n).
            induction l as [|fo fs IH]; intros [|a ls] Hf; try contradiction Hf.
            cbn [map combine] in Hf. destruct Hf as [E|Hf].
            - injection E as <- <-. exists a. split; [left; reflexivity|]. split; [reflexivity|left; reflexivity].
            - destruct (IH ls Hf) as (b & I1 & E & I). exists b. split; [right; exact I1|]. split; [exact E|right; exact I]. }
          destruct X as (a & Ia & <- & I). specialize (Fo _ _ I). cbn [m_wheelMaxTorque m_wheelRadius] in Fo.
          destruct (Tw a Ia) as (A0 & _). fold (force_limit (up a)). rewrite (rebuilt_force a A0), norm2_scale, Rabs_pos_eq by lra.
          apply Rle_trans with (l * (f1 * f1 * m_wheelMaxTorque a / m_wheelRadius a)).
          -- apply Rmult_le_compat_l; [lra|]. rewrite <- surjective_pairing. exact Fo.
          -- apply Req_le. unfold l, force_limit. field. repeat split; lra.
  Qed.
End Rebuilt.

(** ** Robots that lose one *)
Lemma slowest : forall ms : list (swerve_module R), ms <> [] -> exists a, In a ms /\ forall md, In md ms -> wheel_limit a <= wheel_limit md.
Proof.
  induction ms as [|a l IH]; intros N; [contradiction N; reflexivity|]. destruct l as [|b l].
  - exists a. split; [left; reflexivity|]. intros md [<-|[]]. lra.
  - destruct IH as (c & Ic & C); [discriminate|]. destruct (Rle_dec (wheel_limit a) (wheel_limit c)) as [Q|Q].
    + exists a. split; [left; reflexivity|]. intros md [<-|Hm]; [lra|]. specialize (C md Hm). lra.
    + exists c. split; [right; exact Ic|]. intros md [<-|Hm]; [lra|]. exact (C md Hm).
Qed.
Lemma hop_wheels : forall d v d' x asserts handle g' sol, 0 <= v -> real_wheels d' ->
  generator asserts (hop d x v ++ [OSetDrivetrain d']) handle d' g' -> solved g' sol ->
  exists dt b, step_within d' dt /\ x = q_vx b * dt /\ q_vx b <= v /\ wheels_within d' b /\ (q_c b = 1 \/ q_c b = -1) /\ q_s b = 0.
Proof.
  intros d v d' x asserts handle g' sol v0 W G Sv.
  pose proof (last_good asserts (hop d x v) d' (hop_good d v x asserts)) as Gd.
  destruct (solved_motion asserts _ handle _ g' sol G Sv) as (M & _).
  destruct (solved_requests asserts _ handle _ g' sol Gd G Sv) as (Rq & _).
  destruct (solved_physics asserts _ handle d' g' sol G Sv W) as [_ P].
  rewrite last_counts, hop_counts in M, Rq, P.
  destruct (M 1%nat ltac:(simpl; lia)) as (S0 & Mv & _ & _). destruct (P 1%nat ltac:(simpl; lia)) as (_ & Wh & _).
  assert (Rq' : forall w c, (w <= 1)%nat -> In c (wpt_requests [] (hop d x v) w) -> demands (at_sample sol (waypoint_sample [1%nat] w)) c).
  { intros w c Hw Hc. apply (Rq w c Hw). rewrite last_wpt. exact Hc. }
  pose proof (Rq' 0%nat _ ltac:(lia) (or_introl eq_refl)) as P0.
  pose proof (Rq' 1%nat _ ltac:(lia) (or_introl eq_refl)) as P1. pose proof (Rq' 1%nat _ ltac:(lia) (or_intror (or_introl eq_refl))) as V1.
  change (waypoint_sample [1%nat] 0) with 0%nat in *. change (waypoint_sample [1%nat] 1) with 1%nat in *. change (1 - 1)%nat with 0%nat in *.
  set (a := at_sample sol 0) in *. set (b := at_sample sol 1) in *. set (dt := step_to sol 1) in *.
  clearbody a b dt. cbn -[PI cos sin] in P0, P1. cbn [demands] in V1. rewrite (Rabs_pos_eq v v0) in V1.
  destruct P0 as (X0 & _). destruct P1 as (X1 & _ & H1). destruct Mv as (Mx & _). rewrite cos_0, sin_0 in H1.
  exists dt, b. split; [exact S0|]. split; [lra|]. split.
  - eapply Rle_trans; [|exact V1]. eapply Rle_trans; [apply Rle_abs|apply abs_first].
  - split; [exact Wh|]. split; [destruct H1 as [[E _]|[E _]]; [left; exact E|right; lra]|destruct H1 as [[_ E]|[_ E]]; lra].
Qed.

Section Lost.
  Variables (k j : R) (ms ms' : list (swerve_module R)) (T : R).
  Hypotheses (k0 : 0 < k) (j0 : 0 < j) (Tw : turning_wheels ms) (Tw' : turning_wheels ms') (T0 : 0 < T) (ST : step_within (mkDrivetrain 1 1 ms) T).
  Let LL := sum (map force_limit ms).
  Let MM := sum (map (fun md => arm md * force_limit md) ms).
  (** A jump with all the force there is, over the longest time. *)
  Lemma push_lost : (forall dt, step_within (mkDrivetrain 1 1 ms') dt -> sum (map force_limit ms') * (dt * dt) < k * (LL * (T * T))) ->
    ~ good_loaded k j ms ms'.
  Proof.
    intros Few K.
    assert (L0 : 0 <= LL) by (apply sum_nonneg_all; intros md Hm; apply (limits_pos ms Tw md Hm)).
    set (By := sum (map (fun md => force_limit md * tY (m_translation md)) ms)).
    destruct (big_enough (fun md => (LL + arm md * Rabs By) * T) 0 ms Tw) as (M & M0 & _ & Mw).
    set (x := LL * (T * T) / M). set (th := - By * (T * T) / M). set (d := mkDrivetrain M M ms).
    pose proof (turning_real M M ms Tw) as W. set (d' := mkDrivetrain (k * M) (j * M) ms').
    destruct (jump_generator d x 0 th true 7) as (g & G). destruct (jump_lighter d x 0 th true 7 d') as (g' & G').
    destruct (K true (jump d x 0 th) 7%Z M M g g' (jump_good d x 0 th true) M0 M0) as (sol & Sv); [|exact G|exact G'| |].
    - rewrite jump_counts. intros n [<-|[]]. lia.
    - exists (jump_plan d x 0 th T (map (fun md => (force_limit md, 0)) ms)).
      apply (jump_solved d x 0 th T W T0 ST _ true 7%Z g G).
      + apply map_length.
      + unfold forces_within. cbn [d d_modules]. rewrite combine_map. intros md fo Hf. apply in_map_iff in Hf. destruct Hf as (m & E' & Hm). injection E' as <- <-.
        fold (force_limit m). pose proof (limits_pos ms Tw m Hm). apply norm2_le; [assumption|]. lra.
      + unfold newton. cbn [d d_modules d_mass d_moi q_ax q_ay q_al]. rewrite combine_map, !map_map. cbn [fst snd]. split; [|split].
        * change (LL = M * (x / T / T)). unfold x. field. lra.
        * rewrite sum_all. field. lra.
        * transitivity (-1 * By); [|unfold th; field; lra]. unfold By. rewrite <- sum_mul. apply sum_ext. intros m _.
          unfold cross2, turned. cbn [fst snd q_c q_s]. ring.
      + intros md Hm. specialize (Mw md Hm). cbv beta in Mw. unfold x, th.
        replace (LL * (T * T) / M / T) with (LL * T / M * 1) by (field; lra). replace (0 / T) with (LL * T / M * 0) by (field; lra).
        replace (- By * (T * T) / M / T) with (T / M * - By) by (field; lra). rewrite norm2_scale, Rabs_mult, Rabs_Ropp.
        assert (P1 : 0 <= LL * T / M) by (apply Rmult_le_pos; [nra|left; apply Rinv_0_lt_compat, M0]).
        assert (P2 : 0 <= T / M) by (apply Rmult_le_pos; [lra|left; apply Rinv_0_lt_compat, M0]).
        rewrite (Rabs_pos_eq (LL * T / M)), (Rabs_pos_eq (T / M)) by assumption.
        replace (norm2 (1, 0)) with 1 by (unfold norm2; cbn [fst snd]; replace (1 * 1 + 0 * 0) with 1 by ring; symmetry; apply sqrt_1).
        apply (Rmult_le_reg_l M); [exact M0|]. eapply Rle_trans; [|exact Mw]. right. field. lra.
    - destruct (jump_facts d d' x 0 th (turning_real _ _ ms' Tw') true 7%Z g' sol G' Sv) as (q & dt & gs & phi & Hd & _ & _ & Lg & Fg & Fx & _).
      cbn [d' d_mass] in Fx. replace (k * M * x) with (k * (LL * (T * T))) in Fx by (unfold x; field; lra).
      pose proof (force_total _ gs Lg Fg) as Tot. cbn [d' d_modules] in Tot.
      specialize (Few dt Hd). assert (0 <= dt * dt) by (pose proof (proj1 Hd); nra).
      assert (X : sum (map fst gs) <= sum (map force_limit ms')).
      { eapply Rle_trans; [|exact Tot]. eapply Rle_trans; [apply Rle_abs|apply abs_first]. }
      assert (sum (map fst gs) * (dt * dt) <= sum (map force_limit ms') * (dt * dt)) by (apply Rmult_le_compat_r; assumption). lra.
  Qed.
  (** A turn with all the torque there is. *)
  Lemma turn_lost : 0 < MM ->
    (forall dt, step_within (mkDrivetrain 1 1 ms') dt -> sum (map (fun md => arm md * force_limit md) ms') * (dt * dt) < j * (MM * (T * T))) ->
    ~ good_loaded k j ms ms'.
  Proof.
    intros MMp Few K.
    set (ux := fun md => tX (m_translation md) / arm md). set (uy := fun md => tY (m_translation md) / arm md).
    set (Ux := sum (map (fun md => force_limit md * ux md) ms)) in *. set (Uy := sum (map (fun md => force_limit md * uy md) ms)) in *.
    set (n := norm2 (- Uy, Ux)). pose proof (norm2_pos (- Uy, Ux) : 0 <= n) as n0. pose proof PI_RGT_0 as Pi.
    destruct (big_enough (fun md => (n + arm md * MM) * T) (2 * MM * (T * T) / PI) ms Tw) as (M & M0 & Mc & Mw).
    set (x := (T * T) / M * - Uy). set (y := (T * T) / M * Ux). set (th := MM * (T * T) / M).
    assert (TT : 0 < T * T) by (apply Rmult_lt_0_compat; assumption).
    assert (Th : 0 < th < PI / 2).
    { split; [unfold th; apply Rmult_lt_0_compat; [apply Rmult_lt_0_compat; assumption|apply Rinv_0_lt_compat, M0]|].
      apply (Rmult_lt_reg_r M); [exact M0|]. replace (th * M) with (MM * (T * T)) by (unfold th; field; lra).
      apply (Rmult_lt_compat_r (PI / 2)) in Mc; [|lra]. replace (2 * MM * (T * T) / PI * (PI / 2)) with (MM * (T * T)) in Mc by (field; lra). lra. }
    set (d := mkDrivetrain M M ms). pose proof (turning_real M M ms Tw : real_wheels d) as W. set (d' := mkDrivetrain (k * M) (j * M) ms').
    set (row := fun md => (force_limit md * - uy md, force_limit md * ux md)).
    destruct (jump_generator d x y th true 7) as (g & G). destruct (jump_lighter d x y th true 7 d') as (g' & G').
    destruct (K true (jump d x y th) 7%Z M M g g' (jump_good d x y th true) M0 M0) as (sol & Sv); [|exact G|exact G'| |].
    - rewrite jump_counts. intros c [<-|[]]. lia.
    - exists (jump_plan d x y th T (map row ms)).
      apply (jump_solved d x y th T W T0 ST _ true 7%Z g G).
      + apply map_length.
      + unfold forces_within. cbn [d d_modules]. rewrite combine_map. intros md fo Hf. apply in_map_iff in Hf. destruct Hf as (m & E' & Hm). injection E' as <- <-.
        fold (force_limit m). pose proof (limits_pos ms Tw m Hm) as Lm. unfold row. rewrite norm2_scale, Rabs_pos_eq by exact Lm.
        rewrite <- (Rmult_1_r (force_limit m)) at 2. apply Rmult_le_compat_l; [exact Lm|].
        apply norm2_le; [lra|]. unfold ux, uy. destruct (Req_EM_T (arm m) 0) as [A|A].
        * destruct (arm_zero m A) as [X0 Y0]. rewrite X0, Y0. unfold Rdiv. lra.
        * right. transitivity ((tX (m_translation m) * tX (m_translation m) + tY (m_translation m) * tY (m_translation m)) / (arm m * arm m)); [field; exact A|].
          rewrite arm_sqr. field. exact A.
      + unfold newton. cbn [d d_modules d_mass d_moi q_ax q_ay q_al]. rewrite combine_map, !map_map. cbn [fst snd]. split; [|split].
        * transitivity (-1 * Uy); [|unfold x; field; lra]. unfold Uy. rewrite <- sum_mul. apply sum_ext. intros m _. unfold row. cbn [fst]. ring.
        * change (Ux = M * (y / T / T)). unfold y. field. lra.
        * transitivity MM; [|unfold th; field; lra]. unfold MM. apply sum_ext. intros m _. unfold cross2, turned, row. cbn [fst snd q_c q_s].
          unfold ux, uy. destruct (Req_EM_T (arm m) 0) as [A|A].
          -- destruct (arm_zero m A) as [X0 Y0]. rewrite X0, Y0, A. ring.
          -- transitivity (force_limit m * ((tX (m_translation m) * tX (m_translation m) + tY (m_translation m) * tY (m_translation m)) / arm m)); [field; exact A|].
             rewrite arm_sqr. field. exact A.
      + intros md Hm. specialize (Mw md Hm). cbv beta in Mw. unfold x, y, th.
        replace (T * T / M * - Uy / T) with (T / M * - Uy) by (field; lra). replace (T * T / M * Ux / T) with (T / M * Ux) by (field; lra).
        replace (MM * (T * T) / M / T) with (MM * (T / M)) by (field; lra). rewrite norm2_scale. fold n.
        assert (P2 : 0 <= T / M) by (apply Rmult_le_pos; [lra|left; apply Rinv_0_lt_compat, M0]).
        rewrite Rabs_mult, (Rabs_pos_eq (T / M)), (Rabs_pos_eq MM) by lra.
        apply (Rmult_le_reg_l M); [exact M0|]. eapply Rle_trans; [|exact Mw]. right. field. lra.
    - destruct (jump_facts d d' x y th (turning_real _ _ ms' Tw') true 7%Z g' sol G' Sv) as (q & dt & gs & phi & Hd & Hc & Hs & Lg & Fg & _ & _ & Ft & Hp).
      assert (Q1 : norm2 (q_c q, q_s q) = 1).
      { unfold norm2. cbn [fst snd]. rewrite Hs. replace (q_c q * q_c q + 0 * 0) with 1; [apply sqrt_1|]. destruct Hc as [-> | ->]; ring. }
      pose proof (torque_total d' q gs Lg Fg) as Tot. rewrite Q1, Rmult_1_l in Tot. cbn [d' d_modules d_moi] in Tot, Ft.
      specialize (Few dt Hd). fold d' in Ft, Tot. set (w := torque d' q gs) in *.
      assert (dd : 0 <= dt * dt) by (pose proof (proj1 Hd); nra). assert (jM : 0 < j * M) by (apply Rmult_lt_0_compat; assumption).
      assert (Ap : Rabs phi < th).
      { apply (Rmult_lt_reg_l (j * M)); [exact jM|]. rewrite <- (Rabs_pos_eq (j * M)) at 1 by lra. rewrite <- Rabs_mult, <- Ft, Rabs_mult, (Rabs_pos_eq (dt * dt)) by exact dd.
        replace (j * M * th) with (j * (MM * (T * T))) by (unfold th; field; lra). eapply Rle_lt_trans; [|exact Few]. apply Rmult_le_compat_r; assumption. }
      pose proof (Rabs_pos phi) as A0.
      assert (Ca : cos (Rabs phi) = cos phi) by (unfold Rabs; destruct (Rcase_abs phi); [apply cos_neg|reflexivity]).
      pose proof (cos_decreasing_1 (Rabs phi) th ltac:(lra) ltac:(lra) ltac:(lra) ltac:(lra) Ap) as Dc. rewrite Ca in Dc.
      pose proof (cos_gt_0 th ltac:(lra) ltac:(lra)). destruct Hp as [[P _]|[P _]]; lra.
  Qed.
End Lost.

Lemma lever_torque : forall ms, some_lever ms -> some_torque ms.
Proof. intros ms (md & Hm & T0 & _). exists md. split; assumption. Qed.
Lemma lever_pos : forall ms, turning_wheels ms -> some_lever ms -> 0 < sum (map (fun md => arm md * force_limit md) ms).
Proof.
  intros ms Tw (md & Hm & T0 & A0).
  assert (Lp : forall a, In a ms -> 0 <= arm a * force_limit a) by (intros a Ha; apply Rmult_le_pos; [apply norm2_pos|apply (limits_pos ms Tw a Ha)]).
  destruct (sum_nonneg_all (fun a => arm a * force_limit a) ms Lp) as [P|P]; [exact P|].
  pose proof (sum_zero_all (fun a => arm a * force_limit a) ms Lp (eq_sym P) md Hm) as Z. cbv beta in Z. destruct (Tw md Hm) as (R0 & _ & _).
  assert (0 < arm md * force_limit md); [|lra]. apply Rmult_lt_0_compat; [exact A0|]. unfold force_limit. apply Rmult_lt_0_compat; [exact T0|apply Rinv_0_lt_compat, R0].
Qed.

Lemma C130_exact_proof : forall ms k j r f t s, turning_wheels ms -> in_pairs ms -> some_apart ms -> some_lever ms ->
  0 < k -> 0 < j -> 0 < r -> 0 < f -> 0 <= t -> 0 < s ->
  (good_loaded k j ms (rebuilt r f t s ms) <->
   1 <= s /\ f * r <= s /\ k * ((f * r) * (f * r)) * r <= t * (s * s) /\ j * ((f * r) * (f * r)) * r <= t * (s * s * s)).
Proof.
  intros ms k j r f t s Tw P Ap Lv k0 j0 r0 f0 t0 s0. split.
  - intros K. destruct (apart_longest ms Tw Ap) as (T & LT). pose proof LT as (T0 & L).
    assert (S : step_within (mkDrivetrain 1 1 ms) T) by (apply L; lra).
    set (ms' := rebuilt r f t s ms) in *. pose proof (rebuilt_turning r f t s r0 f0 t0 ms Tw : turning_wheels ms') as Tw'.
    set (F := f * r). assert (F0 : 0 < F) by (apply Rmult_lt_0_compat; assumption).
    assert (Up : forall m i dt, step_within (mkDrivetrain m i ms') dt -> 0 <= dt <= s / F * T)
      by (intros m i dt H; exact (rebuilt_longest r f t s r0 f0 s0 ms T m i dt LT H)).
    assert (q0 : 0 < s / F) by (apply Rmult_lt_0_compat; [exact s0|apply Rinv_0_lt_compat, F0]).
    assert (Ne : ms <> []) by (destruct Ap as (a & b & H & _); intros ->; destruct H).
    assert (Way : 1 <= s /\ F <= s).
    { destruct (slowest ms Ne) as (a & Ha & Hv). set (v := wheel_limit a) in *.
      assert (v0 : 0 < v) by (destruct (Tw a Ha) as (? & ? & _); apply Rmult_lt_0_compat; assumption).
      set (d := mkDrivetrain 1 1 ms). set (d' := mkDrivetrain (k * 1) (j * 1) ms').
      destruct (hop_generator d v (v * T) true 7) as (g & G). destruct (hop_other d v (v * T) true 7 d') as (g' & G').
      destruct (K true (hop d (v * T) v) 7%Z 1 1 g g' (hop_good d v (v * T) true) Rlt_0_1 Rlt_0_1) as (sol & Sv); [|exact G|exact G'| |].
      - rewrite hop_counts. intros n [<-|[]]. lia.
      - exists (hop_plan d v T). apply (hop_solved d v T (Rlt_le _ _ v0) true 7%Z g G (turning_real 1 1 ms Tw) S Hv).
      - destruct (hop_wheels d v d' (v * T) true 7%Z g' sol (Rlt_le _ _ v0) (turning_real _ _ ms' Tw') G' Sv) as (dt & b & Hd & E & Vb & Wh & Hc & Hs).
        destruct (Up _ _ _ Hd) as [D0 D1].
        assert (VF : q_vx b <= F * v).
        { assert (Hb : In (across a) ms) by (apply (Permutation_in _ P), in_map, Ha).
          set (up := fun md => mkModule (mkTr (s * tX (m_translation md)) (s * tY (m_translation md)))
            (r * m_wheelRadius md) (f * m_wheelMaxAngularVelocity md) (t * m_wheelMaxTorque md)).
          pose proof (Wh (up a) (in_map up ms a Ha)) as Wa. pose proof (Wh (up (across a)) (in_map up ms _ Hb)) as Wb.
          unfold wheel_velocity in Wa, Wb. cbn [up across m_translation tX tY m_wheelRadius m_wheelMaxAngularVelocity] in Wa, Wb. rewrite Hs in Wa, Wb.
          pose proof (Rle_trans _ _ _ (abs_first _ _) Wa) as Xa. pose proof (Rle_trans _ _ _ (abs_first _ _) Wb) as Xb.
          replace (r * m_wheelRadius a * (f * m_wheelMaxAngularVelocity a)) with (F * v) in Xa, Xb by (unfold F, v, wheel_limit; ring).
          apply abs_sides in Xa. apply abs_sides in Xb. destruct Hc as [Hc|Hc]; rewrite Hc in Xa, Xb; lra. }
        split.
        + apply (Rmult_le_reg_l (v * T)); [apply Rmult_lt_0_compat; assumption|].
          apply Rle_trans with (F * v * dt); [rewrite Rmult_1_r, E; apply Rmult_le_compat_r; assumption|].
          replace (v * T * s) with (F * v * (s / F * T)) by (field; lra). apply Rmult_le_compat_l; [apply Rlt_le, Rmult_lt_0_compat; assumption|exact D1].
        + assert (V : v * T <= v * dt) by (rewrite E; apply Rmult_le_compat_r; assumption). apply (Rmult_le_reg_l v) in V; [|exact v0].
          apply (Rmult_le_reg_l (T / F)); [apply Rmult_lt_0_compat; [exact T0|apply Rinv_0_lt_compat, F0]|].
          replace (T / F * F) with T by (field; lra). replace (T / F * s) with (s / F * T) by (field; lra). lra. }
    destruct Way as [W1 W2]. split; [exact W1|]. split; [exact W2|].
    assert (Sq : forall m i dt, step_within (mkDrivetrain m i ms') dt -> dt * dt <= (s / F * T) * (s / F * T)).
    { intros m i dt H. destruct (Up _ _ _ H). apply Rmult_le_compat; assumption. }
    assert (FF : 0 < F * F) by (apply Rmult_lt_0_compat; assumption). assert (TT : 0 < T * T) by (apply Rmult_lt_0_compat; assumption).
    assert (tr : 0 <= t / r) by (apply Rmult_le_pos; [exact t0|left; apply Rinv_0_lt_compat, r0]).
    split; apply Rnot_lt_le; intros Q.
    + pose proof (torque_total_pos ms Tw (lever_torque ms Lv)) as L0. set (LL := sum (map force_limit ms)) in *.
      apply (push_lost k j ms ms' T Tw Tw' T0 S); [|exact K]. intros dt H. fold LL.
      unfold ms'. rewrite (rebuilt_total r f t s r0 ms Tw). fold LL.
      apply Rle_lt_trans with (t / r * LL * ((s / F * T) * (s / F * T))); [apply Rmult_le_compat_l; [apply Rmult_le_pos; lra|exact (Sq _ _ _ H)]|].
      replace (t / r * LL * (s / F * T * (s / F * T))) with (t * (s * s) * (LL * (T * T) / (r * (F * F)))) by (field; lra).
      replace (k * (LL * (T * T))) with (k * (F * F) * r * (LL * (T * T) / (r * (F * F)))) by (field; lra).
      apply Rmult_lt_compat_r; [|exact Q]. apply Rmult_lt_0_compat; [apply Rmult_lt_0_compat; assumption|apply Rinv_0_lt_compat, Rmult_lt_0_compat; assumption].
    + pose proof (lever_pos ms Tw Lv) as M0. set (MM := sum (map (fun md => arm md * force_limit md) ms)) in *.
      apply (turn_lost k j ms ms' T j0 Tw Tw' T0 S); [exact M0| |exact K]. intros dt H. fold MM.
      unfold ms'. rewrite (rebuilt_levers r f t s r0 s0 ms Tw). fold MM.
      apply Rle_lt_trans with (s * (t / r) * MM * ((s / F * T) * (s / F * T))); [apply Rmult_le_compat_l; [apply Rmult_le_pos; [apply Rmult_le_pos; lra|lra]|exact (Sq _ _ _ H)]|].
      replace (s * (t / r) * MM * (s / F * T * (s / F * T))) with (t * (s * s * s) * (MM * (T * T) / (r * (F * F)))) by (field; lra).
      replace (j * (MM * (T * T))) with (j * (F * F) * r * (MM * (T * T) / (r * (F * F)))) by (field; lra).
      apply Rmult_lt_compat_r; [|exact Q]. apply Rmult_lt_0_compat; [apply Rmult_lt_0_compat; assumption|apply Rinv_0_lt_compat, Rmult_lt_0_compat; assumption].
  - intros (s1 & Fs & Hk & Hj) asserts h handle m i g g' GH Hm Hi Pos G G' (sol & Sv).
    destruct (C130_keeps_proof r f t s r0 f0 t0 s0 k j k0 j0 s1 Fs Hk Hj asserts h handle m i ms g GH G Tw P Pos) as (g2 & G2 & Q).
    destruct G' as [C1 _], G2 as [C2 _]. rewrite C1 in C2. injection C2 as ->. destruct (Q sol Sv) as (sol' & Sv' & _). exists sol'. exact Sv'.
Qed.
Lemma C130_larger_proof : forall ms l f t, turning_wheels ms -> in_pairs ms -> some_apart ms -> some_lever ms -> 0 < l -> 0 < f -> 0 <= t ->
  (good_loaded (l ^ 3) (l ^ 5) ms (rebuilt l f t l ms) <-> 1 <= l /\ f <= 1 /\ l ^ 5 * (f * f) <= t).
Proof.
  intros ms l f t Tw P Ap Lv l0 f0 t0. assert (p : forall n, 0 < l ^ n) by (intros n; apply pow_lt; exact l0).
  rewrite (C130_exact_proof ms (l ^ 3) (l ^ 5) l f t l Tw P Ap Lv (p 3%nat) (p 5%nat) l0 f0 t0 l0).
  assert (A : f * l <= l <-> f <= 1) by (split; intros H; [apply (Rmult_le_reg_r l); lra|rewrite <- (Rmult_1_l l) at 2; apply Rmult_le_compat_r; lra]).
  assert (B : l ^ 5 * (f * l * (f * l)) * l <= t * (l * l * l) <-> l ^ 5 * (f * f) <= t).
  { replace (l ^ 5 * (f * l * (f * l)) * l) with (l ^ 5 * (f * f) * l ^ 3) by ring. replace (t * (l * l * l)) with (t * l ^ 3) by ring.
    split; intros H; [apply (Rmult_le_reg_r (l ^ 3)); [apply p|exact H]|apply Rmult_le_compat_r; [left; apply p|exact H]]. }
  rewrite A, B. split; [intros (H1 & H2 & _ & H3); auto|]. intros (H1 & H2 & H3). split; [exact H1|]. split; [exact H2|]. split; [|exact H3].
  replace (l ^ 3 * (f * l * (f * l)) * l) with (l ^ 4 * (f * f) * (l * l)) by ring.
  apply Rmult_le_compat_r; [apply Rmult_le_pos; lra|]. eapply Rle_trans; [|exact H3]. apply Rmult_le_compat_r; [apply Rmult_le_pos; lra|].
  replace (l ^ 5) with (l * l ^ 4) by ring. rewrite <- (Rmult_1_l (l ^ 4)) at 1. apply Rmult_le_compat_r; [left; apply p|exact H1].
Qed.

(** ** Any robot, its modules where they were *)
Section Heavier.
  Variables r f t k : R.
  Hypotheses (r0 : 0 < r) (f0 : 0 < f) (t0 : 0 <= t) (k0 : 0 < k).
  Let F := f * r.
  Hypotheses (F1 : F <= 1) (Hk : k * (F * F) * r <= t).
  Let up (md : swerve_module R) := mkModule (mkTr (1 * tX (m_translation md)) (1 * tY (m_translation md)))
    (r * m_wheelRadius md) (f * m_wheelMaxAngularVelocity md) (t * m_wheelMaxTorque md).
  Lemma C130_heavier_proof : forall asserts h handle m i ms g, good_history asserts h -> generator asserts h handle (mkDrivetrain m i ms) g ->
    turning_wheels ms -> (forall n, In n (counts asserts h) -> (1 <= n)%nat) ->
    exists g', generator asserts (h ++ [OSetDrivetrain (mkDrivetrain (k * m) (k * i) (rebuilt r f t 1 ms))]) handle (mkDrivetrain (k * m) (k * i) (rebuilt r f t 1 ms)) g' /\
      forall sol, solved g sol -> solved g' (scaled_forces k (slowed (/ F) sol)).
  Proof.
    intros asserts h handle m i ms g GH G Tw Pos. assert (F0 : 0 < F) by (apply Rmult_lt_0_compat; assumption).
    assert (Fq : 0 <= F * F) by (apply Rmult_le_pos; lra).
    destruct (C128_slower_proof F (F * F) F0 Fq F1 (Rle_refl _) asserts h handle m i ms g GH G Tw Pos) as (g2 & G2 & Q2).
    set (ms2 := tuned F (F * F) ms) in *. set (d2 := mkDrivetrain m i ms2) in *.
    pose proof (tuned_turning F (F * F) F0 Fq ms Tw : turning_wheels ms2) as Tw2.
    pose proof (last_good asserts h d2 GH) as GH2.
    assert (Pos2 : forall n, In n (counts asserts (h ++ [OSetDrivetrain d2])) -> (1 <= n)%nat) by (rewrite last_counts; exact Pos).
    set (d3 := mkDrivetrain (k * m) (k * i) (rebuilt r f t 1 ms)).
    assert (Len : length (d_modules d3) = length (d_modules d2)) by (cbn [d3 d2 d_modules]; unfold ms2, rebuilt, tuned; rewrite !map_length; reflexivity).
    destruct (other_drivetrain asserts (h ++ [OSetDrivetrain d2]) handle d2 g2 d3 GH2 G2 (turning_real _ _ ms2 Tw2)
      (turning_real _ _ _ (rebuilt_turning r f t 1 r0 f0 t0 ms Tw)) Len Pos2) as (g3 & G3 & Q3). apply set_generator in G3. rewrite last_counts in Q3.
    exists g3. split; [exact G3|]. intros sol Sv. specialize (Q2 sol Sv). revert Q2. generalize (slowed (/ F) sol). intros sol' Sv'.
    apply (Q3 sol' (scaled_forces k sol') Sv'); [reflexivity|reflexivity| |].
    - intros (S0 & S1 & S2 & S3 & S4 & S5 & S6 & S7 & S8 & S9 & S10 & S11 & S12 & X1 & X2).
      unfold well_shaped, scaled_forces. cbv zeta.
      cbn [s_dt s_x s_y s_thetacos s_thetasin s_vx s_vy s_omega s_ax s_ay s_alpha s_moduleFX s_moduleFY].
      rewrite !map_length. repeat (split; [assumption|]).
      split; apply Forall_map; [revert X1|revert X2]; apply Forall_impl; intros row; rewrite map_length; auto.
    - intros (P1 & P2). split.
      + intros n Hn. destruct (P1 n Hn) as (St & Rest). split; [|exact Rest]. change (step_to (scaled_forces k sol') n) with (step_to sol' n).
        apply (tuned_steps F (F * F) F0 ms _ _ m i) in St. apply (proj2 (rebuilt_steps r f t 1 r0 f0 Rlt_0_1 ms (k * m) (k * i) m i _)) in St.
        replace (1 / (f * r) * (F * step_to sol' n)) with (step_to sol' n) in St by (unfold F; field; lra). exact St.
      + intros n Hn. destruct (P2 n Hn) as ((N1 & N2 & N3) & Wh & Fo). change (at_sample (scaled_forces k sol') n) with (at_sample sol' n).
        rewrite scaled_forces_at. split; [|split].
        * unfold newton. rewrite !map_map. cbn [fst snd d3 d_mass d_moi d_modules]. rewrite !Rmult_assoc.
          change m with (d_mass d2) at 1 2. change i with (d_moi d2) at 1. rewrite <- N1, <- N2, <- N3.
          split; [apply sum_scaled; reflexivity|]. split; [apply sum_scaled; reflexivity|]. rewrite <- sum_mul.
          cbn [d2 d_modules]. unfold ms2, tuned, rebuilt. clear. revert ms. generalize (forces sol' n).
          induction l as [|fo fs IH]; intros [|a ls]; try reflexivity. cbn [map combine sum]. rewrite IH. f_equal.
          cbn [fst snd m_translation]. unfold cross2, turned. cbn [fst snd tX tY]. ring.
        * intros md Hm. apply in_map_iff in Hm. destruct Hm as (a & <- & Ha).
          pose proof (Wh _ (in_map (fun md => mkModule (m_translation md) (m_wheelRadius md) (F * m_wheelMaxAngularVelocity md) (F * F * m_wheelMaxTorque md)) ms a Ha)) as Q.
          cbn [m_translation tX tY m_wheelRadius m_wheelMaxAngularVelocity] in *. unfold wheel_velocity in *. cbn [tX tY] in *. rewrite !Rmult_1_l.
          eapply Rle_trans; [exact Q|]. apply Req_le. unfold F. ring.
        * intros md fo Hf. cbn [d3 d_modules] in Hf. rewrite combine_map_r in Hf. apply in_map_iff in Hf. destruct Hf as ((m0, fo0) & E & Hf).
          cbn [fst snd] in E. injection E as <- <-.
          assert (X : exists a, In a ms /\ up a = m0 /\ In (mkModule (m_translation a) (m_wheelRadius a) (F * m_wheelMaxAngularVelocity a) (F * F * m_wheelMaxTorque a), fo0)
                        (combine (d_modules d2) (forces sol' n))).
          { cbn [d2 d_modules]. unfold ms2, tuned. revert Hf. unfold rebuilt. clear. revert ms. generalize (forces sol' n).
            induction l as [|fo fs IH]; intros [|a ls] Hf; try contradiction Hf.
            cbn [map combine] in Hf. destruct Hf as [E|Hf].
            - injection E as <- <-. exists a. split; [left; reflexivity|]. split; [reflexivity|left; reflexivity].
            - destruct (IH ls Hf) as (b & I1 & E & I). exists b. split; [right; exact I1|]. split; [exact E|right; exact I]. }
          destruct X as (a & Ia & <- & I). specialize (Fo _ _ I). cbn [m_wheelMaxTorque m_wheelRadius] in Fo.
          destruct (Tw a Ia) as (A0 & _ & T0). rewrite norm2_scale, Rabs_pos_eq by lra. cbn [up m_wheelMaxTorque m_wheelRadius].
          apply Rle_trans with (k * (F * F * m_wheelMaxTorque a / m_wheelRadius a)).
          -- apply Rmult_le_compat_l; [lra|]. rewrite <- surjective_pairing. exact Fo.
          -- replace (k * (F * F * m_wheelMaxTorque a / m_wheelRadius a)) with (k * (F * F) * r * (m_wheelMaxTorque a / (r * m_wheelRadius a))) by (field; lra).
             replace (t * m_wheelMaxTorque a / (r * m_wheelRadius a)) with (t * (m_wheelMaxTorque a / (r * m_wheelRadius a))) by (field; lra).
             apply Rmult_le_compat_r; [|exact Hk]. apply Rmult_le_pos; [exact T0|left; apply Rinv_0_lt_compat, Rmult_lt_0_compat; assumption].
  Qed.
End Heavier.
Lemma C130_any_proof : forall ms k r f t, turning_wheels ms -> some_apart ms -> some_torque ms -> 0 < k -> 0 < r -> 0 < f -> 0 <= t ->
  (good_loaded k k ms (rebuilt r f t 1 ms) <-> f * r <= 1 /\ k * ((f * r) * (f * r)) * r <= t).
Proof.
  intros ms k r f t Tw Ap St k0 r0 f0 t0. split.
  - intros K. destruct (apart_longest ms Tw Ap) as (T & LT). pose proof LT as (T0 & L).
    assert (S : step_within (mkDrivetrain 1 1 ms) T) by (apply L; lra).
    set (ms' := rebuilt r f t 1 ms) in *. pose proof (rebuilt_turning r f t 1 r0 f0 t0 ms Tw : turning_wheels ms') as Tw'.
    set (F := f * r). assert (F0 : 0 < F) by (apply Rmult_lt_0_compat; assumption).
    assert (Up : forall m i dt, step_within (mkDrivetrain m i ms') dt -> 0 <= dt <= 1 / F * T)
      by (intros m i dt H; exact (rebuilt_longest r f t 1 r0 f0 Rlt_0_1 ms T m i dt LT H)).
    assert (q0 : 0 < 1 / F) by (apply Rmult_lt_0_compat; [lra|apply Rinv_0_lt_compat, F0]).
    split.
    + destruct (some_speed ms Tw) as (v & v0 & Hv). set (d := mkDrivetrain 1 1 ms). set (d' := mkDrivetrain (k * 1) (k * 1) ms').
      destruct (hop_generator d v (v * T) true 7) as (g & G). destruct (hop_other d v (v * T) true 7 d') as (g' & G').
      destruct (K true (hop d (v * T) v) 7%Z 1 1 g g' (hop_good d v (v * T) true) Rlt_0_1 Rlt_0_1) as (sol & Sv); [|exact G|exact G'| |].
      * rewrite hop_counts. intros n [<-|[]]. lia.
      * exists (hop_plan d v T). apply (hop_solved d v T (Rlt_le _ _ v0) true 7%Z g G (turning_real 1 1 ms Tw) S Hv).
      * destruct (hop_facts d v (Rlt_le _ _ v0) d' (v * T) true 7%Z g' sol ltac:(apply Rlt_le, Rmult_lt_0_compat; assumption) G' Sv) as (dt & Hd & V).
        destruct (Up _ _ _ Hd) as [D0 D1]. apply (Rmult_le_reg_l v) in V; [|exact v0].
        apply (Rmult_le_reg_l (1 / F * T)); [apply Rmult_lt_0_compat; assumption|]. replace (1 / F * T * F) with T by (field; lra). lra.
    + apply Rnot_lt_le; intros Q. assert (FF : 0 < F * F) by (apply Rmult_lt_0_compat; assumption). assert (TT : 0 < T * T) by (apply Rmult_lt_0_compat; assumption).
      pose proof (torque_total_pos ms Tw St) as L0. set (LL := sum (map force_limit ms)) in *.
      apply (push_lost k k ms ms' T Tw Tw' T0 S); [|exact K]. intros dt H. fold LL.
      unfold ms'. rewrite (rebuilt_total r f t 1 r0 ms Tw). fold LL.
      apply Rle_lt_trans with (t / r * LL * ((1 / F * T) * (1 / F * T))).
      * apply Rmult_le_compat_l; [apply Rmult_le_pos; [apply Rmult_le_pos; [exact t0|left; apply Rinv_0_lt_compat, r0]|lra]|]. destruct (Up _ _ _ H). apply Rmult_le_compat; assumption.
      * replace (t / r * LL * (1 / F * T * (1 / F * T))) with (t * (LL * (T * T) / (r * (F * F)))) by (field; lra).
        replace (k * (LL * (T * T))) with (k * (F * F) * r * (LL * (T * T) / (r * (F * F)))) by (field; lra).
        apply Rmult_lt_compat_r; [|exact Q]. apply Rmult_lt_0_compat; [apply Rmult_lt_0_compat; assumption|apply Rinv_0_lt_compat, Rmult_lt_0_compat; assumption].
  - intros (F1 & Hk) asserts h handle m i g g' GH Hm Hi Pos G G' (sol & Sv).
    destruct (C130_heavier_proof r f t k r0 f0 t0 k0 F1 Hk asserts h handle m i ms g GH G Tw Pos) as (g2 & G2 & Q).
    destruct G' as [C1 _], G2 as [C2 _]. rewrite C1 in C2. injection C2 as ->. eexists. exact (Q sol Sv).
Qed.
