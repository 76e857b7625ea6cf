(** Changes of the modules that keep every path (C127, C128). *)
From Coq Require Import List Lia Lra Psatz Reals ZArith Permutation Classical.
Import ListNotations.
From Verif Require Import Outcome Num NumR Geometry Expr Constraints Util Builder Guess Generator Trajectory
  Spec SpecBuilder SpecPhysics SpecTrajectory SpecGenerator SpecChange SpecEnergy SpecLoad SpecBalance SpecHaste
  BuilderFacts BuilderHistory GeneratorFacts HistoryFacts GeneratorProofs SolutionProofs TrajectoryProofs
  GeneratorCases LimitProofs OrderProofs OrderCases HardwareProofs LegProofs ConstraintFacts PartsProofs EnergyProofs LoadProofs BalanceProofs JumpProofs.
Open Scope R_scope.

Lemma within_any : forall m i m' i' ms dt, step_within (mkDrivetrain m i ms) dt -> step_within (mkDrivetrain m' i' ms) dt.
Proof. intros m i m' i' ms dt H. exact H. Qed.
Lemma within_less : forall ms m i dt dt', turning_wheels ms -> step_within (mkDrivetrain m i ms) dt -> 0 <= dt' <= dt -> step_within (mkDrivetrain m i ms) dt'.
Proof.
  intros ms m i dt dt' Tw H L. apply step_limits_spec in H. apply step_limits_spec. destruct H as [_ H]. split; [apply L|].
  intros ce Hce. destruct (step_limits_pos ms Tw ce Hce) as [C _]. specialize (H ce Hce). nra.
Qed.
Lemma torque_total_pos : forall ms, turning_wheels ms -> some_torque ms -> 0 < sum (map force_limit ms).
Proof.
  intros ms Tw (md & Hm & T0). pose proof (fun a Ha => limits_pos ms Tw a Ha) as Lp.
  destruct (sum_nonneg_all force_limit ms Lp) as [P|P]; [exact P|].
  pose proof (sum_zero_all force_limit ms Lp (eq_sym P) md Hm) as Z. destruct (Tw md Hm) as (R0 & _ & _).
  unfold force_limit in Z. assert (0 < m_wheelMaxTorque md / m_wheelRadius md) by (apply Rmult_lt_0_compat; [exact T0|apply Rinv_0_lt_compat, R0]). lra.
Qed.

(** A way so long that it takes [T] at the speed allowed. *)
Definition hop (d : drivetrain R) (x v : R) : list (op R) :=
  [OSetDrivetrain d; OPoseWpt 0 0 0 0; OPoseWpt 1 x 0 0; OWptConstraint 1 (LinearVelocityMaxMagnitude v); OControlIntervalCounts [1%nat]].
Section Hop.
  Variables (d : drivetrain R) (v T : R).
  Hypotheses (v0 : 0 <= v) (T0 : 0 < T).
  Let ms := d_modules d.
  Lemma hop_good : forall x asserts, good_history asserts (hop d x v).
  Proof.
    intros x asserts. split; [repeat constructor|]. split; [repeat constructor; simpl; exact I|].
    destruct asserts; repeat split; reflexivity.
  Qed.
  Lemma hop_counts : forall x asserts, counts asserts (hop d x v) = [1%nat].
  Proof. destruct asserts; reflexivity. Qed.
  Lemma hop_generator : forall x asserts handle, exists g, generator asserts (hop d x v) handle d g.
  Proof. intros x asserts handle. apply generator_exists; [|reflexivity]. destruct asserts; apply Nat.ltb_lt; reflexivity. Qed.
  Lemma hop_other : forall x asserts handle d', exists g', generator asserts (hop d x v ++ [OSetDrivetrain d']) handle d' g'.
  Proof.
    intros x asserts handle d'. apply generator_exists; [|reflexivity].
    rewrite last_counts, hop_counts. destruct asserts; apply Nat.ltb_lt; reflexivity.
  Qed.
  Definition hop_plan : solution R :=
    mkSolution [T] [0; v * T] [0; 0] [1; 1] [0; 0] [v; v] [0; 0] [0; 0] [0; 0] [0; 0] [0; 0]
      [map (fun _ => 0) ms; map (fun _ => 0) ms] [map (fun _ => 0) ms; map (fun _ => 0) ms].
  Lemma hop_solved : forall asserts handle g, generator asserts (hop d (v * T) v) handle d g -> real_wheels d -> step_within d T ->
    (forall md, In md ms -> v <= wheel_limit md) -> solved g hop_plan.
  Proof.
    intros asserts handle g G W ST Wl.
    apply (solved_intro asserts (hop d (v * T) v) handle d g hop_plan (hop_good (v * T) asserts) G W); rewrite hop_counts.
    - intros n [<-|[]]. lia.
    - unfold well_shaped, hop_plan. cbv zeta. change (last_sample [1%nat]) with 1%nat.
      cbn [s_dt s_x s_y s_thetacos s_thetasin s_vx s_vy s_omega s_ax s_ay s_alpha s_moduleFX s_moduleFY length].
      repeat (split; [reflexivity|]). split; repeat constructor; rewrite map_length; reflexivity.
    - intros s k Hs Hk. simpl in Hs. assert (s = 0)%nat as -> by lia. simpl in Hk. assert (k = 0)%nat as -> by lia. reflexivity.
    - assert (Rest : forall x, let q := mkState x 0 1 0 v 0 0 0 0 0 in let fs := combine (map (fun _ => 0) ms) (map (fun _ => 0) ms) in
        newton d q fs /\ wheels_within d q /\ forces_within d fs).
      { intros x q fs.
        assert (E : fs = map (fun _ : swerve_module R => (0, 0)) ms).
        { unfold fs. clear. generalize ms. intros l0. induction l0 as [|m l IH]; [reflexivity|]. cbn [map combine]. rewrite IH. reflexivity. }
        rewrite E. split; [|split].
        - unfold newton. fold ms. rewrite combine_map, !map_map. cbn [q fst snd q_ax q_ay q_al]. rewrite sum_all.
          split; [ring|]. split; [ring|]. transitivity (sum (map (fun _ : swerve_module R => 0) ms)).
          + apply sum_ext. intros. unfold cross2. cbn [fst snd]. ring.
          + rewrite sum_all. ring.
        - intros md Hm. unfold wheel_velocity. cbn [q q_c q_s q_vx q_vy q_w]. eapply Rle_trans; [|exact (Wl md Hm)].
          apply norm2_le; [exact v0|]. apply Req_le. ring.
        - unfold forces_within. fold ms. rewrite combine_map. intros md f Hf. apply in_map_iff in Hf. destruct Hf as (m & E' & Hm).
          injection E' as <- <-. fold (force_limit m). pose proof (limit_pos d m W Hm). apply norm2_le; nra. }
      split.
      + intros i Hi. simpl in Hi. assert (i = 1)%nat as -> by lia.
        unfold at_sample, step_to, hop_plan. cbn [nth Nat.sub s_dt s_x s_y s_thetacos s_thetasin s_vx s_vy s_omega s_ax s_ay s_alpha].
        split; [exact ST|]. split; [|split].
        * unfold moves. cbn [q_x q_y q_vx q_vy]. split; ring.
        * left. cbn [q_c q_s q_w]. rewrite (Rmult_0_l T), cos_0, sin_0. split; ring.
        * unfold accelerates. cbn [q_vx q_vy q_w q_ax q_ay q_al]. repeat split; ring.
      + intros i Hi. simpl in Hi. assert (i = 0 \/ i = 1)%nat as [-> | ->] by lia;
          unfold at_sample, forces, hop_plan; cbn [nth s_x s_y s_thetacos s_thetasin s_vx s_vy s_omega s_ax s_ay s_alpha s_moduleFX s_moduleFY];
          [exact (Rest 0)|exact (Rest (v * T))].
    - split.
      + intros w c Hw Hc. simpl in Hw. assert (w = 0 \/ w = 1)%nat as [-> | ->] by lia; cbn -[PI cos sin] in Hc.
        * destruct Hc as [<-|[]]. cbn -[cos sin]. split; [reflexivity|]. split; [reflexivity|]. left. rewrite cos_0, sin_0. split; reflexivity.
        * destruct Hc as [<-|[<-|[]]]; cbn -[cos sin].
          -- split; [reflexivity|]. split; [reflexivity|]. left. rewrite cos_0, sin_0. split; reflexivity.
          -- rewrite (Rabs_pos_eq v v0). apply norm2_le; [exact v0|]. apply Req_le. ring.
      + intros w c i Hw Hc Hi. simpl in Hw. assert (w = 1)%nat as -> by lia. destruct Hc.
  Qed.
  Lemma hop_facts : forall d' x asserts handle g' sol, 0 <= x ->
    generator asserts (hop d x v ++ [OSetDrivetrain d']) handle d' g' -> solved g' sol -> exists dt, step_within d' dt /\ x <= v * dt.
  Proof.
    intros d' x asserts handle g' sol Hx G Sv.
    pose proof (last_good asserts (hop d x v) d' (hop_good x asserts)) as Gd.
    destruct (solved_motion asserts _ handle _ g' sol G Sv) as (M & _).
    destruct (solved_requests asserts _ handle _ g' sol Gd G Sv) as (Rq & _).
    rewrite last_counts, hop_counts in M, Rq.
    destruct (M 1%nat ltac:(simpl; lia)) as (S0 & Mv & _ & _).
    assert (Rq' : forall w c, (w <= 1)%nat -> In c (wpt_requests [] (hop d x v) w) -> demands (at_sample sol (waypoint_sample [1%nat] w)) c).
    { intros w c Hw Hc. apply (Rq w c Hw). rewrite last_wpt. exact Hc. }
    pose proof (Rq' 0%nat _ ltac:(lia) (or_introl eq_refl)) as P0.
    pose proof (Rq' 1%nat _ ltac:(lia) (or_introl eq_refl)) as P1. pose proof (Rq' 1%nat _ ltac:(lia) (or_intror (or_introl eq_refl))) as V1.
    change (waypoint_sample [1%nat] 0) with 0%nat in *. change (waypoint_sample [1%nat] 1) with 1%nat in *. change (1 - 1)%nat with 0%nat in *.
    set (a := at_sample sol 0) in *. set (b := at_sample sol 1) in *. set (dt := step_to sol 1) in *.
    clearbody a b dt. cbn -[PI cos sin] in P0, P1. cbn [demands] in V1. rewrite (Rabs_pos_eq v v0) in V1.
    destruct P0 as (X0 & _). destruct P1 as (X1 & _). destruct Mv as (Mx & _).
    exists dt. split; [exact S0|]. pose proof (proj1 S0) as D0.
    assert (q_vx b <= v).
    { eapply Rle_trans; [|exact V1]. unfold norm2. cbn [fst snd]. eapply Rle_trans; [apply Rle_abs|]. rewrite <- sqrt_Rsqr_abs.
      apply sqrt_le_1_alt. unfold Rsqr. pose proof (Rle_0_sqr (q_vy b)) as Q. unfold Rsqr in Q. lra. }
    assert (q_vx b * dt <= v * dt) by (apply Rmult_le_compat_r; assumption). lra.
  Qed.
End Hop.

(** Some speed all the wheels can do. *)
Lemma some_speed : forall ms, turning_wheels ms -> exists v, 0 < v /\ forall md, In md ms -> v <= wheel_limit md.
Proof.
  induction ms as [|a l IH]; intros Tw.
  - exists 1. split; [lra|]. intros md [].
  - destruct IH as (v & V0 & V); [intros x Hx; apply Tw; right; exact Hx|]. destruct (Tw a (or_introl eq_refl)) as (R0 & W0 & _).
    assert (A0 : 0 < wheel_limit a) by (unfold wheel_limit; apply Rmult_lt_0_compat; assumption).
    exists (Rmin v (wheel_limit a)). split; [apply Rmin_glb_lt; assumption|]. intros md [<-|Hm]; [apply Rmin_r|].
    eapply Rle_trans; [apply Rmin_l|apply V, Hm].
Qed.
(** Whatever modules keep every path keep every time step. *)
Lemma C127_steps_proof : forall ms ms', turning_wheels ms -> turning_wheels ms' -> good_as ms ms' -> steps_kept ms ms'.
Proof.
  intros ms ms' Tw Tw' K T ST. destruct (proj1 ST) as [T0|T0].
  2:{ rewrite <- T0. apply step_limits_spec. split; [lra|]. intros ce Hce. destruct (step_limits_pos ms' Tw' ce Hce). lra. }
  destruct (some_speed ms Tw) as (v & V0 & Vl). set (d := mkDrivetrain 1 1 ms).
  destruct (hop_generator d v (v * T) true 7) as (g & G). destruct (hop_other d v (v * T) true 7 (mkDrivetrain 1 1 ms')) as (g' & G').
  destruct (K true (hop d (v * T) v) 7%Z 1 1 g g' (hop_good d v (v * T) true) Rlt_0_1 Rlt_0_1) as (sol & Sv); [|exact G|exact G'| |].
  - rewrite hop_counts. intros n [<-|[]]. lia.
  - exists (hop_plan d v T). apply (hop_solved d v T (Rlt_le _ _ V0) true 7%Z g G (turning_real 1 1 ms Tw) ST Vl).
  - destruct (hop_facts d v (Rlt_le _ _ V0) (mkDrivetrain 1 1 ms') (v * T) true 7%Z g' sol ltac:(nra) G' Sv) as (dt & Hd & L).
    apply (within_less ms' 1 1 dt T Tw' Hd). split; [lra|]. apply (Rmult_le_reg_l v); assumption.
Qed.

(** A jump with all the force there is, over the longest time. *)
Lemma jump_lost : forall ms ms' T, turning_wheels ms -> turning_wheels ms' -> 0 < T ->
  step_within (mkDrivetrain 1 1 ms) T ->
  (forall dt, step_within (mkDrivetrain 1 1 ms') dt -> sum (map force_limit ms') * (dt * dt) < sum (map force_limit ms) * (T * T)) ->
  ~ good_as ms ms'.
Proof.
  intros ms ms' T Tw Tw' T0 ST Few K. set (LL := sum (map force_limit ms)) in *.
  assert (L0 : 0 <= LL) by (apply sum_nonneg_all; intros md Hm; apply (limits_pos ms Tw md Hm)).
  set (By := sum (map (fun md => force_limit md * tY (m_translation md)) ms)).
  destruct (big_enough (fun md => (LL + arm md * Rabs By) * T) 0 ms Tw) as (M & M0 & _ & Mw).
  set (x := LL * (T * T) / M). set (th := - By * (T * T) / M). set (d := mkDrivetrain M M ms).
  pose proof (turning_real M M ms Tw) as W.
  destruct (jump_generator d x 0 th true 7) as (g & G). destruct (jump_lighter d x 0 th true 7 (mkDrivetrain M M ms')) as (g' & G').
  destruct (K true (jump d x 0 th) 7%Z M M g g' (jump_good d x 0 th true) M0 M0) as (sol & Sv); [|exact G|exact G'| |].
  - rewrite jump_counts. intros n [<-|[]]. lia.
  - exists (jump_plan d x 0 th T (map (fun md => (force_limit md, 0)) ms)).
    apply (jump_solved d x 0 th T W T0 ST _ true 7%Z g G).
    + apply map_length.
    + unfold forces_within. cbn [d d_modules]. rewrite combine_map. intros md f Hf. apply in_map_iff in Hf. destruct Hf as (m & E' & Hm). injection E' as <- <-.
      fold (force_limit m). pose proof (limits_pos ms Tw m Hm). apply norm2_le; [assumption|]. lra.
    + unfold newton. cbn [d d_modules d_mass d_moi q_ax q_ay q_al]. rewrite combine_map, !map_map. cbn [fst snd]. split; [|split].
      * change (LL = M * (x / T / T)). unfold x. field. lra.
      * rewrite sum_all. field. lra.
      * transitivity (-1 * By); [|unfold th; field; lra]. unfold By. rewrite <- sum_mul. apply sum_ext. intros m _.
        unfold cross2, turned. cbn [fst snd q_c q_s]. ring.
    + intros md Hm. specialize (Mw md Hm). cbv beta in Mw. unfold x, th.
      replace (LL * (T * T) / M / T) with (LL * T / M * 1) by (field; lra). replace (0 / T) with (LL * T / M * 0) by (field; lra).
      replace (- By * (T * T) / M / T) with (T / M * - By) by (field; lra). rewrite norm2_scale, Rabs_mult, Rabs_Ropp.
      assert (P1 : 0 <= LL * T / M) by (apply Rmult_le_pos; [nra|left; apply Rinv_0_lt_compat, M0]).
      assert (P2 : 0 <= T / M) by (apply Rmult_le_pos; [lra|left; apply Rinv_0_lt_compat, M0]).
      rewrite (Rabs_pos_eq (LL * T / M)), (Rabs_pos_eq (T / M)) by assumption.
      replace (norm2 (1, 0)) with 1 by (unfold norm2; cbn [fst snd]; replace (1 * 1 + 0 * 0) with 1 by ring; symmetry; apply sqrt_1).
      apply (Rmult_le_reg_l M); [exact M0|]. eapply Rle_trans; [|exact Mw]. right. field. lra.
  - destruct (jump_facts d (mkDrivetrain M M ms') x 0 th (turning_real M M ms' Tw') true 7%Z g' sol G' Sv)
      as (s & dt & gs & phi & Hd & _ & _ & Lg & Fg & Fx & _).
    cbn [d_mass] in Fx. replace (M * x) with (LL * (T * T)) in Fx by (unfold x; field; lra).
    pose proof (force_total _ gs Lg Fg) as Tot. cbn [d_modules] in Tot.
    specialize (Few dt Hd). assert (0 <= dt * dt) by (pose proof (proj1 Hd); nra).
    assert (X : sum (map fst gs) <= sum (map force_limit ms')).
    { eapply Rle_trans; [|exact Tot]. unfold norm2. cbn [fst snd].
      eapply Rle_trans; [apply Rle_abs|]. rewrite <- sqrt_Rsqr_abs. apply sqrt_le_1_alt. unfold Rsqr.
      pose proof (Rle_0_sqr (sum (map snd gs))) as Q. unfold Rsqr in Q. lra. }
    assert (sum (map fst gs) * (dt * dt) <= sum (map force_limit ms') * (dt * dt)) by (apply Rmult_le_compat_r; assumption). lra.
Qed.

Lemma again : forall asserts h handle d g, good_history asserts h -> generator asserts h handle d g -> real_wheels d ->
  (forall n, In n (counts asserts h) -> (1 <= n)%nat) ->
  exists g2, generator asserts (h ++ [OSetDrivetrain d]) handle d g2 /\ forall sol, solved g sol -> solved g2 sol.
Proof.
  intros asserts h handle d g GH G W Pos. destruct (other_drivetrain asserts h handle d g d GH G W W eq_refl Pos) as (g2 & G2 & Q).
  exists g2. split; [exact G2|]. intros sol Sv. apply (Q sol sol Sv); auto.
Qed.
Lemma C127_order_proof : forall ms ms', turning_wheels ms -> Permutation ms ms' -> (good_as ms ms' <-> steps_kept ms ms').
Proof.
  intros ms ms' Tw P.
  assert (Tw' : turning_wheels ms') by (intros md Hm; apply Tw, (Permutation_in _ (Permutation_sym P) Hm)).
  split; [exact (C127_steps_proof ms ms' Tw Tw')|]. intros K asserts h handle m i g g' GH Hm Hi Pos G G' (sol & Sv).
  destruct (again asserts h handle _ g GH G (turning_real m i ms Tw) Pos) as (g2 & G2 & Q).
  destruct (C23_partial_proof asserts h handle (mkDrivetrain m i ms) (mkDrivetrain m i ms') g2 g' GH G2 G') with (sol := sol) as ((sol' & Sv' & _) & _).
  - repeat split; assumption.
  - apply turning_real, Tw.
  - exact Pos.
  - intros dt H. exact (K dt H).
  - exact (Q sol Sv).
  - exists sol'. exact Sv'.
Qed.

Lemma better_turning : forall ms ms', Forall2 better_module ms ms' -> turning_wheels ms -> turning_wheels ms'.
Proof.
  intros ms ms' F. induction F as [|a b l l' H F IH]; intros Tw md Hm; [destruct Hm|]. destruct Hm as [<-|Hm].
  - destruct H as ((_ & Rr) & Sp & Tq). destruct (Tw a (or_introl eq_refl)) as (? & ? & ?). rewrite <- Rr. repeat split; lra.
  - apply IH; [|exact Hm]. intros x Hx. apply Tw. right. exact Hx.
Qed.
Lemma C127_better_proof : forall ms ms', turning_wheels ms -> Forall2 better_module ms ms' -> (good_as ms ms' <-> steps_kept ms ms').
Proof.
  intros ms ms' Tw F. pose proof (better_turning ms ms' F Tw) as Tw'.
  split; [exact (C127_steps_proof ms ms' Tw Tw')|]. intros K asserts h handle m i g g' GH Hm Hi Pos G G' (sol & Sv).
  set (d := mkDrivetrain m i ms) in *. set (d' := mkDrivetrain m i ms') in *.
  assert (F1 : Forall2 same_module (d_modules d) (d_modules d')) by (revert F; apply Forall2_imp; intros a b H; apply H).
  pose proof (turning_real m i ms Tw : real_wheels d) as W. pose proof (turning_real m i ms' Tw' : real_wheels d') as W'.
  destruct (same_solution asserts h handle d g d' GH G W W' (Forall2_len _ _ _ F) Pos) as (g2 & G2 & Q).
  destruct G' as [C1 _], G2 as [C2 _]. rewrite C1 in C2. injection C2 as ->. exists sol. apply (Q sol Sv). intros (P1 & P2). split.
  - intros j Hj. destruct (P1 j Hj) as (A & B). split; [|exact B]. exact (K _ A).
  - intros j Hj. destruct (P2 j Hj) as (A & B & C). split; [apply (newton_modules d d'); try assumption; reflexivity|]. split.
    + apply (wheels_modules d d'); try assumption. revert F. apply Forall2_imp. intros a b (_ & V & _). exact V.
    + apply (forces_modules d d'); try assumption. revert F. apply Forall2_imp. intros a b (_ & _ & V). exact V.
Qed.

Lemma apart_longest : forall ms, turning_wheels ms -> some_apart ms -> exists T, longest_step ms T.
Proof.
  intros ms Tw (a & b & Hab & N). destruct (steps_or_place ms Tw) as (T & [L|(_ & (p & Hp) & _)]); [exists T; exact L|].
  contradiction N. unfold consecutive in Hab. pose proof (in_combine_l _ _ _ _ Hab) as Ha. pose proof (in_combine_r _ _ _ _ Hab) as Hb.
  rewrite (Hp a Ha). symmetry. apply Hp. destruct ms; [destruct Hb|right; exact Hb].
Qed.
Lemma consecutive_map : forall {A B} (f : A -> B) l, consecutive (map f l) = map (fun ab => (f (fst ab), f (snd ab))) (consecutive l).
Proof.
  intros A B f l. unfold consecutive. destruct l as [|a l]; [reflexivity|]. cbn [tl map].
  revert a. induction l as [|b l IH]; intros a; [reflexivity|]. cbn [map combine fst snd]. f_equal. apply IH.
Qed.
Section Tune.
  Variables f t : R.
  Hypotheses (f0 : 0 < f) (t0 : 0 <= t).
  Let up (md : swerve_module R) := mkModule (m_translation md) (m_wheelRadius md) (f * m_wheelMaxAngularVelocity md) (t * m_wheelMaxTorque md).
  Lemma tuned_turning : forall ms, turning_wheels ms -> turning_wheels (tuned f t ms).
  Proof.
    intros ms Tw md Hm. apply in_map_iff in Hm. destruct Hm as (a & <- & Ha). destruct (Tw a Ha) as (A & B & C).
    cbn [m_wheelRadius m_wheelMaxAngularVelocity m_wheelMaxTorque]. repeat split; nra.
  Qed.
  Lemma tuned_steps : forall ms m i m' i' dt, step_within (mkDrivetrain m i (tuned f t ms)) dt <-> step_within (mkDrivetrain m' i' ms) (f * dt).
  Proof.
    intros ms m i m' i' dt. split; intros (P & H); (split; [nra|]); cbn [d_modules] in *; intros md a b Hm Hab.
    - destruct (H (up md) (up a) (up b)) as [Hx Hy].
      + apply in_map_iff. exists md. split; [reflexivity|exact Hm].
      + unfold tuned. rewrite consecutive_map. apply in_map_iff. exists (a, b). split; [reflexivity|exact Hab].
      + cbn [up m_translation m_wheelRadius m_wheelMaxAngularVelocity] in Hx, Hy.
        replace (f * dt * m_wheelRadius md * m_wheelMaxAngularVelocity md) with (dt * m_wheelRadius md * (f * m_wheelMaxAngularVelocity md)) by ring.
        split; assumption.
    - apply in_map_iff in Hm. destruct Hm as (md0 & <- & Hm). unfold tuned in Hab. rewrite consecutive_map in Hab. apply in_map_iff in Hab.
      destruct Hab as ((a0, b0) & E & Hab). injection E as <- <-. destruct (H md0 a0 b0 Hm Hab) as [Hx Hy].
      cbn [fst snd m_translation m_wheelRadius m_wheelMaxAngularVelocity].
      replace (dt * m_wheelRadius md0 * (f * m_wheelMaxAngularVelocity md0)) with (f * dt * m_wheelRadius md0 * m_wheelMaxAngularVelocity md0) by ring.
      split; assumption.
  Qed.
  Lemma tuned_limits : forall md, wheel_limit (up md) = f * wheel_limit md /\ force_limit (up md) = t * force_limit md.
  Proof.
    intros md. unfold wheel_limit, force_limit, up. cbn [m_wheelRadius m_wheelMaxAngularVelocity m_wheelMaxTorque]. unfold Rdiv. split; ring.
  Qed.
  Lemma tuned_total : forall ms, sum (map force_limit (tuned f t ms)) = t * sum (map force_limit ms).
  Proof.
    intros ms. unfold tuned. rewrite map_map, <- sum_mul. apply sum_ext. intros md _. exact (proj2 (tuned_limits md)).
  Qed.

  Hypotheses (f1 : f <= 1) (ft : f * f <= t).
  Lemma C128_slower_proof : forall asserts h handle m i ms g, good_history asserts h -> generator asserts h handle (mkDrivetrain m i ms) g ->
    turning_wheels ms -> (forall n, In n (counts asserts h) -> (1 <= n)%nat) ->
    exists g', generator asserts (h ++ [OSetDrivetrain (mkDrivetrain m i (tuned f t ms))]) handle (mkDrivetrain m i (tuned f t ms)) g' /\
      forall sol, solved g sol -> solved g' (slowed (/ f) sol).
  Proof.
    intros asserts h handle m i ms g GH G Tw Pos. set (d := mkDrivetrain m i ms) in *. set (d' := mkDrivetrain m i (tuned f t ms)).
    pose proof (turning_real m i ms Tw : real_wheels d) as W. pose proof (turning_real m i _ (tuned_turning ms Tw) : real_wheels d') as W'.
    assert (Len : length (d_modules d') = length (d_modules d)) by apply map_length.
    destruct (same_solution asserts h handle d g d' GH G W W' Len Pos) as (g' & G' & _). exists g'. split; [exact G'|].
    intros sol Sv. pose proof (fits_slower asserts h handle d g GH G W Pos sol (/ f) Sv) as Fit.
    set (k := / f) in *. assert (K : 0 < k) by (apply Rinv_0_lt_compat; exact f0).
    assert (fk : f * k = 1) by (unfold k; field; lra). assert (K1 : 1 <= k) by nra. destruct (Fit K1) as (_ & _ & F3 & F4).
    assert (KK : 0 < k * k) by nra. assert (dk : forall v, v / k = f * v) by (intros v; unfold k; field; lra).
    apply (solved_exact asserts h handle d g GH G W Pos) in Sv. destruct Sv as (Sh & U & (P1 & P2) & M1 & M2).
    apply (solved_intro asserts (h ++ [OSetDrivetrain d']) handle d' g' (slowed k sol) (last_good asserts h d' GH) G' W'); rewrite ?last_counts.
    - exact Pos.
    - rewrite Len. destruct Sh as (S0 & S1 & S2 & S3 & S4 & S5 & S6 & S7 & S8 & S9 & S10 & S11 & S12 & FX & FY).
      unfold well_shaped, slowed. cbv zeta.
      cbn [s_dt s_x s_y s_thetacos s_thetasin s_vx s_vy s_omega s_ax s_ay s_alpha s_moduleFX s_moduleFY].
      rewrite !map_length. repeat (split; [assumption|]).
      split; apply Forall_map; [revert FX|revert FY]; apply Forall_impl; intros r; rewrite map_length; auto.
    - intros s j Hs Hj. rewrite !slowed_step. f_equal. apply U; assumption.
    - split.
      + intros j Hj. cbv zeta. rewrite !slowed_at, slowed_step. destruct (P1 j Hj) as (St & Mv & Tn & Ac). cbv zeta in Mv, Tn, Ac.
        split; [apply (tuned_steps ms m i m i); rewrite <- Rmult_assoc, fk, Rmult_1_l; exact St|].
        revert Mv Tn Ac. generalize (at_sample sol (j - 1)), (at_sample sol j), (step_to sol j).
        intros a b u (V1 & V2) Tn (A1 & A2 & A3).
        assert (E : q_w b / k * (k * u) = q_w b * u) by (field; lra).
        split; [|split].
        * unfold moves, slowed_state. cbn [q_x q_y q_vx q_vy]. rewrite V1 at 1. rewrite V2 at 1. split; field; lra.
        * unfold turns_up_to_half, slowed_state. cbn [q_c q_s q_w]. rewrite E. exact Tn.
        * unfold accelerates, slowed_state. cbn [q_vx q_vy q_w q_ax q_ay q_al]. rewrite A1, A2, A3. repeat split; field; lra.
      + intros j Hj. cbv zeta. rewrite slowed_at, slowed_forces. destruct (P2 j Hj) as (Nw & Wh & Fo). split; [|split].
        * apply (newton_modules d d' _ _ eq_refl eq_refl).
          { cbn [d d' d_modules]. clear. unfold tuned. induction ms as [|a l IH]; constructor; [split; reflexivity|exact IH]. }
          destruct Nw as (N1 & N2 & N3). unfold newton. rewrite combine_map_r, !map_map. unfold slowed_state at 1 2. cbn [q_ax q_ay q_al].
          replace (d_mass d * (q_ax (at_sample sol j) / (k * k))) with (/ (k * k) * (d_mass d * q_ax (at_sample sol j))) by (field; lra).
          replace (d_mass d * (q_ay (at_sample sol j) / (k * k))) with (/ (k * k) * (d_mass d * q_ay (at_sample sol j))) by (field; lra).
          replace (d_moi d * (q_al (slowed_state k (at_sample sol j)))) with (/ (k * k) * (d_moi d * q_al (at_sample sol j)))
            by (unfold slowed_state; cbn [q_al]; field; lra).
          rewrite <- N1, <- N2, <- N3.
          repeat split; apply sum_scaled; intros; unfold cross2, turned, slowed_state; cbn [fst snd q_c q_s]; unfold Rdiv; ring.
        * intros md Hm. apply in_map_iff in Hm. destruct Hm as (md0 & <- & Hm). fold (up md0). fold (wheel_limit (up md0)).
          rewrite (proj1 (tuned_limits md0)). specialize (Wh md0 Hm). fold (wheel_limit md0) in Wh. change (m_translation (up md0)) with (m_translation md0).
          set (v := wheel_velocity _ _) in Wh.
          replace (wheel_velocity (slowed_state k (at_sample sol j)) (m_translation md0)) with (fst v / k, snd v / k).
          -- rewrite norm2_div, <- surjective_pairing, dk by exact K. apply Rmult_le_compat_l; [lra|exact Wh].
          -- unfold v, wheel_velocity, slowed_state. cbn [q_c q_s q_vx q_vy q_w fst snd]. f_equal; field; lra.
        * intros md fo Hf. rewrite combine_map_r in Hf. apply in_map_iff in Hf. destruct Hf as ((m0, fo0) & E & Hf).
          cbn [fst snd] in E. injection E as <- <-. cbn [d' d_modules] in Hf. unfold tuned in Hf.
          assert (X : exists m1, up m1 = m0 /\ In (m1, fo0) (combine ms (forces sol j))).
          { revert Hf. clear. generalize (forces sol j). induction ms as [|a l IH]; intros [|b fs] Hf; try contradiction Hf.
            cbn [map combine] in Hf. destruct Hf as [E|Hf].
            - injection E as <- <-. exists a. split; [reflexivity|left; reflexivity].
            - destruct (IH fs Hf) as (m1 & E & I). exists m1. split; [exact E|right; exact I]. }
          destruct X as (m1 & <- & I). specialize (Fo m1 fo0 I). fold (force_limit m1) in Fo. fold (force_limit (up m1)). rewrite (proj2 (tuned_limits m1)).
          rewrite norm2_div by exact KK. replace (norm2 (fst fo0, snd fo0) / (k * k)) with (f * f * norm2 (fst fo0, snd fo0)) by (unfold k; field; lra).
          rewrite <- surjective_pairing. pose proof (norm2_pos fo0). apply Rle_trans with (f * f * force_limit m1); [apply Rmult_le_compat_l; [nra|exact Fo]|].
          apply Rmult_le_compat_r; [lra|exact ft].
    - rewrite (meets_ext _ _ _ (wpt_requests [] h) _ (sgmt_requests [] h)) by (intros; first [apply last_wpt|apply last_sgmt]).
      split.
      + intros w c Hw Hc. rewrite slowed_at. apply demands_slowed; [exact K|apply M1; assumption|apply F3; assumption].
      + intros w c j Hw Hc Hj. rewrite slowed_at. apply demands_slowed; [exact K|apply (M2 w); assumption|].
        pose proof (sample_bound asserts h w). apply (F4 w); try assumption; try lia.
  Qed.
End Tune.

Lemma C128_exact_proof : forall ms f t, turning_wheels ms -> some_torque ms -> some_apart ms -> 0 < f -> 0 <= t ->
  (good_as ms (tuned f t ms) <-> f <= 1 /\ f * f <= t).
Proof.
  intros ms f t Tw St Ap f0 t0. pose proof (tuned_turning f t f0 t0 ms Tw) as Tw'. split.
  - intros K. destruct (apart_longest ms Tw Ap) as (T & T0 & L). assert (S : step_within (mkDrivetrain 1 1 ms) T) by (apply L; lra). split.
    + pose proof (C127_steps_proof ms _ Tw Tw' K T S) as S'. apply (tuned_steps f t f0 ms 1 1 1 1), L in S'. nra.
    + apply Rnot_lt_le. intros Q. apply (jump_lost ms (tuned f t ms) T Tw Tw' T0 S); [|exact K]. intros dt Hd.
      apply (tuned_steps f t f0 ms 1 1 1 1), L in Hd. rewrite tuned_total. pose proof (torque_total_pos ms Tw St) as LL. set (X := sum _) in *.
      assert (D : (f * dt) * (f * dt) <= T * T) by nra. assert (t * (dt * dt) < T * T).
      { destruct (Req_dec dt 0) as [->|N]; [nra|]. assert (0 < dt * dt) by nra. apply Rlt_le_trans with (f * f * (dt * dt)); [|lra].
        apply Rmult_lt_compat_r; assumption. }
      replace (t * X * (dt * dt)) with (X * (t * (dt * dt))) by ring. apply Rmult_lt_compat_l; assumption.
  - intros (f1 & ft) asserts h handle m i g g' GH Hm Hi Pos G G' (sol & Sv).
    destruct (C128_slower_proof f t f0 t0 f1 ft asserts h handle m i ms g GH G Tw Pos) as (g2 & G2 & Q).
    destruct G' as [C1 _], G2 as [C2 _]. rewrite C1 in C2. injection C2 as ->. exists (slowed (/ f) sol). exact (Q sol Sv).
Qed.

Lemma row_turning : forall xs, turning_wheels (map (fun x => mkModule (mkTr x 0) 1 4 4) xs).
Proof. intros xs md Hm. apply in_map_iff in Hm. destruct Hm as (x & <- & _). cbn. lra. Qed.
Lemma row_lost : Permutation in_row in_order /\ ~ steps_kept in_row in_order /\ steps_kept in_order in_row.
Proof.
  assert (R : forall dt, step_within (mkDrivetrain 1 1 in_row) dt <-> 0 <= dt <= 1 / 2).
  { intros dt. split.
    - intros (P & H). destruct (H _ _ _ (or_introl eq_refl) (or_intror (or_introl eq_refl))) as [Hx _].
      cbn [m_translation tX m_wheelRadius m_wheelMaxAngularVelocity] in Hx. rewrite (Rabs_pos_eq (3 - 1)) in Hx by lra. lra.
    - intros Hd. split; [lra|]. intros md a b Hm Hab. cbn [d_modules] in *. unfold in_row in Hm. apply in_map_iff in Hm. destruct Hm as (x & <- & _).
      destruct Hab as [E|[E|[]]]; injection E as <- <-; cbn [m_translation tX tY m_wheelRadius m_wheelMaxAngularVelocity]; (split; [intros _|intros N; contradiction N; reflexivity]).
      + rewrite Rabs_left by lra. lra.
      + rewrite Rabs_pos_eq by lra. lra. }
  assert (O : forall dt, step_within (mkDrivetrain 1 1 in_order) dt <-> 0 <= dt <= 1 / 4).
  { intros dt. split.
    - intros (P & H). destruct (H _ _ _ (or_introl eq_refl) (or_introl eq_refl)) as [Hx _].
      cbn [m_translation tX m_wheelRadius m_wheelMaxAngularVelocity] in Hx. rewrite (Rabs_left (0 - 1)) in Hx by lra. lra.
    - intros Hd. split; [lra|]. intros md a b Hm Hab. cbn [d_modules] in *. unfold in_order in Hm. apply in_map_iff in Hm. destruct Hm as (x & <- & _).
      destruct Hab as [E|[E|[]]]; injection E as <- <-; cbn [m_translation tX tY m_wheelRadius m_wheelMaxAngularVelocity]; (split; [intros _|intros N; contradiction N; reflexivity]).
      + rewrite Rabs_left by lra. lra.
      + rewrite Rabs_left by lra. lra. }
  split; [unfold in_row, in_order; apply Permutation_map; apply perm_skip, perm_swap|]. split.
  - intros K. pose proof (proj1 (O (1 / 2)) (K (1 / 2) (proj2 (R (1 / 2)) ltac:(lra)))). lra.
  - intros dt H. apply R. apply O in H. lra.
Qed.
Lemma row_torque : some_torque in_row /\ some_torque in_order /\ some_apart in_row.
Proof.
  split; [eexists; split; [left; reflexivity|cbn; lra]|]. split; [eexists; split; [left; reflexivity|cbn; lra]|].
  eexists. eexists. split; [left; reflexivity|]. cbn [m_translation]. intros E. injection E. lra.
Qed.
