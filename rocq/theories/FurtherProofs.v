(** Robots with a further module (C131). *)
From Coq Require Import List Lia Lra Psatz Reals ZArith Permutation Classical.
Import ListNotations.
From Verif Require Import Outcome Num NumR Geometry Expr Constraints Util Builder Guess Generator Trajectory
  Spec SpecBuilder SpecPhysics SpecTrajectory SpecGenerator SpecStep SpecChange SpecEnergy SpecLoad SpecBalance SpecHaste SpecFurther
  BuilderFacts BuilderHistory GeneratorFacts HistoryFacts GeneratorProofs SolutionProofs TrajectoryProofs GeometryFacts
  GeneratorCases StepProofs LimitProofs OrderProofs HardwareProofs LegProofs ConstraintFacts PartsProofs EnergyProofs LoadProofs BalanceProofs JumpProofs HasteProofs RedesignProofs.
Open Scope R_scope.

Lemma further_turning : forall ms md, turning_wheels ms -> turning_wheels [md] -> turning_wheels (ms ++ [md]).
Proof. intros ms md A B x Hx. apply in_app_or in Hx. destruct Hx as [Hx|Hx]; [apply A, Hx|apply B, Hx]. Qed.
Lemma consecutive_more : forall {A} (l : list A) x ab, In ab (consecutive l) -> In ab (consecutive (l ++ [x])).
Proof.
  intros A [|a l] x ab H; [destruct H|]. unfold consecutive in *. cbn [app tl] in *. revert a H.
  induction l as [|b l IH]; intros a H; [destruct H|]. cbn [app combine] in *. destruct H as [<-|H]; [left; reflexivity|right; apply IH, H].
Qed.
Lemma further_steps : forall ms md m i dt, step_within (mkDrivetrain m i (ms ++ [md])) dt -> step_within (mkDrivetrain 1 1 ms) dt.
Proof.
  intros ms md m i dt (P & H). split; [exact P|]. cbn [d_modules] in *. intros c a b Hc Hab.
  apply H; [apply in_or_app; left; exact Hc|apply consecutive_more, Hab].
Qed.

Lemma coasting_at : forall sol i, at_sample (coasting sol) i = at_sample sol i.
Proof. reflexivity. Qed.
Lemma nth_more : forall (l : list (list R)) i, (i < length l)%nat -> nth i (map (fun r => r ++ [0]) l) [] = nth i l [] ++ [0].
Proof. induction l as [|r l IH]; intros [|i] H; simpl in H; try lia; [reflexivity|]. cbn [map nth]. apply IH. lia. Qed.
Lemma combine_more : forall {A B} (l : list A) (k : list B) a b, length l = length k -> combine (l ++ [a]) (k ++ [b]) = combine l k ++ [(a, b)].
Proof.
  induction l as [|x l IH]; intros [|y k] a b H; simpl in H; try discriminate; [reflexivity|]. cbn [app combine]. rewrite IH by lia. reflexivity.
Qed.
Lemma sum_more : forall l x, sum (l ++ [x]) = sum l + x.
Proof. induction l as [|a l IH]; intros x; cbn [app sum]; [ring|rewrite IH; ring]. Qed.

Lemma C131_keeps_proof : forall asserts h handle m i ms md g g', good_history asserts h ->
  generator asserts h handle (mkDrivetrain m i ms) g ->
  generator asserts (h ++ [OSetDrivetrain (mkDrivetrain m i (ms ++ [md]))]) handle (mkDrivetrain m i (ms ++ [md])) g' ->
  turning_wheels ms -> turning_wheels [md] -> (forall n, In n (counts asserts h) -> (1 <= n)%nat) ->
  steps_kept ms (ms ++ [md]) -> follows ms md -> forall sol, solved g sol -> solved g' (coasting sol).
Proof.
  intros asserts h handle m i ms md g g' GH G G' Tw Tm Pos K Fo sol Sv.
  set (d := mkDrivetrain m i ms) in *. set (d' := mkDrivetrain m i (ms ++ [md])) in *.
  pose proof (turning_real m i ms Tw : real_wheels d) as W. pose proof (turning_real m i _ (further_turning ms md Tw Tm) : real_wheels d') as W'.
  apply (solved_exact asserts h handle d g GH G W Pos) in Sv. destruct Sv as (Sh & U & (P1 & P2) & M1 & M2).
  pose proof Sh as (_ & _ & _ & _ & _ & _ & _ & _ & _ & _ & _ & L1 & L2 & FX & FY).
  assert (Lx : forall j, (j <= last_sample (counts asserts h))%nat ->
    length (nth j (s_moduleFX sol) []) = length ms /\ length (nth j (s_moduleFY sol) []) = length ms).
  { intros j Hj. rewrite Forall_forall in FX, FY. split; [apply FX|apply FY]; apply nth_In; lia. }
  assert (Fs : forall j, (j <= last_sample (counts asserts h))%nat -> forces (coasting sol) j = forces sol j ++ [(0, 0)] /\ length (forces sol j) = length ms).
  { intros j Hj. destruct (Lx j Hj) as [A B]. unfold forces, coasting. cbn [s_moduleFX s_moduleFY].
    rewrite !nth_more by lia. rewrite combine_more by lia. split; [reflexivity|]. rewrite combine_length. lia. }
  apply (solved_intro asserts (h ++ [OSetDrivetrain d']) handle d' g' (coasting sol) (last_good asserts h d' GH) G' W'); rewrite ?last_counts.
  - exact Pos.
  - destruct Sh as (S0 & S1 & S2 & S3 & S4 & S5 & S6 & S7 & S8 & S9 & S10 & S11 & S12 & _).
    unfold well_shaped, coasting. cbv zeta.
    cbn [s_dt s_x s_y s_thetacos s_thetasin s_vx s_vy s_omega s_ax s_ay s_alpha s_moduleFX s_moduleFY].
    rewrite !map_length. repeat (split; [assumption|]). cbn [d' d_modules]. rewrite app_length. cbn [length].
    split; apply Forall_map; [revert FX|revert FY]; apply Forall_impl; intros r E; rewrite app_length; cbn [length d d_modules] in *; lia.
  - exact U.
  - split.
    + intros j Hj. cbv zeta. rewrite !coasting_at. change (step_to (coasting sol) j) with (step_to sol j).
      destruct (P1 j Hj) as (St & Re). split; [exact (K _ St)|exact Re].
    + intros j Hj. rewrite coasting_at. destruct (P2 j Hj) as (Nw & Wh & Fw). destruct (Fs j Hj) as [E L]. rewrite E. split; [|split].
      * destruct Nw as (N1 & N2 & N3). cbn [d d_modules d_mass d_moi] in *. unfold newton. cbn [d' d_modules d_mass d_moi].
        rewrite combine_more by lia. rewrite !map_app. cbn [map fst snd]. rewrite !sum_more, N1, N2, N3. unfold cross2. cbn [fst snd].
        repeat split; ring.
      * intros c Hc. cbn [d' d_modules] in Hc. apply in_app_or in Hc. destruct Hc as [Hc|[<-|[]]]; [exact (Wh c Hc)|].
        apply Fo. exact Wh.
      * intros c f Hc. cbn [d' d_modules] in Hc. rewrite combine_more in Hc by lia. apply in_app_or in Hc.
        destruct Hc as [Hc|[Ec|[]]]; [exact (Fw c f Hc)|]. injection Ec as <- <-.
        pose proof (limits_pos [md] Tm md (or_introl eq_refl)) as P. unfold force_limit in P.
        apply norm2_le; [exact P|]. nra.
  - split; intros w c Hw; rewrite ?last_wpt, ?last_sgmt; [apply M1|apply M2]; exact Hw.
Qed.

Lemma slowest : forall ms : list (swerve_module R), ms <> [] -> exists m0, In m0 ms /\ forall md, In md ms -> wheel_limit m0 <= wheel_limit md.
Proof.
  induction ms as [|a l IH]; intros N; [contradiction|]. destruct l as [|b l].
  - exists a. split; [left; reflexivity|]. intros md [<-|[]]. lra.
  - destruct IH as (m0 & I0 & H0); [discriminate|]. destruct (Rle_dec (wheel_limit a) (wheel_limit m0)) as [C|C].
    + exists a. split; [left; reflexivity|]. intros md [<-|Hm]; [lra|]. specialize (H0 md Hm). lra.
    + exists m0. split; [right; exact I0|]. intros md [<-|Hm]; [lra|]. exact (H0 md Hm).
Qed.
Lemma apart_spacing : forall m i ms, some_apart ms -> exists s, spacing (mkDrivetrain m i ms) s.
Proof.
  intros m i ms (a & b & Hab & N). destruct (Req_dec (tX (m_translation a)) (tX (m_translation b))) as [E|E].
  - assert (E' : tY (m_translation a) <> tY (m_translation b)).
    { intros E'. apply N. destruct (m_translation a), (m_translation b). cbn in E, E'. subst. reflexivity. }
    exists (Rabs (tY (m_translation a) - tY (m_translation b))). split; [apply Rabs_pos_lt; lra|]. exists a, b. split; [exact Hab|right; reflexivity].
  - exists (Rabs (tX (m_translation a) - tX (m_translation b))). split; [apply Rabs_pos_lt; lra|]. exists a, b. split; [exact Hab|left; reflexivity].
Qed.
(** A hop in one interval does not turn the robot. *)
Lemma hop_straight : forall d v d' x asserts handle g' sol s, 0 <= v -> real_wheels d' -> spacing d' s ->
  generator asserts (hop d x v ++ [OSetDrivetrain d']) handle d' g' -> solved g' sol ->
  exists dt b, step_within d' dt /\ x = q_vx b * dt /\ q_vx b <= v /\ wheels_within d' b /\ (q_c b = 1 \/ q_c b = -1) /\ q_s b = 0 /\ q_w b * dt = 0.
Proof.
  intros d v d' x asserts handle g' sol s v0 W Sp G Sv.
  pose proof (last_good asserts (hop d x v) d' (hop_good d v x asserts)) as Gd.
  destruct (solved_motion asserts _ handle _ g' sol G Sv) as (M & _).
  destruct (solved_requests asserts _ handle _ g' sol Gd G Sv) as (Rq & _).
  destruct (solved_physics asserts _ handle d' g' sol G Sv W) as [_ P].
  pose proof (C74_proof asserts _ handle d' g' sol G Sv W 1%nat) as T2.
  rewrite last_counts, hop_counts in M, Rq, P, T2.
  destruct (T2 ltac:(simpl; lia)) as [T2' _]. clear T2. specialize (T2' s Sp).
  destruct (M 1%nat ltac:(simpl; lia)) as (S0 & Mv & Tn & _). destruct (P 1%nat ltac:(simpl; lia)) as (_ & Wh & _).
  assert (Rq' : forall w c, (w <= 1)%nat -> In c (wpt_requests [] (hop d x v) w) -> demands (at_sample sol (waypoint_sample [1%nat] w)) c).
  { intros w c Hw Hc. apply (Rq w c Hw). rewrite last_wpt. exact Hc. }
  pose proof (Rq' 0%nat _ ltac:(lia) (or_introl eq_refl)) as P0.
  pose proof (Rq' 1%nat _ ltac:(lia) (or_introl eq_refl)) as P1. pose proof (Rq' 1%nat _ ltac:(lia) (or_intror (or_introl eq_refl))) as V1.
  change (waypoint_sample [1%nat] 0) with 0%nat in *. change (waypoint_sample [1%nat] 1) with 1%nat in *. change (1 - 1)%nat with 0%nat in *.
  set (a := at_sample sol 0) in *. set (b := at_sample sol 1) in *. set (dt := step_to sol 1) in *.
  clearbody a b dt. cbn -[PI cos sin] in P0, P1. cbn [demands] in V1. rewrite (Rabs_pos_eq v v0) in V1.
  destruct P0 as (X0 & _ & H0). destruct P1 as (X1 & _ & H1). destruct Mv as (Mx & _). rewrite cos_0, sin_0 in H0, H1.
  assert (Sa : q_s a = 0) by (destruct H0 as [[_ E]|[_ E]]; lra). assert (Sb : q_s b = 0) by (destruct H1 as [[_ E]|[_ E]]; lra).
  exists dt, b. split; [exact S0|]. split; [lra|]. split.
  - eapply Rle_trans; [|exact V1]. eapply Rle_trans; [apply Rle_abs|apply abs_first].
  - split; [exact Wh|]. split; [destruct H1 as [[E _]|[E _]]; [left; exact E|right; lra]|]. split; [exact Sb|].
    apply sin_zero_range; [pose proof PI2_3_2; destruct (abs_sides _ _ T2'); lra|].
    unfold turns_up_to_half in Tn. cbv zeta in Tn. rewrite Sa, Sb in Tn. destruct Tn as [[_ E]|[_ E]]; lra.
Qed.

Lemma C131_lost_proof : forall ms md, turning_wheels ms -> turning_wheels [md] -> some_apart ms -> good_as ms (ms ++ [md]) ->
  steps_kept ms (ms ++ [md]) /\ exists m0, In m0 ms /\ wheel_limit m0 <= wheel_limit md.
Proof.
  intros ms md Tw Tm Ap K. pose proof (further_turning ms md Tw Tm) as Tw'.
  split; [exact (C127_steps_proof ms _ Tw Tw' K)|].
  destruct (apart_longest ms Tw Ap) as (T & T0 & LT).
  destruct (slowest ms) as (m0 & I0 & Min). { intros ->. destruct Ap as (a & b & [] & _). }
  exists m0. split; [exact I0|]. set (v := wheel_limit m0) in *.
  assert (V0 : 0 < v) by (destruct (Tw m0 I0) as (? & ? & _); apply Rmult_lt_0_compat; assumption).
  set (d := mkDrivetrain 1 1 ms). set (d' := mkDrivetrain 1 1 (ms ++ [md])).
  assert (Ap' : some_apart (ms ++ [md])) by (destruct Ap as (a & b & Hab & N); exists a, b; split; [apply consecutive_more, Hab|exact N]).
  destruct (apart_spacing 1 1 _ Ap') as (s & Sp).
  destruct (hop_generator d v (v * T) true 7) as (g & G). destruct (hop_other d v (v * T) true 7 d') as (g' & G').
  destruct (K true (hop d (v * T) v) 7%Z 1 1 g g' (hop_good d v (v * T) true) Rlt_0_1 Rlt_0_1) as (sol & Sv); [|exact G|exact G'| |].
  - rewrite hop_counts. intros n [<-|[]]. lia.
  - exists (hop_plan d v T). apply (hop_solved d v T (Rlt_le _ _ V0) true 7%Z g G (turning_real 1 1 ms Tw)); [apply LT; lra|exact Min].
  - destruct (hop_straight d v d' (v * T) true 7%Z g' sol s (Rlt_le _ _ V0) (turning_real 1 1 _ Tw') Sp G' Sv)
      as (dt & b & Hd & Ex & Le & Wh & Hc & Hs & Hw).
    pose proof (proj1 (LT 1 1 dt) (further_steps ms md 1 1 dt Hd)) as [D0 D1].
    assert (q_vx b * dt <= v * dt) by (apply Rmult_le_compat_r; assumption).
    assert (T <= dt) by (apply (Rmult_le_reg_l v); lra). assert (E : dt = T) by lra. subst dt.
    assert (Vx : q_vx b = v) by (apply (Rmult_eq_reg_r T); lra). assert (Wz : q_w b = 0) by (destruct (Rmult_integral _ _ Hw); lra).
    specialize (Wh md ltac:(apply in_or_app; right; left; reflexivity)). fold (wheel_limit md) in Wh.
    eapply Rle_trans; [|exact Wh]. unfold wheel_velocity. rewrite Hs, Wz, Vx. eapply Rle_trans; [|apply abs_first].
    destruct Hc as [-> | ->]; [|rewrite <- Rabs_Ropp]; (eapply Rle_trans; [|apply Rle_abs]); lra.
Qed.

Lemma amid_follows : forall ms md v, amid ms md -> as_fast ms v -> v <= wheel_limit md -> follows ms md.
Proof.
  intros ms md v (a & b & t & Ia & Ib & Ht & Ex & Ey) Av L s Wh. eapply Rle_trans; [|exact L].
  pose proof (Wh a Ia) as A. pose proof (Wh b Ib) as B. fold (wheel_limit a) in A. fold (wheel_limit b) in B. rewrite (Av a Ia) in A. rewrite (Av b Ib) in B.
  assert (E : wheel_velocity s (m_translation md) =
    ((1 - t) * fst (wheel_velocity s (m_translation a)) + t * fst (wheel_velocity s (m_translation b)),
     (1 - t) * snd (wheel_velocity s (m_translation a)) + t * snd (wheel_velocity s (m_translation b)))).
  { unfold wheel_velocity. cbn [fst snd]. rewrite Ex, Ey. f_equal; ring. }
  rewrite E. eapply Rle_trans; [apply norm2_triangle|]. rewrite !norm2_scale, <- !surjective_pairing, !Rabs_pos_eq by lra. nra.
Qed.

Lemma C131_exact_proof : forall ms md v, turning_wheels ms -> turning_wheels [md] -> some_apart ms -> as_fast ms v -> amid ms md ->
  (good_as ms (ms ++ [md]) <-> steps_kept ms (ms ++ [md]) /\ v <= wheel_limit md).
Proof.
  intros ms md v Tw Tm Ap Av Am. split.
  - intros K. destruct (C131_lost_proof ms md Tw Tm Ap K) as (S & m0 & I0 & L). split; [exact S|]. rewrite <- (Av m0 I0). exact L.
  - intros (S & L) asserts h handle m i g g' GH Hm Hi Pos G G' (sol & Sv). exists (coasting sol).
    exact (C131_keeps_proof asserts h handle m i ms md g g' GH G G' Tw Tm Pos S (amid_follows ms md v Am Av L) sol Sv).
Qed.

(** ** A turn while driving *)
Definition swing (d : drivetrain R) (x y th v : R) : list (op R) :=
  [OSetDrivetrain d; OPoseWpt 0 0 0 (- th); OPoseWpt 1 x y 0; OWptConstraint 1 (LinearVelocityMaxMagnitude v);
   OWptConstraint 1 (PointAt (mkTr (x + 1) y) (PI / 2)); OControlIntervalCounts [1%nat]].
Section Swing.
  Variables (d : drivetrain R) (x y th v : R).
  Let ms := d_modules d.
  Lemma swing_good : forall asserts, good_history asserts (swing d x y th v).
  Proof.
    intros asserts. split; [repeat constructor|]. split; [repeat constructor; simpl; exact I|].
    destruct asserts; repeat split; reflexivity.
  Qed.
  Lemma swing_counts : forall asserts, counts asserts (swing d x y th v) = [1%nat].
  Proof. destruct asserts; reflexivity. Qed.
  Lemma swing_generator : forall asserts handle, exists g, generator asserts (swing d x y th v) handle d g.
  Proof. intros asserts handle. apply generator_exists; [|reflexivity]. destruct asserts; apply Nat.ltb_lt; reflexivity. Qed.
  Lemma swing_other : forall asserts handle d', exists g', generator asserts (swing d x y th v ++ [OSetDrivetrain d']) handle d' g'.
  Proof.
    intros asserts handle d'. apply generator_exists; [|reflexivity].
    rewrite last_counts, swing_counts. destruct asserts; apply Nat.ltb_lt; reflexivity.
  Qed.
  Variables (T w0 : R) (gs : list (R * R)).
  Hypothesis W : real_wheels d.
  Hypothesis T0 : 0 < T.
  Hypothesis ST : step_within d T.
  Definition swing_plan : solution R :=
    mkSolution [T] [0; x] [0; y] [cos (- th); 1] [sin (- th); 0] [0; x / T] [0; y / T] [w0; th / T]
      [0; x / T / T] [0; y / T / T] [0; (th / T - w0) / T] [map (fun _ => 0) ms; map fst gs] [map (fun _ => 0) ms; map snd gs].
  Let s1 := mkState x y 1 0 (x / T) (y / T) (th / T) (x / T / T) (y / T / T) ((th / T - w0) / T).
  Lemma swing_solved : forall asserts handle g, generator asserts (swing d x y th v) handle d g ->
    length gs = length ms -> forces_within d gs -> newton d s1 gs -> wheels_within d s1 -> norm2 (x / T, y / T) <= v ->
    (forall md, In md ms -> Rabs w0 * arm md <= wheel_limit md) -> solved g swing_plan.
  Proof.
    intros asserts handle g G Lg Fg Nw Wl Lv Wz.
    apply (solved_intro asserts (swing d x y th v) handle d g swing_plan (swing_good asserts) G W); rewrite swing_counts.
    - intros n [<-|[]]. lia.
    - unfold well_shaped, swing_plan. cbv zeta. change (last_sample [1%nat]) with 1%nat.
      cbn [s_dt s_x s_y s_thetacos s_thetasin s_vx s_vy s_omega s_ax s_ay s_alpha s_moduleFX s_moduleFY length].
      repeat (split; [reflexivity|]). split; repeat constructor; rewrite map_length; (reflexivity || exact Lg).
    - intros s k Hs Hk. simpl in Hs. assert (s = 0)%nat as -> by lia. simpl in Hk. assert (k = 0)%nat as -> by lia. reflexivity.
    - split.
      + intros i Hi. simpl in Hi. assert (i = 1)%nat as -> by lia.
        unfold at_sample, step_to, swing_plan. cbn [nth Nat.sub s_dt s_x s_y s_thetacos s_thetasin s_vx s_vy s_omega s_ax s_ay s_alpha].
        split; [exact ST|]. split; [|split].
        * unfold moves. cbn [q_x q_y q_vx q_vy]. split; field; lra.
        * left. cbn [q_c q_s q_w]. replace (th / T * T) with th by (field; lra). rewrite cos_neg, sin_neg. split; ring.
        * unfold accelerates. cbn [q_vx q_vy q_w q_ax q_ay q_al]. repeat split; field; lra.
      + intros i Hi. simpl in Hi. assert (i = 0 \/ i = 1)%nat as [-> | ->] by lia;
          unfold at_sample, forces, swing_plan; cbn [nth s_x s_y s_thetacos s_thetasin s_vx s_vy s_omega s_ax s_ay s_alpha s_moduleFX s_moduleFY].
        * assert (E : combine (map (fun _ => 0) ms) (map (fun _ => 0) ms) = map (fun _ : swerve_module R => (0, 0)) ms).
          { clear. generalize ms. intros l0. induction l0 as [|m l IH]; [reflexivity|]. cbn [map combine]. rewrite IH. reflexivity. }
          rewrite E. split; [|split].
          -- unfold newton. fold ms. rewrite combine_map, !map_map. cbn [fst snd q_ax q_ay q_al]. rewrite sum_all.
             split; [ring|]. split; [ring|]. transitivity (sum (map (fun _ : swerve_module R => 0) ms)).
             ++ apply sum_ext. intros. unfold cross2. cbn [fst snd]. ring.
             ++ rewrite sum_all. ring.
          -- intros md Hm. eapply Rle_trans; [|exact (Wz md Hm)]. unfold wheel_velocity. cbn [q_c q_s q_vx q_vy q_w].
             replace (0 * cos (- th) + 0 * sin (- th) - tY (m_translation md) * w0) with (w0 * (- tY (m_translation md))) by ring.
             replace (0 * cos (- th) - 0 * sin (- th) + tX (m_translation md) * w0) with (w0 * tX (m_translation md)) by ring.
             rewrite norm2_scale. right. f_equal. unfold arm, pt, norm2. cbn [fst snd]. f_equal. ring.
          -- unfold forces_within. fold ms. rewrite combine_map. intros md f Hf. apply in_map_iff in Hf. destruct Hf as (m & E' & Hm).
             injection E' as <- <-. fold (force_limit m). pose proof (limit_pos d m W Hm). apply norm2_le; nra.
        * fold s1. rewrite combine_rows. split; [exact Nw|]. split; [exact Wl|exact Fg].
    - split.
      + intros w c Hw Hc. simpl in Hw. assert (w = 0 \/ w = 1)%nat as [-> | ->] by lia; cbn -[PI cos sin] in Hc.
        * destruct Hc as [<-|[]]; cbn -[cos sin].
          split; [reflexivity|]. split; [reflexivity|]. left. split; reflexivity.
        * change (waypoint_sample [1%nat] 1) with 1%nat. destruct Hc as [<-|[<-|[<-|[]]]].
          -- cbn -[cos sin]. split; [reflexivity|]. split; [reflexivity|]. left. rewrite cos_0, sin_0. split; reflexivity.
          -- cbn [demands]. unfold at_sample, swing_plan. cbn [nth q_vx q_vy s_vx s_vy]. eapply Rle_trans; [exact Lv|apply Rle_abs].
          -- cbn [demands]. rewrite cos_PI2. unfold at_sample, swing_plan. cbn [nth q_x q_y q_c q_s s_x s_y s_thetacos s_thetasin tX tY]. lra.
      + intros w c i Hw Hc Hi. simpl in Hw. assert (w = 1)%nat as -> by lia. destruct Hc.
  Qed.
End Swing.

Lemma swing_facts : forall d x y th v d' asserts handle g' sol s, 0 <= v -> real_wheels d' -> spacing d' s ->
  generator asserts (swing d x y th v ++ [OSetDrivetrain d']) handle d' g' -> solved g' sol ->
  exists dt b, step_within d' dt /\ x = q_vx b * dt /\ y = q_vy b * dt /\ norm2 (q_vx b, q_vy b) <= v /\ wheels_within d' b /\
    q_c b = 1 /\ q_s b = 0 /\ sin (q_w b * dt - th) = 0 /\ Rabs (q_w b * dt) <= 2.
Proof.
  intros d x y th v d' asserts handle g' sol s v0 W Sp G Sv.
  pose proof (last_good asserts (swing d x y th v) d' (swing_good d x y th v asserts)) as Gd.
  destruct (solved_motion asserts _ handle _ g' sol G Sv) as (M & _).
  destruct (solved_requests asserts _ handle _ g' sol Gd G Sv) as (Rq & _).
  destruct (solved_physics asserts _ handle d' g' sol G Sv W) as [_ P].
  pose proof (C74_proof asserts _ handle d' g' sol G Sv W 1%nat) as T2.
  rewrite last_counts, swing_counts in M, Rq, P, T2.
  destruct (T2 ltac:(simpl; lia)) as [T2' _]. clear T2. specialize (T2' s Sp).
  destruct (M 1%nat ltac:(simpl; lia)) as (S0 & Mv & Tn & _). destruct (P 1%nat ltac:(simpl; lia)) as (_ & Wh & _).
  assert (Rq' : forall w c, (w <= 1)%nat -> In c (wpt_requests [] (swing d x y th v) w) -> demands (at_sample sol (waypoint_sample [1%nat] w)) c).
  { intros w c Hw Hc. apply (Rq w c Hw). rewrite last_wpt. exact Hc. }
  pose proof (Rq' 0%nat _ ltac:(lia) (or_introl eq_refl)) as P0.
  pose proof (Rq' 1%nat _ ltac:(lia) (or_introl eq_refl)) as P1. pose proof (Rq' 1%nat _ ltac:(lia) (or_intror (or_introl eq_refl))) as V1.
  pose proof (Rq' 1%nat _ ltac:(lia) (or_intror (or_intror (or_introl eq_refl)))) as F1.
  change (waypoint_sample [1%nat] 0) with 0%nat in *. change (waypoint_sample [1%nat] 1) with 1%nat in *. change (1 - 1)%nat with 0%nat in *.
  set (a := at_sample sol 0) in *. set (b := at_sample sol 1) in *. set (dt := step_to sol 1) in *.
  clearbody a b dt. cbn -[PI cos sin] in P0, P1. cbn [demands] in V1, F1. rewrite (Rabs_pos_eq v v0) in V1. rewrite cos_PI2 in F1. cbn [tX tY] in F1.
  destruct P0 as (X0 & Y0 & H0). destruct P1 as (X1 & Y1 & H1). destruct Mv as (Mx & My). rewrite cos_0, sin_0 in H1.
  rewrite X1, Y1 in F1.
  assert (Sb : q_s b = 0) by (destruct H1 as [[_ E]|[_ E]]; lra).
  assert (Cb : q_c b = 1).
  { destruct H1 as [[E _]|[E _]]; [exact E|]. rewrite Sb in F1. replace (q_c b) with (-1) in F1 by lra. lra. }
  exists dt, b. split; [exact S0|]. split; [lra|]. split; [lra|]. split; [exact V1|]. split; [exact Wh|]. split; [exact Cb|]. split; [exact Sb|].
  split; [|exact T2']. rewrite sin_minus. rewrite cos_neg, sin_neg in H0. unfold turns_up_to_half in Tn. cbv zeta in Tn. rewrite Cb, Sb in Tn.
  destruct H0 as [[E1 E2]|[E1 E2]], Tn as [[Tc Ts]|[Tc Ts]].
  - replace (cos th) with (cos (q_w b * dt)) by lra. replace (sin th) with (sin (q_w b * dt)) by lra. ring.
  - replace (cos th) with (- cos (q_w b * dt)) by lra. replace (sin th) with (- sin (q_w b * dt)) by lra. ring.
  - replace (cos th) with (- cos (q_w b * dt)) by lra. replace (sin th) with (- sin (q_w b * dt)) by lra. ring.
  - replace (cos th) with (cos (q_w b * dt)) by lra. replace (sin th) with (sin (q_w b * dt)) by lra. ring.
Qed.

(** All wheels may turn the robot slowly. *)
Lemma slow_turn : forall ms, turning_wheels ms -> exists e, 0 < e /\ forall md, In md ms -> e * arm md <= wheel_limit md.
Proof.
  intros ms Tw. destruct (big_enough arm 0 ms Tw) as (M & M0 & _ & H). exists (/ M).
  assert (I0 : 0 < / M) by (apply Rinv_0_lt_compat, M0). split; [exact I0|].
  intros md Hm. specialize (H md Hm). apply (Rmult_le_reg_l M); [exact M0|]. rewrite <- Rmult_assoc, Rinv_r by lra. lra.
Qed.
(** A module as fast as the others that takes away no time step is no faster. *)
Lemma steps_fast : forall ms md v, turning_wheels ms -> some_apart ms -> as_fast ms v -> steps_kept ms (ms ++ [md]) -> wheel_limit md <= v.
Proof.
  intros ms md v Tw Ap Av K. destruct (apart_longest ms Tw Ap) as (T & T0 & LT). apply Rnot_lt_le. intros L.
  assert (N : exists m0, In m0 ms) by (destruct Ap as (a & b & Hab & _); exists a; exact (in_combine_l _ _ _ _ Hab)).
  destruct N as (m0 & I0). assert (V0 : 0 < v) by (rewrite <- (Av m0 I0); destruct (Tw m0 I0) as (? & ? & _); apply Rmult_lt_0_compat; assumption).
  destruct (K T) as (_ & H); [apply LT; lra|]. cbn [d_modules] in H.
  assert (X : step_within (mkDrivetrain 1 1 ms) (T * (wheel_limit md / v))).
  { split.
    - apply Rmult_le_pos; [lra|]. apply Rmult_le_pos; [lra|]. left. apply Rinv_0_lt_compat, V0.
    - cbn [d_modules]. intros c a b Hc Hab.
      destruct (H md a b) as [Hx Hy]; [apply in_or_app; right; left; reflexivity|apply consecutive_more, Hab|].
      rewrite Rmult_assoc. fold (wheel_limit c). rewrite (Av c Hc).
      replace (T * (wheel_limit md / v) * v) with (T * m_wheelRadius md * m_wheelMaxAngularVelocity md) by (unfold wheel_limit; field; lra).
      split; assumption. }
  apply LT in X. destruct X as [_ X].
  assert (1 < wheel_limit md / v) by (apply (Rmult_lt_reg_r v); [exact V0|]; replace (wheel_limit md / v * v) with (wheel_limit md) by (field; lra); lra).
  nra.
Qed.

Lemma outside_lost : forall ms md v, turning_wheels ms -> turning_wheels [md] -> some_apart ms -> some_torque ms -> as_fast ms v ->
  good_as ms (ms ++ [md]) -> follows ms md.
Proof.
  intros ms md v Tw Tm Ap (mq & Iq & Tq) Av K s Wh. apply Rnot_lt_le. intros Out.
  destruct (C131_lost_proof ms md Tw Tm Ap K) as (Sk & m0 & I0 & Lm). rewrite (Av m0 I0) in Lm.
  pose proof (steps_fast ms md v Tw Ap Av Sk) as Lm'. assert (Ev : wheel_limit md = v) by lra. rewrite Ev in Out. clear Lm Lm'.
  assert (V0 : 0 < v) by (rewrite <- (Av m0 I0); destruct (Tw m0 I0) as (? & ? & _); apply Rmult_lt_0_compat; assumption).
  pose proof (further_turning ms md Tw Tm) as Tw'.
  destruct (apart_longest ms Tw Ap) as (T & T0 & LT).
  assert (Ap' : some_apart (ms ++ [md])) by (destruct Ap as (a & b & Hab & N); exists a, b; split; [apply consecutive_more, Hab|exact N]).
  destruct (slow_turn ms Tw) as (e & e0 & He).
  (* mix the motion with one straight ahead as the further wheel sees it *)
  set (A := q_vx s * q_c s + q_vy s * q_s s). set (B := q_vy s * q_c s - q_vx s * q_s s). set (w := q_w s).
  set (nW := norm2 (wheel_velocity s (m_translation md))) in *. set (u1 := fst (wheel_velocity s (m_translation md)) / nW).
  set (u2 := snd (wheel_velocity s (m_translation md)) / nW).
  assert (W0 : 0 < nW) by lra.
  assert (Un : norm2 (u1, u2) = 1).
  { unfold u1, u2. rewrite norm2_div by exact W0. rewrite <- surjective_pairing. fold nW. field. lra. }
  pose proof (norm2_pos (A, B)) as nAB. pose proof (Rabs_pos w) as w0.
  set (Kk := 3 + 2 * Rabs w / e + Rabs w * T + norm2 (A, B) / v). set (l := / Kk).
  assert (Q1 : 0 <= 2 * Rabs w / e) by (apply Rmult_le_pos; [lra|left; apply Rinv_0_lt_compat, e0]).
  assert (Q2 : 0 <= Rabs w * T) by (apply Rmult_le_pos; lra).
  assert (Q3 : 0 <= norm2 (A, B) / v) by (apply Rmult_le_pos; [lra|left; apply Rinv_0_lt_compat, V0]).
  assert (K0 : 0 < Kk) by (unfold Kk; lra). assert (l0 : 0 < l) by (apply Rinv_0_lt_compat, K0).
  assert (lK : l * Kk = 1) by (unfold l; field; lra).
  assert (l1 : l * 3 <= 1) by (rewrite <- lK; apply Rmult_le_compat_l; [lra|unfold Kk; lra]).
  assert (lw : l * Rabs w <= e / 2).
  { assert (X : l * (2 * Rabs w / e) <= 1) by (rewrite <- lK; apply Rmult_le_compat_l; [lra|unfold Kk; lra]).
    apply (Rmult_le_reg_r (2 / e)); [apply Rdiv_lt_0_compat; lra|]. replace (e / 2 * (2 / e)) with 1 by (field; lra).
    replace (l * Rabs w * (2 / e)) with (l * (2 * Rabs w / e)) by (field; lra). exact X. }
  assert (lT : l * Rabs w * T <= 1) by (rewrite <- lK, Rmult_assoc; apply Rmult_le_compat_l; [lra|unfold Kk; lra]).
  assert (lv : l * norm2 (A, B) < (1 - l) * v).
  { assert (X : l * (norm2 (A, B) / v + 3) <= 1) by (rewrite <- lK; apply Rmult_le_compat_l; [lra|unfold Kk; lra]).
    apply (Rmult_lt_reg_r (/ v)); [apply Rinv_0_lt_compat, V0|]. replace ((1 - l) * v * / v) with (1 - l) by (field; lra).
    replace (l * norm2 (A, B) * / v) with (l * (norm2 (A, B) / v)) by (unfold Rdiv; ring). lra. }
  set (vx := l * A + (1 - l) * v * u1). set (vy := l * B + (1 - l) * v * u2). set (w' := l * w). set (th := w' * T). set (n := norm2 (vx, vy)).
  assert (N0 : 0 < n).
  { pose proof (norm2_triangle vx vy (- l * A) (- l * B)) as X. rewrite norm2_scale, Rabs_Ropp, Rabs_pos_eq in X by lra.
    replace (vx + - l * A) with ((1 - l) * v * u1) in X by (unfold vx; ring). replace (vy + - l * B) with ((1 - l) * v * u2) in X by (unfold vy; ring).
    rewrite norm2_scale, Un, Rabs_pos_eq in X by nra. fold n in X. lra. }
  assert (aw : Rabs w' = l * Rabs w) by (unfold w'; rewrite Rabs_mult, (Rabs_pos_eq l) by lra; reflexivity).
  set (LL := sum (map force_limit ms)).
  assert (L0 : 0 < LL).
  { apply Rlt_le_trans with (force_limit mq).
    - unfold force_limit. apply Rdiv_lt_0_compat; [exact Tq|]. apply (Tw mq Iq).
    - unfold LL. clear - Iq Tw. induction ms as [|a k IH]; [destruct Iq|]. cbn [map sum].
      assert (P : 0 <= force_limit a) by (apply (limits_pos (a :: k) Tw); left; reflexivity).
      assert (Tk : turning_wheels k) by (intros z Hz; apply Tw; right; exact Hz).
      assert (P' : 0 <= sum (map force_limit k)) by (apply sum_nonneg_all; intros z Hz; apply (limits_pos k Tk z Hz)).
      destruct Iq as [->|Iq]; [lra|]. specialize (IH Tk Iq). lra. }
  set (tau := sum (map (fun c => force_limit c * ((tX (m_translation c) * vy - tY (m_translation c) * vx) / n)) ms)).
  set (m := LL * T / n). set (i := 2 * (Rabs tau * T) / e + 1).
  assert (M0 : 0 < m) by (apply Rdiv_lt_0_compat; nra).
  pose proof (Rabs_pos tau) as tau0.
  assert (Qi : 0 <= 2 * (Rabs tau * T) / e) by (apply Rmult_le_pos; [nra|left; apply Rinv_0_lt_compat, e0]).
  assert (I1 : 0 < i) by (unfold i; lra).
  set (wz := w' - tau / i * T). set (d := mkDrivetrain m i ms). set (d' := mkDrivetrain m i (ms ++ [md])).
  assert (Wz : Rabs wz <= e).
  { unfold wz. assert (X : Rabs (tau / i * T) <= e / 2).
    { rewrite Rabs_mult, (Rabs_pos_eq T) by lra. unfold Rdiv at 1. rewrite Rabs_mult, (Rabs_pos_eq (/ i)) by (left; apply Rinv_0_lt_compat, I1).
      apply (Rmult_le_reg_r i); [exact I1|]. replace (Rabs tau * / i * T * i) with (Rabs tau * T) by (field; lra).
      unfold i. replace (e / 2 * (2 * (Rabs tau * T) / e + 1)) with (Rabs tau * T + e / 2) by (field; lra). lra. }
    replace (w' - tau / i * T) with (w' + - (tau / i * T)) by ring. eapply Rle_trans; [apply Rabs_triang|]. rewrite Rabs_Ropp. lra. }
  destruct (apart_spacing m i _ Ap') as (sp & Sp).
  assert (Ex : vx * T / T = vx) by (field; lra). assert (Ey : vy * T / T = vy) by (field; lra). assert (Et : th / T = w') by (unfold th; field; lra).
  assert (Seen : forall p, wheel_velocity (mkState (vx * T) (vy * T) 1 0 vx vy w' (vx / T) (vy / T) ((w' - wz) / T)) p =
    (l * fst (wheel_velocity s p) + (1 - l) * v * u1, l * snd (wheel_velocity s p) + (1 - l) * v * u2)).
  { intros p. unfold wheel_velocity. cbn [q_c q_s q_vx q_vy q_w fst snd]. fold A B w. unfold vx, vy, w'. f_equal; ring. }
  destruct (swing_generator d (vx * T) (vy * T) th n true 7) as (g & G). destruct (swing_other d (vx * T) (vy * T) th n true 7 d') as (g' & G').
  destruct (K true (swing d (vx * T) (vy * T) th n) 7%Z m i g g' (swing_good d (vx * T) (vy * T) th n true) M0 I1) as (sol & Sv); [|exact G|exact G'| |].
  - rewrite swing_counts. intros k [<-|[]]. lia.
  - exists (swing_plan d (vx * T) (vy * T) th T wz (map (fun c => (force_limit c / n * vx, force_limit c / n * vy)) ms)).
    apply (swing_solved d (vx * T) (vy * T) th n T wz) with (asserts := true) (handle := 7%Z); rewrite ?Ex, ?Ey, ?Et.
    + exact (turning_real m i ms Tw).
    + exact T0.
    + apply LT. lra.
    + exact G.
    + apply map_length.
    + unfold forces_within. cbn [d d_modules]. rewrite combine_map. intros c f Hf. apply in_map_iff in Hf. destruct Hf as (c' & E' & Hc). injection E' as <- <-.
      fold (force_limit c'). pose proof (limits_pos ms Tw c' Hc) as P. rewrite norm2_scale. fold n. rewrite Rabs_pos_eq.
      * right. field. lra.
      * apply Rmult_le_pos; [exact P|left; apply Rinv_0_lt_compat, N0].
    + unfold newton. cbn [d d_modules d_mass d_moi q_ax q_ay q_al]. rewrite combine_map, !map_map. cbn [fst snd]. split; [|split].
      * transitivity (vx / n * LL); [|unfold m; field; lra]. unfold LL. rewrite <- sum_mul. apply sum_ext. intros c _. field. lra.
      * transitivity (vy / n * LL); [|unfold m; field; lra]. unfold LL. rewrite <- sum_mul. apply sum_ext. intros c _. field. lra.
      * transitivity tau; [|unfold wz; field; lra]. unfold tau. apply sum_ext. intros c _.
        unfold cross2, turned. cbn [fst snd q_c q_s]. field. lra.
    + intros c Hc. fold (wheel_limit c). rewrite Seen, (Av c Hc). pose proof (Wh c Hc) as X. fold (wheel_limit c) in X. rewrite (Av c Hc) in X.
      eapply Rle_trans; [apply norm2_triangle|]. rewrite !norm2_scale, Un, <- surjective_pairing, !Rabs_pos_eq by nra. nra.
    + unfold n. lra.
    + intros c Hc. eapply Rle_trans; [|exact (He c Hc)]. apply Rmult_le_compat_r; [apply norm2_pos|exact Wz].
  - destruct (swing_facts d (vx * T) (vy * T) th n d' true 7%Z g' sol sp (Rlt_le _ _ N0) (turning_real m i _ Tw') Sp G' Sv)
      as (dt & b & Hd & Fx & Fy & Fn & Fw & Fc & Fs & Fr & F2).
    pose proof (proj1 (LT 1 1 dt) (further_steps ms md m i dt Hd)) as [D0 D1].
    assert (Nn : n * T = norm2 (q_vx b, q_vy b) * dt).
    { unfold n. rewrite (Rmult_comm _ T), (Rmult_comm _ dt). rewrite <- (Rabs_pos_eq T) at 1 by lra. rewrite <- (Rabs_pos_eq dt) at 1 by lra.
      rewrite <- !norm2_scale. f_equal. f_equal; lra. }
    assert (norm2 (q_vx b, q_vy b) * dt <= n * dt) by (apply Rmult_le_compat_r; assumption).
    assert (T <= dt) by (apply (Rmult_le_reg_l n); lra). assert (E : dt = T) by lra. subst dt.
    assert (Vx : q_vx b = vx) by (apply (Rmult_eq_reg_r T); lra). assert (Vy : q_vy b = vy) by (apply (Rmult_eq_reg_r T); lra).
    assert (At : Rabs th <= 1) by (unfold th; rewrite Rabs_mult, aw, (Rabs_pos_eq T) by lra; exact lT).
    apply abs_sides in At. apply abs_sides in F2. pose proof PI2_3_2.
    pose proof (sin_zero_range (q_w b * T - th) ltac:(lra) Fr) as Ez.
    assert (Vw : q_w b = w') by (apply (Rmult_eq_reg_r T); [unfold th in Ez; lra|lra]).
    specialize (Fw md ltac:(apply in_or_app; right; left; reflexivity)). fold (wheel_limit md) in Fw. rewrite Ev in Fw.
    assert (Same : wheel_velocity b (m_translation md) = (l * (nW * u1) + (1 - l) * v * u1, l * (nW * u2) + (1 - l) * v * u2)).
    { replace (nW * u1) with (fst (wheel_velocity s (m_translation md))) by (unfold u1; field; lra).
      replace (nW * u2) with (snd (wheel_velocity s (m_translation md))) by (unfold u2; field; lra).
      rewrite <- Seen. unfold wheel_velocity. cbn [q_c q_s q_vx q_vy q_w]. rewrite Vx, Vy, Vw, Fc, Fs. reflexivity. }
    rewrite Same in Fw. replace (l * (nW * u1) + (1 - l) * v * u1) with ((l * nW + (1 - l) * v) * u1) in Fw by ring.
    replace (l * (nW * u2) + (1 - l) * v * u2) with ((l * nW + (1 - l) * v) * u2) in Fw by ring.
    rewrite norm2_scale, Un, Rabs_pos_eq in Fw by nra. nra.
Qed.
Lemma C131_follows_proof : forall ms md v, turning_wheels ms -> turning_wheels [md] -> some_apart ms -> some_torque ms -> as_fast ms v ->
  (good_as ms (ms ++ [md]) <-> steps_kept ms (ms ++ [md]) /\ follows ms md).
Proof.
  intros ms md v Tw Tm Ap Tq Av. split.
  - intros K. split; [exact (C127_steps_proof ms _ Tw (further_turning ms md Tw Tm) K)|exact (outside_lost ms md v Tw Tm Ap Tq Av K)].
  - intros (S & F) asserts h handle m i g g' GH Hm Hi Pos G G' (sol & Sv). exists (coasting sol).
    exact (C131_keeps_proof asserts h handle m i ms md g g' GH G G' Tw Tm Pos S F sol Sv).
Qed.

(** Doubling the last module. *)
Lemma consecutive_last : forall {A} (l : list A) x y ab, In ab (consecutive ((l ++ [x]) ++ [y])) -> In ab (consecutive (l ++ [x])) \/ ab = (x, y).
Proof.
  intros A l x y ab. unfold consecutive. destruct l as [|a l]; [intros [<-|[]]; right; reflexivity|]. cbn [app tl]. revert a.
  induction l as [|b l IH]; intros a H.
  - cbn [app combine] in *. destruct H as [<-|[<-|[]]]; [left; left; reflexivity|right; reflexivity].
  - cbn [app combine] in *. destruct H as [<-|H]; [left; left; reflexivity|]. destruct (IH b H) as [Q|Q]; [left; right; exact Q|right; exact Q].
Qed.
Lemma C131_double_proof : forall ms md t, turning_wheels (ms ++ [md]) -> 0 <= t ->
  good_as (ms ++ [md]) ((ms ++ [md]) ++ [mkModule (m_translation md) (m_wheelRadius md) (m_wheelMaxAngularVelocity md) t]).
Proof.
  intros ms md t Tw Ht asserts h handle m i g g' GH Hm Hi Pos G G' (sol & Sv). exists (coasting sol).
  set (ne := mkModule _ _ _ _) in *.
  assert (Il : In md (ms ++ [md])) by (apply in_or_app; right; left; reflexivity).
  assert (Tm : turning_wheels [ne]) by (intros x [<-|[]]; destruct (Tw md Il) as (? & ? & ?); cbn; repeat split; assumption).
  apply (C131_keeps_proof asserts h handle m i (ms ++ [md]) ne g g' GH G G' Tw Tm Pos); [| |exact Sv].
  - intros dt (P & H). split; [exact P|]. cbn [d_modules] in *. intros c a b Hc Hab.
    assert (Hc' : exists c', In c' (ms ++ [md]) /\ m_wheelRadius c' = m_wheelRadius c /\ m_wheelMaxAngularVelocity c' = m_wheelMaxAngularVelocity c).
    { apply in_app_or in Hc. destruct Hc as [Hc|[<-|[]]]; [exists c; auto|exists md; auto]. }
    destruct Hc' as (c' & Ic & E1 & E2). rewrite <- E1, <- E2. apply consecutive_last in Hab. destruct Hab as [Hab|Hab].
    + exact (H c' a b Ic Hab).
    + injection Hab as -> ->. cbn [ne m_translation]. split; intros N; contradiction N; reflexivity.
  - intros s Wh. exact (Wh md Il).
Qed.

(** Cases: the cart with its second module doubled, and with one in the centre. *)
Lemma cart_turning : turning_wheels (d_modules cart).
Proof. intros md [<-|[<-|[]]]; cbn; lra. Qed.
Lemma cart_apart : some_apart (d_modules cart).
Proof.
  exists (wheel 1 1), (wheel (-1) (-1)). split; [left; reflexivity|]. cbn. intros E. injection E as E _. lra.
Qed.
Lemma cart_fast : as_fast (d_modules cart) 4.
Proof. intros md [<-|[<-|[]]]; unfold wheel_limit; cbn; lra. Qed.
Lemma wheel_turning : forall x y, turning_wheels [wheel x y].
Proof. intros x y md [<-|[]]; cbn; lra. Qed.
Lemma centre_amid : amid (d_modules cart) (wheel 0 0).
Proof. exists (wheel 1 1), (wheel (-1) (-1)), (1/2). split; [left; reflexivity|]. split; [right; left; reflexivity|]. cbn. lra. Qed.
Lemma centre_lost : ~ steps_kept (d_modules cart) (d_modules cart ++ [wheel 0 0]).
Proof.
  intros K. destruct (K (1/2)) as (_ & H).
  - split; [lra|]. intros c a b Hc [E|[]]. injection E as <- <-. assert (m_wheelRadius c = 1 /\ m_wheelMaxAngularVelocity c = 4) as [-> ->]
      by (destruct Hc as [<-|[<-|[]]]; split; reflexivity). cbn. rewrite Rabs_right; lra.
  - destruct (H (wheel 0 0) (wheel (-1) (-1)) (wheel 0 0)) as [X _]; [right; right; left; reflexivity|right; left; reflexivity|].
    cbn in X. specialize (X ltac:(lra)). unfold Rabs in X. destruct (Rcase_abs _); lra.
Qed.
(** A third module on another corner of the square. *)
Lemma corner_steps : steps_kept (d_modules cart) (d_modules cart ++ [wheel 1 (-1)]).
Proof.
  intros dt (P & H). split; [exact P|]. cbn [d_modules] in *. destruct (H (wheel 1 1) (wheel 1 1) (wheel (-1) (-1))) as [X _]; [left; reflexivity|left; reflexivity|].
  cbn in X. specialize (X ltac:(lra)). intros c a b Hc Hab.
  assert (m_wheelRadius c = 1 /\ m_wheelMaxAngularVelocity c = 4) as [-> ->] by (destruct Hc as [<-|[<-|[<-|[]]]]; split; reflexivity).
  assert (D : Rabs (-1 - 1) = Rabs (1 - -1)) by (rewrite <- Rabs_Ropp; f_equal; ring).
  destruct Hab as [E|[E|[]]]; injection E as <- <-; cbn; rewrite ?D; split; intros N; (exact X || (contradiction N; reflexivity)).
Qed.
Lemma corner_faster : ~ follows (d_modules cart) (wheel 1 (-1)).
Proof.
  intros F. specialize (F (mkState 0 0 1 0 2 2 2 0 0 0)).
  assert (X : norm2 (wheel_velocity (mkState 0 0 1 0 2 2 2 0 0 0) (m_translation (wheel 1 (-1)))) <= wheel_limit (wheel 1 (-1))).
  { apply F. intros c [<-|[<-|[]]]; unfold wheel_velocity; cbn; apply norm2_le; lra. }
  revert X. unfold wheel_velocity, wheel_limit. cbn [q_c q_s q_vx q_vy q_w m_translation wheel tX tY m_wheelRadius m_wheelMaxAngularVelocity].
  apply Rlt_not_le. apply norm2_gt; lra.
Qed.
