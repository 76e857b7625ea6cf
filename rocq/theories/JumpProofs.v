(** Robots that lose a path when they get lighter (C125). *)
From Coq Require Import List Lia Lra Psatz Reals ZArith Permutation Classical.
Import ListNotations.
From Verif Require Import Outcome Num NumR Geometry Expr Constraints Util Builder Guess Generator Trajectory
  Spec SpecBuilder SpecPhysics SpecTrajectory SpecGenerator SpecLoad SpecBalance
  BuilderFacts BuilderHistory GeneratorFacts HistoryFacts GeneratorProofs SolutionProofs TrajectoryProofs
  GeneratorCases LimitProofs OrderProofs HardwareProofs LegProofs ConstraintFacts LoadProofs BalanceProofs.
Open Scope R_scope.

Lemma combine_rows : forall l : list (R * R), combine (map fst l) (map snd l) = l.
Proof. induction l as [|[x y] l IH]; [reflexivity|]. cbn [map combine fst snd]. rewrite IH. reflexivity. Qed.

(** Steps may take up to [T] and no longer. *)
Definition longest_step (ms : list (swerve_module R)) (T : R) : Prop :=
  0 < T /\ forall m i dt, step_within (mkDrivetrain m i ms) dt <-> 0 <= dt <= T.
(** All modules are at the same place, where steps may take any time. *)
Definition one_place (ms : list (swerve_module R)) (T : R) : Prop :=
  0 < T /\ (exists p, forall md, In md ms -> m_translation md = p) /\ forall m i dt, step_within (mkDrivetrain m i ms) dt <-> 0 <= dt.

Section Jump.
  Variables (d : drivetrain R) (x y th T : R).
  Hypothesis W : real_wheels d.
  Hypothesis T0 : 0 < T.
  Hypothesis ST : step_within d T.
  Let ms := d_modules d.
  Lemma jump_good : forall asserts, good_history asserts (jump d x y th).
  Proof.
    intros asserts. split; [repeat constructor|]. split; [repeat constructor; simpl; exact I|].
    destruct asserts; repeat split; reflexivity.
  Qed.
  Lemma jump_counts : forall asserts, counts asserts (jump d x y th) = [1%nat].
  Proof. destruct asserts; reflexivity. Qed.
  Lemma jump_generator : forall asserts handle, exists g, generator asserts (jump d x y th) handle d g.
  Proof. intros asserts handle. apply generator_exists; [|reflexivity]. destruct asserts; apply Nat.ltb_lt; reflexivity. Qed.
  Lemma jump_lighter : forall asserts handle d', exists g', generator asserts (jump d x y th ++ [OSetDrivetrain d']) handle d' g'.
  Proof.
    intros asserts handle d'. apply generator_exists; [|reflexivity].
    rewrite last_counts, jump_counts. destruct asserts; apply Nat.ltb_lt; reflexivity.
  Qed.
  (** The plan: [gs] pushes during the interval. *)
  Variable gs : list (R * R).
  Definition jump_plan : solution R :=
    mkSolution [T] [0; x] [0; y] [cos (- th); 1] [sin (- th); 0] [0; x / T] [0; y / T] [0; th / T]
      [0; x / T / T] [0; y / T / T] [0; th / T / T] [map (fun _ => 0) ms; map fst gs] [map (fun _ => 0) ms; map snd gs].
  Let s1 := mkState x y 1 0 (x / T) (y / T) (th / T) (x / T / T) (y / T / T) (th / T / T).
  Lemma jump_solved : forall asserts handle g, generator asserts (jump d x y th) handle d g ->
    length gs = length ms -> forces_within d gs -> newton d s1 gs ->
    (forall md, In md ms -> norm2 (x / T, y / T) + arm md * Rabs (th / T) <= wheel_limit md) -> solved g jump_plan.
  Proof.
    intros asserts handle g G Lg Fg Nw Wl.
    apply (solved_intro asserts (jump d x y th) handle d g jump_plan (jump_good asserts) G W); rewrite jump_counts.
    - intros n [<-|[]]. lia.
    - unfold well_shaped, jump_plan. cbv zeta. change (last_sample [1%nat]) with 1%nat.
      cbn [s_dt s_x s_y s_thetacos s_thetasin s_vx s_vy s_omega s_ax s_ay s_alpha s_moduleFX s_moduleFY length].
      repeat (split; [reflexivity|]). split; repeat constructor; rewrite map_length; (reflexivity || exact Lg).
    - intros s k Hs Hk. simpl in Hs. assert (s = 0)%nat as -> by lia. simpl in Hk. assert (k = 0)%nat as -> by lia. reflexivity.
    - split.
      + intros i Hi. simpl in Hi. assert (i = 1)%nat as -> by lia.
        unfold at_sample, step_to, jump_plan. cbn [nth Nat.sub s_dt s_x s_y s_thetacos s_thetasin s_vx s_vy s_omega s_ax s_ay s_alpha].
        split; [exact ST|]. split; [|split].
        * unfold moves. cbn [q_x q_y q_vx q_vy]. split; field; lra.
        * left. cbn [q_c q_s q_w]. replace (th / T * T) with th by (field; lra). rewrite cos_neg, sin_neg. split; ring.
        * unfold accelerates. cbn [q_vx q_vy q_w q_ax q_ay q_al]. repeat split; field; lra.
      + intros i Hi. simpl in Hi. assert (i = 0 \/ i = 1)%nat as [-> | ->] by lia;
          unfold at_sample, forces, jump_plan; cbn [nth s_x s_y s_thetacos s_thetasin s_vx s_vy s_omega s_ax s_ay s_alpha s_moduleFX s_moduleFY].
        * assert (E : combine (map (fun _ => 0) ms) (map (fun _ => 0) ms) = map (fun _ : swerve_module R => (0, 0)) ms).
          { clear. generalize ms. intros l0. induction l0 as [|m l IH]; [reflexivity|]. cbn [map combine]. rewrite IH. reflexivity. }
          rewrite E. split; [|split].
          -- unfold newton. fold ms. rewrite combine_map, !map_map. cbn [fst snd q_ax q_ay q_al]. rewrite sum_all.
             split; [ring|]. split; [ring|]. transitivity (sum (map (fun _ : swerve_module R => 0) ms)).
             ++ apply sum_ext. intros. unfold cross2. cbn [fst snd]. ring.
             ++ rewrite sum_all. ring.
          -- intros md Hm. unfold wheel_velocity. cbn [q_c q_s q_vx q_vy q_w]. destruct (W md Hm) as (R1 & R2 & _).
             apply norm2_le; [apply Rmult_le_pos; lra|]. pose proof (Rmult_le_pos _ _ (Rlt_le _ _ R1) R2) as P.
             pose proof (Rmult_le_pos _ _ P P). lra.
          -- unfold forces_within. fold ms. rewrite combine_map. intros md f Hf. apply in_map_iff in Hf. destruct Hf as (m & E' & Hm).
             injection E' as <- <-. fold (force_limit m). pose proof (limit_pos d m W Hm). apply norm2_le; nra.
        * fold s1. rewrite combine_rows. split; [exact Nw|]. split; [|exact Fg].
          intros md Hm. eapply Rle_trans; [|exact (Wl md Hm)]. unfold wheel_velocity, s1. cbn [q_c q_s q_vx q_vy q_w].
          set (w := th / T). set (vx := x / T). set (vy := y / T).
          replace (vx * 1 + vy * 0 - tY (m_translation md) * w) with (vx + w * (- tY (m_translation md))) by ring.
          replace (vy * 1 - vx * 0 + tX (m_translation md) * w) with (vy + w * tX (m_translation md)) by ring.
          eapply Rle_trans; [apply norm2_triangle|]. rewrite norm2_scale.
          replace (norm2 (- tY (m_translation md), tX (m_translation md))) with (arm md); [lra|].
          unfold arm, pt, norm2. cbn [fst snd]. f_equal. ring.
    - split.
      + intros w c Hw Hc. simpl in Hw. assert (w = 0 \/ w = 1)%nat as [-> | ->] by lia; cbn -[PI cos sin] in Hc.
        * destruct Hc as [<-|[<-|[<-|[]]]]; cbn -[cos sin].
          -- split; [reflexivity|]. split; [reflexivity|]. left. split; reflexivity.
          -- apply norm2_le; [apply Rabs_pos|]. rewrite Rabs_R0. lra.
          -- rewrite Rabs_R0. lra.
        * destruct Hc as [<-|[]]. cbn -[cos sin]. split; [reflexivity|]. split; [reflexivity|]. left. rewrite cos_0, sin_0. split; reflexivity.
      + intros w c i Hw Hc Hi. simpl in Hw. assert (w = 1)%nat as -> by lia. destruct Hc.
  Qed.
End Jump.

Section Light.
  Variables (d d' : drivetrain R) (x y th : R).
  Hypothesis W : real_wheels d'.
  Lemma jump_facts : forall asserts handle g' sol, generator asserts (jump d x y th ++ [OSetDrivetrain d']) handle d' g' -> solved g' sol ->
    exists s dt gs phi, step_within d' dt /\ (q_c s = 1 \/ q_c s = -1) /\ q_s s = 0 /\ length gs = length (d_modules d') /\ forces_within d' gs /\
      sum (map fst gs) * (dt * dt) = d_mass d' * x /\ sum (map snd gs) * (dt * dt) = d_mass d' * y /\
      torque d' s gs * (dt * dt) = d_moi d' * phi /\
      ((cos phi = cos th /\ sin phi = sin th) \/ (cos phi = - cos th /\ sin phi = - sin th)).
  Proof.
    intros asserts handle g' sol G Sv.
    pose proof (last_good asserts (jump d x y th) d' (jump_good d x y th asserts)) as Gd.
    destruct (solved_motion asserts _ handle _ g' sol G Sv) as (M & Nw).
    destruct (solved_requests asserts _ handle _ g' sol Gd G Sv) as (Rq & _).
    destruct (solved_physics asserts _ handle d' g' sol G Sv W) as [_ P].
    rewrite last_counts, jump_counts in M, Nw, Rq, P.
    destruct (M 1%nat ltac:(simpl; lia)) as (T0 & Mv & Tn & Ac). specialize (Nw 1%nat ltac:(simpl; lia)).
    destruct (P 1%nat ltac:(simpl; lia)) as (_ & _ & Fo).
    assert (Rq' : forall w c, (w <= 1)%nat -> In c (wpt_requests [] (jump d x y th) w) -> demands (at_sample sol (waypoint_sample [1%nat] w)) c).
    { intros w c Hw Hc. apply (Rq w c Hw). rewrite last_wpt. exact Hc. }
    pose proof (Rq' 0%nat _ ltac:(lia) (or_introl eq_refl)) as P0. pose proof (Rq' 0%nat _ ltac:(lia) (or_intror (or_introl eq_refl))) as V0.
    pose proof (Rq' 0%nat _ ltac:(lia) (or_intror (or_intror (or_introl eq_refl)))) as W0.
    pose proof (Rq' 1%nat _ ltac:(lia) (or_introl eq_refl)) as P1.
    change (waypoint_sample [1%nat] 0) with 0%nat in *. change (waypoint_sample [1%nat] 1) with 1%nat in *. change (1 - 1)%nat with 0%nat in *.
    pose proof (solved_shape asserts _ handle _ g' sol G Sv) as Sh. rewrite last_counts, jump_counts in Sh.
    pose proof (forces_length [1%nat] _ sol 1 Sh ltac:(simpl; lia)) as Lf.
    set (a := at_sample sol 0) in *. set (b := at_sample sol 1) in *. set (dt := step_to sol 1) in *. set (gs := forces sol 1) in *.
    clearbody a b dt gs. cbn -[PI cos sin] in P0, P1. cbn [demands] in V0, W0.
    destruct P0 as (X0 & Y0 & H0). destruct P1 as (X1 & Y1 & H1).
    rewrite Rabs_R0 in V0. apply norm2_zero in V0. destruct V0 as [Vx Vy].
    assert (Wz : q_w a = 0) by (pose proof (Rle_abs (q_w a)); pose proof (Rle_abs (- q_w a)) as Z; rewrite Rabs_Ropp in Z; lra).
    destruct Mv as (Mx & My). destruct Ac as (Ax & Ay & Aw). destruct Nw as (N1 & N2 & N3).
    exists b, dt, gs, (q_w b * dt).
    split; [exact T0|]. rewrite cos_0, sin_0 in H1.
    split; [destruct H1 as [[E _]|[E _]]; [left; exact E|right; lra]|]. split; [destruct H1 as [[_ E]|[_ E]]; lra|].
    split; [exact Lf|]. split; [exact Fo|]. split; [|split; [|split]].
    - rewrite N1. transitivity (d_mass d' * (q_ax b * dt * dt)); [ring|]. f_equal. replace (q_ax b * dt) with (q_vx b) by lra. lra.
    - rewrite N2. transitivity (d_mass d' * (q_ay b * dt * dt)); [ring|]. f_equal. replace (q_ay b * dt) with (q_vy b) by lra. lra.
    - unfold torque. rewrite N3. transitivity (d_moi d' * (q_al b * dt * dt)); [ring|]. f_equal. replace (q_al b * dt) with (q_w b) by lra. reflexivity.
    - unfold turns_up_to_half in Tn. cbv zeta in Tn. rewrite cos_neg, sin_neg in H0.
      destruct H0 as [[E1 E2]|[E1 E2]], H1 as [[F1 F2]|[F1 F2]]; rewrite E1, E2, F1, F2 in Tn; destruct Tn as [[Tc Ts]|[Tc Ts]];
        first [left; split; lra|right; split; lra].
  Qed.
End Light.

Lemma big_enough : forall (C : swerve_module R -> R) c0 ms, turning_wheels ms ->
  exists M, 0 < M /\ c0 < M /\ forall md, In md ms -> C md <= M * wheel_limit md.
Proof.
  intros C c0. induction ms as [|a l IH]; intros Tw.
  - exists (Rabs c0 + 1). pose proof (Rabs_pos c0). pose proof (Rle_abs c0). split; [lra|]. split; [lra|]. intros md [].
  - destruct IH as (M & M0 & Mc & H); [intros md Hm; apply Tw; right; exact Hm|].
    assert (P : forall md, In md (a :: l) -> 0 < wheel_limit md) by (intros md Hm; destruct (Tw md Hm) as (? & ? & _); apply Rmult_lt_0_compat; assumption).
    pose proof (P a (or_introl eq_refl)) as Pa.
    assert (Q : 0 <= Rabs (C a) / wheel_limit a) by (apply Rmult_le_pos; [apply Rabs_pos|left; apply Rinv_0_lt_compat, Pa]).
    exists (M + Rabs (C a) / wheel_limit a). split; [lra|]. split; [lra|]. intros md [<-|Hm].
    + rewrite Rmult_plus_distr_r. replace (Rabs (C a) / wheel_limit a * wheel_limit a) with (Rabs (C a)) by (field; lra).
      pose proof (Rle_abs (C a)). pose proof (Rmult_lt_0_compat _ _ M0 Pa). lra.
    + specialize (H md Hm). pose proof (P md (or_intror Hm)). pose proof (Rmult_le_pos _ _ Q (Rlt_le _ _ H0)). lra.
Qed.
Lemma turning_real : forall m i ms, turning_wheels ms -> real_wheels (mkDrivetrain m i ms).
Proof. intros m i ms Tw md Hm. destruct (Tw md Hm) as (? & ? & ?). repeat split; lra. Qed.

Section Lose.
  Variables (ms : list (swerve_module R)) (T : R).
  Hypothesis Tw : turning_wheels ms.
  Hypothesis LT : longest_step ms T \/ one_place ms T.
  Let LL := sum (map force_limit ms).
  Definition loses (k j : R) : Prop := exists m x y th, 0 < m /\
    (forall asserts handle g, generator asserts (jump (mkDrivetrain m m ms) x y th) handle (mkDrivetrain m m ms) g -> exists sol, solved g sol) /\
    (forall asserts handle g sol, generator asserts (jump (mkDrivetrain m m ms) x y th ++ [OSetDrivetrain (mkDrivetrain (k * m) (j * m) ms)]) handle
       (mkDrivetrain (k * m) (j * m) ms) g -> ~ solved g sol).
  Lemma limits_pos : forall a, In a ms -> 0 <= force_limit a.
  Proof. intros a Ha. apply (limit_pos (mkDrivetrain 1 1 ms)); [apply turning_real; exact Tw|exact Ha]. Qed.
  Lemma T_pos : 0 < T.
  Proof. destruct LT as [(H & _)|(H & _)]; exact H. Qed.
  Lemma T_within : forall m i, step_within (mkDrivetrain m i ms) T.
  Proof. pose proof T_pos. intros m i. destruct LT as [(_ & H')|(_ & _ & H')]; apply H'; lra. Qed.
  Lemma last_step : forall dt a b, 0 < a -> 0 <= dt <= T -> b <= a -> a * (T * T) = b * (dt * dt) -> dt = T /\ b = a.
  Proof.
    intros dt a b Ha Hd Hb E. pose proof T_pos as T0. assert (dt = T) as ->; [|split; [reflexivity|apply (Rmult_eq_reg_r (T * T)); [symmetry; exact E|apply Rmult_integral_contrapositive_currified; lra]]].
    assert (S : T * T <= dt * dt); [|nra]. assert (0 <= dt * dt) by nra.
    assert (a * (T * T) <= a * (dt * dt)) by (rewrite E; apply Rmult_le_compat_r; assumption).
    apply (Rmult_le_reg_l a); assumption.
  Qed.

  Lemma lose_inertia : ~ pushes_straight (mkDrivetrain 1 1 ms) -> forall j, 0 < j < 1 -> loses 1 j.
  Proof.
    intros NB j Hj. unfold pushes_straight in NB. cbn [d_modules] in NB.
    set (Bx := sum (map (fun md => force_limit md * tX (m_translation md)) ms)) in *.
    set (By := sum (map (fun md => force_limit md * tY (m_translation md)) ms)) in *.
    set (b := norm2 (Bx, By)).
    assert (b0 : 0 < b).
    { destruct (norm2_pos (Bx, By)) as [P|P]; [exact P|]. contradiction NB. apply norm2_zero. lra. }
    assert (Lp : 0 <= LL) by (apply sum_nonneg_all, limits_pos).
    assert (L0 : 0 < LL).
    { destruct Lp as [P|P]; [exact P|]. contradiction NB.
      assert (Z : forall a, In a ms -> force_limit a = 0) by (apply sum_zero_all; [exact limits_pos|symmetry; exact P]).
      split; [unfold Bx|unfold By]; (transitivity (sum (map (fun _ : swerve_module R => 0) ms)); [apply sum_ext; intros a Ha; rewrite (Z a Ha); ring|rewrite sum_all; ring]). }
    assert (bb : Bx * Bx + By * By = b * b) by (unfold b; rewrite norm2_sqr; reflexivity).
    set (ux := - By / b). set (uy := Bx / b).
    assert (U : ux * ux + uy * uy = 1).
    { unfold ux, uy. transitivity ((Bx * Bx + By * By) / (b * b)); [field; lra|]. rewrite bb. field. lra. }
    assert (Ub : uy * Bx - ux * By = b).
    { unfold ux, uy. transitivity ((Bx * Bx + By * By) / b); [field; lra|]. rewrite bb. field. lra. }
    pose proof T_pos as T0. pose proof PI_RGT_0 as Pi.
    destruct (big_enough (fun md => (LL + arm md * b) * T) (2 * b * (T * T) / (j * PI)) ms Tw) as (M & M0 & Mc & Mw).
    set (x := LL * (T * T) / M * ux). set (y := LL * (T * T) / M * uy). set (th := b * (T * T) / M).
    assert (Th : 0 < th < th / j /\ th / j < PI / 2).
    { assert (0 < th) by (unfold th; apply Rmult_lt_0_compat; [apply Rmult_lt_0_compat; nra|apply Rinv_0_lt_compat, M0]).
      assert (jp : 0 < j * PI) by (apply Rmult_lt_0_compat; lra).
      split; [split; [assumption|]|].
      - apply (Rmult_lt_reg_r j); [lra|]. replace (th / j * j) with th by (field; lra). nra.
      - apply (Rmult_lt_reg_r (j * M)); [apply Rmult_lt_0_compat; lra|].
        replace (th / j * (j * M)) with (b * (T * T)) by (unfold th; field; lra).
        apply (Rmult_lt_compat_r (j * PI / 2)) in Mc; [|lra].
        replace (2 * b * (T * T) / (j * PI) * (j * PI / 2)) with (b * (T * T)) in Mc by (field; lra). lra. }
    set (d := mkDrivetrain M M ms).
    assert (C : forall s, sum (map (fun md => cross2 (turned s (m_translation md)) (force_limit md * ux, force_limit md * uy)) ms) =
      q_c s * b + q_s s * (- (uy * By) - ux * Bx)).
    { intros s. transitivity ((q_c s * uy - q_s s * ux) * Bx + (- (q_s s * uy) - q_c s * ux) * By); [|rewrite <- Ub; ring].
      unfold Bx, By. rewrite <- !sum_mul, <- sum_zip. apply sum_ext. intros m _. unfold cross2, turned. cbn [fst snd]. ring. }
    assert (E : forall c, sum (map (fun md => force_limit md * c) ms) = c * LL).
    { intros c. unfold LL. rewrite <- sum_mul. apply sum_ext. intros. ring. }
    exists M, x, y, th. split; [exact M0|]. fold d. split.
    - intros asserts handle g G.
      exists (jump_plan d x y th T (map (fun md => (force_limit md * ux, force_limit md * uy)) ms)).
      apply (jump_solved d x y th T (turning_real M M ms Tw) T0 (T_within M M) _ asserts handle g G).
      + apply map_length.
      + unfold forces_within. cbn [d d_modules]. rewrite combine_map. intros md f Hf. apply in_map_iff in Hf. destruct Hf as (m & E' & Hm). injection E' as <- <-.
        fold (force_limit m). pose proof (limits_pos m Hm). rewrite norm2_scale, Rabs_pos_eq by assumption.
        unfold norm2. cbn [fst snd]. rewrite U, sqrt_1. lra.
      + unfold newton. cbn [d d_modules d_mass d_moi q_ax q_ay q_al]. rewrite combine_map, !map_map. cbn [fst snd]. rewrite !E, C. cbn [q_c q_s].
        unfold x, y, th. repeat split; field; lra.
      + intros md Hm. specialize (Mw md Hm). cbv beta in Mw. unfold x, y, th.
        replace (LL * (T * T) / M * ux / T) with (LL * T / M * ux) by (field; lra). replace (LL * (T * T) / M * uy / T) with (LL * T / M * uy) by (field; lra).
        replace (b * (T * T) / M / T) with (b * T / M) by (field; lra). rewrite norm2_scale.
        assert (P1 : 0 <= LL * T / M) by (apply Rmult_le_pos; [nra|left; apply Rinv_0_lt_compat, M0]).
        assert (P2 : 0 <= b * T / M) by (apply Rmult_le_pos; [nra|left; apply Rinv_0_lt_compat, M0]).
        rewrite !Rabs_pos_eq by assumption. unfold norm2. cbn [fst snd]. rewrite U, sqrt_1.
        apply (Rmult_le_reg_l M); [exact M0|]. eapply Rle_trans; [|exact Mw]. right. field. lra.
    - intros asserts handle g sol G Sv.
      destruct (jump_facts d (mkDrivetrain (1 * M) (j * M) ms) x y th (turning_real _ _ ms Tw) asserts handle g sol G Sv)
        as (s & dt & gs & phi & Hd & Hc & Hs & Lg & Fg & Fx & Fy & Ft & Hp).
      cbn [d d_mass d_moi d_modules] in Fx, Fy, Ft, Lg. rewrite Rmult_1_l in Fx, Fy.
      replace (M * x) with (LL * (T * T) * ux) in Fx by (unfold x; field; lra). replace (M * y) with (LL * (T * T) * uy) in Fy by (unfold y; field; lra).
      assert (Ft' : torque d s gs * (dt * dt) = q_c s * b * (T * T)).
      { destruct LT as [(_ & L)|(_ & (p & Hpl) & _)].
        - apply L in Hd. pose proof (force_total d gs Lg Fg) as Tot. cbn [d d_modules] in Tot. fold LL in Tot.
          set (X := sum (map fst gs)) in *. set (Y := sum (map snd gs)) in *.
          assert (N : LL * (T * T) = norm2 (X, Y) * (dt * dt)).
          { assert (Z : norm2 ((dt * dt) * X, (dt * dt) * Y) = norm2 (LL * (T * T) * ux, LL * (T * T) * uy)) by (f_equal; f_equal; lra).
            rewrite !norm2_scale, !Rabs_pos_eq in Z by nra. unfold norm2 in Z at 2. cbn [fst snd] in Z. rewrite U, sqrt_1 in Z. lra. }
          destruct (last_step dt LL (norm2 (X, Y)) L0 Hd Tot N) as [-> _].
          assert (TT : T * T <> 0) by nra.
          assert (GX : X = ux * LL) by (apply (Rmult_eq_reg_r (T * T)); [lra|exact TT]).
          assert (GY : Y = uy * LL) by (apply (Rmult_eq_reg_r (T * T)); [lra|exact TT]).
          rewrite (tight_force d s ux uy U gs Lg Fg GX GY). cbn [d d_modules]. rewrite C, Hs. ring.
        - assert (Tq : torque d s gs = cross2 (turned s p) (sum (map fst gs), sum (map snd gs))).
          { unfold torque. cbn [d d_modules].
            transitivity (fst (turned s p) * sum (map snd gs) + - snd (turned s p) * sum (map fst gs)); [|unfold cross2; cbn [fst snd]; ring].
            rewrite <- (combine_snd fst ms gs), <- (combine_snd snd ms gs) by (symmetry; exact Lg).
            rewrite <- !sum_mul, <- sum_zip. apply sum_ext. intros [m f] Hin. cbn [fst snd]. rewrite (Hpl m (in_combine_l _ _ _ _ Hin)).
            unfold cross2. ring. }
          assert (EB : Bx = tX p * LL /\ By = tY p * LL).
          { unfold Bx, By, LL. rewrite <- !sum_mul. split; apply sum_ext; intros a Ha; rewrite (Hpl a Ha); ring. }
          destruct EB as [EB1 EB2]. rewrite Tq. unfold cross2, turned. cbn [fst snd]. rewrite Hs.
          transitivity (tX p * q_c s * (sum (map snd gs) * (dt * dt)) - tY p * q_c s * (sum (map fst gs) * (dt * dt))); [ring|].
          rewrite Fx, Fy, <- Ub, EB1, EB2. ring. }
      change (torque d s gs * (dt * dt) = j * M * phi) in Ft. rewrite Ft' in Ft.
      assert (Ep : phi = q_c s * (th / j)).
      { apply (Rmult_eq_reg_l (j * M)); [rewrite <- Ft; unfold th; field; lra|]. apply Rmult_integral_contrapositive_currified; lra. }
      assert (Cp : cos phi = cos (th / j)) by (rewrite Ep; destruct Hc as [-> | ->]; [f_equal; ring|rewrite <- (cos_neg (th / j)); f_equal; ring]).
      pose proof (cos_decreasing_1 th (th / j) ltac:(lra) ltac:(lra) ltac:(lra) ltac:(lra) ltac:(lra)) as Dc.
      pose proof (cos_gt_0 (th / j) ltac:(lra) ltac:(lra)). destruct Hp as [[P _]|[P _]]; rewrite Cp in P; lra.
  Qed.

  Lemma lose_mass : longest_step ms T -> ~ turns_in_place (mkDrivetrain 1 1 ms) -> forall k, 0 < k < 1 -> loses k 1.
  Proof.
    intros (_ & L) NB k Hk. unfold turns_in_place in NB. cbn [d_modules] in NB.
    set (ux := fun md => tX (m_translation md) / arm md). set (uy := fun md => tY (m_translation md) / arm md).
    change (~ norm2 (sum (map (fun md => force_limit md * ux md) ms), sum (map (fun md => force_limit md * uy md) ms)) <= sum (map hub_limit ms)) in NB.
    set (Ux := sum (map (fun md => force_limit md * ux md) ms)) in *. set (Uy := sum (map (fun md => force_limit md * uy md) ms)) in *.
    set (H := sum (map hub_limit ms)) in *. set (n := norm2 (Ux, Uy)) in *. apply Rnot_le_lt in NB.
    assert (H0 : 0 <= H) by (apply (H_pos (mkDrivetrain 1 1 ms)), turning_real, Tw).
    assert (nn : Ux * Ux + Uy * Uy = n * n) by (unfold n; rewrite norm2_sqr; reflexivity).
    set (M1 := sum (map (fun md => arm md * force_limit md) ms)).
    assert (M1p : 0 <= M1) by (apply sum_nonneg_all; intros; apply Rmult_le_pos; [apply norm2_pos|apply limits_pos; assumption]).
    assert (M1s : 0 < M1).
    { destruct M1p as [P|P]; [exact P|]. exfalso.
      assert (Z : forall a, In a ms -> arm a * force_limit a = 0).
      { apply sum_zero_all; [intros; apply Rmult_le_pos; [apply norm2_pos|apply limits_pos; assumption]|symmetry; exact P]. }
      assert (Z' : forall a, In a ms -> force_limit a * ux a = 0 /\ force_limit a * uy a = 0).
      { intros a Ha. destruct (Rmult_integral _ _ (Z a Ha)) as [A|A].
        - destruct (arm_zero a A) as [X0 Y0]. unfold ux, uy. rewrite X0, Y0. unfold Rdiv. split; ring.
        - rewrite A. split; ring. }
      assert (Ux = 0) by (unfold Ux; transitivity (sum (map (fun _ : swerve_module R => 0) ms)); [apply sum_ext; intros a Ha; apply (Z' a Ha)|rewrite sum_all; ring]).
      assert (Uy = 0) by (unfold Uy; transitivity (sum (map (fun _ : swerve_module R => 0) ms)); [apply sum_ext; intros a Ha; apply (Z' a Ha)|rewrite sum_all; ring]).
      nra. }
    set (rho := 1 - H / n).
    assert (Rn : rho * n = n - H) by (unfold rho; field; lra). assert (R0 : 0 < rho) by nra.
    pose proof T_pos as T0. pose proof PI_RGT_0 as Pi.
    destruct (big_enough (fun md => (n * rho + arm md * M1) * T) (2 * M1 * (T * T) / PI) ms Tw) as (M & M0 & Mc & Mw).
    set (x := rho * (T * T) / M * - Uy). set (y := rho * (T * T) / M * Ux). set (th := M1 * (T * T) / M).
    assert (Th : 0 < th < PI / 2).
    { split; [unfold th; apply Rmult_lt_0_compat; [apply Rmult_lt_0_compat; nra|apply Rinv_0_lt_compat, M0]|].
      apply (Rmult_lt_reg_r M); [exact M0|]. replace (th * M) with (M1 * (T * T)) by (unfold th; field; lra).
      apply (Rmult_lt_compat_r (PI / 2)) in Mc; [|lra]. replace (2 * M1 * (T * T) / PI * (PI / 2)) with (M1 * (T * T)) in Mc by (field; lra). lra. }
    set (d := mkDrivetrain M M ms).
    set (row := fun md => (force_limit md * - uy md + hub_limit md * (Uy / n), force_limit md * ux md - hub_limit md * (Ux / n))).
    exists M, x, y, th. split; [exact M0|]. fold d. split.
    - intros asserts handle g G. exists (jump_plan d x y th T (map row ms)).
      apply (jump_solved d x y th T (turning_real M M ms Tw) T0 (T_within M M) _ asserts handle g G).
      + apply map_length.
      + unfold forces_within. cbn [d d_modules]. rewrite combine_map. intros md f Hf. apply in_map_iff in Hf. destruct Hf as (m & E' & Hm). injection E' as <- <-.
        fold (force_limit m). pose proof (limits_pos m Hm) as Lm. unfold row, hub_limit. destruct (Req_EM_T (arm m) 0) as [A|A].
        * destruct (arm_zero m A) as [X0 Y0]. unfold ux, uy. rewrite X0, Y0.
          replace (force_limit m * - (0 / arm m) + force_limit m * (Uy / n)) with (force_limit m * (Uy / n)) by (unfold Rdiv; ring).
          replace (force_limit m * (0 / arm m) - force_limit m * (Ux / n)) with (force_limit m * (- Ux / n)) by (unfold Rdiv; ring).
          rewrite norm2_scale, Rabs_pos_eq by exact Lm. rewrite <- (Rmult_1_r (force_limit m)) at 2. apply Rmult_le_compat_l; [exact Lm|].
          apply norm2_le; [lra|]. right. transitivity ((Ux * Ux + Uy * Uy) / (n * n)); [field; lra|]. rewrite nn. field. lra.
        * replace (force_limit m * - uy m + 0 * (Uy / n)) with (force_limit m * - uy m) by ring.
          replace (force_limit m * ux m - 0 * (Ux / n)) with (force_limit m * ux m) by ring.
          rewrite norm2_scale, Rabs_pos_eq by exact Lm. rewrite <- (Rmult_1_r (force_limit m)) at 2. apply Rmult_le_compat_l; [exact Lm|].
          apply norm2_le; [lra|]. right. unfold ux, uy.
          transitivity ((tX (m_translation m) * tX (m_translation m) + tY (m_translation m) * tY (m_translation m)) / (arm m * arm m)); [field; exact A|].
          rewrite arm_sqr. field. exact A.
      + unfold newton. cbn [d d_modules d_mass d_moi q_ax q_ay q_al]. rewrite combine_map, !map_map. cbn [fst snd]. split; [|split].
        * transitivity (-1 * sum (map (fun md => force_limit md * uy md) ms) + Uy / n * sum (map hub_limit ms)).
          -- rewrite <- !sum_mul, <- sum_zip. apply sum_ext. intros m _. unfold row. cbn [fst]. ring.
          -- change (-1 * Uy + Uy / n * H = M * (x / T / T)). unfold x, rho. field. lra.
        * transitivity (1 * sum (map (fun md => force_limit md * ux md) ms) + - (Ux / n) * sum (map hub_limit ms)).
          -- rewrite <- !sum_mul, <- sum_zip. apply sum_ext. intros m _. unfold row. cbn [snd]. ring.
          -- change (1 * Ux + - (Ux / n) * H = M * (y / T / T)). unfold y, rho. field. lra.
        * transitivity M1; [|unfold th; field; lra]. unfold M1. apply sum_ext. intros m _. unfold cross2, turned, row, hub_limit. cbn [fst snd q_c q_s].
          destruct (Req_EM_T (arm m) 0) as [A|A].
          -- destruct (arm_zero m A) as [X0 Y0]. rewrite X0, Y0, A. ring.
          -- generalize (Uy / n) (Ux / n). intros c1 c2. unfold ux, uy.
             transitivity (force_limit m * ((tX (m_translation m) * tX (m_translation m) + tY (m_translation m) * tY (m_translation m)) / arm m)); [field; exact A|].
             rewrite arm_sqr. field. exact A.
      + intros md Hm. specialize (Mw md Hm). cbv beta in Mw. unfold x, y, th.
        replace (rho * (T * T) / M * - Uy / T) with (rho * T / M * - Uy) by (field; lra). replace (rho * (T * T) / M * Ux / T) with (rho * T / M * Ux) by (field; lra).
        replace (M1 * (T * T) / M / T) with (M1 * T / M) by (field; lra). rewrite norm2_scale.
        assert (P1 : 0 <= rho * T / M) by (apply Rmult_le_pos; [nra|left; apply Rinv_0_lt_compat, M0]).
        assert (P2 : 0 <= M1 * T / M) by (apply Rmult_le_pos; [nra|left; apply Rinv_0_lt_compat, M0]).
        rewrite !Rabs_pos_eq by assumption.
        replace (norm2 (- Uy, Ux)) with n by (unfold n, norm2; cbn [fst snd]; f_equal; ring).
        apply (Rmult_le_reg_l M); [exact M0|]. eapply Rle_trans; [|exact Mw]. right. field. lra.
    - intros asserts handle g sol G Sv.
      destruct (jump_facts d (mkDrivetrain (k * M) (1 * M) ms) x y th (turning_real _ _ ms Tw) asserts handle g sol G Sv)
        as (s & dt & gs & phi & Hd & Hc & Hs & Lg & Fg & Fx & Fy & Ft & Hp).
      cbn [d d_mass d_moi d_modules] in Fx, Fy, Ft, Lg. rewrite Rmult_1_l in Ft.
      apply L in Hd.
      assert (Q1 : norm2 (q_c s, q_s s) = 1).
      { unfold norm2. cbn [fst snd]. rewrite Hs. replace (q_c s * q_c s + 0 * 0) with 1; [apply sqrt_1|]. destruct Hc as [-> | ->]; ring. }
      pose proof (torque_total d s gs Lg Fg) as Tot. rewrite Q1, Rmult_1_l in Tot. change (Rabs (torque d s gs) <= M1) in Tot.
      change (torque d s gs * (dt * dt) = M * phi) in Ft. set (t := torque d s gs) in *.
      assert (dd : 0 <= dt * dt <= T * T) by (split; nra).
      assert (Ep : phi = t * (dt * dt) / M) by (rewrite Ft; field; lra).
      assert (Ap : Rabs phi <= th).
      { rewrite Ep. unfold th, Rdiv. rewrite (Rabs_mult _ (/ M)), (Rabs_mult t), (Rabs_pos_eq (/ M)), (Rabs_pos_eq (dt * dt)) by (try lra; left; apply Rinv_0_lt_compat, M0).
        apply Rmult_le_compat_r; [left; apply Rinv_0_lt_compat, M0|]. pose proof (Rabs_pos t).
        apply Rmult_le_compat; lra. }
      pose proof (Rle_abs phi) as Ap1. pose proof (Rle_abs (- phi)) as Ap2. rewrite Rabs_Ropp in Ap2.
      pose proof (cos_gt_0 phi ltac:(lra) ltac:(lra)) as Cp. pose proof (cos_gt_0 th ltac:(lra) ltac:(lra)) as Ct.
      destruct Hp as [[_ P]|[P _]]; [|lra].
      assert (Eq : phi = th).
      { destruct (Rle_lt_or_eq_dec phi th ltac:(lra)) as [Lt|E]; [|exact E].
        pose proof (sin_increasing_1 phi th ltac:(lra) ltac:(lra) ltac:(lra) ltac:(lra) Lt). lra. }
      rewrite Eq in Ft. replace (M * th) with (M1 * (T * T)) in Ft by (unfold th; field; lra).
      pose proof (Rle_abs t) as At.
      destruct (last_step dt M1 t M1s Hd ltac:(lra) ltac:(lra)) as [-> Et].
      destruct (tight_torque d s ltac:(lra) gs Lg Fg) as (X & Y & Sx & Sy & Hb); [rewrite Q1, Rmult_1_l; exact Et|].
      cbn [d d_modules] in Sx, Sy, Hb. rewrite Q1, Hs in Sx, Sy.
      change (norm2 (X, Y) <= H) in Hb.
      assert (Sx' : sum (map fst gs) = - q_c s * Uy + X).
      { rewrite Sx. f_equal. unfold Uy. rewrite <- sum_mul. apply sum_ext. intros m _. unfold uy, Rdiv. rewrite Rinv_1. ring. }
      assert (Sy' : sum (map snd gs) = q_c s * Ux + Y).
      { rewrite Sy. f_equal. unfold Ux. rewrite <- sum_mul. apply sum_ext. intros m _. unfold ux, Rdiv. rewrite Rinv_1. ring. }
      assert (TT : T * T <> 0) by (apply Rmult_integral_contrapositive_currified; lra).
      assert (Fx' : sum (map fst gs) = k * rho * - Uy).
      { apply (Rmult_eq_reg_r (T * T)); [|exact TT]. rewrite Fx. unfold x. field. lra. }
      assert (Fy' : sum (map snd gs) = k * rho * Ux).
      { apply (Rmult_eq_reg_r (T * T)); [|exact TT]. rewrite Fy. unfold y. field. lra. }
      assert (EX : X = (k * rho - q_c s) * - Uy) by lra. assert (EY : Y = (k * rho - q_c s) * Ux) by lra.
      rewrite EX, EY, norm2_scale in Hb. replace (norm2 (- Uy, Ux)) with n in Hb by (unfold n, norm2; cbn [fst snd]; f_equal; ring).
      assert (kr : 0 < k * rho < rho) by (split; [apply Rmult_lt_0_compat; lra|nra]).
      assert (n0 : 0 < n) by lra.
      destruct Hc as [Ec|Ec]; rewrite Ec in Hb.
      + pose proof (Rle_abs (- (k * rho - 1))) as Q. rewrite Rabs_Ropp in Q. nra.
      + pose proof (Rle_abs (k * rho - -1)) as Q. nra.
  Qed.
End Lose.


(** ** How long steps may take *)
Lemma many_limits : forall l : list (R * R), (forall ce, In ce l -> 0 < fst ce /\ 0 < snd ce) -> l <> [] ->
  exists T, 0 < T /\ forall dt, (forall ce, In ce l -> dt * fst ce <= snd ce) <-> dt <= T.
Proof.
  induction l as [|[c e] l IH]; intros P N; [contradiction|]. destruct (P (c, e) (or_introl eq_refl)) as [C0 E0]. cbn [fst snd] in C0, E0.
  assert (One : forall dt, dt * c <= e <-> dt <= e / c).
  { intros dt. split; intros H.
    - apply (Rmult_le_reg_r c); [exact C0|]. replace (e / c * c) with e by (field; lra). exact H.
    - apply (Rmult_le_compat_r c) in H; [|lra]. replace (e / c * c) with e in H by (field; lra). exact H. }
  assert (Q : 0 < e / c) by (apply Rmult_lt_0_compat; [exact E0|apply Rinv_0_lt_compat, C0]).
  destruct l as [|ce l].
  - exists (e / c). split; [exact Q|]. intros dt. rewrite <- One. split; [intros H; exact (H (c, e) (or_introl eq_refl))|intros H ce [<-|[]]; exact H].
  - destruct IH as (T & T0 & H); [intros x Hx; apply P; right; exact Hx|discriminate|].
    exists (Rmin (e / c) T). split; [apply Rmin_glb_lt; assumption|]. intros dt. split.
    + intros A. apply Rmin_glb; [apply One; exact (A (c, e) (or_introl eq_refl))|apply H; intros x Hx; apply A; right; exact Hx].
    + intros A x [<-|Hx]; cbn [fst snd].
      * apply One. eapply Rle_trans; [exact A|apply Rmin_l].
      * apply (proj2 (H dt)); [eapply Rle_trans; [exact A|apply Rmin_r]|exact Hx].
Qed.
Definition step_limits (ms : list (swerve_module R)) : list (R * R) :=
  flat_map (fun md => flat_map (fun ab =>
    (if Req_EM_T (tX (m_translation (fst ab))) (tX (m_translation (snd ab))) then []
     else [(wheel_limit md, Rabs (tX (m_translation (fst ab)) - tX (m_translation (snd ab))))]) ++
    (if Req_EM_T (tY (m_translation (fst ab))) (tY (m_translation (snd ab))) then []
     else [(wheel_limit md, Rabs (tY (m_translation (fst ab)) - tY (m_translation (snd ab))))])) (consecutive ms)) ms.
Lemma step_limits_spec : forall ms m i dt, step_within (mkDrivetrain m i ms) dt <->
  0 <= dt /\ forall ce, In ce (step_limits ms) -> dt * fst ce <= snd ce.
Proof.
  intros ms m i dt. unfold step_within, step_limits. cbn [d_modules]. split; intros (P & H); (split; [exact P|]).
  - intros ce Hce. apply in_flat_map in Hce. destruct Hce as (md & Hm & Hce). apply in_flat_map in Hce. destruct Hce as ((a, b) & Hab & Hce).
    destruct (H md a b Hm Hab) as [Hx Hy]. cbn [fst snd] in Hce. apply in_app_or in Hce. destruct Hce as [Hce|Hce].
    + destruct (Req_EM_T (tX (m_translation a)) (tX (m_translation b))) as [E|E]; [destruct Hce|]. destruct Hce as [<-|[]]. cbn [fst snd].
      unfold wheel_limit. rewrite <- Rmult_assoc. exact (Hx E).
    + destruct (Req_EM_T (tY (m_translation a)) (tY (m_translation b))) as [E|E]; [destruct Hce|]. destruct Hce as [<-|[]]. cbn [fst snd].
      unfold wheel_limit. rewrite <- Rmult_assoc. exact (Hy E).
  - intros md a b Hm Hab.
    assert (Q : forall e, In (wheel_limit md, e) ((if Req_EM_T (tX (m_translation a)) (tX (m_translation b)) then []
      else [(wheel_limit md, Rabs (tX (m_translation a) - tX (m_translation b)))]) ++
      (if Req_EM_T (tY (m_translation a)) (tY (m_translation b)) then []
      else [(wheel_limit md, Rabs (tY (m_translation a) - tY (m_translation b)))])) ->
      dt * m_wheelRadius md * m_wheelMaxAngularVelocity md <= e).
    { intros e He. rewrite Rmult_assoc. apply (H (wheel_limit md, e)). apply in_flat_map. exists md. split; [exact Hm|].
      apply in_flat_map. exists (a, b). split; [exact Hab|exact He]. }
    split; intros N; apply Q; apply in_or_app.
    + left. destruct (Req_EM_T (tX (m_translation a)) (tX (m_translation b))); [contradiction|left; reflexivity].
    + right. destruct (Req_EM_T (tY (m_translation a)) (tY (m_translation b))); [contradiction|left; reflexivity].
Qed.
Lemma step_limits_pos : forall ms, turning_wheels ms -> forall ce, In ce (step_limits ms) -> 0 < fst ce /\ 0 < snd ce.
Proof.
  intros ms Tw ce Hce. unfold step_limits in Hce. apply in_flat_map in Hce. destruct Hce as (md & Hm & Hce).
  apply in_flat_map in Hce. destruct Hce as ((a, b) & Hab & Hce). cbn [fst snd] in Hce.
  destruct (Tw md Hm) as (R1 & R2 & _). assert (L : 0 < wheel_limit md) by (apply Rmult_lt_0_compat; assumption).
  apply in_app_or in Hce. destruct Hce as [Hce|Hce].
  - destruct (Req_EM_T (tX (m_translation a)) (tX (m_translation b))) as [E|E]; [destruct Hce|]. destruct Hce as [<-|[]]. cbn [fst snd].
    split; [exact L|]. apply Rabs_pos_lt. lra.
  - destruct (Req_EM_T (tY (m_translation a)) (tY (m_translation b))) as [E|E]; [destruct Hce|]. destruct Hce as [<-|[]]. cbn [fst snd].
    split; [exact L|]. apply Rabs_pos_lt. lra.
Qed.
Lemma all_same_place : forall ms : list (swerve_module R), (forall a b, In (a, b) (consecutive ms) -> m_translation a = m_translation b) ->
  exists p, forall md, In md ms -> m_translation md = p.
Proof.
  intros [|a l] H; [exists (mkTr 0 0); intros md []|]. exists (m_translation a). revert a H.
  induction l as [|b l IH]; intros a H md Hm; [destruct Hm as [<-|[]]; reflexivity|].
  destruct Hm as [<-|Hm]; [reflexivity|]. rewrite (H a b) by (left; reflexivity). apply IH; [|exact Hm].
  intros x y Hxy. apply H. right. exact Hxy.
Qed.
Lemma steps_or_place : forall ms, turning_wheels ms -> exists T, longest_step ms T \/ one_place ms T.
Proof.
  intros ms Tw. destruct (step_limits ms) as [|ce l] eqn:E.
  - exists 1. right. split; [lra|]. split.
    + destruct ms as [|m0 ms0] eqn:Em; [exists (mkTr 0 0); intros md []|]. rewrite <- Em in *. apply all_same_place. intros a b Hab.
      destruct (m_translation a) as [ax ay] eqn:Ea, (m_translation b) as [bx by_] eqn:Eb.
      assert (N : forall ce, ~ In ce (step_limits ms)) by (rewrite E; intros ce []).
      assert (Q : ax = bx /\ ay = by_); [|destruct Q as [-> ->]; reflexivity].
      assert (Hm : In m0 ms) by (rewrite Em; left; reflexivity).
      split; apply NNPP; intros Ne.
      * apply (N (wheel_limit m0, Rabs (ax - bx))). apply in_flat_map. exists m0. split; [exact Hm|]. apply in_flat_map. exists (a, b). split; [exact Hab|].
        apply in_or_app. left. cbn [fst snd]. rewrite Ea, Eb. cbn [tX]. destruct (Req_EM_T ax bx); [contradiction|left; reflexivity].
      * apply (N (wheel_limit m0, Rabs (ay - by_))). apply in_flat_map. exists m0. split; [exact Hm|]. apply in_flat_map. exists (a, b). split; [exact Hab|].
        apply in_or_app. right. cbn [fst snd]. rewrite Ea, Eb. cbn [tY]. destruct (Req_EM_T ay by_); [contradiction|left; reflexivity].
    + intros m i dt. rewrite step_limits_spec, E. split; [intros [H _]; exact H|intros H; split; [exact H|intros ce []]].
  - destruct (many_limits (step_limits ms) (step_limits_pos ms Tw)) as (T & T0 & H); [rewrite E; discriminate|].
    exists T. left. split; [exact T0|]. intros m i dt. rewrite step_limits_spec, H. reflexivity.
Qed.
Lemma place_straight : forall ms T, turning_wheels ms -> one_place ms T -> pushes_straight (mkDrivetrain 1 1 ms) -> turns_in_place (mkDrivetrain 1 1 ms).
Proof.
  intros ms T Tw (_ & (p & Hp) & _) (B1 & B2). unfold turns_in_place. cbn [d_modules] in *.
  pose proof (fun a Ha => limit_pos (mkDrivetrain 1 1 ms) a (turning_real 1 1 ms Tw) Ha) as Lp. cbn [d_modules] in Lp.
  assert (E1 : forall md, In md ms -> force_limit md * (tX (m_translation md) / arm md) = force_limit md * tX (m_translation md) * / norm2 (pt p))
    by (intros md Hm; unfold arm; rewrite (Hp md Hm); unfold Rdiv; ring).
  assert (E2 : forall md, In md ms -> force_limit md * (tY (m_translation md) / arm md) = force_limit md * tY (m_translation md) * / norm2 (pt p))
    by (intros md Hm; unfold arm; rewrite (Hp md Hm); unfold Rdiv; ring).
  rewrite (sum_ext _ _ ms E1), (sum_ext _ _ ms E2).
  rewrite (sum_ext (fun md => force_limit md * tX (m_translation md) * / norm2 (pt p)) (fun md => / norm2 (pt p) * (force_limit md * tX (m_translation md))) ms) by (intros; ring).
  rewrite (sum_ext (fun md => force_limit md * tY (m_translation md) * / norm2 (pt p)) (fun md => / norm2 (pt p) * (force_limit md * tY (m_translation md))) ms) by (intros; ring).
  rewrite !sum_mul, B1, B2, !Rmult_0_r. apply Rle_trans with 0; [apply norm2_le; lra|].
  apply (H_pos (mkDrivetrain 1 1 ms)), turning_real, Tw.
Qed.

Lemma C125_exact_proof : forall ms, turning_wheels ms -> (keeps_paths ms <-> balanced (mkDrivetrain 1 1 ms)).
Proof.
  intros ms Tw. destruct (steps_or_place ms Tw) as (T & LT). split.
  - intros K.
    assert (L : forall k j, 0 < k <= 1 -> 0 < j <= 1 -> ~ loses ms k j).
    { intros k j Hk Hj (m & x & y & th & M0 & A & B).
      destruct (jump_generator (mkDrivetrain m m ms) x y th true 7) as (g & G).
      destruct (jump_lighter (mkDrivetrain m m ms) x y th true 7 (mkDrivetrain (k * m) (j * m) ms)) as (g' & G').
      destruct (K true (jump (mkDrivetrain m m ms) x y th) 7%Z m m k j g g' (jump_good _ x y th true) M0 M0 Hk Hj
        ltac:(rewrite jump_counts; intros n [<-|[]]; lia) G G' (A true 7%Z g G)) as (sol & Sv).
      exact (B true 7%Z g' sol G' Sv). }
    assert (B1 : pushes_straight (mkDrivetrain 1 1 ms)).
    { apply NNPP; intros N. apply (L 1 (1 / 2) ltac:(lra) ltac:(lra)). apply (lose_inertia ms T Tw LT N). lra. }
    split; [exact B1|]. destruct LT as [LT|LT]; [|exact (place_straight ms T Tw LT B1)].
    apply NNPP; intros N. apply (L (1 / 2) 1 ltac:(lra) ltac:(lra)). apply (lose_mass ms T Tw (or_introl LT) LT N). lra.
  - intros B asserts h handle m i k j g g' GH Hm Hi Hk Hj Pos G G' (sol & Sv).
    destruct (C125_balanced_proof asserts h handle (mkDrivetrain m i ms) g k j GH G (turning_real m i ms Tw) B ltac:(lra) ltac:(lra) Pos) as (g2 & G2 & S).
    destruct (S sol Sv) as (sol' & Sv' & _). exists sol'.
    unfold relieved in G2. cbn [d_mass d_moi d_modules] in G2. destruct G' as [C1 _], G2 as [C2 _]. rewrite C1 in C2. injection C2 as ->. exact Sv'.
Qed.

(** ** Cases *)
Lemma triangle_turning : turning_wheels triangle.
Proof. intros md [<-|[<-|[<-|[]]]]; cbn; lra. Qed.
Lemma triangle_balanced : forall m i, balanced (mkDrivetrain m i triangle).
Proof.
  intros m i. assert (S3 : sqrt 3 * sqrt 3 = 3) by (apply sqrt_sqrt; lra).
  assert (A : forall x y, x * x + y * y = 4 -> norm2 (x, y) = 2).
  { intros x y E. unfold norm2. cbn [fst snd]. rewrite E. replace 4 with (2 * 2) by ring. apply sqrt_square. lra. }
  assert (A1 : arm (mkModule (mkTr 2 0) 1 4 4) = 2) by (apply A; cbn [m_translation tX tY]; lra).
  assert (A2 : arm (mkModule (mkTr (-1) (sqrt 3)) 1 4 4) = 2) by (apply A; cbn [m_translation tX tY]; lra).
  assert (A3 : arm (mkModule (mkTr (-1) (- sqrt 3)) 1 4 4) = 2) by (apply A; cbn [m_translation tX tY]; lra).
  unfold balanced, pushes_straight, turns_in_place, triangle. cbn [d_modules map sum]. rewrite A1, A2, A3.
  unfold force_limit. cbn [m_translation m_wheelMaxTorque m_wheelRadius tX tY].
  split; [split; field|]. unfold hub_limit. rewrite A1, A2, A3. destruct (Req_EM_T 2 0); [lra|]. cbn [sum].
  apply norm2_le; [lra|]. right. field.
Qed.
Lemma lopsided_turning : turning_wheels lopsided.
Proof. intros md [<-|[<-|[]]]; cbn; lra. Qed.
Lemma lopsided_unbalanced : ~ balanced (mkDrivetrain 1 1 lopsided).
Proof.
  intros ((_ & B) & _). unfold lopsided, force_limit in B. cbn [d_modules map sum m_translation m_wheelMaxTorque m_wheelRadius tY] in B. lra.
Qed.
Lemma paired_balanced : forall d, real_wheels d -> paired d -> balanced d.
Proof.
  intros d W Pd.
  assert (Z : forall f : swerve_module R -> R, (forall m, f (across m) = - f m) -> sum (map f (d_modules d)) = 0).
  { intros f Hf. assert (E : sum (map f (d_modules d)) = -1 * sum (map f (d_modules d))); [|lra].
    rewrite <- (sum_perm _ _ (Permutation_map f Pd)) at 1. rewrite map_map, <- sum_mul. apply sum_ext. intros m _. rewrite Hf. ring. }
  assert (A : forall m, arm (across m) = arm m).
  { intros m. unfold arm, across, pt, norm2. cbn [m_translation tX tY fst snd]. f_equal. ring. }
  split; [split; apply Z; intros m; unfold force_limit, across; cbn [m_translation m_wheelMaxTorque m_wheelRadius tX tY]; ring|].
  unfold turns_in_place.
  rewrite (Z (fun md => force_limit md * (tX (m_translation md) / arm md))), (Z (fun md => force_limit md * (tY (m_translation md) / arm md)))
    by (intros m; rewrite A; unfold force_limit, across, Rdiv; cbn [m_translation m_wheelMaxTorque m_wheelRadius tX tY]; ring).
  apply Rle_trans with 0; [apply norm2_le; lra|]. apply (H_pos d W).
Qed.
