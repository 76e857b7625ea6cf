(** How long a trajectory from rest must take, and one that takes no longer (C116). *)
From Coq Require Import List Lia Lra Psatz Reals ZArith.
Import ListNotations.
From Verif Require Import Outcome Num NumR Geometry Expr Constraints Util Builder Guess Generator Trajectory
  Spec SpecBuilder SpecPhysics SpecTrajectory SpecGenerator SpecStep SpecLegs SpecDrive Semantics
  GeneratorFacts GeneratorProofs SolutionProofs TrajectoryProofs GeneratorCases LimitProofs OrderProofs StepProofs
  DurationProofs LegProofs DriveProofs.
Open Scope R_scope.

Fixpoint tri (n : nat) : R := match n with O => 0 | S k => tri k + INR n end.
Lemma tri_val : forall n, 2 * tri n = INR n * INR (S n).
Proof. induction n as [|n IH]; [simpl; lra|]. cbn [tri]. rewrite !S_INR in *. lra. Qed.
Fixpoint down (n k : nat) : R := match k with O => 0 | S j => down n j + INR (n - k) end.
Lemma down_val : forall n k, (k <= n)%nat -> 2 * down n k = INR k * (2 * INR n - INR k - 1).
Proof.
  intros n. induction k as [|k IH]; intros Hk; [simpl; lra|]. cbn [down]. specialize (IH ltac:(lia)).
  rewrite minus_INR by lia. rewrite !S_INR in *. nra.
Qed.

Lemma thrust_nonneg : forall d, real_wheels d -> 0 <= thrust d.
Proof.
  intros d W. unfold thrust. assert (X : forall l, (forall md, In md l -> 0 <= force_limit md) -> 0 <= sum (map force_limit l)).
  { induction l as [|m l IH]; intros Hl; simpl; [lra|]. pose proof (Hl m (or_introl eq_refl)).
    specialize (IH (fun x Hx => Hl x (or_intror Hx))). lra. }
  apply X. intros md Hm. destruct (W md Hm) as (P1 & _ & P2). unfold force_limit, Rdiv.
  apply Rmult_le_pos; [exact P2|]. left. apply Rinv_0_lt_compat. exact P1.
Qed.

Section Run.
  Variables (asserts : bool) (h : list (op R)) (handle : Z) (d : drivetrain R) (g : gen R) (sol : solution R).
  Hypotheses (G : generator asserts h handle d g) (Sv : solved g sol) (W : real_wheels d) (Pm : 0 < d_mass d).
  Let N := counts asserts h.

  (** Distance against a bound on each sample's speed. *)
  Lemma speeds_add : forall dt i n (u : nat -> R), (i + n <= last_sample N)%nat ->
    (forall k, (k < n)%nat -> step_to sol (S (i + k)) = dt) ->
    (forall k, (1 <= k <= n)%nat ->
       d_mass d * norm2 (q_vx (at_sample sol (i + k)), q_vy (at_sample sol (i + k))) <= u k * dt * thrust d) ->
    forall s : nat -> R, s 0%nat = 0 -> (forall k, (k < n)%nat -> s (S k) = s k + u (S k)) ->
    forall k, (k <= n)%nat ->
      d_mass d * dist2 (position (at_sample sol i)) (position (at_sample sol (i + k))) <= dt * dt * thrust d * s k.
  Proof.
    intros dt i n u Hn U V s S0 SS. induction k as [|k IH]; intros Hk.
    - rewrite Nat.add_0_r, dist2_self, S0. lra.
    - specialize (IH ltac:(lia)). specialize (V (S k) ltac:(lia)). rewrite (SS k) by lia.
      destruct (C16_steps_proof asserts h handle d g sol G Sv (i + S k) ltac:(fold N; lia)) as [[MX MY] _].
      replace (i + S k - 1)%nat with (i + k)%nat in MX, MY by lia.
      assert (Es : step_to sol (i + S k) = dt) by (rewrite Nat.add_succ_r; apply U; lia).
      pose proof (dt_nonneg asserts h handle d g sol G Sv (i + S k) ltac:(fold N; lia)) as Dt. rewrite Es in Dt.
      rewrite Es in MX, MY.
      pose proof (dist2_tri (position (at_sample sol i)) (position (at_sample sol (i + k))) (position (at_sample sol (i + S k)))) as T.
      set (p := at_sample sol (i + k)) in *. set (q := at_sample sol (i + S k)) in *.
      assert (E : dist2 (position p) (position q) = dt * norm2 (q_vx q, q_vy q)).
      { rewrite dist2_norm. unfold position. cbn [fst snd].
        replace (q_x q - q_x p) with (dt * q_vx q) by lra. replace (q_y q - q_y p) with (dt * q_vy q) by lra.
        rewrite norm2_scale, (Rabs_right dt) by lra. reflexivity. }
      rewrite E in T.
      pose proof (Rmult_le_compat_l (d_mass d) _ _ (Rlt_le _ _ Pm) T).
      pose proof (Rmult_le_compat_l _ _ _ Dt V). lra.
  Qed.

  Lemma from_rest : forall w, (w < length N)%nat ->
    let i := waypoint_sample N w in let j := waypoint_sample N (S w) in let n := INR (nth w N 0%nat) in
    at_rest (at_sample sol i) ->
    2 * n * d_mass d * dist2 (position (at_sample sol i)) (position (at_sample sol j))
      <= (n + 1) * thrust d * (elapsed sol i j * elapsed sol i j).
  Proof.
    intros w Hw i j n [X0 Y0]. unfold n, j. rewrite waypoint_S by exact Hw. fold i. set (k := nth w N 0%nat).
    pose proof (waypoint_le N (S w)) as L. rewrite waypoint_S in L by exact Hw. fold i k in L.
    pose proof (uniform asserts h handle d g sol G Sv w) as U. fold N in U. specialize (fun q => U q Hw). fold i k in U.
    set (dt := step_to sol (S i)) in *.
    pose proof (elapsed_uniform sol dt i k U) as E.
    pose proof (speeds_add dt i k INR L U) as B.
    assert (V : forall a, (1 <= a <= k)%nat -> d_mass d * norm2 (q_vx (at_sample sol (i + a)), q_vy (at_sample sol (i + a))) <= INR a * dt * thrust d).
    { intros a Ha. pose proof (velocity_time asserts h handle d g sol G Sv W Pm i (i + a) ltac:(fold N; lia)) as A.
      rewrite X0, Y0, !Rminus_0_r, (E a) in A by lia. exact A. }
    specialize (B V tri eq_refl ltac:(intros; reflexivity) k ltac:(lia)). rewrite (E k) by lia.
    pose proof (tri_val k) as T. rewrite S_INR in T. pose proof (pos_INR k) as P.
    pose proof (Rmult_le_compat_l _ _ _ P B) as Q.
    replace (INR k * (dt * dt * thrust d * tri k)) with (dt * dt * thrust d * INR k * (2 * tri k) / 2) in Q by field.
    rewrite T in Q. lra.
  Qed.

  Lemma to_rest : forall w, (w < length N)%nat ->
    let i := waypoint_sample N w in let j := waypoint_sample N (S w) in let n := INR (nth w N 0%nat) in
    at_rest (at_sample sol j) ->
    2 * n * d_mass d * dist2 (position (at_sample sol i)) (position (at_sample sol j))
      <= (n - 1) * thrust d * (elapsed sol i j * elapsed sol i j).
  Proof.
    intros w Hw i j n. unfold n, j. rewrite waypoint_S by exact Hw. fold i. set (k := nth w N 0%nat). intros [X0 Y0].
    pose proof (waypoint_le N (S w)) as L. rewrite waypoint_S in L by exact Hw. fold i k in L.
    pose proof (uniform asserts h handle d g sol G Sv w) as U. fold N in U. specialize (fun q => U q Hw). fold i k in U.
    set (dt := step_to sol (S i)) in *.
    pose proof (elapsed_uniform sol dt i k U) as E.
    pose proof (speeds_add dt i k (fun a => INR (k - a)) L U) as B.
    assert (V : forall a, (1 <= a <= k)%nat ->
      d_mass d * norm2 (q_vx (at_sample sol (i + a)), q_vy (at_sample sol (i + a))) <= INR (k - a) * dt * thrust d).
    { intros a Ha. pose proof (velocity_time asserts h handle d g sol G Sv W Pm (i + a) (i + k) ltac:(fold N; lia)) as A.
      rewrite X0, Y0, !Rminus_0_l, norm2_neg in A.
      pose proof (elapsed_trans sol i (i + a) (i + k) ltac:(lia)) as T. rewrite (E k), (E a) in T by lia.
      rewrite minus_INR by lia. replace ((INR k - INR a) * dt) with (elapsed sol (i + a) (i + k)) by lra. exact A. }
    specialize (B V (down k) eq_refl ltac:(intros; reflexivity) k ltac:(lia)). rewrite (E k) by lia.
    pose proof (down_val k k ltac:(lia)) as T. pose proof (pos_INR k) as P.
    pose proof (Rmult_le_compat_l _ _ _ P B) as Q.
    replace (INR k * (dt * dt * thrust d * down k k)) with (dt * dt * thrust d * INR k * (2 * down k k) / 2) in Q by field.
    rewrite T in Q. lra.
  Qed.
End Run.

(** ** The dash *)
Section Dash.
  Variables (d : drivetrain R) (n : nat) (D : R).
  Hypothesis (Cd : can_dash d n D).
  Let T := dash_time d n D.
  Let dt := T / INR n.
  Let a := thrust d / d_mass d.

  Lemma dash_T : 0 < T /\ INR (S n) * thrust d * (T * T) = 2 * INR n * d_mass d * D.
  Proof.
    destruct Cd as (W & Ce & Ar & Pm & Pt & Hn & HD & _).
    assert (Pn : 0 < INR n) by (apply lt_0_INR; lia). assert (Ps : 0 < INR (S n)) by (apply lt_0_INR; lia).
    assert (P : 0 < 2 * INR n * d_mass d * D / (INR (S n) * thrust d)).
    { apply Rdiv_lt_0_compat; [|nra]. repeat apply Rmult_lt_0_compat; lra. }
    unfold T, dash_time. split; [apply sqrt_lt_R0, P|]. rewrite sqrt_sqrt by lra. field. split; lra.
  Qed.

  Definition dash_state (k : nat) : state :=
    mkState (a * (dt * dt) * tri k) 0 1 0 (a * INR k * dt) 0 0 (match k with O => 0 | S _ => a end) 0 0.
  Definition span {A} (f : nat -> A) : list A := map f (seq 0 (S n)).
  Definition dash_solution : solution R :=
    mkSolution (repeat dt n)
      (span (fun i => q_x (dash_state i))) (span (fun i => q_y (dash_state i)))
      (span (fun i => q_c (dash_state i))) (span (fun i => q_s (dash_state i)))
      (span (fun i => q_vx (dash_state i))) (span (fun i => q_vy (dash_state i))) (span (fun i => q_w (dash_state i)))
      (span (fun i => q_ax (dash_state i))) (span (fun i => q_ay (dash_state i))) (span (fun i => q_al (dash_state i)))
      (span (fun i => map (fun md => fst (lforce d (dash_state i) md)) (d_modules d)))
      (span (fun i => map (fun md => snd (lforce d (dash_state i) md)) (d_modules d))).

  Lemma nth_span : forall {A} (f : nat -> A) z i, (i <= n)%nat -> nth i (span f) z = f i.
  Proof.
    intros A f z i H. unfold span. rewrite (nth_indep _ z (f 0%nat)) by (rewrite map_length, seq_length; lia).
    rewrite map_nth, seq_nth by lia. reflexivity.
  Qed.
  Lemma dash_sample : forall i, (i <= n)%nat -> at_sample dash_solution i = dash_state i.
  Proof.
    intros i H. unfold at_sample, dash_solution. cbn [s_x s_y s_thetacos s_thetasin s_vx s_vy s_omega s_ax s_ay s_alpha].
    rewrite !nth_span by exact H. destruct (dash_state i). reflexivity.
  Qed.
  Lemma dash_forces : forall i, (i <= n)%nat -> forces dash_solution i = map (lforce d (dash_state i)) (d_modules d).
  Proof.
    intros i H. unfold forces, dash_solution. cbn [s_moduleFX s_moduleFY]. rewrite !nth_span by exact H.
    rewrite combine_split. apply map_ext. intros md. symmetry. apply surjective_pairing.
  Qed.
  Lemma dash_step : forall i, (1 <= i <= n)%nat -> step_to dash_solution i = dt.
  Proof. intros i H. unfold step_to, dash_solution. cbn [s_dt]. apply (repeat_spec n dt), nth_In. rewrite repeat_length. lia. Qed.
  Lemma dash_end : q_x (dash_state n) = D.
  Proof.
    destruct dash_T as [P E]. destruct Cd as (W & Ce & Ar & Pm & Pt & Hn & HD & _).
    assert (Pn : 0 < INR n) by (apply lt_0_INR; lia). cbn [q_x dash_state].
    replace (a * (dt * dt) * tri n) with (thrust d * (T * T) * (2 * tri n) / (2 * d_mass d * (INR n * INR n)))
      by (unfold a, dt; field; split; lra).
    rewrite tri_val. apply (Rmult_eq_reg_l (2 * INR n * d_mass d)); [|apply Rgt_not_eq; apply Rmult_lt_0_compat; lra].
    rewrite <- E. field. split; lra.
  Qed.

  Lemma dash_obeys : obeys_physics turns d [n] dash_solution.
  Proof.
    destruct dash_T as [P E]. destruct Cd as (W & Ce & Ar & Pm & Pt & Hn & HD & Eq & St & Sp).
    assert (Pn : 0 < INR n) by (apply lt_0_INR; lia).
    assert (Pd : 0 < dt) by (apply Rdiv_lt_0_compat; assumption).
    assert (Pa : 0 < a) by (apply Rdiv_lt_0_compat; assumption).
    assert (Ls : last_sample [n] = n) by (unfold last_sample; simpl; lia).
    assert (Pl : 0 < INR (length (d_modules d))) by (apply modules_some; exact Ar).
    split; rewrite Ls; intros i Hi.
    - cbv zeta. rewrite !dash_sample, dash_step by lia. destruct i as [|i]; [lia|]. replace (S i - 1)%nat with i by lia.
      split; [exact St|]. split; [|split].
      + unfold moves. cbn [dash_state q_x q_y q_vx q_vy tri]. split; ring.
      + unfold turns. cbn [dash_state q_c q_s q_w]. rewrite Rmult_0_l, cos_0, sin_0. split; ring.
      + unfold accelerates. cbn [dash_state q_vx q_vy q_w q_ax q_ay q_al]. rewrite S_INR. repeat split; ring.
    - rewrite dash_sample, dash_forces by lia. split; [|split].
      + apply (lforce_newton d Ce Ar). unfold unit_heading. cbn [dash_state q_c q_s]. ring.
      + intros md Hm. unfold wheel_velocity. cbn [dash_state q_c q_s q_vx q_vy q_w].
        replace (_ - _ * 0) with (a * INR i * dt) by ring. 
        match goal with |- norm2 (_, ?y) <= _ => replace y with 0 by ring end.
        assert (V : 0 <= a * INR i * dt <= a * T).
        { pose proof (pos_INR i). assert (INR i <= INR n) by (apply le_INR; exact Hi).
          assert (Dn : INR n * dt = T) by (unfold dt; field; lra).
          split; [apply Rmult_le_pos; [apply Rmult_le_pos|]; lra|]. rewrite Rmult_assoc. apply Rmult_le_compat_l; [lra|].
          rewrite <- Dn. apply Rmult_le_compat_r; lra. }
        apply norm2_le; [|].
        * eapply Rle_trans; [|apply (Sp md Hm)]. fold a T. lra.
        * pose proof (Sp md Hm) as B. fold a T in B. unfold wheel_limit in B.
          assert (a * INR i * dt <= m_wheelRadius md * m_wheelMaxAngularVelocity md) by lra. nra.
      + intros md f Hf.
        assert (Z : forall l, combine l (map (lforce d (dash_state i)) l) = map (fun md => (md, lforce d (dash_state i) md)) l).
        { induction l as [|x l IH]; simpl; [reflexivity|]. rewrite IH. reflexivity. }
        rewrite Z in Hf. apply in_map_iff in Hf. destruct Hf as (md' & Ef & Hm). injection Ef as -> <-.
        unfold lforce. cbn [dash_state q_ax q_ay q_al].
        match goal with |- norm2 (?x, ?y) <= _ => replace y with 0 by (unfold Rdiv; ring);
          replace x with (d_mass d * (match i with O => 0 | S _ => a end) / INR (length (d_modules d))) by (unfold Rdiv; ring) end.
        fold (force_limit md). pose proof (Eq md Hm) as Q.
        assert (F : force_limit md = thrust d / INR (length (d_modules d))) by (rewrite <- Q; field; lra).
        assert (X : 0 <= d_mass d * (match i with O => 0 | S _ => a end) / INR (length (d_modules d)) <= force_limit md).
        { rewrite F. assert (0 < thrust d / INR (length (d_modules d))) by (apply Rdiv_lt_0_compat; lra).
          destruct i as [|i].
          - replace (d_mass d * 0 / _) with 0 by (field; lra). lra.
          - replace (d_mass d * a) with (thrust d) by (unfold a; field; lra). lra. }
        apply norm2_le; [lra|]. nra.
  Qed.

  Lemma dash_counts : forall asserts, counts asserts (dash d n D) = [n].
  Proof. destruct asserts; reflexivity. Qed.
  Lemma dash_generator : forall asserts handle, exists g, generator asserts (dash d n D) handle d g.
  Proof. intros asserts handle. apply generator_exists; [destruct asserts; apply Nat.ltb_lt; reflexivity|reflexivity]. Qed.
  Lemma dash_good : forall asserts, good_history asserts (dash d n D).
  Proof.
    intros asserts. split; [repeat constructor|]. split.
    - repeat constructor; simpl; try exact I; unfold unit_rot; simpl.
    - destruct asserts; repeat split; reflexivity.
  Qed.
  Lemma dash_solved : forall asserts handle g, generator asserts (dash d n D) handle d g -> solved g dash_solution.
  Proof.
    intros asserts handle g G. pose proof Cd as (W & Ce & Ar & Pm & Pt & Hn & HD & Eq & St & Sp).
    apply (C15_accepts_proof asserts _ handle d g (dash_good asserts) G W); rewrite ?dash_counts.
    - intros k [<-|[]]. exact Hn.
    - unfold well_shaped. change (last_sample [n]) with (n + 0)%nat. rewrite Nat.add_0_r. unfold dash_solution, span.
      cbn [s_dt s_x s_y s_thetacos s_thetasin s_vx s_vy s_omega s_ax s_ay s_alpha s_moduleFX s_moduleFY].
      rewrite !map_length, !seq_length, repeat_length. repeat split; apply Forall_forall; intros r Hr; apply in_map_iff in Hr;
        destruct Hr as (k & <- & _); apply map_length.
    - intros s k Hs Hk. cbn [length] in Hs. assert (s = 0)%nat as -> by lia. cbn [nth] in Hk.
      change (waypoint_sample [n] 0) with 0%nat. rewrite !dash_step by lia. reflexivity.
    - intros i Hi. unfold last_sample in Hi. cbn [list_sum fold_right] in Hi. rewrite dash_sample by lia.
      unfold unit_heading. cbn [dash_state q_c q_s]. ring.
    - apply dash_obeys.
    - split.
      + intros w c Hw Hc. cbn [length] in Hw. assert (w = 0 \/ w = 1)%nat as [->| ->] by lia.
        * change (waypoint_sample [n] 0) with 0%nat. rewrite dash_sample by lia.
          simpl in Hc. destruct Hc as [<-|[<-|[]]]; cbn [demands].
          -- simpl. rewrite cos_0, sin_0. repeat split; try ring; try lra.
          -- simpl. rewrite ?Rabs_R0. apply norm2_le; [lra|]. rewrite Rmult_0_r, Rmult_0_l. lra.
        * replace (waypoint_sample [n] 1) with n by (unfold waypoint_sample; simpl; lia). rewrite dash_sample by lia.
          simpl in Hc. destruct Hc as [<-|[]]. pose proof dash_end as En. simpl. simpl in En. rewrite En, cos_0, sin_0. repeat split; try ring; try lra.
      + intros w c i Hw Hc Hi. cbn [length] in Hw. assert (w = 1)%nat as -> by lia. simpl in Hc. destruct Hc.
  Qed.
  Lemma dash_total : sum (s_dt dash_solution) = T.
  Proof.
    destruct Cd as (_ & _ & _ & _ & _ & Hn & _). assert (Pn : 0 < INR n) by (apply lt_0_INR; lia).
    cbn [s_dt dash_solution]. assert (X : forall k, sum (repeat dt k) = INR k * dt).
    { induction k as [|k IH]; [simpl; ring|]. cbn [repeat sum]. rewrite IH, S_INR. ring. }
    rewrite X. unfold dt. field. lra.
  Qed.
End Dash.

Lemma dash_faster : forall d n D, can_dash d n D ->
  dash_time d n D < true_time d D /\ (forall k, (n < k)%nat -> dash_time d n D < dash_time d k D).
Proof.
  intros d n D (W & Ce & Ar & Pm & Pt & Hn & HD & _).
  assert (Q : forall k, (0 < k)%nat -> 0 <= 2 * INR k * d_mass d * D / (INR (S k) * thrust d)).
  { intros k Hk. pose proof (pos_INR k). left. apply Rdiv_lt_0_compat.
    - assert (0 < INR k) by (apply lt_0_INR; lia). repeat apply Rmult_lt_0_compat; lra.
    - apply Rmult_lt_0_compat; [apply lt_0_INR; lia|lra]. }
  assert (F : 0 < 2 * d_mass d * D / thrust d).
  { apply Rdiv_lt_0_compat; [|lra]. repeat apply Rmult_lt_0_compat; lra. }
  assert (E : forall k, 2 * INR k * d_mass d * D / (INR (S k) * thrust d) = 2 * d_mass d * D / thrust d * (1 - / INR (S k))).
  { intros k. assert (INR (S k) <> 0) by (apply not_0_INR; lia). replace (INR k) with (INR (S k) - 1) by (rewrite S_INR; ring).
    field. split; lra. }
  split.
  - unfold dash_time, true_time. apply sqrt_lt_1_alt. split; [apply Q; lia|]. rewrite E.
    assert (0 < / INR (S n)) by (apply Rinv_0_lt_compat, lt_0_INR; lia). nra.
  - intros k Hk. unfold dash_time. apply sqrt_lt_1_alt. split; [apply Q; lia|]. rewrite !E.
    apply Rmult_lt_compat_l; [exact F|].
    assert (/ INR (S k) < / INR (S n)).
    { apply Rinv_lt_contravar; [|apply lt_INR; lia]. apply Rmult_lt_0_compat; apply lt_0_INR; lia. }
    lra.
Qed.

Lemma dash_least : forall asserts handle d n D g sol, real_wheels d -> 0 < d_mass d -> 0 < thrust d -> 0 <= D -> (1 <= n)%nat ->
  generator asserts (dash d n D) handle d g -> solved g sol -> dash_time d n D <= sum (s_dt sol).
Proof.
  intros asserts handle d n D g sol W Pm Pt HD Hn G Sv.
  pose proof (from_rest asserts _ handle d g sol G Sv W Pm 0) as B. rewrite dash_counts in B. specialize (B ltac:(simpl; lia)).
  cbv zeta in B. change (waypoint_sample [n] 0) with 0%nat in B. replace (waypoint_sample [n] 1) with n in B by (unfold waypoint_sample; simpl; lia).
  cbn [nth] in B.
  pose proof (waypoint_position asserts _ handle d g sol 0 0 0 0 (dash_good d n D asserts) G Sv) as P0.
  rewrite dash_counts in P0. specialize (P0 ltac:(left; simpl; tauto) ltac:(simpl; lia)). change (waypoint_sample [n] 0) with 0%nat in P0.
  pose proof (waypoint_position asserts _ handle d g sol 1 D 0 0 (dash_good d n D asserts) G Sv) as P1.
  rewrite dash_counts in P1. specialize (P1 ltac:(left; simpl; tauto) ltac:(simpl; lia)).
  replace (waypoint_sample [n] 1) with n in P1 by (unfold waypoint_sample; simpl; lia).
  rewrite P0, P1 in B.
  assert (Dd : dist2 (0, 0) (D, 0) = D).
  { unfold dist2. cbn [fst snd]. replace ((0 - D) * (0 - D) + (0 - 0) * (0 - 0)) with (D * D) by ring. apply sqrt_square, HD. }
  rewrite Dd in B.
  assert (Rs : at_rest (at_sample sol 0)).
  { destruct Sv as (env & F & E).
    assert (Po : forall k, In k (counts asserts (dash d n D)) -> (1 <= k)%nat) by (rewrite dash_counts; intros k [<-|[]]; exact Hn).
    pose proof (proj1 (C15_proof asserts _ handle d g (dash_good d n D asserts) G W Po env sol E) F) as [_ [M _]].
    specialize (M 0%nat (LinearVelocityMaxMagnitude 0)). rewrite dash_counts in M.
    specialize (M ltac:(simpl; lia) ltac:(simpl; tauto)). change (waypoint_sample [n] 0) with 0%nat in M. simpl in M.
    rewrite Rabs_R0 in M. apply ConstraintFacts.norm2_zero in M. exact M. }
  specialize (B Rs).
  assert (El : elapsed sol 0 n = sum (s_dt sol)).
  { rewrite <- elapsed_all. f_equal. destruct Sv as (env & F & E).
    destruct (C25_proof asserts _ handle d g env G) as (sol' & E' & Sh). rewrite E in E'. injection E' as <-.
    rewrite dash_counts in Sh. destruct Sh as [L _]. rewrite L. unfold last_sample. simpl. lia. }
  rewrite El in B. set (T := sum (s_dt sol)) in *.
  assert (HT : 0 <= T).
  { rewrite <- El. apply (elapsed_pos asserts _ handle d g sol G Sv). rewrite dash_counts. unfold last_sample. simpl. lia. }
  unfold dash_time. rewrite <- (sqrt_square T HT). apply sqrt_le_1_alt.
  assert (Ps : 0 < INR (S n) * thrust d) by (apply Rmult_lt_0_compat; [apply lt_0_INR; lia|lra]).
  apply (Rmult_le_reg_l (INR (S n) * thrust d)); [exact Ps|]. rewrite S_INR in *.
  replace ((INR n + 1) * thrust d * (2 * INR n * d_mass d * D / ((INR n + 1) * thrust d))) with (2 * INR n * d_mass d * D) by (field; nra).
  lra.
Qed.

Lemma C116_dash_proof : forall asserts handle d n D, can_dash d n D ->
  exists g, good_history asserts (dash d n D) /\ generator asserts (dash d n D) handle d g /\
  (exists sol, solved g sol /\ sum (s_dt sol) = dash_time d n D) /\
  (forall sol, solved g sol -> dash_time d n D <= sum (s_dt sol)) /\
  dash_time d n D < true_time d D /\ (forall k, (n < k)%nat -> dash_time d n D < dash_time d k D).
Proof.
  intros asserts handle d n D Cd. destruct (dash_generator d n D asserts handle) as [g G]. exists g.
  split; [apply dash_good|]. split; [exact G|]. split.
  - exists (dash_solution d n D). split; [exact (dash_solved d n D Cd asserts handle g G)|apply dash_total, Cd].
  - split; [|apply dash_faster, Cd]. intros sol Sv. destruct Cd as (W & Ce & Ar & Pm & Pt & Hn & HD & _).
    apply (dash_least asserts handle d n D g sol W Pm Pt (Rlt_le _ _ HD) Hn G Sv).
Qed.

(** ** Cases *)
Lemma cart_thrust : thrust cart = 8.
Proof. unfold thrust, force_limit. simpl. field. Qed.
Lemma cart_dash_time : dash_time cart 1 1 = 1 / 2.
Proof.
  unfold dash_time. rewrite cart_thrust. replace (2 * INR 1 * d_mass cart * 1 / (INR 2 * 8)) with ((1 / 2) * (1 / 2)) by (simpl; field).
  apply sqrt_square. lra.
Qed.
Lemma cart_can_dash : can_dash cart 1 1.
Proof.
  unfold can_dash. rewrite cart_dash_time, cart_thrust.
  split; [exact cart_wheels|]. split; [split; simpl; lra|]. split.
  { simpl. unfold arm, pt. simpl. rewrite !norm2_sqr. lra. }
  split; [simpl; lra|]. split; [lra|]. split; [lia|]. split; [lra|]. split.
  { intros md [<-|[<-|[]]]; unfold force_limit; simpl; field. }
  split.
  { apply cart_steps. simpl. lra. }
  intros md [<-|[<-|[]]]; unfold wheel_limit; simpl; lra.
Qed.
