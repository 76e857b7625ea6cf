(** Solutions of the problem up to a tolerance: C57. *)
From Coq Require Import List Lia Lra Psatz Reals ZArith.
Import ListNotations.
From Verif Require Import Outcome Num NumR Geometry Expr Constraints Util Builder Guess Generator Trajectory
  Spec SpecBuilder SpecPhysics SpecTrajectory SpecGenerator SpecTolerance Semantics
  UtilFacts GeometryFacts BuilderFacts BuilderHistory ConstraintFacts GuessFacts GeneratorFacts SeedFacts FeasibleFacts
  GeneratorProofs HistoryFacts SolutionProofs TrajectoryProofs.
Local Open Scope nat_scope.
Open Scope R_scope.

Lemma within_sym : forall e a b, within e a b -> within e b a.
Proof. unfold within. intros. rewrite Rabs_minus_sym. assumption. Qed.
Lemma within_0 : forall a b, within 0 a b <-> a = b.
Proof.
  unfold within. split.
  - intros H. pose proof (Rabs_pos (a - b)). assert (Rabs (a - b) = 0) by lra.
    destruct (Req_dec (a - b) 0) as [E|E]; [lra|]. apply Rabs_no_R0 in E. contradiction.
  - intros ->. replace (b - b) with 0 by ring. rewrite Rabs_R0. lra.
Qed.

(** With tolerance zero this is exact feasibility. *)
Lemma nearly_0 : forall env c, nearly 0 env c <-> sat env c.
Proof.
  intros env [a b|a b|a b|a]; cbn [nearly sat]; try tauto.
  - pose proof (within_0 (eval env a) (eval env b)) as W. unfold within in W. tauto.
  - rewrite Rplus_0_r. tauto.
  - rewrite Rminus_0_r. tauto.
Qed.
Lemma C57_exact_proof : forall g sol, nearly_solved 0 g sol <-> solved g sol.
Proof.
  intros g sol. unfold nearly_solved, solved, nearly_feasible, feasible, sat_all.
  split; intros (env & F & E); exists env; (split; [|exact E]);
    eapply Forall_impl; try exact F; intros c; apply nearly_0.
Qed.

Section Near.
  Variables (asserts : bool) (h : list (op R)) (handle : Z) (d : drivetrain R) (g : gen R).
  Variables (eps : R) (sol : solution R).
  Hypothesis Gn : generator asserts h handle d g.
  Hypothesis Sv : nearly_solved eps g sol.
  Let N := counts asserts h.
  Let T := (1 + list_sum N)%nat.
  Let m := length (d_modules d).

  Lemma near_in : exists env, sol = read_solution T m N env /\
    forall c, In c (problem_cons (path asserts h) d) -> nearly eps env c.
  Proof.
    destruct Sv as (env & F & E). destruct Gn as [C D].
    destruct (main_cons (path asserts h) handle g d (path_inv asserts h) C D) as (PC & _ & R1).
    rewrite R1 in E. injection E as <-. exists env. split; [reflexivity|].
    unfold nearly_feasible in F. rewrite PC in F. rewrite Forall_forall in F. exact F.
  Qed.

  Lemma near_moves : forall i, (1 <= i <= last_sample N)%nat ->
    let a := at_sample sol (i - 1) in let b := at_sample sol i in let dt := step_to sol i in
    within eps (q_x a + q_vx b * dt) (q_x b) /\ within eps (q_y a + q_vy b * dt) (q_y b) /\
    within eps (q_vx a + q_ax b * dt) (q_vx b) /\ within eps (q_vy a + q_ay b * dt) (q_vy b) /\
    within eps (q_w a + q_al b * dt) (q_w b) /\
    within eps ((q_c b * q_c b + q_s b * q_s b) * (q_c a * q_c a + q_s a * q_s a)) 1 /\ - eps <= dt.
  Proof.
    intros i Hi a b dt. destruct near_in as (env & -> & F).
    destruct (locate N i Hi) as (s & k & Hs & Hk & Ei).
    assert (HT : (i < T)%nat) by (unfold last_sample, T in *; lia).
    assert (DT : dt = env (T * width m + s)%nat).
    { unfold dt. rewrite Ei. apply (step_val env T m N eq_refl s k Hs Hk). }
    unfold a, b. rewrite (sample_val env T m N i), (sample_val env T m N (i - 1)) by lia.
    rewrite DT. clear DT dt a b.
    assert (K : forall c, In c (kin_cons T m s i) -> nearly eps env c).
    { intros c Hc. apply F. unfold problem_cons. fold (counts asserts h). fold N T m.
      apply in_or_app. right. apply in_or_app. right. apply in_or_app. left.
      apply in_flat_map. exists s. split; [apply in_seq; lia|].
      apply in_flat_map. exists k. split; [apply in_seq; lia|]. rewrite <- Ei. exact Hc. }
    assert (P : nearly eps env (CGe (dtv T m s) (nlit 0))).
    { apply F. unfold problem_cons. fold (counts asserts h). fold N T m.
      apply in_or_app. right. apply in_or_app. left.
      apply in_map_iff. exists s. split; [reflexivity|apply in_seq; lia]. }
    unfold kin_cons, tr_eq, rot_eq in K. cbn [app] in K.
    pose proof (K _ (or_introl eq_refl)) as K0.
    pose proof (K _ (or_intror (or_introl eq_refl))) as K1.
    pose proof (K _ (or_intror (or_intror (or_intror (or_introl eq_refl))))) as K2.
    pose proof (K _ (or_intror (or_intror (or_intror (or_intror (or_intror (or_introl eq_refl))))))) as K3.
    pose proof (K _ (or_intror (or_intror (or_intror (or_intror (or_intror (or_intror (or_introl eq_refl)))))))) as K4.
    pose proof (K _ (or_intror (or_intror (or_intror (or_intror (or_intror (or_intror (or_intror (or_introl eq_refl))))))))) as K5.
    clear K F. unfold pos, vel, acc, heading, sv, dtv in *. cbn [nearly] in *. xnum. rewrite ?Q2R_0, ?Q2R_1 in *.
    cbn [q_x q_y q_c q_s q_vx q_vy q_w q_ax q_ay q_al]. unfold within.
    destruct K0 as (_ & _ & K0), K1 as (_ & _ & K1), K2 as (_ & _ & K2), K3 as (_ & _ & K3),
      K4 as (_ & _ & K4), K5 as (_ & _ & K5), P as (_ & _ & P).
    repeat split; try assumption; [|lra].
    match type of K2 with Rabs (?u - 1) <= _ => match goal with |- Rabs (?v - 1) <= _ => replace v with u by ring end end.
    exact K2.
  Qed.

  (** Errors add up. *)
  Lemma near_telescope : forall (f v : nat -> R),
    (forall i, (1 <= i <= last_sample N)%nat -> within eps (f (i - 1)%nat + v i) (f i)) ->
    forall n, (n <= last_sample N)%nat -> within (INR n * eps) (f n) (f 0%nat + sum_to v n).
  Proof.
    intros f v E n. induction n as [|n IH]; intros Hn.
    - unfold sum_to, within. simpl. replace (f 0%nat - (f 0%nat + 0)) with 0 by ring. rewrite Rabs_R0. lra.
    - rewrite S_INR, sum_to_S. specialize (E (S n) ltac:(lia)). replace (S n - 1)%nat with n in E by lia.
      specialize (IH ltac:(lia)). unfold within in *.
      replace (f (S n) - (f 0%nat + (sum_to v n + v (S n))))
        with (- (f n + v (S n) - f (S n)) + (f n - (f 0%nat + sum_to v n))) by ring.
      eapply Rle_trans; [apply Rabs_triang|]. rewrite Rabs_Ropp. lra.
  Qed.
  Lemma C57_drift_proof : forall n, (n <= last_sample N)%nat ->
    let q := at_sample sol in let dt := step_to sol in
    within (INR n * eps) (q_x (q n)) (q_x (q 0%nat) + sum_to (fun i => q_vx (q i) * dt i) n) /\
    within (INR n * eps) (q_y (q n)) (q_y (q 0%nat) + sum_to (fun i => q_vy (q i) * dt i) n) /\
    within (INR n * eps) (q_vx (q n)) (q_vx (q 0%nat) + sum_to (fun i => q_ax (q i) * dt i) n) /\
    within (INR n * eps) (q_vy (q n)) (q_vy (q 0%nat) + sum_to (fun i => q_ay (q i) * dt i) n) /\
    within (INR n * eps) (q_w (q n)) (q_w (q 0%nat) + sum_to (fun i => q_al (q i) * dt i) n).
  Proof.
    intros n Hn q dt. unfold q, dt. repeat split.
    - apply (near_telescope (fun i => q_x (at_sample sol i))); [|exact Hn]. intros i Hi. apply (near_moves i Hi).
    - apply (near_telescope (fun i => q_y (at_sample sol i))); [|exact Hn]. intros i Hi. apply (near_moves i Hi).
    - apply (near_telescope (fun i => q_vx (at_sample sol i))); [|exact Hn]. intros i Hi. apply (near_moves i Hi).
    - apply (near_telescope (fun i => q_vy (at_sample sol i))); [|exact Hn]. intros i Hi. apply (near_moves i Hi).
    - apply (near_telescope (fun i => q_w (at_sample sol i))); [|exact Hn]. intros i Hi. apply (near_moves i Hi).
  Qed.

  (** Requested constraints. *)
  Lemma near_wpt : good_history asserts h -> forall w c, (w <= length N)%nat -> In c (wpt_requests [] h w) ->
    exists env, sol = read_solution T m N env /\
      forall e, In e (applied m (waypoint_sample N w) c) -> nearly eps env e.
  Proof.
    intros GH w c Hw Hc. destruct near_in as (env & E & F). exists env. split; [exact E|].
    intros e He. apply F. unfold problem_cons. fold (counts asserts h). fold N T m.
    do 4 (apply in_or_app; right). apply in_or_app. left.
    apply in_flat_map. exists w. split; [apply in_seq; lia|].
    apply in_flat_map. exists c. split; [|exact He].
    destruct (good_recorded asserts h GH w) as [-> _]. exact Hc.
  Qed.
  Lemma sample_lt : forall w, (waypoint_sample N w < T)%nat.
  Proof. intros w. unfold waypoint_sample, T. pose proof (list_sum_firstn_le N w). lia. Qed.

  Lemma C57_position_proof : good_history asserts h -> forall i x y a,
    In (OPoseWpt i x y a) h \/ In (OTranslationWpt i x y a) h -> (i <= length N)%nat ->
    within eps (q_x (at_sample sol (waypoint_sample N i))) x /\
    within eps (q_y (at_sample sol (waypoint_sample N i))) y.
  Proof.
    intros GH i x y a Ho Hi.
    assert (Q : exists c, In c (wpt_requests [] h i) /\
       (c = PoseEquality (pose_xyh x y a) \/ c = TranslationEquality (mkTr x y))).
    { destruct Ho as [Ho|Ho].
      - exists (PoseEquality (pose_xyh x y a)). split; [|left; reflexivity].
        apply (in_history_wpt h _ i _ Ho). intros bs. cbn [wpt_request]. rewrite Nat.eqb_refl. left. reflexivity.
      - exists (TranslationEquality (mkTr x y)). split; [|right; reflexivity].
        apply (in_history_wpt h _ i _ Ho). intros bs. cbn [wpt_request]. rewrite Nat.eqb_refl. left. reflexivity. }
    destruct Q as (c & Qc & Qe). destruct (near_wpt GH i c Hi Qc) as (env & -> & F).
    rewrite (sample_val env T m N _ (sample_lt i)).
    unfold within. cbn [q_x q_y].
    destruct Qe as [-> | ->]; unfold applied in F; cbn [Apply pose_eq tr_eq app] in F;
      pose proof (F _ (or_introl eq_refl)) as F1; pose proof (F _ (or_intror (or_introl eq_refl))) as F2;
      cbn [nearly] in F1, F2; unfold pos, heading, sv in F1, F2; xnum;
      destruct F1 as (_ & _ & F1), F2 as (_ & _ & F2); split; assumption.
  Qed.

  Lemma C57_speed_proof : good_history asserts h -> forall i v, 0 < v ->
    In (OWptConstraint i (LinearVelocityMaxMagnitude v)) h -> (i <= length N)%nat ->
    let q := at_sample sol (waypoint_sample N i) in
    norm2 (q_vx q, q_vy q) <= sqrt (v * v + eps).
  Proof.
    intros GH i v Hv Ho Hi q.
    assert (Q : In (LinearVelocityMaxMagnitude v) (wpt_requests [] h i)).
    { apply (in_history_wpt h _ i _ Ho). intros bs. cbn [wpt_request]. rewrite Nat.eqb_refl. left. reflexivity. }
    destruct (near_wpt GH i _ Hi Q) as (env & E & F). unfold q. rewrite E.
    rewrite (sample_val env T m N _ (sample_lt i)). cbn [q_vx q_vy].
    unfold applied in F. cbn [Apply] in F.
    assert (Z : neqb v (nlit 0) = false).
    { cbn [neqb Dbl_R nlit Arith_R]. rewrite Q2R_0. unfold Reqb. destruct (Req_EM_T v 0); [lra|reflexivity]. }
    rewrite Z in F. pose proof (F _ (or_introl eq_refl)) as F1. cbn [nearly] in F1. unfold vel, sv in F1. xnum.
    unfold norm2. cbn [fst snd]. apply sqrt_le_1_alt. apply F1.
  Qed.

  (** Forces and wheels. *)
  Lemma near_dyn : forall i, (i <= last_sample N)%nat -> exists env, sol = read_solution T m N env /\
    forall c, In c (dyn_cons m d i) -> nearly eps env c.
  Proof.
    intros i Hi. destruct near_in as (env & E & F). exists env. split; [exact E|].
    intros c Hc. apply F. unfold problem_cons. fold (counts asserts h). fold N T m.
    do 3 (apply in_or_app; right). apply in_or_app. left.
    apply in_flat_map. exists i. split; [apply in_seq; unfold T, last_sample in *; lia|exact Hc].
  Qed.
  Lemma C57_wheels_proof : forall i, (i <= last_sample N)%nat ->
    (forall md, In md (d_modules d) ->
       let v := m_wheelRadius md * m_wheelMaxAngularVelocity md in
       norm2 (wheel_velocity (at_sample sol i) (m_translation md)) <= sqrt (v * v + eps)) /\
    (forall md f, In (md, f) (combine (d_modules d) (forces sol i)) ->
       let l := m_wheelMaxTorque md / m_wheelRadius md in norm2 f <= sqrt (l * l + eps)).
  Proof.
    intros i Hi. destruct (near_dyn i Hi) as (env & -> & F).
    assert (HT : (i < T)%nat) by (unfold last_sample, T in *; lia).
    assert (P : forall j, (j < m)%nat -> forall c, In c (power_cons m (d_modules d) i j) -> nearly eps env c).
    { intros j Hj c Hc. apply F. unfold dyn_cons. apply in_or_app. left. apply in_flat_map. exists j.
      split; [apply in_seq; fold m; lia|exact Hc]. }
    split.
    - intros md Hmd v. destruct (In_nth _ _ module0 Hmd) as (j & Hj & E).
      pose proof (P j Hj _ (or_introl eq_refl)) as Q. rewrite E in Q. cbn [nearly] in Q.
      rewrite (sample_val env T m N i HT). unfold wheel_velocity. cbn [q_c q_s q_vx q_vy q_w].
      unfold norm2. cbn [fst snd]. apply sqrt_le_1_alt.
      unfold vel, heading, sv in Q. xnum. destruct Q as (_ & _ & Q).
      match type of Q with ?u <= ?w => match goal with |- ?x <= _ => replace x with u by ring end end. exact Q.
    - intros md f Hf l. rewrite (forces_val env T m N i HT) in Hf.
      rewrite (FeasibleFacts.combine_nth T N eq_refl _ (d_modules d) module0 0 m eq_refl) in Hf.
      apply in_map_iff in Hf. destruct Hf as (j & E & Hj). injection E as E1 <-. rewrite Nat.sub_0_r in E1.
      apply in_seq in Hj.
      pose proof (P j ltac:(lia) _ (or_intror (or_introl eq_refl))) as Q. rewrite E1 in Q. cbn [nearly] in Q.
      unfold norm2. cbn [fst snd]. apply sqrt_le_1_alt. unfold fxv, fyv in Q. xnum. apply Q.
  Qed.
  Lemma C57_newton_proof : forall i, (i <= last_sample N)%nat ->
    let q := at_sample sol i in let fs := forces sol i in
    within eps (sum (map fst fs)) (d_mass d * q_ax q) /\
    within eps (sum (map snd fs)) (d_mass d * q_ay q) /\
    within eps (sum (map (fun mf => cross2 (turned q (m_translation (fst mf))) (snd mf)) (combine (d_modules d) fs)))
      (d_moi d * q_al q).
  Proof.
    intros i Hi q fs. unfold q, fs. clear q fs. destruct (near_dyn i Hi) as (env & -> & F).
    assert (HT : (i < T)%nat) by (unfold last_sample, T in *; lia).
    destruct (newton_eval env T m N eq_refl d i eq_refl HT) as ([_ E1] & [_ E2] & [_ E3]).
    rewrite <- E1, <- E2, <- E3. rewrite (sample_val env T m N i HT). cbn [q_ax q_ay q_al].
    assert (P : forall c, In c
      [CEq (fold_left nadd (map (fxv m i) (seq 0 m)) (nlit 0)) (nmul (EConst (d_mass d)) (sv m 7 i));
       CEq (fold_left nadd (map (fyv m i) (seq 0 m)) (nlit 0)) (nmul (EConst (d_mass d)) (sv m 8 i));
       CEq (tau_net m (d_modules d) i) (nmul (EConst (d_moi d)) (sv m 9 i))] -> nearly eps env c).
    { intros c Hc. apply F. unfold dyn_cons. apply in_or_app. right. exact Hc. }
    pose proof (P _ (or_introl eq_refl)) as P1. pose proof (P _ (or_intror (or_introl eq_refl))) as P2.
    pose proof (P _ (or_intror (or_intror (or_introl eq_refl)))) as P3.
    cbn [nearly] in P1, P2, P3. repeat split; [apply P1|apply P2|apply P3].
  Qed.
End Near.
