(** The constructed problem means physics: satisfaction of each group of
    constraints in terms of the solution read from the decision variables. *)
From Coq Require Import List Lia Lra Psatz Reals.
Import ListNotations.
From Verif Require Import Outcome Num NumR Geometry Expr Constraints Util Builder Guess Generator
  Spec SpecBuilder SpecPhysics SpecTrajectory Semantics
  UtilFacts GeometryFacts BuilderHistory ConstraintFacts GuessFacts GeneratorFacts SeedFacts.
Local Open Scope nat_scope.

(** ** Reading the solution *)
Section Read.
  Context {K : Type} {HA : Arith K} {HD : Dbl K}.

  Definition row (env : nat -> K) (T m q : nat) : list K := map (fun i => env (i * width m + q)) (seq 0 T).
  Definition force_matrix (env : nat -> K) (T m o : nat) : list (list K) :=
    map (fun i => map (fun j => env (i * width m + (o + 2 * j))) (seq 0 m)) (seq 0 T).
  Definition read_solution (T m : nat) (N : list nat) (env : nat -> K) : solution K :=
    mkSolution (flat_map (fun s => repeat (env (T * width m + s)) (nth s N 0)) (seq 0 (length N)))
      (row env T m 0) (row env T m 1) (row env T m 2) (row env T m 3) (row env T m 4) (row env T m 5)
      (row env T m 6) (row env T m 7) (row env T m 8) (row env T m 9)
      (force_matrix env T m 10) (force_matrix env T m 11).

  Lemma read_row : forall env T m q, RowSolutionValue env (map (sv m q) (seq 0 T)) = row env T m q.
  Proof. intros. unfold RowSolutionValue, row. rewrite map_map. reflexivity. Qed.

  Lemma read_ok : forall T m N p cb h env,
    ConstructSwerveSolution (mkGen (layout T m (length N)) N p cb h) env = Ok (read_solution T m N env).
  Proof.
    intros T m N p cb h env. unfold ConstructSwerveSolution. cbn [g_vars g_N].
    assert (G : forall n acc, n <= length N ->
      foldM (dt_per_samp (layout T m (length N)) N env) (seq 0 n) acc
      = Ok (acc ++ flat_map (fun s => repeat (env (T * width m + s)) (nth s N 0)) (seq 0 n))).
    { intros n acc. induction n as [|n IH]; intros Hn.
      - simpl. rewrite app_nil_r. reflexivity.
      - rewrite seq_S, foldM_app, IH by lia. cbn [obind foldM Nat.add].
        unfold dt_per_samp. rewrite (at_ok N n 0) by lia. cbn [obind v_dt layout].
        rewrite at_map_seq by lia. cbn [obind].
        rewrite flat_map_app, app_assoc. cbn [flat_map]. rewrite app_nil_r. reflexivity. }
    rewrite G by lia. cbn [obind layout v_x v_y v_cos v_sin v_vx v_vy v_omega v_ax v_ay v_alpha v_Fx v_Fy app].
    rewrite !read_row. unfold read_solution, MatrixSolutionValue, force_rows, force_matrix.
    rewrite !map_map. f_equal. f_equal; apply map_ext; intros i; unfold RowSolutionValue;
      rewrite map_map; reflexivity.
  Qed.
End Read.

Lemma row_nth : forall {K} (env : nat -> K) T m q i d, i < T -> nth i (row env T m q) d = env (i * width m + q).
Proof.
  intros. unfold row. rewrite (nth_indep _ d ((fun i => env (i * width m + q)) 0))
    by (rewrite map_length, seq_length; assumption).
  rewrite (map_nth (fun i => env (i * width m + q))). rewrite seq_nth by assumption. reflexivity.
Qed.
Lemma force_nth : forall {K} (env : nat -> K) T m o i, i < T ->
  nth i (force_matrix env T m o) [] = map (fun j => env (i * width m + (o + 2 * j))) (seq 0 m).
Proof.
  intros. unfold force_matrix.
  set (f := fun i => map (fun j => env (i * width m + (o + 2 * j))) (seq 0 m)).
  rewrite (nth_indep _ [] (f 0)) by (rewrite map_length, seq_length; assumption).
  rewrite map_nth, seq_nth by assumption. reflexivity.
Qed.

(** Every sample after the first lies in exactly one segment. *)
Lemma locate : forall N i, 1 <= i <= list_sum N ->
  exists s k, s < length N /\ k < nth s N 0 /\ i = 1 + start N s + k.
Proof.
  induction N as [|n N IH]; intros i Hi; simpl in Hi; [lia|].
  destruct (le_lt_dec i n).
  - exists 0, (i - 1). unfold start. simpl. repeat split; lia.
  - destruct (IH (i - n)) as (s & k & H1 & H2 & H3); [lia|].
    exists (S s), k. unfold start in *. simpl. repeat split; try lia.
Qed.

Lemma dt_nth : forall {K} (f : nat -> K) N s k d, s < length N -> k < nth s N 0 ->
  nth (start N s + k) (flat_map (fun s => repeat (f s) (nth s N 0)) (seq 0 (length N))) d = f s.
Proof.
  intros K f N s k d Hs Hk.
  rewrite (seq_split3 0 (length N) s Hs). rewrite flat_map_app. cbn [flat_map Nat.add].
  assert (L : forall n, n <= length N ->
    length (flat_map (fun s => repeat (f s) (nth s N 0)) (seq 0 n)) = start N n).
  { induction n as [|n IH]; intros Hn; [reflexivity|].
    rewrite seq_S, flat_map_app, app_length, IH by lia. cbn [flat_map Nat.add].
    rewrite app_nil_r, repeat_length. unfold start. rewrite list_sum_firstn_S. reflexivity. }
  rewrite app_nth2; rewrite L by lia; [|lia].
  replace (start N s + k - start N s) with k by lia.
  rewrite app_nth1 by (rewrite repeat_length; assumption).
  rewrite (nth_indep _ _ (f s)) by (rewrite repeat_length; assumption). apply nth_repeat.
Qed.

Open Scope R_scope.

(** ** Satisfaction of lists *)
Lemma sat_all_app : forall env a b, sat_all env (a ++ b) <-> sat_all env a /\ sat_all env b.
Proof. intros. unfold sat_all. apply Forall_app. Qed.
Lemma sat_all_flat : forall {A} env (g : A -> list (ccons R)) l,
  sat_all env (flat_map g l) <-> forall a, In a l -> sat_all env (g a).
Proof.
  intros A env g l. induction l as [|x l IH]; simpl.
  - split; [intros _ a []|intros; constructor].
  - rewrite sat_all_app, IH. split.
    + intros [G1 G2] a [<-|Ha]; [assumption|apply G2; assumption].
    + intros G. split; [apply G; left; reflexivity|intros; apply G; right; assumption].
Qed.
Lemma sat_all_map : forall {A} env (g : A -> ccons R) l,
  sat_all env (map g l) <-> forall a, In a l -> sat env (g a).
Proof.
  intros A env g l. unfold sat_all. rewrite Forall_map, Forall_forall. reflexivity.
Qed.
Lemma sat_all_cons : forall env c l, sat_all env (c :: l) <-> sat env c /\ sat_all env l.
Proof. intros. unfold sat_all. apply Forall_cons_iff. Qed.
Lemma sat_all_nil : forall env, sat_all env [] <-> True.
Proof. intros. split; [trivial|intros; constructor]. Qed.

Section Groups.
  Variables (env : nat -> R) (T m : nat) (N : list nat).
  Hypothesis HT : T = (1 + list_sum N)%nat.
  Let sol := read_solution T m N env.

  Lemma sample_val : forall i, (i < T)%nat ->
    at_sample sol i = mkState (env (i * width m + 0)%nat) (env (i * width m + 1)%nat)
      (env (i * width m + 2)%nat) (env (i * width m + 3)%nat) (env (i * width m + 4)%nat)
      (env (i * width m + 5)%nat) (env (i * width m + 6)%nat) (env (i * width m + 7)%nat)
      (env (i * width m + 8)%nat) (env (i * width m + 9)%nat).
  Proof.
    intros i Hi. unfold at_sample, sol, read_solution.
    cbn [s_x s_y s_thetacos s_thetasin s_vx s_vy s_omega s_ax s_ay s_alpha].
    rewrite !row_nth by assumption. reflexivity.
  Qed.

  Lemma step_val : forall s k, (s < length N)%nat -> (k < nth s N 0)%nat ->
    step_to sol (1 + start N s + k) = env (T * width m + s)%nat.
  Proof.
    intros s k Hs Hk. unfold step_to, sol, read_solution. cbn [s_dt].
    replace (1 + start N s + k - 1)%nat with (start N s + k)%nat by lia.
    rewrite (dt_nth (fun s => env (T * width m + s)%nat)) by assumption. reflexivity.
  Qed.

  Lemma forces_val : forall i, (i < T)%nat ->
    forces sol i = map (fun j => (env (i * width m + (10 + 2 * j))%nat, env (i * width m + (11 + 2 * j))%nat)) (seq 0 m).
  Proof.
    intros i Hi. unfold forces, sol, read_solution. cbn [s_moduleFX s_moduleFY].
    rewrite !force_nth by assumption. generalize (seq 0 m). intros l.
    induction l as [|j l IH]; [reflexivity|]. cbn [map combine]. rewrite IH. reflexivity.
  Qed.

  (** Kinematics. *)
  Lemma kin_sat : forall s k, (s < length N)%nat -> (k < nth s N 0)%nat ->
    let i := (1 + start N s + k)%nat in
    sat_all env (kin_cons T m s i) <->
    moves (at_sample sol (i - 1)) (at_sample sol i) (step_to sol i) /\
    turns_up_to_half (at_sample sol (i - 1)) (at_sample sol i) (step_to sol i) /\
    accelerates (at_sample sol (i - 1)) (at_sample sol i) (step_to sol i).
  Proof.
    intros s k Hs Hk i.
    assert (Hi : (i < T)%nat).
    { unfold i, start. pose proof (list_sum_firstn_S N s). pose proof (list_sum_firstn_le N (S s)). lia. }
    rewrite (sample_val i), (sample_val (i - 1)) by lia.
    replace (step_to sol i) with (env (T * width m + s)%nat) by (symmetry; apply step_val; assumption).
    clearbody i.
    unfold kin_cons, tr_eq, rot_eq, pos, vel, acc, heading, sv, dtv.
    cbn [app]. rewrite !sat_all_cons, sat_all_nil. cbn [sat].
    unfold moves, turns_up_to_half, accelerates. cbn [q_x q_y q_c q_s q_vx q_vy q_w q_ax q_ay q_al].
    xnum. rewrite Q2R_0, Q2R_1.
    set (dt := env (T * width m + s)%nat).
    set (c1 := env (i * width m + 2)%nat). set (s1 := env (i * width m + 3)%nat).
    set (c0 := env ((i - 1) * width m + 2)%nat). set (s0 := env ((i - 1) * width m + 3)%nat).
    set (om := env (i * width m + 6)%nat).
    pose proof (pose_rot_eq (c1 * c0 + s1 * s0) (s1 * c0 - c1 * s0) (cos (om * dt)) (sin (om * dt)) (pyth _)) as P.
    rewrite <- P. clear P.
    replace (c1 * c0 - s1 * - s0) with (c1 * c0 + s1 * s0) by ring.
    replace (c1 * - s0 + s1 * c0) with (s1 * c0 - c1 * s0) by ring.
    pose proof (pyth (om * dt)). 
    split; intros G; repeat match goal with H : _ /\ _ |- _ => destruct H end;
      repeat split; try assumption; try (symmetry; assumption).
  Qed.

  (** Sums. *)
  Lemma eval_fold : forall {A} (g : A -> expr R) l e,
    eval env (fold_left (fun t a => EAdd t (g a)) l e) = eval env e + sum (map (fun a => eval env (g a)) l).
  Proof.
    intros A g l. induction l as [|a l IH]; intros e; simpl; [ring|]. rewrite IH. simpl. ring.
  Qed.
  Lemma defined_fold : forall {A} (g : A -> expr R) l e, defined env e -> (forall a, defined env (g a)) ->
    defined env (fold_left (fun t a => EAdd t (g a)) l e).
  Proof.
    intros A g l. induction l as [|a l IH]; intros e He Hg; simpl; [assumption|].
    apply IH; [|assumption]. simpl. split; [assumption|apply Hg].
  Qed.
  Lemma combine_nth : forall {A B} (f : nat -> B) (l : list A) d o n, length l = n ->
    combine l (map f (seq o n)) = map (fun j => (nth (j - o) l d, f j)) (seq o n).
  Proof.
    intros A B f l d. induction l as [|a l IH]; intros o n <-; [reflexivity|].
    cbn [length seq map combine]. rewrite (IH (S o) _ eq_refl). rewrite Nat.sub_diag. cbn [nth]. f_equal.
    apply map_ext_in. intros j Hj. apply in_seq in Hj.
    replace (j - o)%nat with (S (j - S o))%nat by lia. reflexivity.
  Qed.

  Lemma newton_eval : forall d i, length (d_modules d) = m -> (i < T)%nat ->
    let fx := fold_left nadd (map (fxv m i) (seq 0 m)) (nlit 0) in
    let fy := fold_left nadd (map (fyv m i) (seq 0 m)) (nlit 0) in
    let tau := tau_net m (d_modules d) i in
    (defined env fx /\ eval env fx = sum (map fst (forces sol i))) /\
    (defined env fy /\ eval env fy = sum (map snd (forces sol i))) /\
    (defined env tau /\ eval env tau = sum (map (fun mf => cross2 (turned (at_sample sol i) (m_translation (fst mf))) (snd mf))
                                        (combine (d_modules d) (forces sol i)))).
  Proof.
    intros d i Hm Hi.
    rewrite forces_val, sample_val by assumption.
      rewrite !map_map. cbn [fst snd]. unfold tau_net.
      rewrite Hm.
      change (fold_left nadd (map (fxv m i) (seq 0 m)) (nlit 0))
        with (fold_left (fun t a => EAdd t a) (map (fxv m i) (seq 0 m)) (@EConst R (Q2R 0))).
      change (fold_left nadd (map (fyv m i) (seq 0 m)) (nlit 0))
        with (fold_left (fun t a => EAdd t a) (map (fyv m i) (seq 0 m)) (@EConst R (Q2R 0))).
      change (fold_left (fun tau j => nadd tau (tr_cross (tr_rotateBy (tr_map EConst
               (m_translation (nth j (d_modules d) module0))) (heading m i)) (mkTr (fxv m i j) (fyv m i j))))
               (seq 0 m) (nlit 0))
        with (fold_left (fun tau j => EAdd tau (tr_cross (tr_rotateBy (tr_map EConst
               (m_translation (nth j (d_modules d) module0))) (heading m i)) (mkTr (fxv m i j) (fyv m i j))))
               (seq 0 m) (@EConst R (Q2R 0))).
      cbn zeta.
      rewrite !eval_fold. rewrite !map_map.
      rewrite (combine_nth _ (d_modules d) module0 0 m Hm). rewrite map_map.
      assert (D1 : forall (f : nat -> nat), defined env (fold_left (fun t a : expr R => EAdd t a)
                     (map (fun j => EVar (f j)) (seq 0 m)) (EConst (Q2R 0)))).
      { intros f. generalize (seq 0 m) as l. intros l.
        assert (forall e, defined env e -> defined env (fold_left (fun t a : expr R => EAdd t a) (map (fun j => EVar (f j)) l) e)) as X.
        { induction l as [|a l IH]; intros e He; simpl; [assumption|]. apply IH. simpl. tauto. }
        apply X. exact I. }
      assert (D2 : defined env (fold_left (fun tau j => EAdd tau (tr_cross (tr_rotateBy (tr_map EConst
               (m_translation (nth j (d_modules d) module0))) (heading m i)) (mkTr (fxv m i j) (fyv m i j))))
               (seq 0 m) (@EConst R (Q2R 0)))).
      { apply defined_fold; [exact I|]. intros j. unfold heading, sv, fxv, fyv. xnum. tauto. }
      cbn [eval]. rewrite Q2R_0, !Rplus_0_l.
      split; [|split].
      - split; [|reflexivity]. rewrite Q2R_0 in D1. exact (D1 (fun j => i * width m + (10 + 2 * j))%nat).
      - split; [|reflexivity]. rewrite Q2R_0 in D1. exact (D1 (fun j => i * width m + (11 + 2 * j))%nat).
      - split; [rewrite Q2R_0 in D2; exact D2|]. f_equal.
        apply map_ext. intros j. rewrite Nat.sub_0_r. cbn [fst snd]. unfold heading, sv, fxv, fyv, cross2, turned.
        xnum. cbn [fst snd q_c q_s]. reflexivity.
  Qed.

  Lemma newton_sat : forall d i, length (d_modules d) = m -> (i < T)%nat ->
    ((sat env (CEq (fold_left nadd (map (fxv m i) (seq 0 m)) (nlit 0)) (nmul (EConst (d_mass d)) (sv m 7 i))) /\
      sat env (CEq (fold_left nadd (map (fyv m i) (seq 0 m)) (nlit 0)) (nmul (EConst (d_mass d)) (sv m 8 i))) /\
      sat env (CEq (tau_net m (d_modules d) i) (nmul (EConst (d_moi d)) (sv m 9 i))) /\ True) <->
      newton d (at_sample sol i) (forces sol i)).
  Proof.
    intros d i Hm Hi. destruct (newton_eval d i Hm Hi) as ([D1 E1] & [D2 E2] & [D3 E3]).
    unfold newton. cbn [sat]. rewrite E1, E2, E3.
    rewrite sample_val by assumption. cbn [q_ax q_ay q_al]. unfold sv. cbn [eval defined nmul Arith_expr]. tauto.
  Qed.
  Lemma power_sat : forall d i, length (d_modules d) = m -> real_wheels d -> (i < T)%nat ->
    ((forall a, In a (seq 0 (length (d_modules d))) -> sat_all env (power_cons m (d_modules d) i a)) <->
      wheels_within d (at_sample sol i) /\ forces_within d (forces sol i)).
  Proof.
    intros d i Hm RW Hi.
    unfold wheels_within, forces_within. rewrite forces_val, sample_val by assumption.
      rewrite (combine_nth _ (d_modules d) module0 0 m Hm). rewrite Hm.
      assert (one : forall j, (j < m)%nat ->
        (sat_all env (power_cons m (d_modules d) i j) <->
         norm2 (wheel_velocity (mkState (env (i * width m + 0)%nat) (env (i * width m + 1)%nat)
            (env (i * width m + 2)%nat) (env (i * width m + 3)%nat) (env (i * width m + 4)%nat)
            (env (i * width m + 5)%nat) (env (i * width m + 6)%nat) (env (i * width m + 7)%nat)
            (env (i * width m + 8)%nat) (env (i * width m + 9)%nat)) (m_translation (nth j (d_modules d) module0)))
           <= m_wheelRadius (nth j (d_modules d) module0) * m_wheelMaxAngularVelocity (nth j (d_modules d) module0) /\
         norm2 (env (i * width m + (10 + 2 * j))%nat, env (i * width m + (11 + 2 * j))%nat)
           <= m_wheelMaxTorque (nth j (d_modules d) module0) / m_wheelRadius (nth j (d_modules d) module0))).
      { intros j Hj. set (md := nth j (d_modules d) module0).
        destruct (RW md) as (W1 & W2 & W3); [apply nth_In; lia|].
        unfold power_cons. fold md. rewrite !sat_all_cons, sat_all_nil. cbn [sat].
        unfold wheel_velocity. cbn [q_c q_s q_vx q_vy q_w].
        rewrite <- (Rabs_right (m_wheelRadius md * m_wheelMaxAngularVelocity md)) by (apply Rle_ge, Rmult_le_pos; lra).
        rewrite <- (Rabs_right (m_wheelMaxTorque md / m_wheelRadius md))
          by (apply Rle_ge; unfold Rdiv; apply Rmult_le_pos; [lra|left; apply Rinv_0_lt_compat; lra]).
        rewrite <- !sum_sqr_bound.
        unfold vel, heading, sv, fxv, fyv. xnum.
        set (vx := env (i * width m + 4)%nat). set (vy := env (i * width m + 5)%nat).
        set (c := env (i * width m + 2)%nat). set (s := env (i * width m + 3)%nat).
        set (w := env (i * width m + 6)%nat).
        replace (vx * c - vy * - s) with (vx * c + vy * s) by ring.
        replace (vx * - s + vy * c) with (vy * c - vx * s) by ring.
        tauto. }
      split.
      - intros G. split.
        + intros md Hmd. destruct (In_nth _ _ module0 Hmd) as (j & Hj & <-).
          apply one; [lia|]. apply G. apply in_seq. lia.
        + intros md f Hf. apply in_map_iff in Hf. destruct Hf as (j & E & Hj). injection E as <- <-.
          rewrite Nat.sub_0_r. apply in_seq in Hj. apply one; [lia|]. apply G. apply in_seq. lia.
      - intros [G1 G2] j Hj. apply in_seq in Hj. apply one; [lia|]. split.
        + apply G1. apply nth_In. lia.
        + apply G2. apply in_map_iff. exists j. split; [rewrite Nat.sub_0_r; reflexivity|apply in_seq; lia].
  Qed.

  Lemma dyn_newton : forall d i, length (d_modules d) = m -> (i < T)%nat ->
    sat_all env (dyn_cons m d i) -> newton d (at_sample sol i) (forces sol i).
  Proof.
    intros d i Hm Hi. unfold dyn_cons. rewrite sat_all_app, sat_all_flat.
    rewrite !sat_all_cons, sat_all_nil. rewrite (newton_sat d i Hm Hi). tauto.
  Qed.
  Lemma dyn_sat : forall d i, length (d_modules d) = m -> real_wheels d -> (i < T)%nat ->
    (sat_all env (dyn_cons m d i) <->
     newton d (at_sample sol i) (forces sol i) /\
     wheels_within d (at_sample sol i) /\ forces_within d (forces sol i)).
  Proof.
    intros d i Hm RW Hi. unfold dyn_cons. rewrite sat_all_app, sat_all_flat.
    rewrite !sat_all_cons, sat_all_nil.
    rewrite (newton_sat d i Hm Hi), (power_sat d i Hm RW Hi). tauto.
  Qed.

  (** Time steps. *)
  Definition bounded (x : R) (w : option R) : Prop := match w with Some k => x <= k | None => True end.
  Lemma bounded_min : forall x w dd, bounded x (width_min w dd) <-> bounded x w /\ (dd <> 0 -> x <= dd).
  Proof.
    intros x w dd. unfold width_min. cbn [neqb nltb Dbl_R nlit Arith_R]. rewrite Q2R_0.
    unfold Reqb, Rltb. destruct (Req_EM_T dd 0) as [E|E].
    - split; [intros G; split; [exact G|contradiction]|tauto].
    - destruct w as [k|]; cbn [bounded].
      + destruct (Rlt_dec dd k); split; intros; try split; try lra; intros; lra.
      + tauto.
  Qed.
  Lemma bounded_width : forall x ms, bounded x (width_of ms) <->
    forall a b, In (a, b) (consecutive ms) ->
      (tX (m_translation a) <> tX (m_translation b) -> x <= Rabs (tX (m_translation a) - tX (m_translation b))) /\
      (tY (m_translation a) <> tY (m_translation b) -> x <= Rabs (tY (m_translation a) - tY (m_translation b))).
  Proof.
    intros x ms. unfold width_of.
    assert (AZ : forall u v : R, Rabs (u - v) <> 0 <-> u <> v).
    { intros u v. split; intros G X; apply G.
      - rewrite X. replace (v - v) with 0 by ring. apply Rabs_R0.
      - destruct (Req_dec (u - v) 0); [lra|]. apply Rabs_no_R0 in H. contradiction. }
    assert (G : forall l w, bounded x (fold_left pair_width l w) <-> bounded x w /\
      forall a b, In (a, b) l ->
      (tX (m_translation a) <> tX (m_translation b) -> x <= Rabs (tX (m_translation a) - tX (m_translation b))) /\
      (tY (m_translation a) <> tY (m_translation b) -> x <= Rabs (tY (m_translation a) - tY (m_translation b)))).
    { induction l as [|[a b] l IH]; intros w; cbn [fold_left].
      - split; [intros; split; [assumption|intros ? ? []]|tauto].
      - rewrite IH. unfold pair_width. rewrite !bounded_min. cbn [nabs nsub Dbl_R Arith_R]. rewrite !AZ.
        split.
        + intros [[[B1 B2] B3] B4]. split; [assumption|]. intros a' b' [E|E].
          * injection E as <- <-. split; assumption.
          * apply B4. assumption.
        + intros [B1 B2]. destruct (B2 a b (or_introl eq_refl)) as [B3 B4].
          split; [split; [split|]|]; try assumption. intros a' b' E. apply B2. right. assumption. }
    rewrite G. cbn [bounded]. tauto.
  Qed.

  Lemma step_sat : forall d s,
    (sat_all env (step_cons T m (d_modules d) s) /\ sat env (CGe (dtv T m s) (nlit 0)) <->
     step_within d (env (T * width m + s)%nat)).
  Proof.
    intros d s. unfold step_cons, step_within. rewrite sat_all_map.
    set (dt := env (T * width m + s)%nat).
    assert (one : forall md, sat env (width_cons (width_of (d_modules d)) (dtv T m s) md) <->
      bounded (dt * m_wheelRadius md * m_wheelMaxAngularVelocity md) (width_of (d_modules d))).
    { intros md. unfold width_cons. destruct (width_of (d_modules d)); unfold dtv; cbn [sat bounded]; xnum; fold dt; tauto. }
    assert (zero : sat env (CGe (dtv T m s) (nlit 0)) <-> 0 <= dt).
    { unfold dtv. cbn [sat]. xnum. fold dt. rewrite Q2R_0.
      split; [intros (_ & _ & G); lra|intros; repeat split; lra]. }
    rewrite zero. split.
    - intros [G1 G2]. split; [assumption|]. intros md a b Hmd Hab.
      apply (proj1 (bounded_width _ _) (proj1 (one md) (G1 md Hmd))). assumption.
    - intros [G1 G2]. split; [|assumption]. intros md Hmd. apply one, bounded_width.
      intros a b Hab. apply (G2 md a b Hmd Hab).
  Qed.

  (** Requested constraints. *)
  Lemma applied_sat : forall i c, (i < T)%nat -> proper_constraint c ->
    (sat_all env (applied m i c) <-> demands (at_sample sol i) c).
  Proof.
    intros i c Hi P. unfold applied, pos, heading, vel, acc, sv.
    rewrite (apply_demands env _ _ _ _ _ _ _ _ _ (env (i * width m + 9)%nat)) by (exact P || exact I).
    rewrite sample_val by assumption. reflexivity.
  Qed.
End Groups.
