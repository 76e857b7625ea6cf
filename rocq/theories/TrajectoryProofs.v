(** HolonomicTrajectory: C22, C26, C27. *)
From Coq Require Import List Lia Lra Psatz Reals ZArith.
Import ListNotations.
From Verif Require Import Outcome Num NumR Geometry Expr Constraints Util Builder Guess Generator Trajectory
  Spec SpecBuilder SpecPhysics SpecTrajectory SpecGenerator Semantics
  UtilFacts GeometryFacts BuilderFacts BuilderHistory GuessFacts GeneratorFacts SeedFacts FeasibleFacts GeneratorProofs
  HistoryFacts SolutionProofs.
Local Open Scope nat_scope.

Section Any.
  Context {K : Type} {HA : Arith K} {HD : Dbl K}.

  (** Sample [k] of a solution, at time [ts]. *)
  Definition sample_of (s : solution K) (k : nat) (ts : K) : sample K :=
    let z := nlit 0 in
    mkSample ts (nth k (s_x s) z) (nth k (s_y s) z) (natan2 (nth k (s_thetasin s) z) (nth k (s_thetacos s) z))
      (nth k (s_vx s) z) (nth k (s_vy s) z) (nth k (s_omega s) z)
      (nth k (s_moduleFX s) []) (nth k (s_moduleFY s) []).

  Lemma trajectory_ok : forall N m (s : solution K), well_shaped N m s ->
    HolonomicTrajectory s =
    Ok (map (fun k => sample_of s k (fold_left nadd (firstn k (s_dt s)) (nlit 0))) (seq 0 (1 + list_sum N))).
  Proof.
    intros N m s (L0 & L1 & L2 & L3 & L4 & L5 & L6 & L7 & L8 & L9 & L10 & L11 & L12 & F1 & F2).
    unfold last_sample in *. set (T := 1 + list_sum N) in *.
    assert (HT : S (list_sum N) = T) by reflexivity. rewrite HT in *.
    unfold HolonomicTrajectory. rewrite L1.
    assert (G : forall n, n <= T -> foldM (traj_step s) (seq 0 n) (nlit 0, [])
      = Ok (fold_left nadd (firstn (n - 1) (s_dt s)) (nlit 0),
            map (fun k => sample_of s k (fold_left nadd (firstn k (s_dt s)) (nlit 0))) (seq 0 n))).
    { induction n as [|n IH]; intros Hn; [reflexivity|].
      rewrite seq_S, foldM_app, IH by lia. cbn [obind foldM Nat.add].
      assert (E : (if n =? 0 then Ok (fold_left nadd (firstn (n - 1) (s_dt s)) (nlit 0))
                   else d <- idx (s_dt s) (n - 1) ;; Ok (nadd (fold_left nadd (firstn (n - 1) (s_dt s)) (nlit 0)) d))
                  = Ok (fold_left nadd (firstn n (s_dt s)) (nlit 0))).
      { destruct n as [|n]; [reflexivity|]. cbn [Nat.eqb]. replace (S n - 1) with n by lia.
        rewrite (idx_ok _ _ (nlit 0)) by lia. cbn [obind]. f_equal.
        assert (X : firstn (S n) (s_dt s) = firstn n (s_dt s) ++ [nth n (s_dt s) (nlit 0)]).
        { assert (n < length (s_dt s)) as Hl by lia. clear -Hl. revert n Hl.
          induction (s_dt s) as [|a l IH]; intros n Hl; simpl in Hl; [lia|].
          destruct n as [|n]; [reflexivity|]. cbn [firstn app nth].
          f_equal. apply IH. lia. }
        rewrite X, fold_left_app. reflexivity. }
      unfold traj_step. rewrite E. cbn [obind].
      rewrite (idx_ok (s_x s) n (nlit 0)), (idx_ok (s_y s) n (nlit 0)), (idx_ok (s_thetasin s) n (nlit 0)),
        (idx_ok (s_thetacos s) n (nlit 0)), (idx_ok (s_vx s) n (nlit 0)), (idx_ok (s_vy s) n (nlit 0)),
        (idx_ok (s_omega s) n (nlit 0)), (idx_ok (s_moduleFX s) n []), (idx_ok (s_moduleFY s) n []) by lia.
      cbn [obind]. replace (S n - 1) with n by lia. rewrite map_app. reflexivity. }
    rewrite G by lia. reflexivity.
  Qed.

  (** C25, every number type. *)
  Lemma read_shape : forall T m N (env : nat -> K), T = 1 + list_sum N -> well_shaped N m (read_solution T m N env).
  Proof.
    intros T m N env ->. unfold well_shaped, read_solution, last_sample, row, force_matrix.
    cbn [s_dt s_x s_y s_thetacos s_thetasin s_vx s_vy s_omega s_ax s_ay s_alpha s_moduleFX s_moduleFY].
    rewrite !map_length, !seq_length.
    assert (LD : length (flat_map (fun s => repeat (env ((1 + list_sum N) * width m + s)) (nth s N 0)) (seq 0 (length N)))
      = list_sum N).
    { assert (G : forall n, n <= length N ->
        length (flat_map (fun s => repeat (env ((1 + list_sum N) * width m + s)) (nth s N 0)) (seq 0 n))
        = list_sum (firstn n N)).
      { induction n as [|n IH]; intros Hn; [reflexivity|].
        rewrite seq_S, flat_map_app, app_length, IH, list_sum_firstn_S by lia. cbn [flat_map Nat.add].
        rewrite app_nil_r, repeat_length. reflexivity. }
      rewrite G by lia. rewrite firstn_all. reflexivity. }
    repeat split; try reflexivity; try exact LD;
      apply Forall_forall; intros r Hr; apply in_map_iff in Hr; destruct Hr as (i & <- & _);
      rewrite map_length, seq_length; reflexivity.
  Qed.

  Lemma C25_proof : forall asserts (h : list (op K)) handle d g env,
    generator asserts h handle d g ->
    exists sol, ConstructSwerveSolution g env = Ok sol /\
      well_shaped (counts asserts h) (length (d_modules d)) sol.
  Proof.
    intros asserts h handle d g env [C D].
    destruct (construct_inversion _ handle g (path_inv asserts h) C) as (L & d' & p & D' & -> & _).
    rewrite D in D'. injection D' as <-. rewrite read_ok. eexists. split; [reflexivity|].
    apply read_shape. reflexivity.
  Qed.

  (** C27: nothing is read out of bounds. *)
  Lemma C27_outcome_proof : forall asserts (h : list (op K)) handle d g env sol,
    generator asserts h handle d g -> ConstructSwerveSolution g env = Ok sol ->
    exists l, HolonomicTrajectory sol = Ok l /\ length l = 1 + list_sum (counts asserts h).
  Proof.
    intros asserts h handle d g env sol G E.
    destruct (C25_proof asserts h handle d g env G) as (sol' & E' & W). rewrite E in E'. injection E' as <-.
    rewrite (trajectory_ok _ _ sol W). eexists. split; [reflexivity|]. rewrite map_length, seq_length. reflexivity.
  Qed.
End Any.

Lemma ok_inj : forall {A} (a b : A), Ok a = Ok b -> b = a.
Proof. intros A a b H. congruence. Qed.

Open Scope R_scope.

Lemma fold_sum : forall l (a : R), fold_left nadd l a = a + sum l.
Proof.
  induction l as [|x l IH]; intros a; simpl; [rnum; ring|]. rewrite IH. rnum. ring.
Qed.

Lemma C26_proof : forall N m (s : solution R) l, well_shaped N m s -> HolonomicTrajectory s = Ok l ->
  length l = length (s_x s) /\
  (forall k p, nth_error l k = Some p -> h_timestamp p = sum (firstn k (s_dt s))) /\
  (forall p, nth_error l 0 = Some p -> h_timestamp p = 0) /\
  ((forall x, In x (s_dt s) -> 0 <= x) -> forall j k p q, (j <= k)%nat ->
     nth_error l j = Some p -> nth_error l k = Some q -> h_timestamp p <= h_timestamp q).
Proof.
  intros N m s l W E. pose proof W as (_ & L1 & _). rewrite (trajectory_ok N m s W) in E. apply ok_inj in E. subst l.
  assert (TS : forall k p, nth_error (map (fun k => sample_of s k (fold_left nadd (firstn k (s_dt s)) (nlit 0)))
      (seq 0 (1 + list_sum N))) k = Some p -> h_timestamp p = sum (firstn k (s_dt s))).
  { intros k p Hk. rewrite nth_error_map_seq in Hk. destruct (_ <? _)%nat; [|discriminate].
    injection Hk as <-. cbn [h_timestamp sample_of]. rewrite fold_sum. rnum. rewrite Q2R_0.
    cbn [Nat.add]. ring. }
  split; [rewrite map_length, seq_length, L1; reflexivity|].
  split; [exact TS|]. split; [intros p Hp; rewrite (TS _ _ Hp); reflexivity|].
  intros Pos j k p q Hjk Hp Hq. rewrite (TS _ _ Hp), (TS _ _ Hq).
  assert (S1 : forall n, sum (firstn n (s_dt s)) <= sum (firstn (S n) (s_dt s))).
  { intros n. clear -Pos. revert n. induction (s_dt s) as [|a dl IH]; intros n.
    - rewrite !firstn_nil. simpl. lra.
    - destruct n as [|n].
      + simpl. pose proof (Pos a (or_introl eq_refl)). lra.
      + rewrite (firstn_cons (S n)), (firstn_cons n). cbn [sum].
        assert (sum (firstn n dl) <= sum (firstn (S n) dl)) by (apply IH; intros; apply Pos; right; assumption). lra. }
  induction Hjk as [|k Hjk IH].
  - right. reflexivity.
  - clear IH. clear Hq Hp. induction Hjk as [|k' Hjk IH]; [apply S1|]. eapply Rle_trans; [apply IH|apply S1].
Qed.

Lemma C27_proof : forall N m (s : solution R) l, well_shaped N m s -> HolonomicTrajectory s = Ok l ->
  forall k p, nth_error l k = Some p ->
  h_x p = q_x (at_sample s k) /\ h_y p = q_y (at_sample s k) /\
  h_velocityX p = q_vx (at_sample s k) /\ h_velocityY p = q_vy (at_sample s k) /\
  h_angularVelocity p = q_w (at_sample s k) /\
  combine (h_moduleForcesX p) (h_moduleForcesY p) = forces s k /\
  principal (h_heading p) /\
  (unit_heading (at_sample s k) -> heading_is (at_sample s k) (h_heading p)).
Proof.
  intros N m s l W E k p Hk. rewrite (trajectory_ok N m s W) in E. apply ok_inj in E. subst l.
  rewrite nth_error_map_seq in Hk. destruct (Nat.ltb_spec k (1 + list_sum N)); [|discriminate].
  injection Hk as <-. unfold sample_of. rnum.
  cbn [h_x h_y h_velocityX h_velocityY h_angularVelocity h_moduleForcesX h_moduleForcesY h_heading].
  rewrite Q2R_0. unfold at_sample, forces. cbn [q_x q_y q_vx q_vy q_w].
  repeat (split; [reflexivity|]).
  split; [apply Ratan2_range|].
  unfold unit_heading, heading_is. cbn [q_c q_s]. intros U.
  destruct (Ratan2_unit _ _ U) as [E1 E2]. split; symmetry; assumption.
Qed.

(** ** C22 *)
Lemma uniform_read : forall asserts h handle d g env sol, generator asserts h handle d g ->
  ConstructSwerveSolution g env = Ok sol -> uniform_steps (counts asserts h) sol.
Proof.
  intros asserts h handle d g env sol [C D] E.
  destruct (main_cons (path asserts h) handle g d (path_inv asserts h) C D) as (_ & _ & R1).
  rewrite R1 in E. injection E as <-. intros s k Hs Hk.
  unfold counts in *. set (N := b_counts (path asserts h)) in *. set (T := (1 + list_sum N)%nat).
  pose proof (step_val env T (length (d_modules d)) N eq_refl s k Hs Hk) as E1.
  pose proof (step_val env T (length (d_modules d)) N eq_refl s 0 Hs ltac:(lia)) as E2.
  rewrite Nat.add_0_r in E2. exact (eq_trans E1 (eq_sym E2)).
Qed.

Lemma to_i32_small : forall n, (Z.of_nat n < 2 ^ 31)%Z -> to_i32 (Z.of_nat n) = Z.of_nat n.
Proof.
  intros n Hn. unfold to_i32. rewrite Z.mod_small by lia.
  destruct (Z.ltb_spec (Z.of_nat n) (2 ^ 31)); lia.
Qed.

Lemma sum_app : forall a b, sum (a ++ b) = sum a + sum b.
Proof. induction a as [|x a IH]; intros b; simpl; [ring|rewrite IH; ring]. Qed.
Lemma sum_repeat : forall x n, sum (repeat x n) = x * INR n.
Proof.
  induction n as [|n IH]; [simpl; ring|]. rewrite S_INR. simpl. rewrite IH. ring.
Qed.

Lemma C22_proof : forall asserts h handle d g env sol, generator asserts h handle d g ->
  ConstructSwerveSolution g env = Ok sol ->
  (forall n, In n (counts asserts h) -> (Z.of_nat n < 2 ^ 31)%Z) ->
  exists e l p, pr_obj (g_problem g) = Some e /\ defined env e /\ eval env e = sum (s_dt sol) /\
    HolonomicTrajectory sol = Ok l /\ nth_error l (last_sample (counts asserts h)) = Some p /\
    h_timestamp p = sum (s_dt sol).
Proof.
  intros asserts h handle d g env sol G E B.
  destruct (C25_proof asserts h handle d g env G) as (sol' & E' & W). rewrite E in E'. injection E' as <-.
  destruct G as [C D].
  destruct (construct_inversion _ handle g (path_inv asserts h) C) as (L & d' & p & D' & Eg & _ & _ & O).
  rewrite D in D'. injection D' as <-.
  set (N := b_counts (path asserts h)) in *. set (T := (1 + list_sum N)%nat) in *. set (m := length (d_modules d)) in *.
  assert (Es : sol = read_solution T m N env).
  { rewrite Eg in E. rewrite read_ok in E. injection E as <-. reflexivity. }
  exists (objective T m N).
  assert (HL : exists l, HolonomicTrajectory sol = Ok l) by (eexists; apply (trajectory_ok _ _ sol W)).
  destruct HL as [l HL]. exists l.
  destruct (C26_proof _ _ sol l W HL) as (Len & TS & _).
  assert (HP : exists q, nth_error l (last_sample (counts asserts h)) = Some q).
  { destruct (nth_error l (last_sample (counts asserts h))) as [q|] eqn:Q; [eauto|].
    apply nth_error_None in Q. destruct W as (_ & L1 & _). lia. }
  destruct HP as [q HP]. exists q. rewrite Eg. cbn [g_problem]. split; [exact O|].
  assert (OBJ : forall n, (n <= length N)%nat ->
     let e := fold_left (fun t s => nadd t (nmul (dtv T m s) (EConst (nofZ (to_i32 (Z.of_nat (nth s N 0%nat)))))))
        (seq 0 n) (nlit 0) in
     defined env e /\
     eval env e = sum (flat_map (fun s => repeat (env (T * width m + s)%nat) (nth s N 0%nat)) (seq 0 n))).
  { induction n as [|n IH]; intros Hn e.
    - subst e. simpl. split; [exact I|]. apply Q2R_0.
    - subst e. rewrite seq_S, fold_left_app, flat_map_app. cbn [fold_left flat_map Nat.add].
      destruct (IH ltac:(lia)) as [I1 I2]. rewrite app_nil_r, sum_app, sum_repeat, <- I2.
      cbn [nadd nmul Arith_expr defined eval]. split; [repeat split; try exact I; exact I1|].
      unfold dtv. cbn [eval]. f_equal. f_equal.
      rewrite to_i32_small by (apply B; apply nth_In; assumption).
      cbn [nofZ Dbl_R]. symmetry. apply INR_IZR_INZ. }
  destruct (OBJ (length N) (le_n _)) as [O1 O2].
  split; [exact O1|]. split; [unfold objective; rewrite O2, Es; reflexivity|].
  split; [exact HL|]. split; [exact HP|]. rewrite (TS _ _ HP).
  rewrite firstn_all2; [reflexivity|]. destruct W as (L0 & _). unfold counts in *. lia.
Qed.
