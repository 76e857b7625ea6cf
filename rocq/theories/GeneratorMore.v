(** Seeds and variables of the generated problem: C07, C24. *)
From Coq Require Import List Lia Lra Psatz Reals ZArith Permutation.
Import ListNotations.
From Verif Require Import Outcome Num NumR Geometry Expr Constraints Util Builder Guess Generator Trajectory
  Spec SpecBuilder SpecPhysics SpecTrajectory SpecGenerator Semantics
  UtilFacts GeometryFacts BuilderFacts BuilderHistory GuessFacts GuessProofs GeneratorFacts SeedFacts FeasibleFacts
  GeneratorProofs HistoryFacts SolutionProofs TrajectoryProofs.
Local Open Scope nat_scope.

Lemma seq_shift_add : forall a n, map (fun s => a + s) (seq 0 n) = seq a n.
Proof.
  intros a n. induction n as [|n IH]; [reflexivity|].
  rewrite !seq_S, map_app, IH. reflexivity.
Qed.

Section Any.
  Context {K : Type} {HA : Arith K} {HD : Dbl K}.

  (** ** C07 *)
  Lemma seeds_read : forall asserts (h : list (op K)) handle d g,
    generator asserts h handle d g ->
    let N := counts asserts h in
    let T := 1 + list_sum N in
    let m := length (d_modules d) in
    exists guess p, CalculateInitialGuess (path asserts h) = Ok guess /\
      length (s_x guess) = T /\ length (s_y guess) = T /\ length (s_thetacos guess) = T /\
      length (s_thetasin guess) = T /\ s_dt guess = repeat (guess_dt N) T /\
      g_problem g = p /\
      (forall env, ConstructSwerveSolution g env = Ok (read_solution T m N env)) /\
      (forall q i, q < 10 -> i < T -> pr_vals p (i * width m + q) = seed guess q i) /\
      (forall i j, i < T -> j < m -> pr_vals p (i * width m + (10 + 2 * j)) = nlit 0 /\
                                     pr_vals p (i * width m + (11 + 2 * j)) = nlit 0) /\
      (forall s, s < length N -> pr_vals p (T * width m + s) = ndiv (nlit 5) (nofnat (nth s N 0))).
  Proof.
    intros asserts h handle d g [C D] N T m.
    pose proof (path_inv asserts h) as I.
    destruct (construct_inversion _ handle g I C) as (L & _).
    destruct (construct_ok (path asserts h) handle d I L D) as (p & C' & _ & _ & _ & V1 & V2 & V3).
    rewrite C in C'. injection C' as ->.
    exists (guess_result (b_guess (path asserts h)) N), p.
    assert (W : length (b_guess (path asserts h)) = waypoint_count (path asserts h)) by (destruct I as (I1 & _); exact I1).
    assert (NE : forall l, In l (b_guess (path asserts h)) -> l <> []).
    { destruct I as (_ & I2 & _). rewrite Forall_forall in I2. exact I2. }
    destruct (guess_outcome _ I) as [[E _]|[[E _]|[_ G]]].
    { rewrite E in W. simpl in W. lia. }
    { lia. }
    destruct (guess_result_lengths (b_guess (path asserts h)) N ltac:(unfold N, counts; lia) NE) as (X1 & X2 & X3 & X4 & X5).
    destruct (guess_result_fields (b_guess (path asserts h)) N) as (_ & _ & _ & _ & F).
    split; [exact G|]. split; [exact X1|]. split; [exact X2|]. split; [exact X3|]. split; [exact X4|].
    split; [exact F|]. split; [reflexivity|].
    split; [intros env; apply read_ok|]. split; [exact V1|]. split; [exact V2|]. exact V3.
  Qed.

  Lemma row_eq : forall (env : nat -> K) T m q (l : list K), length l = T ->
    (forall i, i < T -> env (i * width m + q) = nth i l (nlit 0)) -> row env T m q = l.
  Proof.
    intros env T m q l L H. apply nth_ext with (d := nlit 0) (d' := nlit 0).
    - unfold row. rewrite map_length, seq_length. symmetry. exact L.
    - intros i Hi. unfold row in Hi. rewrite map_length, seq_length in Hi.
      rewrite row_nth by assumption. apply H. assumption.
  Qed.

  Lemma C07_seeds_proof : forall asserts (h : list (op K)) handle d g guess s0,
    generator asserts h handle d g ->
    CalculateInitialGuess (path asserts h) = Ok guess ->
    ConstructSwerveSolution g (pr_vals (g_problem g)) = Ok s0 ->
    let N := counts asserts h in
    let z := nlit 0 in
    s_x s0 = s_x guess /\ s_y s0 = s_y guess /\ s_thetacos s0 = s_thetacos guess /\ s_thetasin s0 = s_thetasin guess /\
    nth 0 (s_vx s0) z = z /\ nth 0 (s_vy s0) z = z /\ nth 0 (s_omega s0) z = z /\
    nth 0 (s_ax s0) z = z /\ nth 0 (s_ay s0) z = z /\ nth 0 (s_alpha s0) z = z /\
    (forall i, 1 <= i <= last_sample N ->
       let dt := nth i (s_dt guess) z in
       let rate f := ndiv (nsub (nth i f z) (nth (i - 1) f z)) dt in
       nth i (s_vx s0) z = rate (s_x guess) /\ nth i (s_vy s0) z = rate (s_y guess) /\
       nth i (s_omega s0) z =
         ndiv (rot_radians (rot_rotateBy (mkRot (nth i (s_thetacos guess) z) (nth i (s_thetasin guess) z))
                  (rot_neg (mkRot (nth (i - 1) (s_thetacos guess) z) (nth (i - 1) (s_thetasin guess) z))))) dt /\
       nth i (s_ax s0) z = rate (s_vx s0) /\ nth i (s_ay s0) z = rate (s_vy s0) /\
       nth i (s_alpha s0) z = rate (s_omega s0)) /\
    (forall i j, i <= last_sample N -> j < length (d_modules d) ->
       nth j (nth i (s_moduleFX s0) []) z = z /\ nth j (nth i (s_moduleFY s0) []) z = z) /\
    (forall s k, s < length N -> k < nth s N 0 ->
       nth (waypoint_sample N s + k) (s_dt s0) z = ndiv (nlit 5) (nofnat (nth s N 0))).
  Proof.
    intros asserts h handle d g guess s0 G Hg E N z.
    destruct (seeds_read asserts h handle d g G) as (guess' & p & Hg' & X1 & X2 & X3 & X4 & X5 & P & RD & V1 & V2 & V3).
    rewrite Hg in Hg'. injection Hg' as <-. rewrite RD in E. injection E as <-. rewrite P.
    fold N in X1, X2, X3, X4, X5, V1, V2, V3. fold N. set (T := 1 + list_sum N) in *.
    set (m := length (d_modules d)) in *.
    assert (TP : 0 < T) by (unfold T; lia).
    cbn [read_solution s_x s_y s_thetacos s_thetasin s_vx s_vy s_omega s_ax s_ay s_alpha s_moduleFX s_moduleFY s_dt].
    split; [apply row_eq; [exact X1|]; intros i Hi; apply (V1 0 i); [lia|assumption]|].
    split; [apply row_eq; [exact X2|]; intros i Hi; apply (V1 1 i); [lia|assumption]|].
    split; [apply row_eq; [exact X3|]; intros i Hi; apply (V1 2 i); [lia|assumption]|].
    split; [apply row_eq; [exact X4|]; intros i Hi; apply (V1 3 i); [lia|assumption]|].
    assert (RV : forall q i, q < 10 -> i < T -> nth i (row (pr_vals p) T m q) z = seed guess q i).
    { intros q i Hq Hi. rewrite row_nth by assumption. apply V1; assumption. }
    do 6 (split; [rewrite RV by lia; reflexivity|]).
    split; [|split].
    - intros i Hi. unfold last_sample in Hi.
      rewrite !RV by (unfold T; lia). destruct i as [|i]; [lia|]. replace (S i - 1) with i by lia.
      repeat split; reflexivity.
    - intros i j Hi Hj. unfold last_sample in Hi.
      rewrite !force_nth by (unfold T; lia).
      assert (B : forall f : nat -> K, nth j (map f (seq 0 m)) z = f j).
      { intros f. rewrite (nth_indep _ z (f 0)) by (rewrite map_length, seq_length; assumption).
        rewrite map_nth, seq_nth by assumption. reflexivity. }
      rewrite !B. apply V2; [unfold T; lia|assumption].
    - intros s k Hs Hk. change (waypoint_sample N s) with (start N s).
      etransitivity; [apply (dt_nth (fun s => pr_vals p (T * width m + s)) N s k z Hs Hk)|]. apply V3. assumption.
  Qed.

  (** ** C24 *)
  Lemma perm_flat_app : forall {A B} (f g : A -> list B) l,
    Permutation (flat_map (fun a => f a ++ g a) l) (flat_map f l ++ flat_map g l).
  Proof.
    induction l as [|a l IH]; [reflexivity|]. cbn [flat_map].
    rewrite IH. rewrite <- !app_assoc. apply Permutation_app_head.
    rewrite !app_assoc. apply Permutation_app_tail. apply Permutation_app_comm.
  Qed.
  Lemma perm_swap : forall {A B C} (f : A -> B -> C) la lb,
    Permutation (flat_map (fun a => map (f a) lb) la) (flat_map (fun b => map (fun a => f a b) la) lb).
  Proof.
    induction la as [|a la IH]; intros lb.
    - cbn [flat_map map]. induction lb; [reflexivity|exact IHlb].
    - cbn [flat_map map]. rewrite IH.
      change (fun b => f a b :: map (fun a0 => f a0 b) la) with (fun b => [f a b] ++ map (fun a0 => f a0 b) la).
      rewrite (perm_flat_app (fun b => [f a b])). apply Permutation_app_tail.
      clear. induction lb; [reflexivity|]. cbn [flat_map map app]. constructor. assumption.
  Qed.
  Lemma flat_map_map_out : forall {A B C} (f : B -> C) (g : A -> list B) l,
    flat_map (fun a => map f (g a)) l = map f (flat_map g l).
  Proof. induction l; [reflexivity|]. cbn [flat_map]. rewrite map_app, IHl. reflexivity. Qed.
  Lemma flat_map_ext_in : forall {A B} (f g : A -> list B) l, (forall a, In a l -> Permutation (f a) (g a)) ->
    Permutation (flat_map f l) (flat_map g l).
  Proof.
    induction l as [|a l IH]; intros H; [reflexivity|]. cbn [flat_map].
    apply Permutation_app; [apply H; left; reflexivity|]. apply IH. intros; apply H; right; assumption.
  Qed.
  Lemma interleave : forall base m,
    Permutation (map (fun j => base + (10 + 2 * j)) (seq 0 m) ++ map (fun j => base + (11 + 2 * j)) (seq 0 m))
      (seq (base + 10) (2 * m)).
  Proof.
    induction m as [|m IH]; [reflexivity|].
    rewrite seq_S, !map_app. cbn [map]. replace (2 * S m) with (S (S (2 * m))) by lia.
    rewrite !seq_S, <- IH, <- !app_assoc. apply Permutation_app_head. cbn [app].
    replace (base + (10 + 2 * (0 + m))) with (base + 10 + 2 * m) by lia.
    replace (base + (11 + 2 * (0 + m))) with (base + 10 + S (2 * m)) by lia.
    apply Permutation_middle.
  Qed.

  Lemma seq_rows : forall T w, seq 0 (T * w) = flat_map (fun i => seq (i * w) w) (seq 0 T).
  Proof.
    induction T as [|T IH]; intros w; [reflexivity|].
    rewrite seq_S, flat_map_app, <- IH. cbn [flat_map Nat.add]. rewrite app_nil_r.
    replace (S T * w) with (T * w + w) by lia. rewrite seq_app. reflexivity.
  Qed.

  Lemma layout_perm : forall T m S0,
    Permutation (all_variables (layout T m S0)) (map (@EVar K) (seq 0 (T * width m + S0))).
  Proof.
    intros T m S0. rewrite seq_app, map_app, seq_rows, <- flat_map_map_out. cbn [Nat.add].
    unfold all_variables, layout, force_rows. cbn [v_x v_y v_cos v_sin v_vx v_vy v_omega v_ax v_ay v_alpha v_Fx v_Fy v_dt].
    rewrite <- !flat_map_concat_map.
    set (X := flat_map (fun q => map (sv (K := K) m q) (seq 0 T)) (seq 0 10)).
    set (FX := flat_map (fun i => map (fxv (K := K) m i) (seq 0 m)) (seq 0 T)).
    set (FY := flat_map (fun i => map (fyv (K := K) m i) (seq 0 m)) (seq 0 T)).
    match goal with |- Permutation ?L _ =>
      replace L with ((X ++ FX ++ FY) ++ map (dtv (K := K) T m) (seq 0 S0))
        by (unfold X; cbn [seq flat_map]; rewrite app_nil_r, <- !app_assoc; reflexivity) end.
    apply Permutation_app.
    - unfold X, FX, FY. rewrite perm_swap.
      rewrite <- (perm_flat_app (fun i => map (fxv (K := K) m i) (seq 0 m))).
      rewrite <- (perm_flat_app (fun b => map (fun a => sv (K := K) m a b) (seq 0 10))).
      apply flat_map_ext_in. intros i _.
      change (seq (i * width m) (width m)) with (seq (i * width m) (10 + 2 * m)).
      rewrite (seq_app 10), map_app. apply Permutation_app.
      + cbn [seq map]. unfold sv. apply Permutation_refl'. repeat (apply f_equal2; [f_equal; lia|]). reflexivity.
      + rewrite <- interleave, map_app, !map_map. reflexivity.
    - rewrite <- (map_map (fun s => T * width m + s) (@EVar K)).
      apply Permutation_map. apply Permutation_refl'. apply seq_shift_add.
  Qed.

  Lemma C24_proof : forall asserts (h : list (op K)) handle d g, generator asserts h handle d g ->
    let v := g_vars g in
    let n := S (last_sample (counts asserts h)) in
    length (v_x v) = n /\ length (v_y v) = n /\ length (v_cos v) = n /\ length (v_sin v) = n /\
    length (v_vx v) = n /\ length (v_vy v) = n /\ length (v_omega v) = n /\
    length (v_ax v) = n /\ length (v_ay v) = n /\ length (v_alpha v) = n /\
    length (v_Fx v) = n /\ length (v_Fy v) = n /\
    Forall (fun r => length r = length (d_modules d)) (v_Fx v) /\
    Forall (fun r => length r = length (d_modules d)) (v_Fy v) /\
    length (v_dt v) = length (counts asserts h) /\
    Permutation (all_variables v) (map EVar (seq 0 (pr_nvars (g_problem g)))) /\
    NoDup (all_variables v).
  Proof.
    intros asserts h handle d g [C D] v n.
    destruct (construct_inversion _ handle g (path_inv asserts h) C) as (L & d' & p & D' & Eg & NV & _).
    rewrite D in D'. injection D' as <-. unfold v. rewrite Eg. cbn [g_vars g_problem].
    assert (P : Permutation (all_variables (layout (1 + list_sum (b_counts (path asserts h))) (length (d_modules d))
                 (length (b_counts (path asserts h))))) (map (@EVar K) (seq 0 (pr_nvars p))))
      by (rewrite NV; apply layout_perm).
    cbn [layout v_x v_y v_cos v_sin v_vx v_vy v_omega v_ax v_ay v_alpha v_Fx v_Fy v_dt].
    unfold force_rows. rewrite !map_length, !seq_length.
    do 12 (split; [reflexivity|]).
    split; [apply Forall_forall; intros r Hr; apply in_map_iff in Hr; destruct Hr as (i & <- & _);
            rewrite map_length, seq_length; reflexivity|].
    split; [apply Forall_forall; intros r Hr; apply in_map_iff in Hr; destruct Hr as (i & <- & _);
            rewrite map_length, seq_length; reflexivity|].
    split; [reflexivity|]. split; [exact P|].
    apply (Permutation_NoDup (Permutation_sym P)). apply FinFun.Injective_map_NoDup; [|apply seq_NoDup].
    intros a b E. injection E as E. exact E.
  Qed.
End Any.

Open Scope R_scope.

(** ** C07 over the reals *)
Lemma guess_dt_pos : forall N, 0 < guess_dt (K := R) N.
Proof.
  intros N. unfold guess_dt. cbn [ndiv nmul nlit Arith_R]. unfold Rdiv.
  assert (P : forall n, (0 < n)%nat -> 0 < nofnat (K := R) n).
  { intros n Hn. rewrite nofnat_R. apply lt_0_INR. exact Hn. }
  apply Rmult_lt_0_compat.
  - apply Rmult_lt_0_compat; [apply P; lia|]. unfold Q2R. simpl. lra.
  - apply Rinv_0_lt_compat. apply P. lia.
Qed.

(** The heading turned by the principal angle between two unit headings. *)
Lemma principal_turn : forall c0 s0 c1 s1 : R, c0 * c0 + s0 * s0 = 1 -> c1 * c1 + s1 * s1 = 1 ->
  let t := Ratan2 (c1 * - s0 + s1 * c0) (c1 * c0 - s1 * - s0) in
  c1 = c0 * cos t - s0 * sin t /\ s1 = c0 * sin t + s0 * cos t.
Proof.
  intros c0 s0 c1 s1 U0 U1 t. unfold t.
  destruct (Ratan2_unit (c1 * c0 - s1 * - s0) (c1 * - s0 + s1 * c0)) as [-> ->].
  { transitivity ((c0 * c0 + s0 * s0) * (c1 * c1 + s1 * s1)); [ring|]. rewrite U0, U1. ring. }
  split.
  - transitivity ((c0 * c0 + s0 * s0) * c1); [rewrite U0|]; ring.
  - transitivity ((c0 * c0 + s0 * s0) * s1); [rewrite U0|]; ring.
Qed.

Lemma C07_consistent_proof : forall asserts h handle d g guess s0,
  Forall proper_call h -> all_returned asserts h new_builder ->
  generator asserts h handle d g ->
  CalculateInitialGuess (path asserts h) = Ok guess ->
  ConstructSwerveSolution g (pr_vals (g_problem g)) = Ok s0 ->
  (forall p, In (OWptInitialGuessPoint 0 p) h -> unit_rot (pRot p)) ->
  let N := counts asserts h in
  let dt := 5 * INR (S (length N)) / INR (S (last_sample N)) in
  0 < dt /\
  forall i, (1 <= i <= last_sample N)%nat ->
    nth i (s_dt guess) 0 = dt /\
    let a := at_sample s0 (i - 1) in let b := at_sample s0 i in
    moves a b dt /\ turns a b dt /\ accelerates a b dt /\ principal (q_w b * dt).
Proof.
  intros asserts h handle d g guess s0 Hp Hr G Hg E HU N dt.
  destruct (C07_seeds_proof asserts h handle d g guess s0 G Hg E)
    as (E1 & E2 & E3 & E4 & _ & _ & _ & _ & _ & _ & M & _).
  destruct (seeds_read asserts h handle d g G) as (guess' & p & Hg' & X1 & X2 & X3 & X4 & X5 & _).
  rewrite Hg in Hg'. injection Hg' as <-.
  assert (DT : guess_dt (K := R) N = dt).
  { unfold guess_dt, dt. rewrite !nofnat_R. cbn [ndiv nmul nlit Arith_R].
    replace (length N + 1)%nat with (S (length N)) by lia.
    change (1 + list_sum N)%nat with (S (last_sample N)). unfold Q2R. simpl. unfold Rdiv. 
    replace (5 * / 1) with 5 by field. ring. }
  assert (DP : 0 < dt) by (rewrite <- DT; apply guess_dt_pos).
  split; [exact DP|]. intros i Hi.
  assert (DI : nth i (s_dt guess) 0 = dt).
  { rewrite X5. fold N. unfold last_sample in Hi.
    rewrite (nth_indep _ 0 (guess_dt N)) by (rewrite repeat_length; fold N; lia).
    rewrite nth_repeat. exact DT. }
  split; [exact DI|].
  pose proof (M i Hi) as M'. cbn beta zeta in M'.
  cbn [nsub ndiv nlit Arith_R] in M'. rewrite Q2R_0 in M'. rewrite DI in M'.
  destruct M' as (M1 & M2 & M3 & M4 & M5 & M6).
  assert (UN : forall k, (k <= last_sample N)%nat ->
     nth k (s_thetacos guess) 0 * nth k (s_thetacos guess) 0 + nth k (s_thetasin guess) 0 * nth k (s_thetasin guess) 0 = 1).
  { intros k Hk. apply (C06_proof asserts h guess Hp Hr Hg HU).
    rewrite X3. fold N. unfold last_sample in Hk. lia. }
  pose proof (UN i ltac:(lia)) as U1. pose proof (UN (i - 1)%nat ltac:(lia)) as U0.
  set (c1 := nth i (s_thetacos guess) 0) in *. set (s1 := nth i (s_thetasin guess) 0) in *.
  set (c0 := nth (i - 1) (s_thetacos guess) 0) in *. set (s0' := nth (i - 1) (s_thetasin guess) 0) in *.
  assert (W : nth i (s_omega s0) 0 * dt = Ratan2 (c1 * - s0' + s1 * c0) (c1 * c0 - s1 * - s0')).
  { rewrite M3. rnum. field. lra. }
  destruct (principal_turn c0 s0' c1 s1 U0 U1) as [T1 T2].
  unfold moves, turns, accelerates, at_sample. cbn [q_x q_y q_c q_s q_vx q_vy q_w q_ax q_ay q_al].
  rewrite E1, E2, E3, E4, M1, M2. rewrite W. fold c1 s1 c0 s0'. rewrite M4, M5, M6.
  split; [split; field; lra|]. split; [split; [exact T1|exact T2]|].
  split; [|apply Ratan2_range].
  rewrite M1, M2. repeat split; field; lra.
Qed.
