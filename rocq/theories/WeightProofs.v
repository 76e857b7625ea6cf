(** The objective for any number of intervals (C112). *)
From Coq Require Import List Lia Lra Psatz Reals ZArith.
Import ListNotations.
From Verif Require Import Outcome Num NumR Geometry Expr Constraints Util Builder Guess Generator Trajectory
  Spec SpecBuilder SpecPhysics SpecTrajectory SpecGenerator SpecSizes Semantics
  GeometryFacts BuilderFacts GeneratorFacts SeedFacts FeasibleFacts GeneratorProofs HistoryFacts SolutionProofs TrajectoryProofs GeneratorCases PartsCases.
Open Scope R_scope.

Lemma weight_unique : forall n v w, int_of n v -> int_of n w -> v = w.
Proof. intros n v w (A & k & E) (B & j & F). assert (k = j) by lia. subst. lia. Qed.
Lemma weight_i32 : forall n, int_of n (to_i32 (Z.of_nat n)).
Proof.
  intros n. unfold int_of, to_i32. pose proof (Z.mod_pos_bound (Z.of_nat n) (2 ^ 32) ltac:(lia)).
  pose proof (Z.div_mod (Z.of_nat n) (2 ^ 32) ltac:(lia)). cbv zeta.
  destruct (Z.ltb_spec (Z.of_nat n mod 2 ^ 32) (2 ^ 31)).
  - split; [lia|]. exists (Z.of_nat n / 2 ^ 32)%Z. lia.
  - split; [lia|]. exists (Z.of_nat n / 2 ^ 32 + 1)%Z. lia.
Qed.
Lemma C112_weights_case_proof : forall n, (Z.of_nat n = 2 ^ 32 + 3)%Z -> int_of n 3 /\ int_of 40 40.
Proof. intros n E. split; (split; [lia|]); [exists 1%Z|exists 0%Z]; lia. Qed.

Lemma C112_weights_proof : forall asserts h handle d g env sol w, generator asserts h handle d g ->
  ConstructSwerveSolution g env = Ok sol ->
  (forall s, (s < length (counts asserts h))%nat -> (1 <= nth s (counts asserts h) 0)%nat /\ int_of (nth s (counts asserts h) 0%nat) (w s)) ->
  exists e, pr_obj (g_problem g) = Some e /\ defined env e /\
    eval env e = sum (map (fun s => IZR (w s) * step_to sol (S (waypoint_sample (counts asserts h) s)))
      (seq 0 (length (counts asserts h)))).
Proof.
  intros asserts h handle d g env sol w G E B.
  destruct G as [C D].
  destruct (construct_inversion _ handle g (path_inv asserts h) C) as (L & d' & p & D' & Eg & _ & _ & O).
  rewrite D in D'. injection D' as <-. unfold counts in *.
  set (N := b_counts (path asserts h)) in *. set (T := (1 + list_sum N)%nat) in *. set (m := length (d_modules d)) in *.
  assert (Es : sol = read_solution T m N env).
  { rewrite Eg in E. rewrite read_ok in E. injection E as <-. reflexivity. }
  exists (objective T m N). rewrite Eg. cbn [g_problem]. split; [exact O|].
  assert (OBJ : forall n, (n <= length N)%nat ->
     let e := fold_left (fun t s => nadd t (nmul (dtv T m s) (EConst (nofZ (to_i32 (Z.of_nat (nth s N 0%nat)))))))
        (seq 0 n) (nlit 0) in
     defined env e /\
     eval env e = sum (map (fun s => IZR (w s) * step_to sol (S (waypoint_sample N s))) (seq 0 n))).
  { induction n as [|n IH]; intros Hn e.
    - subst e. simpl. split; [exact I|]. apply Q2R_0.
    - subst e. rewrite seq_S, fold_left_app, map_app. cbn [fold_left map Nat.add].
      destruct (IH ltac:(lia)) as [I1 I2]. rewrite sum_app, <- I2.
      cbn [nadd nmul Arith_expr defined eval]. split; [repeat split; try exact I; exact I1|].
      unfold dtv. cbn [eval sum]. destruct (B n ltac:(lia)) as (P & W).
      rewrite (weight_unique _ _ _ (weight_i32 (nth n N 0%nat)) W).
      pose proof (step_val env T m N eq_refl n 0 ltac:(lia) ltac:(lia)) as St. rewrite Nat.add_0_r in St.
      fold (read_solution T m N env) in St. rewrite <- Es in St.
      change (S (waypoint_sample N n)) with (1 + start N n)%nat. rewrite St. cbn [nofZ Dbl_R].
      match goal with |- ?a + _ = ?b + _ => change b with a end. rnum. lra. }
  destruct (OBJ (length N) (le_n _)) as [O1 O2]. split; [exact O1|exact O2].
Qed.

(** One segment. *)
Lemma one_duration : forall asserts h handle d g env sol n, generator asserts h handle d g ->
  ConstructSwerveSolution g env = Ok sol -> counts asserts h = [n] -> (1 <= n)%nat ->
  sum (s_dt sol) = INR n * step_to sol 1.
Proof.
  intros asserts h handle d g env sol n [C D] E N Pos.
  destruct (construct_inversion _ handle g (path_inv asserts h) C) as (L & d' & p & D' & Eg & _ & _ & O).
  rewrite Eg in E. rewrite read_ok in E. injection E as <-. unfold counts in N. rewrite N.
  cbn [s_dt read_solution step_to]. unfold step_to. cbn [s_dt read_solution length seq flat_map nth]. rewrite app_nil_r, sum_repeat.
  destruct n as [|n]; [lia|]. cbn [Nat.sub repeat nth]. ring.
Qed.
Lemma big_int : forall n, (2 ^ 31 <= Z.of_nat n < 2 ^ 32)%Z -> int_of n (Z.of_nat n - 2 ^ 32).
Proof. intros n Hn. split; [lia|]. exists 1%Z. lia. Qed.
Lemma C112_one_proof : forall asserts h handle d g env sol n, generator asserts h handle d g ->
  ConstructSwerveSolution g env = Ok sol -> counts asserts h = [n] -> (2 ^ 31 <= Z.of_nat n < 2 ^ 32)%Z ->
  exists e, pr_obj (g_problem g) = Some e /\ defined env e /\
    eval env e = - (IZR (2 ^ 32 - Z.of_nat n) / IZR (Z.of_nat n)) * sum (s_dt sol).
Proof.
  intros asserts h handle d g env sol n G E N B.
  destruct (C112_weights_proof asserts h handle d g env sol (fun _ => (Z.of_nat n - 2 ^ 32)%Z) G E) as (e & O & De & Ev).
  { rewrite N. intros [|s] Hs; [|cbn in Hs; lia]. cbn [nth]. split; [lia|apply big_int, B]. }
  exists e. split; [exact O|]. split; [exact De|]. rewrite Ev, N, (one_duration asserts h handle d g env sol n G E N) by lia.
  cbn [length seq map sum]. unfold waypoint_sample. cbn [firstn list_sum fold_right]. rewrite INR_IZR_INZ, !minus_IZR.
  assert (0 < IZR (Z.of_nat n)) by (apply IZR_lt; lia). field. lra.
Qed.
Lemma C112_longer_proof : forall asserts h handle d g n env1 sol1 env2 sol2, generator asserts h handle d g ->
  counts asserts h = [n] -> (2 ^ 31 <= Z.of_nat n < 2 ^ 32)%Z ->
  ConstructSwerveSolution g env1 = Ok sol1 -> ConstructSwerveSolution g env2 = Ok sol2 -> sum (s_dt sol1) < sum (s_dt sol2) ->
  exists e, pr_obj (g_problem g) = Some e /\ eval env2 e < eval env1 e.
Proof.
  intros asserts h handle d g n env1 sol1 env2 sol2 G N B E1 E2 L.
  destruct (C112_one_proof asserts h handle d g env1 sol1 n G E1 N B) as (e & O & _ & V1).
  destruct (C112_one_proof asserts h handle d g env2 sol2 n G E2 N B) as (e' & O' & _ & V2).
  rewrite O in O'. injection O' as <-. exists e. split; [exact O|]. rewrite V1, V2.
  assert (0 < IZR (2 ^ 32 - Z.of_nat n) / IZR (Z.of_nat n)) by (apply Rdiv_lt_0_compat; apply IZR_lt; lia). nra.
Qed.

(** ** A robot that stands still, [n] intervals of [t] seconds *)
Definition waiting (n : nat) (t : R) : solution R :=
  let z := repeat 0 (S n) in
  mkSolution (repeat t n) z z (repeat 1 (S n)) z z z z z z z (repeat [0; 0] (S n)) (repeat [0; 0] (S n)).
Lemma nth_rep : forall {A} (a d : A) n i, (i < n)%nat -> nth i (repeat a n) d = a.
Proof. intros A a d n i Hi. rewrite (nth_indep _ d a) by (rewrite repeat_length; exact Hi). apply nth_repeat. Qed.
Lemma waiting_at : forall n t i, (i <= n)%nat -> at_sample (waiting n t) i = mkState 0 0 1 0 0 0 0 0 0 0.
Proof.
  intros n t i Hi. unfold at_sample, waiting. cbn [s_x s_y s_thetacos s_thetasin s_vx s_vy s_omega s_ax s_ay s_alpha].
  rewrite (nth_rep 1), nth_repeat by lia. reflexivity.
Qed.
Lemma waiting_solved : forall asserts n t g, (1 <= n)%nat -> 0 <= t <= 1/2 -> generator asserts (idle [n]) 0 cart g -> solved g (waiting n t).
Proof.
  intros asserts n t g Pos Ht G. assert (C : counts asserts (idle [n]) = [n]) by (destruct asserts; reflexivity).
  assert (LS : last_sample [n] = n) by (unfold last_sample; simpl; lia).
  assert (St : forall i, (1 <= i <= n)%nat -> step_to (waiting n t) i = t).
  { intros i Hi. unfold step_to, waiting. cbn [s_dt]. apply nth_rep. lia. }
  apply (solved_intro asserts (idle [n]) 0 cart g _ (idle_good asserts _) G cart_wheels); rewrite ?C.
  - intros k [<-|[]]. exact Pos.
  - unfold well_shaped. cbv zeta. rewrite LS. unfold waiting.
    cbn [s_dt s_x s_y s_thetacos s_thetasin s_vx s_vy s_omega s_ax s_ay s_alpha s_moduleFX s_moduleFY]. rewrite !repeat_length.
    repeat split; apply Forall_forall; intros x Hx; apply repeat_spec in Hx; subst x; reflexivity.
  - intros s k Hs Hk. destruct s as [|s]; [|cbn in Hs; lia]. cbn [nth] in Hk. unfold waypoint_sample. cbn [firstn list_sum fold_right Nat.add].
    rewrite !St by lia. reflexivity.
  - unfold obeys_physics. rewrite LS. split.
    + intros i Hi. cbv zeta. rewrite !waiting_at, St by lia. split; [apply cart_steps; lra|].
      unfold moves, turns_up_to_half, accelerates. cbn [q_x q_y q_c q_s q_vx q_vy q_w q_ax q_ay q_al].
      rewrite Rmult_0_l, cos_0, sin_0. split; [split; ring|]. split; [left; split; lra|]. repeat split; ring.
    + intros i Hi. assert (F : forces (waiting n t) i = [(0, 0); (0, 0)]).
      { unfold forces, waiting. cbn [s_moduleFX s_moduleFY]. rewrite nth_rep by lia. reflexivity. }
      rewrite F, waiting_at by lia. split; [|split].
      * unfold newton, cross2, turned; simpl; repeat split; lra.
      * intros md [<-|[<-|[]]]; unfold wheel_velocity; simpl; apply norm2_le; lra.
      * intros md fo [E|[E|[]]]; injection E as <- <-; simpl; apply norm2_le; lra.
  - split; intros w c; [intros _ Hc|intros i _ Hc _]; destruct (idle_requests [n] w) as [E1 E2];
      [rewrite E1 in Hc|rewrite E2 in Hc]; contradiction.
Qed.
Lemma waiting_time : forall n t, sum (s_dt (waiting n t)) = INR n * t.
Proof. intros. unfold waiting. cbn [s_dt]. rewrite sum_repeat. ring. Qed.

(** With 2^31 to 2^32 - 1 intervals, the robot may end at once and yet the
    objective prefers to stand for half a second per interval. *)
Lemma C112_case_proof : forall asserts n, (2 ^ 31 <= Z.of_nat n < 2 ^ 32)%Z ->
  exists g env1 env2, good_history asserts (idle [n]) /\ generator asserts (idle [n]) 0 cart g /\ counts asserts (idle [n]) = [n] /\
    feasible env1 (g_problem g) /\ ConstructSwerveSolution g env1 = Ok (waiting n 0) /\
    feasible env2 (g_problem g) /\ ConstructSwerveSolution g env2 = Ok (waiting n (1/2)) /\
    sum (s_dt (waiting n 0)) < sum (s_dt (waiting n (1/2))) /\
    exists e, pr_obj (g_problem g) = Some e /\ eval env2 e < eval env1 e.
Proof.
  intros asserts n B. destruct (idle_generator asserts [n] ltac:(simpl; lia)) as [g G].
  destruct (waiting_solved asserts n 0 g ltac:(lia) ltac:(lra) G) as (e1 & F1 & R1).
  destruct (waiting_solved asserts n (1/2) g ltac:(lia) ltac:(lra) G) as (e2 & F2 & R2).
  assert (C : counts asserts (idle [n]) = [n]) by (destruct asserts; reflexivity).
  assert (L : sum (s_dt (waiting n 0)) < sum (s_dt (waiting n (1/2)))).
  { rewrite !waiting_time. assert (0 < INR n) by (apply lt_0_INR; lia). lra. }
  exists g, e1, e2. split; [apply idle_good|]. split; [exact G|]. split; [exact C|]. split; [exact F1|]. split; [exact R1|].
  split; [exact F2|]. split; [exact R2|]. split; [exact L|].
  exact (C112_longer_proof asserts _ _ _ g n e1 _ e2 _ G C B R1 R2 L).
Qed.
Lemma C112_refuted_proof : ~ (forall asserts h handle d g env1 sol1 env2 sol2 e, good_history asserts h ->
  generator asserts h handle d g -> real_wheels d -> (forall n, In n (counts asserts h) -> (1 <= n)%nat) ->
  feasible env1 (g_problem g) -> ConstructSwerveSolution g env1 = Ok sol1 ->
  feasible env2 (g_problem g) -> ConstructSwerveSolution g env2 = Ok sol2 ->
  pr_obj (g_problem g) = Some e -> sum (s_dt sol1) < sum (s_dt sol2) -> eval env1 e < eval env2 e).
Proof.
  intros H. assert (Ex : exists n, (2 ^ 31 <= Z.of_nat n < 2 ^ 32)%Z).
  { exists (Z.to_nat (2 ^ 31)). rewrite Z2Nat.id; lia. }
  destruct Ex as [n B]. destruct (C112_case_proof true n B) as (g & e1 & e2 & GH & G & C & F1 & R1 & F2 & R2 & L & e & O & V).
  assert (P : forall k, In k (counts true (idle [n])) -> (1 <= k)%nat) by (rewrite C; intros k [<-|[]]; lia).
  pose proof (H _ _ _ _ _ _ _ _ _ e GH G cart_wheels P F1 R1 F2 R2 O L). lra.
Qed.

(** ** Exactly when the objective is the duration *)
Lemma C112_exact_proof : forall asserts h handle d g, generator asserts h handle d g ->
  (forall n, In n (counts asserts h) -> (1 <= n)%nat) ->
  ((forall env sol, ConstructSwerveSolution g env = Ok sol ->
      exists e, pr_obj (g_problem g) = Some e /\ eval env e = sum (s_dt sol)) <->
   (forall n, In n (counts asserts h) -> (Z.of_nat n < 2 ^ 31)%Z)).
Proof.
  intros asserts h handle d g G Pos. split.
  - intros H n Hn. destruct (Z_lt_le_dec (Z.of_nat n) (2 ^ 31)) as [L|L]; [exact L|exfalso].
    set (N := counts asserts h) in *. set (env := fun _ : nat => 1).
    pose (w := fun s => to_i32 (Z.of_nat (nth s N 0%nat))).
    assert (exists sol, ConstructSwerveSolution g env = Ok sol) as [sol E].
    { destruct (C25_proof asserts h handle d g env G) as (s & E & _). exists s. exact E. }
    destruct (H env sol E) as (e & O & V).
    destruct (C112_weights_proof asserts h handle d g env sol w G E) as (e' & O' & _ & V').
    { intros s Hs. split; [apply Pos, nth_In, Hs|apply weight_i32]. }
    fold N in V'. rewrite O in O'. injection O' as <-. rewrite V in V'.
    assert (Le : forall k, (IZR (to_i32 (Z.of_nat k)) <= INR k)).
    { intros k. rewrite INR_IZR_INZ. apply IZR_le. destruct (weight_i32 k) as (A & j & Ej). lia. }
    assert (Lt : IZR (to_i32 (Z.of_nat n)) < INR n).
    { rewrite INR_IZR_INZ. apply IZR_lt. destruct (weight_i32 n) as (A & j & Ej). lia. }
    assert (Dur : sum (s_dt sol) = sum (map (fun s => INR (nth s N 0%nat)) (seq 0 (length N)))).
    { destruct G as [C D]. destruct (construct_inversion _ handle g (path_inv asserts h) C) as (_ & d' & p & _ & Eg & _).
      rewrite Eg in E. rewrite read_ok in E. injection E as <-. cbn [s_dt read_solution]. fold (counts asserts h). fold N.
      generalize (seq 0 (length N)). induction l as [|s l IH]; [reflexivity|]. cbn [flat_map map sum]. rewrite sum_app, sum_repeat, IH.
      unfold env. ring. }
    assert (One : forall s, (s < length N)%nat -> step_to sol (S (waypoint_sample N s)) = 1).
    { intros s Hs. destruct G as [C D]. destruct (construct_inversion _ handle g (path_inv asserts h) C) as (_ & d' & p & _ & Eg & _).
      rewrite Eg in E. rewrite read_ok in E. injection E as <-. fold (counts asserts h). fold N.
      pose proof (step_val env (1 + list_sum N) (length (d_modules d')) N eq_refl s 0 ltac:(exact Hs)) as St.
      rewrite Nat.add_0_r in St. fold (read_solution (1 + list_sum N) (length (d_modules d')) N env) in St.
      apply St. specialize (Pos (nth s N 0%nat) (nth_In _ _ Hs)). lia. }
    assert (M : sum (map (fun s => IZR (w s) * step_to sol (S (waypoint_sample N s))) (seq 0 (length N)))
       = sum (map (fun k => IZR (to_i32 (Z.of_nat k))) N)).
    { transitivity (sum (map (fun s => IZR (to_i32 (Z.of_nat (nth s N 0%nat)))) (seq 0 (length N)))).
      - f_equal. apply map_ext_in. intros s Hs. apply in_seq in Hs. rewrite One by lia. unfold w. ring.
      - f_equal. rewrite <- (map_map (fun s => nth s N 0%nat) (fun k => IZR (to_i32 (Z.of_nat k)))).
        f_equal. apply (nth_ext _ _ 0%nat 0%nat); [rewrite map_length, seq_length; reflexivity|].
        intros k Hk. rewrite map_length, seq_length in Hk.
        rewrite (nth_indep _ 0%nat (nth 0 N 0%nat)) by (rewrite map_length, seq_length; exact Hk).
        change (nth 0 N 0%nat) with ((fun s => nth s N 0%nat) 0%nat). rewrite map_nth, seq_nth by exact Hk. reflexivity. }
    assert (M2 : sum (map (fun s => INR (nth s N 0%nat)) (seq 0 (length N))) = sum (map INR N)).
    { f_equal. rewrite <- (map_map (fun s => nth s N 0%nat) INR). f_equal.
      apply (nth_ext _ _ 0%nat 0%nat); [rewrite map_length, seq_length; reflexivity|].
      intros k Hk. rewrite map_length, seq_length in Hk.
      rewrite (nth_indep _ 0%nat (nth 0 N 0%nat)) by (rewrite map_length, seq_length; exact Hk).
      change (nth 0 N 0%nat) with ((fun s => nth s N 0%nat) 0%nat). rewrite map_nth, seq_nth by exact Hk. reflexivity. }
    rewrite Dur, M, M2 in V'.
    assert (SLe : forall l, sum (map (fun k => IZR (to_i32 (Z.of_nat k))) l) <= sum (map INR l)).
    { induction l as [|k l IH]; cbn [map sum]; [lra|]. specialize (Le k). lra. }
    assert (SLt : forall l, In n l -> sum (map (fun k => IZR (to_i32 (Z.of_nat k))) l) < sum (map INR l)).
    { induction l as [|k l IH]; [contradiction|]. intros [->|Hi]; cbn [map sum].
      - specialize (SLe l). lra.
      - specialize (IH Hi). specialize (Le k). lra. }
    specialize (SLt N Hn). lra.
  - intros B env sol E.
    destruct (C22_proof asserts h handle d g env sol G E B) as (e & _ & _ & O & _ & V & _). exists e. split; [exact O|exact V].
Qed.
