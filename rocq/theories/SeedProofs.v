(** Seeds against the constraints of the problem: C07. *)
From Coq Require Import List Lia Lra Psatz Reals ZArith SpecFloat.
Import ListNotations.
From Verif Require Import Outcome Num NumR NumF64 Geometry Expr Constraints Util Builder Guess Generator Trajectory
  Spec SpecBuilder SpecPhysics SpecGuess SpecTrajectory SpecGenerator Semantics
  UtilFacts GeometryFacts BuilderFacts BuilderHistory ConstraintFacts GuessFacts GuessProofs GeneratorFacts SeedFacts FeasibleFacts
  GeneratorProofs HistoryFacts SolutionProofs TrajectoryProofs GeneratorCases GeneratorMore.
Local Open Scope nat_scope.

Lemma C07_step_proof : forall (K : Type) (HA : Arith K) (HD : Dbl K) asserts (h : list (op K)) handle d g,
  generator asserts h handle d g ->
  let N := counts asserts h in
  length (v_dt (g_vars g)) = length N /\
  forall s, s < length N -> exists v, nth_error (v_dt (g_vars g)) s = Some (EVar v) /\
    pr_vals (g_problem g) v = ndiv (nlit 5) (nofnat (nth s N 0)).
Proof.
  intros K HA HD asserts h handle d g G N.
  destruct (seeds_read asserts h handle d g G) as (guess & p & _ & _ & _ & _ & _ & _ & P & _ & _ & _ & V3).
  destruct G as [C D].
  destruct (construct_inversion _ handle g (path_inv asserts h) C) as (L & d' & p' & D' & Eg & _).
  rewrite D in D'. injection D' as <-. rewrite P.
  rewrite Eg. cbn [g_vars layout v_dt]. fold (counts asserts h). fold N.
  split; [rewrite map_length, seq_length; reflexivity|].
  intros s Hs. eexists. split; [|apply V3; exact Hs].
  rewrite nth_error_map_seq. fold (counts asserts h). fold N.
  rewrite (proj2 (Nat.ltb_lt s (length N)) Hs). reflexivity.
Qed.

(** With a count of zero the seed of the segment's step is infinite in doubles. *)
Lemma C07_infinite_proof : forall fcos fsin fatan2 fhypot,
  let HA := Arith_f64 fcos fsin fatan2 fhypot in
  let z := S754_zero false in
  let h := [OSetDrivetrain (mkDrivetrain z z []); OPoseWpt 0 z z z; OPoseWpt 1 z z z;
            OControlIntervalCounts [0]] in
  exists d g v, generator true h 0 d g /\ nth_error (v_dt (g_vars g)) 0 = Some (EVar v) /\
    pr_vals (g_problem g) v = S754_infinity false.
Proof.
  intros fcos fsin fatan2 fhypot HA z h.
  destruct (generator_exists true h 0%Z (mkDrivetrain z z [])) as [g G].
  - apply Nat.ltb_lt. reflexivity.
  - reflexivity.
  - exists (mkDrivetrain z z []), g.
    destruct (C07_step_proof f64 HA _ true h 0%Z _ g G) as [_ S].
    destruct (S 0) as (v & E & V); [apply Nat.ltb_lt; reflexivity|].
    exists v. split; [exact G|]. split; [exact E|]. exact (eq_trans V eq_refl).
Qed.

Open Scope R_scope.

(** The seeds of positions and velocities satisfy the problem's integration
    constraint only where the two time steps agree or the robot does not move. *)
Lemma C07_mismatch_proof : forall asserts h handle d g guess s0,
  Forall proper_call h -> all_returned asserts h new_builder ->
  generator asserts h handle d g ->
  CalculateInitialGuess (path asserts h) = Ok guess ->
  ConstructSwerveSolution g (pr_vals (g_problem g)) = Ok s0 ->
  (forall p, In (OWptInitialGuessPoint 0 p) h -> unit_rot (pRot p)) ->
  let N := counts asserts h in
  let dt := 5 * INR (S (length N)) / INR (S (last_sample N)) in
  forall s k, (s < length N)%nat -> (k < nth s N 0)%nat ->
    let i := (waypoint_sample N s + k + 1)%nat in
    let a := at_sample s0 (i - 1) in let b := at_sample s0 i in
    step_to s0 i = 5 / INR (nth s N 0%nat) /\
    (moves a b (step_to s0 i) <-> dt = 5 / INR (nth s N 0%nat) \/ (q_x b = q_x a /\ q_y b = q_y a)).
Proof.
  intros asserts h handle d g guess s0 Hp Hr G Hg E HU N dt s k Hs Hk i a b.
  destruct (C07_seeds_proof asserts h handle d g guess s0 G Hg E) as (_ & _ & _ & _ & _ & _ & _ & _ & _ & _ & _ & _ & S).
  destruct (C07_consistent_proof asserts h handle d g guess s0 Hp Hr G Hg E HU) as [DP M].
  fold N in M, S, DP. fold dt in M, DP.
  assert (Hi : (1 <= i <= last_sample N)%nat).
  { unfold i, waypoint_sample, last_sample. pose proof (list_sum_firstn_S N s). pose proof (list_sum_firstn_le N (Datatypes.S s)). lia. }
  assert (ST : step_to s0 i = 5 / INR (nth s N 0%nat)).
  { specialize (S s k Hs Hk). cbn [ndiv nlit Arith_R] in S. rewrite nofnat_R in S.
    unfold step_to. replace (i - 1)%nat with (waypoint_sample N s + k)%nat by (unfold i; lia).
    rewrite Q2R_0 in S. etransitivity; [exact S|]. f_equal. unfold Q2R. simpl. lra. }
  split; [exact ST|]. rewrite ST. destruct (M i Hi) as (_ & (M1 & M2) & _). fold a b in M1, M2.
  unfold moves. set (t := 5 / INR (nth s N 0%nat)). split.
  - intros [X Y]. destruct (Req_dec dt t) as [Eq|Eq]; [left; exact Eq|right].
    assert (Z : forall u v p, p = u + v * dt -> p = u + v * t -> p = u).
    { intros u v p P1 P2. assert (v * (dt - t) = 0) by lra. apply Rmult_integral in H. destruct H; [|lra].
      subst v. lra. }
    split; [apply (Z _ _ _ M1 X)|apply (Z _ _ _ M2 Y)].
  - intros [Eq|[Ex Ey]].
    + rewrite <- Eq. split; assumption.
    + assert (Z : forall u v p, p = u + v * dt -> p = u -> p = u + v * t).
      { intros u v p P1 P2. assert (v * dt = 0) by lra. apply Rmult_integral in H. destruct H; [|lra].
        subst v. lra. }
      split; [apply (Z _ _ _ M1 Ex)|apply (Z _ _ _ M2 Ey)].
Qed.

(** A path of two intervals: guess step 10/3, seed step 5/2. *)
Definition stroll : list (op R) :=
  [OSetDrivetrain cart; OPoseWpt 0 0 0 0; OPoseWpt 1 1 0 0; OControlIntervalCounts [2%nat]].
Lemma stroll_generator : exists g, generator true stroll 0 cart g.
Proof. apply generator_exists; [apply Nat.ltb_lt; reflexivity|reflexivity]. Qed.
Lemma stroll_good : good_history true stroll.
Proof. repeat split; repeat constructor. Qed.
Lemma stroll_case : exists g guess s0, good_history true stroll /\ generator true stroll 0 cart g /\
  CalculateInitialGuess (path true stroll) = Ok guess /\
  ConstructSwerveSolution g (pr_vals (g_problem g)) = Ok s0 /\
  (forall p, In (OWptInitialGuessPoint 0 p) stroll -> unit_rot (pRot p)) /\
  counts true stroll = [2%nat].
Proof.
  destruct stroll_generator as [g G].
  destruct (seeds_read true stroll 0%Z cart g G) as (guess & p & Hg & _ & _ & _ & _ & _ & _ & RD & _).
  exists g, guess, (read_solution (1 + list_sum (counts true stroll)) (length (d_modules cart)) (counts true stroll) (pr_vals (g_problem g))).
  split; [exact stroll_good|]. split; [exact G|]. split; [exact Hg|]. split; [apply RD|].
  split; [|reflexivity]. intros q Hq. unfold stroll in Hq. destruct Hq as [Hq|[Hq|[Hq|[Hq|[]]]]]; discriminate Hq.
Qed.

Lemma C07_refuted_proof : ~ (forall asserts h handle d g s0, good_history asserts h ->
  generator asserts h handle d g ->
  ConstructSwerveSolution g (pr_vals (g_problem g)) = Ok s0 ->
  forall i, (1 <= i <= last_sample (counts asserts h))%nat ->
  moves (at_sample s0 (i - 1)) (at_sample s0 i) (step_to s0 i)).
Proof.
  intros H. destruct stroll_case as (g & guess & s0 & Gd & G & Hg & E & HU & C).
  pose proof (H true stroll 0%Z cart g s0 Gd G E 1%nat ltac:(rewrite C; simpl; lia)) as M.
  destruct Gd as (P & _ & R0).
  destruct (C07_mismatch_proof true stroll 0%Z cart g guess s0 P R0 G Hg E HU 0%nat 0%nat) as [_ X];
    [rewrite C; simpl; lia|rewrite C; simpl; lia|].
  rewrite C in X. unfold waypoint_sample, last_sample in X. cbn [firstn list_sum fold_right Nat.add length nth] in X.
  apply X in M. destruct M as [M|[M _]].
  - simpl in M. lra.
  - destruct (C07_seeds_proof true stroll 0%Z cart g guess s0 G Hg E) as (EX & _).
    unfold at_sample in M. cbn [q_x Nat.sub] in M. rewrite EX in M.
    destruct (C05_start true stroll guess P R0 Hg) as (_ & X0 & _).
    pose proof (C05_proof true stroll guess P R0 Hg 0%nat 0%nat 1%nat) as X1.
    cbv zeta in X1. change (GetControlIntervalCounts (run_ops true stroll new_builder)) with [2%nat] in X1.
    change (route stroll 1) with [pose_xyh 0 0 0; pose_xyh 1 0 0] in X1.
    cbn [length Nat.sub nth] in X1.
    destruct (X1 ltac:(lia) ltac:(lia) ltac:(simpl; lia)) as (X2 & _).
    change (segment_start [2%nat] 0 + reached_after 2 1 0 + 1)%nat with 1%nat in X2.
    change (reached_after 2 1 1 - reached_after 2 1 0)%nat with 2%nat in X2.
    rewrite X2 in M. rewrite X0 in M. cbn in M. lra.
Qed.
