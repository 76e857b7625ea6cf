(** Concrete cases meeting the hypotheses of the generator and trajectory
    theorems. *)
From Coq Require Import List Lia Lra Psatz Reals ZArith Permutation.
Import ListNotations.
From Verif Require Import Outcome Num NumR Geometry Expr Constraints Util Builder Guess Generator Trajectory
  Spec SpecBuilder SpecPhysics SpecTrajectory SpecGenerator SpecTolerance Semantics
  BuilderFacts GeneratorProofs HistoryFacts SolutionProofs TrajectoryProofs GeneratorCases ToleranceProofs.
Local Open Scope nat_scope.
Open Scope R_scope.

(** The ride of GeneratorCases.v with one of its calls singled out. *)
Definition ride_start : list (op R) := [OSetDrivetrain cart; OPoseWpt 0 0 0 0; OPoseWpt 1 1 0 1].
Definition ride_end : list (op R) := [OControlIntervalCounts [2%nat]].

Lemma ride_without_good : good_history true (ride_start ++ ride_end).
Proof. repeat split; repeat constructor. Qed.
Lemma inserted_case : forall o, proper_call o -> proper_request o ->
  snd (run_op true o (path true ride_start)) = Ok tt ->
  counts true (ride_start ++ o :: ride_end) = [2%nat] ->
  waypoint_count (path true (ride_start ++ o :: ride_end)) = 2%nat ->
  last_drivetrain None (ride_start ++ o :: ride_end) = Some cart ->
  good_history true (ride_start ++ o :: ride_end) /\
  exists g g' sol, generator true (ride_start ++ ride_end) 7 cart g /\
    generator true (ride_start ++ o :: ride_end) 7 cart g' /\
    ConstructSwerveSolution g (fun _ => 0) = Ok sol.
Proof.
  intros o P1 P2 Ret Cn Wn Dr. split.
  - split; [|split].
    + apply Forall_app. split; [repeat constructor|]. constructor; [exact P1|repeat constructor].
    + apply Forall_app. split; [repeat constructor|]. constructor; [exact P2|repeat constructor].
    + cbn [ride_start app all_returned]. repeat (split; [reflexivity|]). split; [exact Ret|].
      split; [reflexivity|exact I].
  - destruct (generator_exists true (ride_start ++ ride_end) 7 cart) as [g G];
      [apply Nat.ltb_lt; reflexivity|reflexivity|].
    destruct (generator_exists true (ride_start ++ o :: ride_end) 7 cart) as [g' G'];
      [rewrite Cn, Wn; apply Nat.ltb_lt; reflexivity|exact Dr|].
    destruct (C25_proof true _ 7 cart g (fun _ => 0) G) as (sol & S & _).
    exists g, g', sol. split; [exact G|]. split; [exact G'|exact S].
Qed.

(** A solver stopping within a tolerance may return an exact solution too. *)
Lemma nearly_mono : forall a b env c, a <= b -> nearly a env c -> nearly b env c.
Proof.
  intros a b env [x y|x y|x y|x] H N; simpl in *; try tauto;
    destruct N as (D1 & D2 & N); (split; [exact D1|split; [exact D2|]]); lra.
Qed.
Lemma ride_nearly : exists g, good_history true ride /\ generator true ride 7 cart g /\
  nearly_solved (1 / 10000) g ride_solution.
Proof.
  destruct (ride_case true) as (g & Gd & G & _ & _ & S). exists g. split; [exact Gd|]. split; [exact G|].
  apply C57_exact_proof in S. destruct S as (env & F & C). exists env. split; [|exact C].
  eapply Forall_impl; [|exact F]. intros c. apply nearly_mono. lra.
Qed.
Lemma ride_hypotheses : exists g, good_history true ride /\ generator true ride 7 cart g /\ real_wheels cart /\
  counts true ride = [2%nat] /\ solved g ride_solution.
Proof. destruct (ride_case true) as (g & H). exists g. rewrite ride_counts. tauto. Qed.
Lemma ride_trajectory : exists l, HolonomicTrajectory ride_solution = Ok l /\ length l = 3%nat /\
  well_shaped [2%nat] 2 ride_solution.
Proof.
  destruct ride_shaped as [Sh _]. pose proof (trajectory_ok _ _ _ Sh) as E. eexists.
  split; [exact E|]. split; [reflexivity|exact Sh].
Qed.
(** A ride from rest to another pose, turning, with a waypoint and a segment
    constraint; samples 0, 1 and 2. *)
Lemma the_ride : exists g, good_history true ride /\ generator true ride 7 cart g /\ real_wheels cart /\
  counts true ride = [2%nat] /\ solved g ride_solution /\ headings_unit [2%nat] ride_solution.
Proof.
  destruct ride_hypotheses as (g & H1 & H2 & H3 & H4 & H5). exists g.
  repeat (split; [assumption|]). exact ride_headings.
Qed.
Lemma small_turn_case : exists g, generator true ride 7 cart g /\ solved g ride_solution /\
  last_sample (counts true ride) = 2%nat /\ unit_heading (at_sample ride_solution 0) /\
  Rabs (q_w (at_sample ride_solution 1) * step_to ride_solution 1) < PI / 2 /\
  0 < q_c (at_sample ride_solution 1) * q_c (at_sample ride_solution 0) +
      q_s (at_sample ride_solution 1) * q_s (at_sample ride_solution 0).
Proof.
  destruct the_ride as (g & _ & G & _ & C & S & U). exists g. rewrite C.
  split; [exact G|]. split; [exact S|]. split; [reflexivity|]. split; [apply U; simpl; lia|].
  pose proof PI2_1 as P. unfold step_to. simpl. rewrite cos_0, sin_0. split.
  - rewrite Rabs_right; lra.
  - assert (0 < cos (1/2)) by (apply cos_gt_0; lra). lra.
Qed.

(** The ride with a speed limit at its end. *)
Definition speedy : list (op R) := ride ++ [OWptConstraint 1 (LinearVelocityMaxMagnitude 1)].
Definition speedy_solution : solution R := ride_solution.
Lemma speedy_case : exists g, good_history true speedy /\ generator true speedy 7 cart g /\
  nearly_solved (1 / 10000) g speedy_solution /\ In (OWptConstraint 1 (LinearVelocityMaxMagnitude 1)) speedy /\
  (1 <= length (counts true speedy))%nat.
Proof.
  assert (Gd : good_history true speedy) by (repeat split; repeat constructor).
  assert (Cn : counts true speedy = [2%nat]) by reflexivity.
  destruct (generator_exists true speedy 7 cart) as [g G]; [apply Nat.ltb_lt; reflexivity|reflexivity|].
  exists g. split; [exact Gd|]. split; [exact G|]. split; [|split; [|rewrite Cn; simpl; lia]].
  - assert (S : solved g speedy_solution).
    { apply (C15_accepts_proof true speedy 7 cart g Gd G cart_wheels); rewrite ?Cn; try apply ride_shaped;
        try apply ride_headings; try apply ride_physics; [intros n [<-|[]]; lia|].
      destruct ride_requests as [R1 R2]. split.
      - intros w c Hw Hc. destruct (Nat.eq_dec w 0) as [->|Nz]; [exact (R1 0%nat c Hw Hc)|].
        simpl in Hw. assert (w = 1)%nat as -> by lia. simpl in Hc. destruct Hc as [<-|[<-|[<-|[]]]].
        + apply (R1 1%nat); [simpl; lia|left; reflexivity].
        + apply (R1 1%nat); [simpl; lia|right; left; reflexivity].
        + simpl. rewrite Rabs_right by lra. apply norm2_le; lra.
      - intros w c i Hw Hc. exact (R2 w c i Hw Hc). }
    apply C57_exact_proof in S. destruct S as (env & F & E). exists env. split; [|exact E].
    eapply Forall_impl; [|exact F]. intros c. apply nearly_mono. lra.
  - apply in_or_app. right. left. reflexivity.
Qed.
