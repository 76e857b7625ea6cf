(** * Trajectories that face backwards at some samples: C126 *)
From Coq Require Import List Lia Lra Reals ZArith.
Import ListNotations.
From Verif Require Import Outcome Num NumR Geometry Constraints Builder Generator Trajectory
  Spec SpecBuilder SpecPhysics SpecTrajectory SpecGenerator SpecFront SpecLoad SpecFlip GeneratorCases LoadProofs FlipProofs.
Open Scope R_scope.

(** *** C126: a solution can face backwards at any of its samples *)

(** Whatever samples are picked, the robot can face backwards there: there is a solution
    with the same times, positions, velocities and accelerations and the opposite
    heading at just these samples. *)
Theorem C126_any_samples : forall asserts h handle d g sol e, good_history asserts h -> generator asserts h handle d g ->
  real_wheels d -> paired d -> (forall n, In n (counts asserts h) -> (1 <= n)%nat) -> even_handed_path h -> solved g sol ->
  exists sol', solved g sol' /\ flipped_at (counts asserts h) e sol sol'.
Proof. exact C126_proof. Qed.
Print Assumptions C126_any_samples.

(** The ride of C15, facing backwards half way only. *)
Example C126_case : exists g, good_history true ride /\ generator true ride 7 cart g /\ real_wheels cart /\ paired cart /\
  (forall n, In n (counts true ride) -> (1 <= n)%nat) /\ even_handed_path ride /\ solved g ride_solution /\
  exists sol', solved g sol' /\ q_c (at_sample sol' 0) = cos 0 /\ q_c (at_sample sol' 1) = - cos (1 / 2) /\ q_c (at_sample sol' 2) = cos 1.
Proof.
  destruct (ride_case true) as (g & Gd & G & W & Pos & S). exists g.
  split; [exact Gd|]. split; [exact G|]. split; [exact W|]. split; [exact cart_paired|]. split; [exact Pos|].
  split; [exact ride_even|]. split; [exact S|].
  destruct (C126_any_samples true ride 7%Z cart g ride_solution (Nat.eqb 1) Gd G W cart_paired Pos ride_even S) as (sol' & S' & _ & F).
  rewrite ride_counts in F. exists sol'. split; [exact S'|].
  rewrite (F 0%nat), (F 1%nat), (F 2%nat) by (simpl; lia). repeat split.
Qed.
(** Bumpers that are the same across the centre are even-handed; pointing at something is not. *)
Example C126_bumpers : even_handed_path guarded /\ length (wpt_requests [] guarded 0) = 16%nat /\
  ~ even_handed_path [OWptConstraint 0 (PointAt (mkTr 3 4) 1)].
Proof.
  split; [exact guarded_even|]. split; [reflexivity|]. intros (H & _).
  destruct (H 0%nat _ (or_introl eq_refl)) as (N & _). exact (N I).
Qed.
