(** * Robots with less to carry: C125 *)
From Coq Require Import List Lia Lra Reals ZArith.
Import ListNotations.
From Verif Require Import Outcome Num NumR Geometry Constraints Builder Generator Trajectory
  Spec SpecBuilder SpecPhysics SpecTrajectory SpecGenerator SpecLoad SpecBalance GeneratorCases LoadProofs BalanceProofs JumpProofs.
Open Scope R_scope.

(** *** C125: which robots can do with less to carry whatever they could *)

(** Not all: with a third of the inertia, or with half the mass, a path may
    have no solution any more. *)
Theorem C125_not_all : forall k j, (k = 1 /\ j = 1 / 3) \/ (k = 1 / 2 /\ j = 1) ->
  ~ (forall asserts h handle d g g', good_history asserts h -> generator asserts h handle d g -> real_wheels d ->
  (forall n, In n (counts asserts h) -> (1 <= n)%nat) ->
  generator asserts (h ++ [OSetDrivetrain (relieved k j d)]) handle (relieved k j d) g' ->
  (exists sol, solved g sol) -> exists sol, solved g' sol).
Proof. exact C125_refuted_proof. Qed.
Print Assumptions C125_not_all.

(** Those that are balanced, and no others: pushing all the same way as hard as they can, the
    modules do not turn the robot; turning it as hard as they can, they do not push it, or
    modules at the centre can make up for that. *)
Theorem C125_exact : forall ms, turning_wheels ms -> (keeps_paths ms <-> balanced (mkDrivetrain 1 1 ms)).
Proof. exact C125_exact_proof. Qed.
Print Assumptions C125_exact.

(** A balanced robot keeps more than the path: every solution is one with other forces. *)
Theorem C125_same_motion : forall asserts h handle d g k j, good_history asserts h -> generator asserts h handle d g ->
  real_wheels d -> balanced d -> 0 <= k <= 1 -> 0 <= j <= 1 -> (forall n, In n (counts asserts h) -> (1 <= n)%nat) ->
  exists g', generator asserts (h ++ [OSetDrivetrain (relieved k j d)]) handle (relieved k j d) g' /\
    forall sol, solved g sol -> exists sol', solved g' sol' /\ same_motion sol sol'.
Proof. exact C125_balanced_proof. Qed.
Print Assumptions C125_same_motion.

(** What being balanced means: whatever force and torque the modules can exert at once, they
    can exert any part of the force with any part of the torque. *)
Theorem C125_forces : forall d s, real_wheels d -> norm2 (q_c s, q_s s) <> 0 -> (separates d s <-> balanced d).
Proof. exact separates_exact. Qed.
Print Assumptions C125_forces.

(** Three equal modules on the corners of a triangle with equal sides are balanced, without
    any of them having its like across the centre; two unequal modules are not. *)
Example C125_triangle : turning_wheels triangle /\ balanced (mkDrivetrain 1 1 triangle) /\ keeps_paths triangle /\
  turning_wheels lopsided /\ ~ balanced (mkDrivetrain 1 1 lopsided) /\ ~ keeps_paths lopsided.
Proof.
  split; [exact triangle_turning|]. split; [exact (triangle_balanced 1 1)|].
  split; [exact (proj2 (C125_exact triangle triangle_turning) (triangle_balanced 1 1))|].
  split; [exact lopsided_turning|]. split; [exact lopsided_unbalanced|].
  intros K. exact (lopsided_unbalanced (proj1 (C125_exact lopsided lopsided_turning) K)).
Qed.

(** If each module has its like across the centre, any part of the mass and any part of
    the inertia can be taken away: every solution is one with other forces. *)
Theorem C125_paired : forall asserts h handle d g k j, good_history asserts h -> generator asserts h handle d g ->
  real_wheels d -> paired d -> 0 <= k <= 1 -> 0 <= j <= 1 -> (forall n, In n (counts asserts h) -> (1 <= n)%nat) ->
  exists g', generator asserts (h ++ [OSetDrivetrain (relieved k j d)]) handle (relieved k j d) g' /\
    forall sol, solved g sol -> exists sol', solved g' sol' /\ same_motion sol sol'.
Proof. exact C125_paired_proof. Qed.
Print Assumptions C125_paired.

(** The ride of C15 that pushes and turns, by a robot with two modules; a robot with
    one module is not paired. *)
Example C125_case : exists g, good_history true ride /\ generator true ride 7 cart g /\ real_wheels cart /\ paired cart /\ balanced cart /\
  (forall n, In n (counts true ride) -> (1 <= n)%nat) /\ solved g ride_solution /\
  relieved (1 / 2) 1 cart = mkDrivetrain (1 / 2 * 2) (1 * 1) (d_modules cart) /\ ~ paired scooter.
Proof.
  destruct (ride_case true) as (g & Gd & G & W & Pos & S). exists g.
  split; [exact Gd|]. split; [exact G|]. split; [exact W|]. split; [exact cart_paired|].
  split; [exact (paired_balanced cart W cart_paired)|]. split; [exact Pos|]. split; [exact S|].
  split; [reflexivity|exact scooter_unpaired].
Qed.
