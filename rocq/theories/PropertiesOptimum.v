(** A shortest trajectory exists (C88). *)
From Coq Require Import List Lia Lra Reals ZArith.
Import ListNotations.
From Verif Require Import Outcome Num NumR Geometry Constraints Builder Generator
  Spec SpecBuilder SpecPhysics SpecTrajectory SpecGenerator Semantics GeneratorCases OrderProofs OrderCases OptimumProofs.
Open Scope R_scope.

(** *** C88: the minimum exists *)

(** If the problem of a path through a pose waypoint has a solution, one of its
    solutions is the shortest. *)
Theorem C88_shortest_exists :
  forall asserts h handle d g k x y a m1 m2, good_history asserts h -> generator asserts h handle d g ->
  real_wheels d -> 0 < d_mass d -> 0 < d_moi d ->
  In m1 (d_modules d) -> In m2 (d_modules d) -> m_translation m1 <> m_translation m2 ->
  (forall n, In n (counts asserts h) -> (1 <= n)%nat) ->
  In (OPoseWpt k x y a) h -> (k <= length (counts asserts h))%nat ->
  (exists sol, solved g sol) ->
  exists best, solved g best /\ forall sol, solved g sol -> sum (s_dt best) <= sum (s_dt sol).
Proof. exact C88_proof. Qed.
Print Assumptions C88_shortest_exists.

(** The objective of the problem attains its minimum on the assignments that
    satisfy it. *)
Theorem C88_objective_attained :
  forall asserts h handle d g k x y a m1 m2, good_history asserts h -> generator asserts h handle d g ->
  real_wheels d -> 0 < d_mass d -> 0 < d_moi d ->
  In m1 (d_modules d) -> In m2 (d_modules d) -> m_translation m1 <> m_translation m2 ->
  (forall n, In n (counts asserts h) -> (1 <= n)%nat) -> (forall n, In n (counts asserts h) -> (Z.of_nat n < 2 ^ 31)%Z) ->
  In (OPoseWpt k x y a) h -> (k <= length (counts asserts h))%nat ->
  (exists env, feasible env (g_problem g)) ->
  exists best e, pr_obj (g_problem g) = Some e /\ feasible best (g_problem g) /\
    forall env, feasible env (g_problem g) -> eval best e <= eval env e.
Proof. exact C88_objective_proof. Qed.
Print Assumptions C88_objective_attained.

(** The errand of a square robot: four modules, from the origin to (1, 0) turned
    by one radian. *)
Example C88_case : exists g m1 m2, let h := errand ++ [OSetDrivetrain square_drive] in
  good_history true h /\ generator true h 7 square_drive g /\ real_wheels square_drive /\
  0 < d_mass square_drive /\ 0 < d_moi square_drive /\
  In m1 (d_modules square_drive) /\ In m2 (d_modules square_drive) /\ m_translation m1 <> m_translation m2 /\
  (forall n, In n (counts true h) -> (1 <= n)%nat) /\ (forall n, In n (counts true h) -> (Z.of_nat n < 2 ^ 31)%Z) /\
  In (OPoseWpt 1 1 0 1) h /\ (1 <= length (counts true h))%nat /\ solved g errand_solution.
Proof. exact C88_case_proof. Qed.
