(** Interval counts that do not fit into 64 bits or into memory (C103), or into
    an int (C112). *)
From Coq Require Import List ZArith Reals.
Import ListNotations.
From Verif Require Import Outcome Num NumR Geometry Expr Constraints Builder Generator Trajectory Sizes Spec SpecBuilder SpecPhysics
  SpecTrajectory SpecGenerator SpecSizes Semantics SizesProofs GeneratorCases PartsCases WeightProofs.
Local Open Scope nat_scope.

(** *** C103: no wrap-around of sample counts *)

(** Whatever the allocator refuses, the constructor with 64-bit arithmetic throws
    for lack of memory, having been refused no more than one double per sample,
    or does what the constructor with unbounded arithmetic does, *)
Theorem C103_constructor : forall {K} {HA : Arith K} {HD : Dbl K} ok, real_memory ok -> forall asserts h handle,
  let b := path asserts (h : list (op K)) in stored (b_guess b) (b_counts b) ->
  construct64 ok b handle = construct b handle \/
  (refused ok (1 + list_sum (b_counts b)) /\ construct64 ok b handle = Throw BadAlloc).
Proof. exact (fun K HA HD ok RM asserts h handle => construct64_proof ok _ handle RM). Qed.
Print Assumptions C103_constructor.
(** and it never makes a generator of 2^60 samples or more, even if their number
    is small modulo 2^64. *)
Theorem C103_limit : forall {K} {HA : Arith K} {HD : Dbl K} ok, real_memory ok -> forall asserts h handle g,
  let b := path asserts (h : list (op K)) in stored (b_guess b) (b_counts b) ->
  construct64 ok b handle = Ok g -> (Z.of_nat (1 + list_sum (b_counts b)) < 2 ^ 60)%Z.
Proof. exact (fun K HA HD ok RM asserts h handle g => construct64_size ok _ handle g RM). Qed.
Print Assumptions C103_limit.
(** Two segments of 2^63 intervals: the number of samples wraps to 1, yet the
    constructor throws. *)
Theorem C103_wrapped : forall {K} {HA : Arith K} {HD : Dbl K} ok, real_memory ok -> forall asserts d (z : K) n handle,
  Z.of_nat n = (2 ^ 63)%Z ->
  GetIndex64 [n; n] 3 0 = Ok 1 /\ construct64 ok (path asserts (two_legs d z n)) handle = Throw BadAlloc.
Proof. exact @wrapped_case. Qed.
Print Assumptions C103_wrapped.
(** GetIndex alone is exact as long as the sum fits, for any waypoint and sample. *)
Theorem C103_index : forall N w k, (Z.of_nat (1 + list_sum N + k) < 2 ^ 64)%Z -> GetIndex64 N w k = GetIndex N w k.
Proof. exact GetIndex64_exact. Qed.
Print Assumptions C103_index.
(** Two segments of 40 intervals with all the memory there can be. *)
Example C103_case : forall {K} {HA : Arith K} {HD : Dbl K} asserts d (z : K) handle, exists ok g, real_memory ok /\
  let b := path asserts (two_legs d z 40) in stored (b_guess b) (b_counts b) /\ construct64 ok b handle = Ok g.
Proof. exact @ample_case. Qed.

(** *** C112: the objective for any number of intervals *)

(** A shorter trajectory need not have the lower objective: *)
Theorem C112_shorter_is_better_refuted : ~ (forall asserts h handle d g env1 sol1 env2 sol2 e, good_history asserts h ->
  generator asserts h handle d g -> real_wheels d -> (forall n, In n (counts asserts h) -> 1 <= n) ->
  feasible env1 (g_problem g) -> ConstructSwerveSolution g env1 = Ok sol1 ->
  feasible env2 (g_problem g) -> ConstructSwerveSolution g env2 = Ok sol2 ->
  pr_obj (g_problem g) = Some e -> (sum (s_dt sol1) < sum (s_dt sol2))%R -> (eval env1 e < eval env2 e)%R).
Proof. exact C112_refuted_proof. Qed.
Print Assumptions C112_shorter_is_better_refuted.
(** each segment's time step is weighted with its number of intervals as a
    32-bit int, *)
Theorem C112_weights_partial : forall asserts h handle d g env sol w, generator asserts h handle d g ->
  ConstructSwerveSolution g env = Ok sol ->
  (forall s, s < length (counts asserts h) -> 1 <= nth s (counts asserts h) 0 /\ int_of (nth s (counts asserts h) 0) (w s)) ->
  exists e, pr_obj (g_problem g) = Some e /\ defined env e /\
    eval env e = sum (map (fun s => IZR (w s) * step_to sol (S (waypoint_sample (counts asserts h) s)))%R
      (seq 0 (length (counts asserts h)))).
Proof. exact C112_weights_proof. Qed.
Print Assumptions C112_weights_partial.
(** so the objective is the duration exactly if no segment has 2^31 intervals or
    more. *)
Theorem C112_exactly_partial : forall asserts h handle d g, generator asserts h handle d g ->
  (forall n, In n (counts asserts h) -> 1 <= n) ->
  ((forall env sol, ConstructSwerveSolution g env = Ok sol ->
      exists e, pr_obj (g_problem g) = Some e /\ eval env e = sum (s_dt sol)) <->
   (forall n, In n (counts asserts h) -> (Z.of_nat n < 2 ^ 31)%Z)).
Proof. exact C112_exact_proof. Qed.
Print Assumptions C112_exactly_partial.
(** A single segment of 2^31 to 2^32 - 1 intervals is given a negative weight, *)
Theorem C112_one_segment_partial : forall asserts h handle d g env sol n, generator asserts h handle d g ->
  ConstructSwerveSolution g env = Ok sol -> counts asserts h = [n] -> (2 ^ 31 <= Z.of_nat n < 2 ^ 32)%Z ->
  exists e, pr_obj (g_problem g) = Some e /\ defined env e /\
    eval env e = (- (IZR (2 ^ 32 - Z.of_nat n) / IZR (Z.of_nat n)) * sum (s_dt sol))%R.
Proof. exact C112_one_proof. Qed.
Print Assumptions C112_one_segment_partial.
(** and the longer of two trajectories is preferred. *)
Theorem C112_longer_preferred_partial : forall asserts h handle d g n env1 sol1 env2 sol2, generator asserts h handle d g ->
  counts asserts h = [n] -> (2 ^ 31 <= Z.of_nat n < 2 ^ 32)%Z ->
  ConstructSwerveSolution g env1 = Ok sol1 -> ConstructSwerveSolution g env2 = Ok sol2 -> (sum (s_dt sol1) < sum (s_dt sol2))%R ->
  exists e, pr_obj (g_problem g) = Some e /\ (eval env2 e < eval env1 e)%R.
Proof. exact C112_longer_proof. Qed.
Print Assumptions C112_longer_preferred_partial.
(** A robot that may end at once, or stand for half a second per interval. *)
Example C112_case : forall asserts n, (2 ^ 31 <= Z.of_nat n < 2 ^ 32)%Z ->
  exists g env1 env2, good_history asserts (idle [n]) /\ generator asserts (idle [n]) 0 cart g /\ counts asserts (idle [n]) = [n] /\
    feasible env1 (g_problem g) /\ ConstructSwerveSolution g env1 = Ok (waiting n 0) /\
    feasible env2 (g_problem g) /\ ConstructSwerveSolution g env2 = Ok (waiting n (1/2)) /\
    (sum (s_dt (waiting n 0)) < sum (s_dt (waiting n (1/2))))%R /\
    exists e, pr_obj (g_problem g) = Some e /\ (eval env2 e < eval env1 e)%R.
Proof. exact C112_case_proof. Qed.
(** Weights of counts around the limits. *)
Example C112_weights_case : forall n, (Z.of_nat n = 2 ^ 32 + 3)%Z -> int_of n 3 /\ int_of 40 40.
Proof. exact C112_weights_case_proof. Qed.
