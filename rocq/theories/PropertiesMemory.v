(** A builder that runs out of memory (C99). *)
From Coq Require Import List Lia Reals ZArith.
Import ListNotations.
From Verif Require Import Outcome Num NumR Geometry Constraints Builder Generator Memory
  Spec SpecBuilder SpecMemory SpecPhysics SpecTrajectory SpecGenerator Semantics GeneratorCases EditProofs MemoryProofs.
Local Open Scope nat_scope.

(** *** C99: running out of memory in a builder call *)

(** Refuted: a call that ran out of memory can be repeated.  PoseWpt(0, ...) on a
    fresh builder fails when its guess point is allocated; the same call with
    memory throws out_of_range, and the constructor then reads the front of an
    empty vector although the path has a waypoint. *)
Theorem C99_retry_refuted :
  let b0 := run_mems true [(OSetDrivetrain cart, None)] new_builder in let b := run_mems true starved new_builder in
  run_mem true (OPoseWpt 0 0%R 0%R 0%R, Some 1) b0 = (b, Throw BadAlloc) /\ waypoint_count b = 1 /\
  snd (run_mem true (OPoseWpt 0 0%R 0%R 0%R, None) b) = Throw OutOfRange /\
  construct (fst (run_mem true (OPoseWpt 0 0%R 0%R 0%R, None) b)) 7 = Undef EmptyAccess.
Proof. exact starved_proof. Qed.
Print Assumptions C99_retry_refuted.

(** Refuted: later calls that return normally take effect.  The second waypoint
    lacks its guess and its interval count; a constraint on it is accepted, and
    the constructor builds the problem of the first waypoint alone. *)
Theorem C99_dropped_refuted :
  let b := run_mems true halved new_builder in
  map (fun k => snd (run_mem true (nth k halved (OSetDrivetrain cart, None)) (run_mems true (firstn k halved) new_builder)))
    (seq 0 4) = [Ok tt; Ok tt; Throw BadAlloc; Ok tt] /\
  waypoint_count b = 2 /\ constraints_at b 1 = [LinearVelocityMaxMagnitude 0%R] /\
  construct b 7 = construct (run_mems true (firstn 2 halved) new_builder) 7 /\
  exists g, construct b 7 = Ok g.
Proof. exact halved_proof. Qed.
Print Assumptions C99_dropped_refuted.

(** Calls are never undefined, whatever ran out of memory before; they fail for
    lack of memory only if some growth of theirs failed. *)
Theorem C99_calls_defined_partial : forall {K} {HA : Arith K} {HD : Dbl K} asserts h o s,
  let r := run_mem asserts (o, s) (run_mems asserts h (@new_builder K)) in
  match snd r with
  | Ok _ => True
  | Throw e => e = OutOfRange \/ (e = BadAlloc /\ s <> None)
  | AssertFail => asserts = true
  | Undef _ | OutOfFuel => False
  end.
Proof. exact @C99_calls_proof. Qed.
Print Assumptions C99_calls_defined_partial.

Example C99_calls_case :
  snd (run_mem true (OPoseWpt 2 0%R 0%R 0%R, Some 7) (run_mems true halved new_builder)) = Throw OutOfRange /\
  snd (run_mem true (OPoseWpt 2 0%R 0%R 0%R, Some 2) (run_mems true halved new_builder)) = Throw BadAlloc.
Proof. split; reflexivity. Qed.

(** A call without a limit, or with a large enough one, is the call of the other
    theorems. *)
Theorem C99_unlimited : forall {K} {HA : Arith K} {HD : Dbl K} asserts (o : op K) b,
  run_mem asserts (o, None) b = run_op asserts o b.
Proof. exact @C99_unlimited_proof. Qed.
Print Assumptions C99_unlimited.
Theorem C99_enough : forall {K} {HA : Arith K} {HD : Dbl K} asserts (o : op K) b,
  exists N, forall n, N <= n -> run_mem asserts (o, Some n) b = run_op asserts o b.
Proof. exact @C99_enough_proof. Qed.
Print Assumptions C99_enough.

(** PoseWpt(1, ...) on a fresh builder grows six times. *)
Example C99_enough_case :
  snd (run_mem true (OPoseWpt 1 0%R 0%R 0%R, Some 5) new_builder) = Throw BadAlloc /\
  run_mem true (OPoseWpt 1 0%R 0%R 0%R, Some 6) new_builder = run_op true (OPoseWpt 1 0%R 0%R 0%R) new_builder.
Proof. split; reflexivity. Qed.

(** No call, failed or not, removes a waypoint or a constraint. *)
Theorem C99_kept_partial : forall {K} {HA : Arith K} {HD : Dbl K} asserts h c,
  let b := run_mems asserts h (@new_builder K) in let b' := fst (run_mem asserts c b) in
  waypoint_count b <= waypoint_count b' /\
  forall i, i < waypoint_count b ->
    (exists l, constraints_at b' i = constraints_at b i ++ l) /\
    (exists l, segment_constraints_to b' i = segment_constraints_to b i ++ l).
Proof. exact @C99_kept_proof. Qed.
Print Assumptions C99_kept_partial.

(** A constraint on a segment stored for its first waypoint and no other. *)
Example C99_kept_case :
  let b := run_mems true [(OPoseWpt 1 0%R 0%R 0%R, None)] new_builder in
  let r := run_mem true (OSgmtConstraint 0 1 (LinearVelocityMaxMagnitude 1%R), Some 1) b in
  snd r = Throw BadAlloc /\ constraints_at (fst r) 0 = [LinearVelocityMaxMagnitude 1%R] /\
  constraints_at (fst r) 1 = constraints_at b 1 /\ segment_constraints_to (fst r) 1 = [].
Proof. repeat split. Qed.

(** A call on existing waypoints that adds a single element either succeeds or
    leaves the builder as it was. *)
Theorem C99_all_or_nothing_partial : forall {K} {HA : Arith K} {HD : Dbl K} asserts h o s,
  let b := run_mems asserts h (@new_builder K) in small_call b o ->
  snd (run_mem asserts (o, s) b) = Throw BadAlloc -> fst (run_mem asserts (o, s) b) = b.
Proof. exact @C99_all_or_nothing_proof. Qed.
Print Assumptions C99_all_or_nothing_partial.

Example C99_all_or_nothing_case :
  let b := run_mems true (firstn 2 halved) new_builder in
  small_call b (OPoseWpt 0 5%R 0%R 0%R) /\
  snd (run_mem true (OPoseWpt 0 5%R 0%R 0%R, Some 0) b) = Throw BadAlloc.
Proof. split; [apply le_n|reflexivity]. Qed.

(** A failing call leaves at most one more waypoint without a guess; a call that
    does not fail for lack of memory leaves none. *)
Theorem C99_lost_once : forall {K} {HA : Arith K} {HD : Dbl K} asserts h c,
  let b := run_mems asserts h (@new_builder K) in let r := run_mem asserts c b in
  lost b <= lost (fst r) <= lost b + 1 /\ (snd r <> Throw BadAlloc -> lost (fst r) = lost b).
Proof. exact @C99_lost_once_proof. Qed.
Print Assumptions C99_lost_once.

(** The missing guess is never made good: for ever after, PoseWpt on as many of
    the last waypoints as lack a guess, and on every new waypoint, throws. *)
Theorem C99_never_repaired : forall {K} {HA : Arith K} {HD : Dbl K} asserts h h' i x y a,
  let b := run_mems asserts h (@new_builder K) in let b' := run_mems asserts h' b in
  0 < lost b -> waypoint_count b' - lost b' <= i ->
  0 < lost b' /\ snd (run_op asserts (OPoseWpt i x y a) b') = Throw OutOfRange.
Proof. exact @C99_never_repaired_proof. Qed.
Print Assumptions C99_never_repaired.
(** On the other waypoints it works. *)
Theorem C99_others_work : forall {K} {HA : Arith K} {HD : Dbl K} asserts h i x y a,
  let b := run_mems asserts h (@new_builder K) in i < waypoint_count b - lost b ->
  snd (run_op asserts (OPoseWpt i x y a) b) = Ok tt.
Proof. exact @C99_others_work_proof. Qed.
Print Assumptions C99_others_work.

(** Two failures lose two guesses; waypoints added later do not help. *)
Example C99_lost_case :
  let h := halved ++ [(OPoseWpt 2 0%R 0%R 0%R, Some 1); (OPoseWpt 4 0%R 0%R 0%R, None)] in
  lost (run_mems true (firstn 3 halved) new_builder) = 1 /\
  lost (run_mems true h new_builder) = 2 /\ waypoint_count (run_mems true h new_builder) = 5 /\
  snd (run_op true (OPoseWpt 2 0%R 0%R 0%R) (run_mems true h new_builder)) = Ok tt /\
  snd (run_op true (OPoseWpt 3 0%R 0%R 0%R) (run_mems true h new_builder)) = Throw OutOfRange.
Proof. repeat split. Qed.

(** What the constructor does with any builder that may have run out of memory. *)
Theorem C99_outcomes : forall {K} {HA : Arith K} {HD : Dbl K} asserts h handle,
  let b := run_mems asserts h (@new_builder K) in
  (b_guess b = [] -> construct b handle = Undef EmptyAccess) /\
  (0 < length (b_guess b) <= length (b_counts b) -> construct b handle = Throw OutOfRange) /\
  (length (b_counts b) < length (b_guess b) -> b_drivetrain b = None -> construct b handle = Undef Uninitialized) /\
  (forall d, length (b_counts b) < length (b_guess b) -> b_drivetrain b = Some d ->
     exists g, construct b handle = Ok g /\ g_callbacks g = b_callbacks b /\ g_handle g = handle).
Proof. exact @C99_outcomes_proof. Qed.
Print Assumptions C99_outcomes.

(** A generator made from such a builder poses the problem of the stored interval
    counts and the constraints stored at the waypoints those counts reach. *)
Theorem C99_problem : forall asserts h handle d g,
  let b := run_mems asserts h (@new_builder R) in
  construct b handle = Ok g -> b_drivetrain b = Some d -> real_wheels d ->
  (forall n, In n (b_counts b) -> 1 <= n) ->
  (forall w, In w (b_waypoints b) -> Forall proper_constraint (waypointConstraints w ++ segmentConstraints w)) ->
  forall env sol, ConstructSwerveSolution g env = Ok sol ->
  (feasible env (g_problem g) <->
   obeys_physics turns_up_to_half d (b_counts b) sol /\
   meets_requests (b_counts b) sol (constraints_at b) (segment_constraints_to b)).
Proof. exact C99_problem_proof. Qed.
Print Assumptions C99_problem.

(** The failed second waypoint: the generator exists, for a single sample. *)
Example C99_problem_case : exists g, let b := run_mems true halved new_builder in
  construct b 7 = Ok g /\ b_drivetrain b = Some cart /\ real_wheels cart /\ b_counts b = [] /\
  (forall w, In w (b_waypoints b) -> Forall proper_constraint (waypointConstraints w ++ segmentConstraints w)).
Proof. exact halved_problem_proof. Qed.
