(** Paths edited through GetPath (C91). *)
From Coq Require Import List Lia Lra Reals ZArith.
Import ListNotations.
From Verif Require Import Outcome Num NumR Geometry Constraints Builder Generator Edits
  Spec SpecBuilder SpecEdits SpecPhysics SpecTrajectory SpecGenerator Semantics GeneratorCases EditProofs MemoryProofs.
Local Open Scope nat_scope.

(** *** C91: edits through GetPath *)

(** What the constructor does after any mixture of builder calls and edits. *)
Theorem C91_outcomes : forall {K} {HA : Arith K} {HD : Dbl K} asserts ss handle, Forall small_edit ss ->
  let b := run_steps asserts ss (@new_builder K) in
  (b_guess b = [] -> construct b handle = Undef EmptyAccess) /\
  (0 < length (b_guess b) <= length (b_counts b) -> construct b handle = Throw OutOfRange) /\
  (length (b_counts b) < length (b_guess b) -> b_drivetrain b = None -> construct b handle = Undef Uninitialized) /\
  (forall d, length (b_counts b) < length (b_guess b) -> b_drivetrain b = Some d ->
     (waypoint_count b <= length (b_counts b) -> construct b handle = Throw OutOfRange) /\
     (length (b_counts b) < waypoint_count b ->
        exists g, construct b handle = Ok g /\ g_callbacks g = b_callbacks b /\ g_handle g = handle)).
Proof. exact @C91_outcomes_proof. Qed.
Print Assumptions C91_outcomes.

(** Erasing the waypoints and adding the same two again makes the constructor
    throw: the interval counts and guess points of the erased ones remain. *)
Example C91_outcomes_case : Forall small_edit wiped /\
  let b := run_steps true wiped new_builder in
  waypoint_count b = 2 /\ b_counts b = [2; 40] /\ length (b_guess b) = 4 /\
  construct b 7 = Throw OutOfRange.
Proof. exact wiped_proof. Qed.

(** Builder calls stay free of undefined behaviour after edits. *)
Theorem C91_calls_defined : forall {K} {HA : Arith K} {HD : Dbl K} asserts ss o, Forall small_edit ss ->
  match snd (run_op asserts o (run_steps asserts ss (@new_builder K))) with
  | Ok _ => True
  | Throw e => e = OutOfRange
  | AssertFail => asserts = true
  | Undef _ | OutOfFuel => False
  end.
Proof. exact @C91_calls_proof. Qed.
Print Assumptions C91_calls_defined.

Example C91_calls_case : Forall small_edit wiped /\
  snd (run_op true (OWptConstraint 1 (AngularVelocityMaxMagnitude 1%R)) (run_steps true wiped new_builder)) = Ok tt.
Proof. exact wiped_guess_proof. Qed.

(** An edit changes neither the initial guess nor the interval counts. *)
Theorem C91_guess_kept : forall {K} {HA : Arith K} {HD : Dbl K} asserts ss p (b0 : builder K),
  let b := run_steps asserts ss b0 in let b' := run_steps asserts (ss ++ [SEdit p]) b0 in
  CalculateInitialGuess b' = CalculateInitialGuess b /\
  GetControlIntervalCounts b' = GetControlIntervalCounts b /\ GetPath b' = p.
Proof. exact @C91_guess_kept_proof. Qed.
Print Assumptions C91_guess_kept.

Example C91_guess_kept_case :
  GetPath (run_steps true freed new_builder) <> GetPath (run_steps true (map SCall ride) new_builder) /\
  CalculateInitialGuess (run_steps true freed new_builder) =
  CalculateInitialGuess (run_steps true (map SCall ride) new_builder).
Proof. exact freed_kept_proof. Qed.

(** An edit forgets no bumper: an obstacle call adds the same constraints to a
    waypoint whether or not the path was edited before. *)
Theorem C91_bumpers_kept : forall {K} {HA : Arith K} {HD : Dbl K} asserts ss p i o,
  Forall small_edit (ss ++ [SEdit p]) -> (Z.of_nat i < 2 ^ 63)%Z ->
  let b := run_steps asserts ss (@new_builder K) in let b' := run_steps asserts (ss ++ [SEdit p]) new_builder in
  snd (run_op asserts (OWptObstacle i o) b') = snd (run_op asserts (OWptObstacle i o) b) /\
  exists cs, constraints_at (fst (run_op asserts (OWptObstacle i o) b)) i = constraints_at b i ++ cs /\
             constraints_at (fst (run_op asserts (OWptObstacle i o) b')) i = constraints_at b' i ++ cs.
Proof. exact @C91_bumpers_kept_proof. Qed.
Print Assumptions C91_bumpers_kept.

(** Erasing the whole path leaves the bumper: the obstacle call after it adds
    one constraint to a path that had none. *)
Example C91_bumpers_kept_case : Forall small_edit (bumped ++ [SEdit erased]) /\
  length (constraints_at (fst (run_op false (OWptObstacle 0 (mkObstacle 1 [mkTr 3 0; mkTr 3 4])%R)
    (run_steps false (bumped ++ [SEdit erased]) new_builder))) 0) = 1%nat.
Proof. exact bumped_proof. Qed.

(** The problem of an edited path: the physics of the drivetrain and the
    constraints found in the path when the generator is constructed. *)
Theorem C91_problem : forall asserts ss handle d g, Forall small_edit ss ->
  let b := run_steps asserts ss (@new_builder R) in
  construct b handle = Ok g -> b_drivetrain b = Some d -> real_wheels d ->
  (forall n, In n (b_counts b) -> 1 <= n) ->
  (forall w, In w (b_waypoints b) -> Forall proper_constraint (waypointConstraints w ++ segmentConstraints w)) ->
  forall env sol, ConstructSwerveSolution g env = Ok sol ->
  (feasible env (g_problem g) <->
   obeys_physics turns_up_to_half d (b_counts b) sol /\
   meets_requests (b_counts b) sol (constraints_at b) (segment_constraints_to b)).
Proof. exact C91_problem_proof. Qed.
Print Assumptions C91_problem.

(** The ride with its poses replaced by a speed limit. *)
Example C91_problem_case : exists g env, let b := run_steps true freed new_builder in
  Forall small_edit freed /\ construct b 7 = Ok g /\ b_drivetrain b = Some cart /\ real_wheels cart /\
  (forall n, In n (b_counts b) -> 1 <= n) /\
  (forall w, In w (b_waypoints b) -> Forall proper_constraint (waypointConstraints w ++ segmentConstraints w)) /\
  ConstructSwerveSolution g env = Ok ride_solution /\ feasible env (g_problem g).
Proof. exact freed_proof. Qed.
