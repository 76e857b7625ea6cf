(** Property theorems about the optimisation problem the generator constructs:
    C07, C13-C15, C22-C25, C60, C63, C64.  [generator asserts h handle d g]:
    [g] is the generator constructed after the history [h] of builder calls,
    with drivetrain [d]. *)
From Coq Require Import Floats.SpecFloat.
From Coq Require Import List Lia Lra Reals ZArith Permutation.
Import ListNotations.
From Verif Require Import Outcome Num NumR NumF64 Geometry Expr Constraints Util Builder Guess Generator Trajectory
  Spec SpecBuilder SpecPhysics SpecTrajectory SpecGenerator Semantics
  SolutionProofs TrajectoryProofs GeneratorCases GeneratorMore OrderProofs OrderCases SeedProofs TrajectoryCases.
Local Open Scope nat_scope.

(** C07. Every seed as documented, for every number type. *)
Theorem C07_seed_values : forall (K : Type) (HA : Arith K) (HD : Dbl K) asserts (h : list (op K)) handle d g guess s0,
  generator asserts h handle d g ->
  CalculateInitialGuess (path asserts h) = Ok guess ->
  ConstructSwerveSolution g (pr_vals (g_problem g)) = Ok s0 ->
  let N := counts asserts h in
  let z := nlit 0 in
  s_x s0 = s_x guess /\ s_y s0 = s_y guess /\ s_thetacos s0 = s_thetacos guess /\ s_thetasin s0 = s_thetasin guess /\
  nth 0 (s_vx s0) z = z /\ nth 0 (s_vy s0) z = z /\ nth 0 (s_omega s0) z = z /\
  nth 0 (s_ax s0) z = z /\ nth 0 (s_ay s0) z = z /\ nth 0 (s_alpha s0) z = z /\
  (forall i, 1 <= i <= last_sample N ->
     let dt := nth i (s_dt guess) z in
     let rate f := ndiv (nsub (nth i f z) (nth (i - 1) f z)) dt in
     nth i (s_vx s0) z = rate (s_x guess) /\ nth i (s_vy s0) z = rate (s_y guess) /\
     nth i (s_omega s0) z =
       ndiv (rot_radians (rot_rotateBy (mkRot (nth i (s_thetacos guess) z) (nth i (s_thetasin guess) z))
                (rot_neg (mkRot (nth (i - 1) (s_thetacos guess) z) (nth (i - 1) (s_thetasin guess) z))))) dt /\
     nth i (s_ax s0) z = rate (s_vx s0) /\ nth i (s_ay s0) z = rate (s_vy s0) /\
     nth i (s_alpha s0) z = rate (s_omega s0)) /\
  (forall i j, i <= last_sample N -> j < length (d_modules d) ->
     nth j (nth i (s_moduleFX s0) []) z = z /\ nth j (nth i (s_moduleFY s0) []) z = z) /\
  (forall s k, s < length N -> k < nth s N 0 ->
     nth (waypoint_sample N s + k) (s_dt s0) z = ndiv (nlit 5) (nofnat (nth s N 0))).
Proof. exact @C07_seeds_proof. Qed.
Print Assumptions C07_seed_values.
Example C07_case : exists g guess s0, good_history true stroll /\ generator true stroll 0 cart g /\
  CalculateInitialGuess (path true stroll) = Ok guess /\
  ConstructSwerveSolution g (pr_vals (g_problem g)) = Ok s0 /\
  (forall p, In (OWptInitialGuessPoint 0 p) stroll -> unit_rot (pRot p)) /\
  counts true stroll = [2%nat].
Proof. exact stroll_case. Qed.
(** The part of C07 that is false: the seeds do not satisfy the integration
    constraints, because the segment time steps are seeded with 5/N[s] and not
    with the guess time step, *)
Theorem C07_integration_refuted : ~ (forall asserts h handle d g s0, good_history asserts h ->
  generator asserts h handle d g ->
  ConstructSwerveSolution g (pr_vals (g_problem g)) = Ok s0 ->
  forall i, (1 <= i <= last_sample (counts asserts h))%nat ->
  moves (at_sample s0 (i - 1)) (at_sample s0 i) (step_to s0 i)).
Proof. exact C07_refuted_proof. Qed.
Print Assumptions C07_integration_refuted.
(** and a segment without intervals is given an infinite time step (binary64,
    whatever the transcendental functions). *)
Theorem C07_finite_refuted : forall fcos fsin fatan2 fhypot,
  let HA := Arith_f64 fcos fsin fatan2 fhypot in
  let z := S754_zero false in
  let h := [OSetDrivetrain (mkDrivetrain z z []); OPoseWpt 0 z z z; OPoseWpt 1 z z z;
            OControlIntervalCounts [0]] in
  exists d g v, generator true h 0 d g /\ nth_error (v_dt (g_vars g)) 0 = Some (EVar v) /\
    pr_vals (g_problem g) v = S754_infinity false.
Proof. exact C07_infinite_proof. Qed.
Print Assumptions C07_finite_refuted.

(** C64. The seeds integrate exactly at the guess time step ... *)
Theorem C64_seeds_consistent_at_guess_step : forall asserts h handle d g guess s0,
  Forall proper_call h -> all_returned asserts h new_builder ->
  generator asserts h handle d g ->
  CalculateInitialGuess (path asserts h) = Ok guess ->
  ConstructSwerveSolution g (pr_vals (g_problem g)) = Ok s0 ->
  (forall p, In (OWptInitialGuessPoint 0 p) h -> unit_rot (pRot p)) ->
  let N := counts asserts h in
  let dt := (5 * INR (S (length N)) / INR (S (last_sample N)))%R in
  (0 < dt)%R /\
  forall i, (1 <= i <= last_sample N)%nat ->
    nth i (s_dt guess) 0%R = dt /\
    let a := at_sample s0 (i - 1) in let b := at_sample s0 i in
    moves a b dt /\ turns a b dt /\ accelerates a b dt /\ principal (q_w b * dt)%R.
Proof. exact C07_consistent_proof. Qed.
Print Assumptions C64_seeds_consistent_at_guess_step.
(** ... and at the seeded step of the segment exactly when the two steps agree
    or the guess does not move. *)
Theorem C64_seeds_consistent_at_segment_step : forall asserts h handle d g guess s0,
  Forall proper_call h -> all_returned asserts h new_builder ->
  generator asserts h handle d g ->
  CalculateInitialGuess (path asserts h) = Ok guess ->
  ConstructSwerveSolution g (pr_vals (g_problem g)) = Ok s0 ->
  (forall p, In (OWptInitialGuessPoint 0 p) h -> unit_rot (pRot p)) ->
  let N := counts asserts h in
  let dt := (5 * INR (S (length N)) / INR (S (last_sample N)))%R in
  forall s k, (s < length N)%nat -> (k < nth s N 0)%nat ->
    let i := (waypoint_sample N s + k + 1)%nat in
    let a := at_sample s0 (i - 1) in let b := at_sample s0 i in
    step_to s0 i = (5 / INR (nth s N 0%nat))%R /\
    (moves a b (step_to s0 i) <-> (dt = 5 / INR (nth s N 0%nat))%R \/ (q_x b = q_x a /\ q_y b = q_y a)).
Proof. exact C07_mismatch_proof. Qed.
Print Assumptions C64_seeds_consistent_at_segment_step.
Example C64_case : exists g guess s0, good_history true stroll /\ generator true stroll 0 cart g /\
  CalculateInitialGuess (path true stroll) = Ok guess /\
  ConstructSwerveSolution g (pr_vals (g_problem g)) = Ok s0 /\
  (forall p, In (OWptInitialGuessPoint 0 p) stroll -> unit_rot (pRot p)) /\
  counts true stroll = [2%nat].
Proof. exact stroll_case. Qed.

(** C13. What inserting one WptConstraint call changes about the problem: the
    same variables, and the demand at the waypoint's sample, nothing else. *)
Theorem C13_waypoint_constraint_at_its_sample : forall asserts h1 i c h2 handle d g g' env sol,
  good_history asserts (h1 ++ OWptConstraint i c :: h2) -> good_history asserts (h1 ++ h2) ->
  (i < waypoint_count (path asserts h1))%nat ->
  generator asserts (h1 ++ h2) handle d g -> generator asserts (h1 ++ OWptConstraint i c :: h2) handle d g' ->
  ConstructSwerveSolution g env = Ok sol ->
  ConstructSwerveSolution g' env = Ok sol /\
  (feasible env (g_problem g') <->
   feasible env (g_problem g) /\
   ((i <= length (counts asserts (h1 ++ h2)))%nat ->
      demands (at_sample sol (waypoint_sample (counts asserts (h1 ++ h2)) i)) c)).
Proof. exact C13_proof. Qed.
Print Assumptions C13_waypoint_constraint_at_its_sample.
Example C13_case : (1 < waypoint_count (path true ride_start))%nat /\
  good_history true (ride_start ++ ride_end) /\
  good_history true (ride_start ++ OWptConstraint 1 (LinearVelocityMaxMagnitude 0%R) :: ride_end) /\
  exists g g' sol, generator true (ride_start ++ ride_end) 7 cart g /\
    generator true (ride_start ++ OWptConstraint 1 (LinearVelocityMaxMagnitude 0%R) :: ride_end) 7 cart g' /\
    ConstructSwerveSolution g (fun _ => 0%R) = Ok sol.
Proof.
  split; [apply Nat.ltb_lt; reflexivity|]. split; [exact ride_without_good|].
  apply inserted_case; first [reflexivity | exact I].
Qed.

(** C14. Likewise for SgmtConstraint: the demand at every sample of the closed
    range. *)
Theorem C14_segment_constraint_on_closed_range : forall asserts h1 f t c h2 handle d g g' env sol,
  good_history asserts (h1 ++ OSgmtConstraint f t c :: h2) -> good_history asserts (h1 ++ h2) ->
  (t < waypoint_count (path asserts h1))%nat ->
  generator asserts (h1 ++ h2) handle d g -> generator asserts (h1 ++ OSgmtConstraint f t c :: h2) handle d g' ->
  ConstructSwerveSolution g env = Ok sol ->
  ConstructSwerveSolution g' env = Ok sol /\
  (feasible env (g_problem g') <->
   feasible env (g_problem g) /\
   ((f <= length (counts asserts (h1 ++ h2)))%nat ->
      forall i, (waypoint_sample (counts asserts (h1 ++ h2)) f <= i <= waypoint_sample (counts asserts (h1 ++ h2)) t)%nat ->
      demands (at_sample sol i) c)).
Proof. exact C14_proof. Qed.
Print Assumptions C14_segment_constraint_on_closed_range.
Example C14_case : (1 < waypoint_count (path true ride_start))%nat /\
  good_history true (ride_start ++ ride_end) /\
  good_history true (ride_start ++ OSgmtConstraint 0 1 (AngularVelocityMaxMagnitude 1%R) :: ride_end) /\
  exists g g' sol, generator true (ride_start ++ ride_end) 7 cart g /\
    generator true (ride_start ++ OSgmtConstraint 0 1 (AngularVelocityMaxMagnitude 1%R) :: ride_end) 7 cart g' /\
    ConstructSwerveSolution g (fun _ => 0%R) = Ok sol.
Proof.
  split; [apply Nat.ltb_lt; reflexivity|]. split; [exact ride_without_good|].
  apply inserted_case; try reflexivity; repeat split; try reflexivity. lia.
Qed.

(** C15 as stated is false: the problem also admits trajectories that break the
    documented kinematics, by turning half a revolution too far. *)
Theorem C15_problem_is_physics_refuted : ~ (forall asserts h handle d g, good_history asserts h ->
  generator asserts h handle d g -> real_wheels d -> (forall n, In n (counts asserts h) -> (1 <= n)%nat) ->
  forall env sol, ConstructSwerveSolution g env = Ok sol -> headings_unit (counts asserts h) sol ->
  (feasible env (g_problem g) ->
   obeys_physics turns d (counts asserts h) sol)).
Proof. exact C15_refuted_proof. Qed.
Print Assumptions C15_problem_is_physics_refuted.
(** What holds of C15: every trajectory of the right dimensions that obeys the
    documented rules and the requests is admitted.  Missing: the converse, which
    is false; C60 is the exact characterisation. *)
Theorem C15_physics_is_admitted_partial : forall asserts h handle d g, good_history asserts h ->
  generator asserts h handle d g ->
  real_wheels d -> (forall n, In n (counts asserts h) -> (1 <= n)%nat) ->
  forall sol, well_shaped (counts asserts h) (length (d_modules d)) sol -> uniform_steps (counts asserts h) sol ->
  headings_unit (counts asserts h) sol ->
  obeys_physics turns d (counts asserts h) sol ->
  meets_requests (counts asserts h) sol (wpt_requests [] h) (sgmt_requests [] h) ->
  solved g sol.
Proof. exact C15_accepts_proof. Qed.
Print Assumptions C15_physics_is_admitted_partial.
Example C15_case : exists g, good_history true ride /\ generator true ride 7 cart g /\ real_wheels cart /\
  counts true ride = [2%nat] /\ well_shaped [2] 2 ride_solution /\ uniform_steps [2] ride_solution /\
  headings_unit [2] ride_solution /\ obeys_physics turns cart [2] ride_solution /\
  meets_requests [2] ride_solution (wpt_requests [] ride) (sgmt_requests [] ride).
Proof.
  destruct ride_hypotheses as (g & Gd & G & W & C & S). exists g. destruct ride_shaped.
  repeat (split; [assumption|]). split; [exact ride_headings|]. split; [exact ride_physics|exact ride_requests].
Qed.

(** C60. Exactly which assignments satisfy the problem, ... *)
Theorem C60_problem_exact : forall asserts h handle d g, good_history asserts h -> generator asserts h handle d g ->
  real_wheels d -> (forall n, In n (counts asserts h) -> (1 <= n)%nat) ->
  forall env sol, ConstructSwerveSolution g env = Ok sol ->
  (feasible env (g_problem g) <->
   obeys_physics turns_up_to_half d (counts asserts h) sol /\
   meets_requests (counts asserts h) sol (wpt_requests [] h) (sgmt_requests [] h)).
Proof. exact C15_proof. Qed.
Print Assumptions C60_problem_exact.
(** ... even after calls that failed, in terms of the recorded constraints, ... *)
Theorem C60_problem_exact_recorded : forall asserts h handle d g, generator asserts h handle d g ->
  real_wheels d -> (forall n, In n (counts asserts h) -> (1 <= n)%nat) ->
  (forall w c, In c (constraints_at (path asserts h) w) \/ In c (segment_constraints_to (path asserts h) w) ->
     proper_constraint c) ->
  forall env sol, ConstructSwerveSolution g env = Ok sol ->
  (feasible env (g_problem g) <->
   obeys_physics turns_up_to_half d (counts asserts h) sol /\
   meets_requests (counts asserts h) sol (constraints_at (path asserts h)) (segment_constraints_to (path asserts h))).
Proof. exact C15_recorded_proof. Qed.
Print Assumptions C60_problem_exact_recorded.
(** ... every trajectory of the right dimensions being the reading of some
    assignment, for every number type over which it is read, ... *)
Theorem C60_assignments_cover_trajectories : forall asserts h handle d g, generator asserts h handle d g ->
  forall sol, well_shaped (counts asserts h) (length (d_modules d)) sol -> uniform_steps (counts asserts h) sol ->
  exists env, ConstructSwerveSolution g env = Ok sol.
Proof. exact C15_complete_proof. Qed.
Print Assumptions C60_assignments_cover_trajectories.
(** ... and the relaxed turning rule is the documented one or its opposite. *)
Theorem C60_turning_exact : forall a b (dt : R), unit_heading a ->
  (turns_up_to_half a b dt <->
   turns a b dt \/
   (q_c b = - (q_c a * cos (q_w b * dt) - q_s a * sin (q_w b * dt)) /\
    q_s b = - (q_c a * sin (q_w b * dt) + q_s a * cos (q_w b * dt)))%R).
Proof. exact turns_exact. Qed.
Print Assumptions C60_turning_exact.
Example C60_case : exists g env, good_history true ride /\ generator true ride 7 cart g /\ real_wheels cart /\
  counts true ride = [2%nat] /\ ConstructSwerveSolution g env = Ok ride_solution /\ feasible env (g_problem g) /\
  unit_heading (at_sample ride_solution 1).
Proof.
  destruct ride_hypotheses as (g & Gd & G & W & C & env & F & E). exists g, env.
  repeat (split; [assumption|]). apply ride_headings. simpl. lia.
Qed.

(** C22. *)
Theorem C22_objective_is_duration : forall asserts h handle d g env sol, generator asserts h handle d g ->
  ConstructSwerveSolution g env = Ok sol ->
  (forall n, In n (counts asserts h) -> (Z.of_nat n < 2 ^ 31)%Z) ->
  exists e l p, pr_obj (g_problem g) = Some e /\ defined env e /\ eval env e = sum (s_dt sol) /\
    HolonomicTrajectory sol = Ok l /\ nth_error l (last_sample (counts asserts h)) = Some p /\
    h_timestamp p = sum (s_dt sol).
Proof. exact C22_proof. Qed.
Print Assumptions C22_objective_is_duration.
Example C22_case : exists g env, generator true ride 7 cart g /\ ConstructSwerveSolution g env = Ok ride_solution /\
  (forall n, In n (counts true ride) -> (Z.of_nat n < 2 ^ 31)%Z) /\ sum (s_dt ride_solution) = 1%R.
Proof.
  destruct ride_hypotheses as (g & _ & G & _ & C & env & _ & E). exists g, env. rewrite C.
  split; [exact G|]. split; [exact E|]. split; [intros n [<-|[]]; reflexivity|simpl; lra].
Qed.

(** C23 as stated is false: the time step bound depends on which modules are
    listed one after the other. *)
Theorem C23_module_order_refuted : ~ (forall asserts h handle d d' g g' sol, good_history asserts h ->
  generator asserts (h ++ [OSetDrivetrain d]) handle d g ->
  generator asserts (h ++ [OSetDrivetrain d']) handle d' g' ->
  reordered d d' -> real_wheels d -> (forall n, In n (counts asserts h) -> (1 <= n)%nat) ->
  solved g sol -> exists sol', solved g' sol' /\ same_motion sol sol').
Proof. exact C23_refuted_proof. Qed.
Print Assumptions C23_module_order_refuted.
(** What holds: apart from that bound the order does not matter.  Missing: orders
    with different time step bounds. *)
Theorem C23_module_order_partial : forall asserts h handle d d' g g', good_history asserts h ->
  generator asserts (h ++ [OSetDrivetrain d]) handle d g ->
  generator asserts (h ++ [OSetDrivetrain d']) handle d' g' ->
  reordered d d' -> real_wheels d -> (forall n, In n (counts asserts h) -> (1 <= n)%nat) ->
  (forall dt, step_within d dt -> step_within d' dt) ->
  forall sol, solved g sol ->
  (exists sol', solved g' sol' /\ same_motion sol sol' /\
     forall i, (i <= last_sample (counts asserts h))%nat -> same_forces d d' sol sol' i) /\
  (forall sol', well_shaped (counts asserts h) (length (d_modules d')) sol' -> same_motion sol sol' ->
     (forall i, (i <= last_sample (counts asserts h))%nat -> same_forces d d' sol sol' i) -> solved g' sol').
Proof. exact C23_partial_proof. Qed.
Print Assumptions C23_module_order_partial.
(** C63. For four modules on the corners of a rectangle any order will do. *)
Theorem C63_rectangular_module_order : forall asserts h handle d d' g g' (a b : R), good_history asserts h ->
  generator asserts (h ++ [OSetDrivetrain d]) handle d g ->
  generator asserts (h ++ [OSetDrivetrain d']) handle d' g' ->
  (0 < a)%R -> (0 < b)%R -> rectangular a b d ->
  reordered d d' -> real_wheels d -> (forall n, In n (counts asserts h) -> (1 <= n)%nat) ->
  forall sol, solved g sol ->
  (exists sol', solved g' sol' /\ same_motion sol sol' /\
     forall i, (i <= last_sample (counts asserts h))%nat -> same_forces d d' sol sol' i) /\
  (forall sol', well_shaped (counts asserts h) (length (d_modules d')) sol' -> same_motion sol sol' ->
     (forall i, (i <= last_sample (counts asserts h))%nat -> same_forces d d' sol sol' i) -> solved g' sol').
Proof. exact C63_proof. Qed.
Print Assumptions C63_rectangular_module_order.
Example C63_case : exists g g', good_history true errand /\
  generator true (errand ++ [OSetDrivetrain square_drive]) 7 square_drive g /\
  generator true (errand ++ [OSetDrivetrain zigzag_drive]) 7 zigzag_drive g' /\
  reordered square_drive zigzag_drive /\ rectangular 1 1 square_drive /\ real_wheels square_drive /\
  centred square_drive /\ (forall n, In n (counts true errand) -> (1 <= n)%nat) /\ solved g errand_solution.
Proof. exact errand_case. Qed.

(** C24. For every number type. *)
Theorem C24_distinct_variables : forall (K : Type) (HA : Arith K) (HD : Dbl K) asserts (h : list (op K)) handle d g,
  generator asserts h handle d g ->
  let v := g_vars g in
  let n := S (last_sample (counts asserts h)) in
  length (v_x v) = n /\ length (v_y v) = n /\ length (v_cos v) = n /\ length (v_sin v) = n /\
  length (v_vx v) = n /\ length (v_vy v) = n /\ length (v_omega v) = n /\
  length (v_ax v) = n /\ length (v_ay v) = n /\ length (v_alpha v) = n /\
  length (v_Fx v) = n /\ length (v_Fy v) = n /\
  Forall (fun r => length r = length (d_modules d)) (v_Fx v) /\
  Forall (fun r => length r = length (d_modules d)) (v_Fy v) /\
  length (v_dt v) = length (counts asserts h) /\
  Permutation (all_variables v) (map EVar (seq 0 (pr_nvars (g_problem g)))) /\
  NoDup (all_variables v).
Proof. exact @C24_proof. Qed.
Print Assumptions C24_distinct_variables.
Example C24_case : exists g, generator true ride 7 cart g /\ counts true ride = [2] /\ length (d_modules cart) = 2.
Proof. destruct ride_hypotheses as (g & _ & G & _ & C & _). exists g. split; [exact G|]. split; [exact C|reflexivity]. Qed.

(** C25. For every number type. *)
Theorem C25_solution_dimensions : forall (K : Type) (HA : Arith K) (HD : Dbl K) asserts (h : list (op K)) handle d g env,
  generator asserts h handle d g ->
  exists sol, ConstructSwerveSolution g env = Ok sol /\
    well_shaped (counts asserts h) (length (d_modules d)) sol.
Proof. exact @C25_proof. Qed.
Print Assumptions C25_solution_dimensions.
Theorem C25_equal_steps_in_segment : forall asserts h handle d g env sol, generator asserts h handle d g ->
  ConstructSwerveSolution g env = Ok sol -> uniform_steps (counts asserts h) sol.
Proof. exact uniform_read. Qed.
Print Assumptions C25_equal_steps_in_segment.
Example C25_case : exists g env, generator true ride 7 cart g /\ ConstructSwerveSolution g env = Ok ride_solution.
Proof. destruct ride_hypotheses as (g & _ & G & _ & C & env & _ & E). exists g, env. tauto. Qed.
