(** Claims about what one time step can do: C72-C75, C80. *)
From Coq Require Import List Lia Lra Reals ZArith.
Import ListNotations.
From Verif Require Import Outcome Num NumR Geometry Expr Constraints Util Builder Guess Generator Trajectory
  Spec SpecBuilder SpecPhysics SpecTrajectory SpecGenerator SpecStep SpecLegs GeneratorCases OrderCases StepProofs StepCases Programs DurationProofs ProgramProofs LegProofs ExampleProofs.
Open Scope R_scope.

(** *** C72: the robot moves at most one module spacing per step *)

(** The modules are placed around the centre of the robot and [s] is a nonzero x
    or y offset between two modules listed one after the other.  In any solution,
    two consecutive samples are at most [s] apart if the heading at the later one
    is a direction. *)
Theorem C72_step_length :
  forall asserts h handle d g sol, generator asserts h handle d g -> solved g sol ->
  real_wheels d -> centred d -> forall s, spacing d s ->
  forall i, (1 <= i <= last_sample (counts asserts h))%nat -> unit_heading (at_sample sol i) ->
  dist2 (position (at_sample sol (i - 1))) (position (at_sample sol i)) <= s.
Proof. exact C72_proof. Qed.
Print Assumptions C72_step_length.

(** A square robot with modules 2 apart, moving 1/2 in its first step. *)
Example C72_case : exists g, generator true (errand ++ [OSetDrivetrain square_drive]) 7 square_drive g /\
  solved g errand_solution /\ real_wheels square_drive /\ centred square_drive /\ spacing square_drive 2 /\
  unit_heading (at_sample errand_solution 1) /\
  dist2 (position (at_sample errand_solution 0)) (position (at_sample errand_solution 1)) = 1/2.
Proof.
  destruct errand_case as (g & _ & _ & G & _ & _ & _ & W & C & _ & S). exists g.
  destruct errand_step as (_ & U & D & _). pose proof square_spacing. tauto.
Qed.

(** *** C73: how far apart waypoints can be *)

(** Samples [i] and [j] are at most [j - i] spacings apart. *)
Theorem C73_reach :
  forall asserts h handle d g sol, generator asserts h handle d g -> solved g sol ->
  real_wheels d -> centred d -> forall s, spacing d s -> headings_unit (counts asserts h) sol ->
  forall i j, (i <= j <= last_sample (counts asserts h))%nat ->
  dist2 (position (at_sample sol i)) (position (at_sample sol j)) <= INR (j - i) * s.
Proof. exact C73_reach_proof. Qed.
Print Assumptions C73_reach.

(** Waypoints farther apart than one spacing per control interval between them
    make the problem infeasible, if some waypoint prescribes a heading. *)
Theorem C73_unreachable_waypoints :
  forall asserts h handle d g, good_history asserts h ->
  generator asserts h handle d g -> real_wheels d -> centred d -> forall s, spacing d s ->
  forall i j x y a x' y' a' k u v b,
  In (OPoseWpt i x y a) h \/ In (OTranslationWpt i x y a) h ->
  In (OPoseWpt j x' y' a') h \/ In (OTranslationWpt j x' y' a') h ->
  In (OPoseWpt k u v b) h -> (i <= j)%nat -> (j <= length (counts asserts h))%nat -> (k <= length (counts asserts h))%nat ->
  INR (list_sum (firstn (j - i) (skipn i (counts asserts h)))) * s < dist2 (x, y) (x', y') ->
  ~ exists sol, solved g sol.
Proof. exact C73_unreachable_proof. Qed.
Print Assumptions C73_unreachable_waypoints.

Example C73_reach_case : exists g, generator true (errand ++ [OSetDrivetrain square_drive]) 7 square_drive g /\
  solved g errand_solution /\ real_wheels square_drive /\ centred square_drive /\ spacing square_drive 2 /\
  unit_heading (at_sample errand_solution 1).
Proof.
  destruct errand_case as (g & _ & _ & G & _ & _ & _ & W & C & _ & S). exists g.
  destruct errand_step as (_ & U & _). pose proof square_spacing. tauto.
Qed.
(** A hundred metres with two control intervals: no solution. *)
Example C73_unreachable_case : exists g,
  generator true (too_far ++ [OSetDrivetrain square_drive]) 7 square_drive g /\ ~ exists sol, solved g sol.
Proof.
  destruct too_far_case as (g & GH & G & W & C & S & N & D). exists g. split; [exact G|].
  apply (C73_unreachable_waypoints true _ 7 square_drive g GH G W C 2 S 0 1 0 0 0 100 0 1 0 0 0 0); rewrite ?N.
  - left. simpl. tauto.
  - right. simpl. tauto.
  - simpl. tauto.
  - lia.
  - simpl. lia.
  - simpl. lia.
  - exact D.
Qed.

(** *** C74: the robot turns by less than half a turn per step *)

(** At most 2 radians, unless all modules are in one place; at most the square
    root of 2, which is less than a quarter turn, for modules on the corners of a
    rectangle. *)
Theorem C74_turn_per_step :
  forall asserts h handle d g sol, generator asserts h handle d g -> solved g sol ->
  real_wheels d -> forall i, (1 <= i <= last_sample (counts asserts h))%nat ->
  (forall s, spacing d s -> Rabs (q_w (at_sample sol i) * step_to sol i) <= 2) /\
  (forall a b, 0 < a -> 0 < b -> rectangular a b d ->
     Rabs (q_w (at_sample sol i) * step_to sol i) <= sqrt 2).
Proof. exact C74_proof. Qed.
Print Assumptions C74_turn_per_step.

(** With modules on the corners of a rectangle, the angle between consecutive
    headings therefore tells whether the heading turned by angular velocity times
    time, or by half a turn more. *)
Theorem C74_turn_side :
  forall asserts h handle d g sol, generator asserts h handle d g -> solved g sol ->
  real_wheels d -> forall a b, 0 < a -> 0 < b -> rectangular a b d ->
  forall i, (1 <= i <= last_sample (counts asserts h))%nat -> unit_heading (at_sample sol (i - 1)) ->
  let p := at_sample sol (i - 1) in let q := at_sample sol i in
  (0 < alignment p q /\ turns p q (step_to sol i)) \/ (alignment p q < 0 /\ turns_opposite p q (step_to sol i)).
Proof. exact C74_side_proof. Qed.
Print Assumptions C74_turn_side.

Example C74_case : exists g, generator true (errand ++ [OSetDrivetrain square_drive]) 7 square_drive g /\
  solved g errand_solution /\ real_wheels square_drive /\ spacing square_drive 2 /\ rectangular 1 1 square_drive /\
  unit_heading (at_sample errand_solution 0) /\
  q_w (at_sample errand_solution 1) * step_to errand_solution 1 = 1/2.
Proof.
  destruct errand_case as (g & _ & _ & G & _ & _ & Rc & W & C & _ & S). exists g.
  destruct errand_step as (U & _ & _ & T). pose proof square_spacing. tauto.
Qed.

(** *** C75: how long a trajectory must take *)

(** The time between two samples is at least their distance divided by the mean
    of the wheel speed limits, *)
Theorem C75_distance_takes_time :
  forall asserts h handle d g sol, generator asserts h handle d g -> solved g sol ->
  real_wheels d -> centred d -> forall i j, (i <= j <= last_sample (counts asserts h))%nat ->
  (forall k, (i < k <= j)%nat -> unit_heading (at_sample sol k)) ->
  INR (length (d_modules d)) * dist2 (position (at_sample sol i)) (position (at_sample sol j))
    <= elapsed sol i j * sum (map wheel_limit (d_modules d)).
Proof. exact C75_speed_proof. Qed.
Print Assumptions C75_distance_takes_time.

(** at least the change of momentum divided by the sum of the force limits, *)
Theorem C75_momentum_takes_time :
  forall asserts h handle d g sol, generator asserts h handle d g -> solved g sol ->
  real_wheels d -> 0 < d_mass d -> forall i j, (i <= j <= last_sample (counts asserts h))%nat ->
  let p := at_sample sol i in let q := at_sample sol j in
  d_mass d * norm2 (q_vx q - q_vx p, q_vy q - q_vy p) <= elapsed sol i j * thrust d.
Proof. exact C75_force_proof. Qed.
Print Assumptions C75_momentum_takes_time.

(** and from rest at one waypoint to rest at the next at least as long as full
    thrust and full braking for half the time each: T^2 >= 4 m D / F. *)
Theorem C75_rest_to_rest :
  forall asserts h handle d g sol, generator asserts h handle d g -> solved g sol ->
  real_wheels d -> 0 < d_mass d -> forall w, (w < length (counts asserts h))%nat ->
  let i := waypoint_sample (counts asserts h) w in let j := waypoint_sample (counts asserts h) (S w) in
  at_rest (at_sample sol i) -> at_rest (at_sample sol j) ->
  4 * d_mass d * dist2 (position (at_sample sol i)) (position (at_sample sol j))
    <= thrust d * (elapsed sol i j * elapsed sol i j).
Proof. exact C75_rest_proof. Qed.
Print Assumptions C75_rest_to_rest.

Example C75_case : exists g, generator true (errand ++ [OSetDrivetrain square_drive]) 7 square_drive g /\
  solved g errand_solution /\ real_wheels square_drive /\ centred square_drive /\ 0 < d_mass square_drive /\
  unit_heading (at_sample errand_solution 1) /\ elapsed errand_solution 0 2 = 1.
Proof.
  destruct errand_case as (g & _ & _ & G & _ & _ & _ & W & C & _ & S). exists g.
  destruct errand_step as (_ & U & _). destruct errand_elapsed as (E & _).
  assert (0 < d_mass square_drive) by (simpl; lra). tauto.
Qed.
(** From rest to rest in 40 steps; the bound is attained. *)
Example C75_rest_case : exists g, generator true example1 7 ex_drivetrain g /\ solved g best /\
  real_wheels ex_drivetrain /\ 0 < d_mass (ex_drivetrain (K := R)) /\
  at_rest (at_sample best 0) /\ at_rest (at_sample best 40) /\
  4 * d_mass ex_drivetrain * dist2 (position (at_sample best 0)) (position (at_sample best 40))
    = thrust ex_drivetrain * (elapsed best 0 40 * elapsed best 0 40).
Proof. exact best_rest. Qed.

(** *** C80: what can be solved *)

(** Any plan that stops and goes within the limits of the drivetrain solves
    the problem: the legs subdivide the segments, the robot can do each leg, at
    the waypoints standing still meets the requests and under way the states
    passed meet those of the segment. *)
Theorem C80_stop_and_go_plans_are_solutions :
  forall asserts h handle d g legs stops f, good_history asserts h -> generator asserts h handle d g ->
  real_wheels d -> centred d -> 0 < arms d -> 0 <= d_mass d -> 0 <= d_moi d ->
  (forall n, In n (counts asserts h) -> (1 <= n)%nat) -> legs <> [] -> subdivide (counts asserts h) legs f ->
  (forall k, (k < length legs)%nat ->
     leg_within d (fst (nth k legs (0%nat, 0))) (snd (nth k legs (0%nat, 0))) (stops k) (stops (S k))) ->
  (forall w c q, (w <= length (counts asserts h))%nat -> In c (wpt_requests [] h w) -> stands (stops (f w)) q -> demands q c) ->
  (forall w c k q, (1 <= w <= length (counts asserts h))%nat -> In c (sgmt_requests [] h w) -> (f (w - 1)%nat <= k < f w)%nat ->
     under_way (stops k) (stops (S k)) (top_rate (fst (nth k legs (0%nat, 0))) (snd (nth k legs (0%nat, 0)))) q -> demands q c) ->
  exists sol, solved g sol /\ sum (s_dt sol) = total_time legs.
Proof. exact C80_proof. Qed.
Print Assumptions C80_stop_and_go_plans_are_solutions.
(** Three legs around a point that must be kept one metre away. *)
Example C80_case : centred ex_drivetrain /\ 0 < arms ex_drivetrain /\ counts true (@example7 R _) = [30%nat] /\
  subdivide [30%nat] [(10%nat, 2/5); (10%nat, 2/5); (10%nat, 2/5)] (fun w => (3 * w)%nat) /\
  leg_within ex_drivetrain 10 (2/5) (mkStop 0 1 0) (mkStop 2 1 0) /\
  (forall q, under_way (mkStop 0 1 0) (mkStop 2 1 0) (top_rate 10 (2/5)) q ->
     demands q (PointPoint (mkTr (nlit 0) (nlit 0)) (mkTr (nlit 1) (nlit 0)) (nlit 1))) /\
  total_time [(10%nat, 2/5); (10%nat, 2/5); (10%nat, 2/5)] = 12.
Proof. exact C80_case_proof. Qed.
