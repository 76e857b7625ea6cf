(** Claims about which side of the robot is its front: C118. *)
From Coq Require Import List Lia Lra Reals ZArith.
Import ListNotations.
From Verif Require Import Outcome Num NumR Geometry Constraints Builder Generator
  Spec SpecBuilder SpecPhysics SpecTrajectory SpecGenerator SpecSymmetry SpecFront GeneratorCases FrontProofs FrontPointProofs.
Open Scope R_scope.

(** *** C118: the front does not matter *)

(** As stated C118 is false, even without PointAt constraints: the longest time
    step depends on the x and y distances between modules in the robot's frame. *)
Theorem C118_front_refuted : ~ (forall b asserts h handle d g g', good_history asserts h ->
  generator asserts h handle d g -> generator asserts (map (front_call b) h) handle (front_drivetrain b d) g' ->
  real_wheels d -> (forall n, In n (counts asserts h) -> (1 <= n)%nat) ->
  (forall w c, In c (wpt_requests [] h w) \/ In c (sgmt_requests [] h w) -> ~ about_front c) ->
  forall sol, solved g sol -> solved g' (front_solution b sol)).
Proof. exact C118_angle_refuted_proof. Qed.
Print Assumptions C118_front_refuted.

(** Nor does it hold for quarter turns with a PointAt constraint, which is about
    the front and has no parameter for another side. *)
Theorem C118_pointing_refuted : ~ (forall b asserts h handle d g g', cos b * sin b = 0 -> good_history asserts h ->
  generator asserts h handle d g -> generator asserts (map (front_call b) h) handle (front_drivetrain b d) g' ->
  real_wheels d -> (forall n, In n (counts asserts h) -> (1 <= n)%nat) ->
  forall sol, solved g sol -> solved g' (front_solution b sol)).
Proof. exact C118_pointing_refuted_proof. Qed.
Print Assumptions C118_pointing_refuted.

(** What holds: by quarter turns, without PointAt, the solutions are the same
    motions with the same forces and times.  Missing: other angles and PointAt, see below. *)
Theorem C118_quarter_partial : forall b asserts h handle d g, cos b * sin b = 0 -> good_history asserts h ->
  generator asserts h handle d g -> real_wheels d -> (forall n, In n (counts asserts h) -> (1 <= n)%nat) ->
  (forall w c, In c (wpt_requests [] h w) \/ In c (sgmt_requests [] h w) -> ~ about_front c) ->
  exists g', good_history asserts (map (front_call b) h) /\
    generator asserts (map (front_call b) h) handle (front_drivetrain b d) g' /\
    (forall sol, solved g sol -> solved g' (front_solution b sol)) /\
    (forall sol', solved g' sol' -> exists sol, solved g sol /\ sol' = front_solution b sol).
Proof. exact C118_quarter_proof. Qed.
Print Assumptions C118_quarter_partial.

(** Any angle: nothing but the longest time step and PointAt depends on the front.
    A solution is one with the new front exactly if its steps are short enough for
    the turned modules, and every solution with the new front whose steps are short
    enough for the old one comes from one.  Missing: PointAt, see below. *)
Theorem C118_angle_partial : forall b asserts h handle d g, good_history asserts h ->
  generator asserts h handle d g -> real_wheels d -> (forall n, In n (counts asserts h) -> (1 <= n)%nat) ->
  (forall w c, In c (wpt_requests [] h w) \/ In c (sgmt_requests [] h w) -> ~ about_front c) ->
  let short d sol := forall i, (1 <= i <= last_sample (counts asserts h))%nat -> step_within d (step_to sol i) in
  exists g', good_history asserts (map (front_call b) h) /\
    generator asserts (map (front_call b) h) handle (front_drivetrain b d) g' /\
    (forall sol, solved g sol -> (solved g' (front_solution b sol) <-> short (front_drivetrain b d) sol)) /\
    (forall sol', solved g' sol' -> ((exists sol, solved g sol /\ sol' = front_solution b sol) <-> short d sol')).
Proof. exact C118_general_proof. Qed.
Print Assumptions C118_angle_partial.

(** With PointAt: exactly those solutions remain ones whose steps are short enough for the
    turned modules and whose new front points where the program asks the front to. *)
Theorem C118_exact_partial : forall b asserts h handle d g, good_history asserts h ->
  generator asserts h handle d g -> real_wheels d -> (forall n, In n (counts asserts h) -> (1 <= n)%nat) ->
  let short d sol := forall i, (1 <= i <= last_sample (counts asserts h))%nat -> step_within d (step_to sol i) in
  exists g', good_history asserts (map (front_call b) h) /\
    generator asserts (map (front_call b) h) handle (front_drivetrain b d) g' /\
    (forall sol, solved g sol ->
       (solved g' (front_solution b sol) <-> short (front_drivetrain b d) sol /\ faces (counts asserts h) h (front_solution b sol))) /\
    (forall sol', solved g' sol' ->
       ((exists sol, solved g sol /\ sol' = front_solution b sol) <-> short d sol' /\ faces (counts asserts h) h (front_solution (- b) sol'))).
Proof. exact C118_pointing_proof. Qed.
Print Assumptions C118_exact_partial.
(** A robot that looks at a point: with its left side as its front it looks elsewhere, after
    a full turn it does not. *)
Example C118_exact_case : forall b, b = PI / 2 \/ b = 2 * PI ->
  exists g, good_history true (parked look) /\ generator true (parked look) 0 wagon g /\ solved g parked_solution /\
  (faces (counts true (parked look)) (parked look) (front_solution b parked_solution) <-> b = 2 * PI).
Proof. exact C118_pointing_case_proof. Qed.

(** The ride with the robot's left side as its front: a quarter turn, for which
    both theorems apply, ends at the same place with the heading a quarter turn on. *)
Example C118_case : exists g, cos (PI / 2) * sin (PI / 2) = 0 /\ good_history true ride /\ generator true ride 7 cart g /\
  real_wheels cart /\ (forall n, In n (counts true ride) -> (1 <= n)%nat) /\
  (forall w c, In c (wpt_requests [] ride w) \/ In c (sgmt_requests [] ride w) -> ~ about_front c) /\ solved g ride_solution /\
  front_call (PI / 2) (OPoseWpt 1 1 0 1) = OPoseWpt 1 1 0 (1 + PI / 2) /\
  d_modules (front_drivetrain (PI / 2) cart) = [wheel 1 (-1); wheel (-1) 1] /\
  q_x (at_sample (front_solution (PI / 2) ride_solution) 2) = 1 /\
  q_c (at_sample (front_solution (PI / 2) ride_solution) 2) = cos (1 + PI / 2) /\
  q_s (at_sample (front_solution (PI / 2) ride_solution) 2) = sin (1 + PI / 2).
Proof. exact C118_case_proof. Qed.
(** Two wheels in a row and a robot that stands still for half a second: an eighth
    of a turn makes the step too long, a quarter turn does not. *)
Example C118_angle_case : exists g, good_history true (parked []) /\ generator true (parked []) 0 wagon g /\ real_wheels wagon /\
  (forall n, In n (counts true (parked [])) -> (1 <= n)%nat) /\ solved g parked_solution /\
  (forall w c, In c (wpt_requests [] (parked []) w) \/ In c (sgmt_requests [] (parked []) w) -> ~ about_front c) /\
  last_sample (counts true (parked [])) = 1%nat /\ step_to parked_solution 1 = 1/2 /\
  ~ step_within (front_drivetrain (PI / 4) wagon) (1/2) /\ step_within (front_drivetrain (PI / 2) wagon) (1/2).
Proof. exact C118_angle_case_proof. Qed.
