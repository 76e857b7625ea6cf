(** Changes to a program that do and do not matter: order of constraint calls
    (C92), hardware (C93), which drivetrain and callbacks count (C94). *)
From Coq Require Import List Lia Lra Reals ZArith Permutation.
Import ListNotations.
From Verif Require Import Outcome Num NumR Geometry Constraints Builder Generator
  Spec SpecBuilder SpecPhysics SpecTrajectory SpecGenerator SpecChange Semantics GeneratorCases ConstraintOrder HardwareProofs.
Open Scope R_scope.

(** *** C92: the order of constraint calls does not matter *)

(** Constraint calls on waypoints that exist, made one after the other, can be
    made in any order. *)
Theorem C92_any_order : forall asserts h1 p p' h2 handle d g, Permutation p p' ->
  Forall (constrains (waypoint_count (path asserts h1))) p ->
  good_history asserts (h1 ++ p ++ h2) -> generator asserts (h1 ++ p ++ h2) handle d g ->
  good_history asserts (h1 ++ p' ++ h2) /\
  exists g', generator asserts (h1 ++ p' ++ h2) handle d g' /\ forall sol, solved g' sol <-> solved g sol.
Proof. exact C92_block_proof. Qed.
Print Assumptions C92_any_order.

(** A constraint call on waypoints that exist can be moved behind any other
    calls: obstacles, bumpers, new waypoints, interval counts. *)
Theorem C92_any_time : forall asserts h1 o h2 h3, constrains (waypoint_count (path asserts h1)) o ->
  let early := h1 ++ o :: h2 ++ h3 in let late := h1 ++ h2 ++ o :: h3 in
  (good_history asserts early <-> good_history asserts late) /\
  (good_history asserts early -> forall handle d,
    (exists g, generator asserts early handle d g) <-> (exists g, generator asserts late handle d g)) /\
  (good_history asserts early -> forall handle d g g',
    generator asserts early handle d g -> generator asserts late handle d g' ->
    forall sol, solved g sol <-> solved g' sol).
Proof. exact C92_delay_proof. Qed.
Print Assumptions C92_any_time.

Example C92_case : exists g,
  ride = ride_poses ++ ride_limits ++ [OControlIntervalCounts [2%nat]] /\
  good_history true ride /\ generator true ride 7 cart g /\ solved g ride_solution /\
  waypoint_count (path true ride_poses) = 2%nat /\ Forall (constrains 2) ride_limits /\
  Permutation ride_limits (rev ride_limits) /\ ride_limits <> rev ride_limits.
Proof. exact order_case. Qed.

(** *** C93: better hardware never hurts *)

(** As stated this is false: with faster wheels a path can have no trajectory any
    more, because the bound on the time step shrinks with the wheel speed. *)
Theorem C93_faster_refuted : ~ (forall asserts h handle d g d' g', good_history asserts h -> generator asserts h handle d g ->
  real_wheels d -> real_wheels d' -> faster d d' -> (forall n, In n (counts asserts h) -> (1 <= n)%nat) ->
  generator asserts (h ++ [OSetDrivetrain d']) handle d' g' ->
  (exists sol, solved g sol) -> exists sol, solved g' sol).
Proof. exact C93_refuted_proof. Qed.
Print Assumptions C93_faster_refuted.

(** Faster wheels keep every trajectory whose time steps the new bound allows. *)
Theorem C93_faster_partial : forall asserts h handle d g d', good_history asserts h -> generator asserts h handle d g ->
  real_wheels d -> faster d d' -> (forall n, In n (counts asserts h) -> (1 <= n)%nat) ->
  exists g', generator asserts (h ++ [OSetDrivetrain d']) handle d' g' /\
    forall sol, solved g sol -> (forall i, (1 <= i <= last_sample (counts asserts h))%nat -> step_within d' (step_to sol i)) ->
    solved g' sol.
Proof. exact C93_faster_proof. Qed.
Print Assumptions C93_faster_partial.

Example C93_faster_case : exists g, let h := ride ++ [OSetDrivetrain slow] in
  good_history true h /\ generator true h 7 slow g /\ real_wheels slow /\ faster slow cart /\
  (forall n, In n (counts true h) -> (1 <= n)%nat) /\ solved g ride_solution /\
  (forall i, (1 <= i <= last_sample (counts true h))%nat -> step_within cart (step_to ride_solution i)).
Proof. exact slow_case. Qed.

(** Motors of more torque keep every trajectory. *)
Theorem C93_stronger_partial : forall asserts h handle d g d', good_history asserts h -> generator asserts h handle d g ->
  real_wheels d -> stronger d d' -> (forall n, In n (counts asserts h) -> (1 <= n)%nat) ->
  exists g', generator asserts (h ++ [OSetDrivetrain d']) handle d' g' /\ forall sol, solved g sol -> solved g' sol.
Proof. exact C93_stronger_proof. Qed.
Print Assumptions C93_stronger_partial.

(** A robot of [k] times the mass and inertia, [k <= 1], can follow every
    trajectory, with [k] times the forces. *)
Theorem C93_lighter_partial : forall asserts h handle d g k, good_history asserts h -> generator asserts h handle d g ->
  real_wheels d -> 0 < k <= 1 -> (forall n, In n (counts asserts h) -> (1 <= n)%nat) ->
  exists g', generator asserts (h ++ [OSetDrivetrain (reloaded k d)]) handle (reloaded k d) g' /\
    forall sol, solved g sol -> solved g' (scaled_forces k sol).
Proof. exact C93_lighter_proof. Qed.
Print Assumptions C93_lighter_partial.

Example C93_case : exists g, good_history true ride /\ generator true ride 7 cart g /\ real_wheels cart /\
  (forall n, In n (counts true ride) -> (1 <= n)%nat) /\ solved g ride_solution /\ stronger cart strong /\
  real_wheels quick /\ faster cart quick /\ cart <> quick.
Proof. exact hardware_case. Qed.

(** *** C94: the last drivetrain and all callbacks count *)

(** Whatever else was called, and whether or not it failed. *)
Theorem C94_last_drivetrain_all_callbacks : forall {K} {HA : Arith K} {HD : Dbl K} asserts (h : list (op K)) handle d g,
  generator asserts h handle d g ->
  last_drivetrain None h = Some d /\ g_callbacks g = flat_map callback_request h /\ g_handle g = handle.
Proof. exact @C94_proof. Qed.
Print Assumptions C94_last_drivetrain_all_callbacks.

(** Two drivetrains, two callbacks and a call that fails. *)
Example C94_case : forall cb cb' : callback R, exists g,
  generator true (wordy cb cb') 7 cart g /\ g_callbacks g = [cb; cb'] /\ ~ all_returned true (wordy cb cb') new_builder.
Proof. exact wordy_case. Qed.
