(** Claims about coordinates and units: C89, C90. *)
From Coq Require Import List Lia Lra Reals ZArith.
Import ListNotations.
From Verif Require Import Outcome Num NumR Geometry Constraints Builder Generator
  Spec SpecBuilder SpecPhysics SpecTrajectory SpecGenerator SpecSymmetry GeneratorCases SymmetryProofs.
Open Scope R_scope.

(** *** C89: field coordinates do not matter *)

(** Mirror, turn and shift everything that is passed to the builder: the
    constructor still returns, and the solutions are the mirrored, turned and
    shifted solutions, with the same time steps. *)
Theorem C89_coordinates : forall ch asserts h handle d g, rigid ch -> good_history asserts h ->
  generator asserts h handle d g -> real_wheels d -> (forall n, In n (counts asserts h) -> (1 <= n)%nat) ->
  exists g', good_history asserts (map (new_call ch) h) /\
    generator asserts (map (new_call ch) h) handle (new_drivetrain ch d) g' /\
    (forall sol, solved g sol -> solved g' (new_solution ch sol)) /\
    (forall sol', solved g' sol' -> exists sol, solved g sol /\ sol' = new_solution ch sol) /\
    (forall sol, s_dt (new_solution ch sol) = s_dt sol).
Proof. exact C89_proof. Qed.
Print Assumptions C89_coordinates.

(** The ride from the origin to (1, 0) with heading 1, mirrored in the x axis,
    turned by a quarter turn and shifted by (16, 8), leads from (16, 8) to (16, 9). *)
Example C89_case : exists g, rigid other_side /\ good_history true ride /\ generator true ride 7 cart g /\
  real_wheels cart /\ (forall n, In n (counts true ride) -> (1 <= n)%nat) /\ solved g ride_solution /\
  In (OPoseWpt 1 1 0 1) ride /\ new_call other_side (OPoseWpt 1 1 0 1) = OPoseWpt 1 16 9 (PI / 2 - 1) /\
  q_x (at_sample (new_solution other_side ride_solution) 2) = 16 /\ q_y (at_sample (new_solution other_side ride_solution) 2) = 9.
Proof. exact C89_case_proof. Qed.

(** *** C90: units *)

(** As stated C90 is false: the distance a PointLine or LinePoint constraint
    enforces is the square root of the requested one, so metres and other units
    give different problems. *)
Theorem C90_units_refuted : ~ (forall ch asserts h handle d g g', proper_change ch -> good_history asserts h ->
  generator asserts h handle d g -> generator asserts (map (new_call ch) h) handle (new_drivetrain ch d) g' ->
  real_wheels d -> (forall n, In n (counts asserts h) -> (1 <= n)%nat) ->
  forall sol, solved g sol -> solved g' (new_solution ch sol)).
Proof. exact C90_refuted_proof. Qed.
Print Assumptions C90_units_refuted.
(** What holds: units of time and mass never matter, and that of length does not
    matter if no constraint measures the distance to a segment.  Missing: other
    units of length with such a constraint. *)
Theorem C90_units_partial : forall ch asserts h handle d g, proper_change ch -> good_history asserts h ->
  generator asserts h handle d g -> real_wheels d -> (forall n, In n (counts asserts h) -> (1 <= n)%nat) ->
  ch_length ch = 1 \/ (forall w c, In c (wpt_requests [] h w) \/ In c (sgmt_requests [] h w) -> ~ to_segment c) ->
  exists g', good_history asserts (map (new_call ch) h) /\
    generator asserts (map (new_call ch) h) handle (new_drivetrain ch d) g' /\
    (forall sol, solved g sol -> solved g' (new_solution ch sol)) /\
    (forall sol', solved g' sol' -> exists sol, solved g sol /\ sol' = new_solution ch sol).
Proof. exact C90_partial_proof. Qed.
Print Assumptions C90_units_partial.
(** The ride in centimetres, milliseconds and grams. *)
Example C90_case : exists g, proper_change small_units /\ good_history true ride /\ generator true ride 7 cart g /\
  real_wheels cart /\ (forall n, In n (counts true ride) -> (1 <= n)%nat) /\
  (forall w c, In c (wpt_requests [] ride w) \/ In c (sgmt_requests [] ride w) -> ~ to_segment c) /\ solved g ride_solution /\
  s_dt (new_solution small_units ride_solution) = [1000 * (1/2); 1000 * (1/2)] /\
  q_x (at_sample (new_solution small_units ride_solution) 2) = 100.
Proof. exact C90_case_proof. Qed.
