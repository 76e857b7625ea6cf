(** Property theorems about keeping clear of obstacles: C40.
    [on_outline f ps p]: the point [p] is on the outline of the polygon [ps]
    whose corner [c] lies at [f c]; [touching]: bumper and obstacle outline
    share a point; [outlines_apart s bu o e]: all pairs of points of the two
    outlines are at least [e] apart; [avoids N call o i]: the call asks to keep
    clear of [o] at sample [i] (SpecObstacle.v). *)
From Coq Require Import List Reals ZArith.
Import ListNotations.
From Verif Require Import Outcome Num NumR Geometry Constraints Builder Generator Spec SpecBuilder SpecPhysics
  SpecTrajectory SpecGenerator SpecObstacle GeneratorCases ObstacleProofs ObstacleCases.
Open Scope R_scope.

(** C40 is false, for three separate reasons.  First, only corners are kept away
    from sides, so two outlines may cross like a plus sign. *)
Theorem C40_crossing_refuted : forall asserts, ~ keeps_distance asserts (fun bu o =>
  length (o_points o) = length (o_points bu) /\ 0 < o_safetyDistance bu + o_safetyDistance o <= 1).
Proof. exact C40_across_proof. Qed.
Print Assumptions C40_crossing_refuted.
(** Second, distances to sides are only kept at the square root of the safety
    distance, which is too little above one metre. *)
Theorem C40_above_one_refuted : forall asserts, ~ keeps_distance asserts (fun bu o =>
  length (o_points bu) = 2%nat /\ length (o_points o) = 1%nat).
Proof. exact C40_large_proof. Qed.
Print Assumptions C40_above_one_refuted.
(** Third, when the bumper has fewer corners than the obstacle, the side that
    closes the obstacle's outline is not looked at. *)
Theorem C40_closing_side_refuted : forall asserts, ~ keeps_distance asserts (fun bu o =>
  length (o_points bu) = 3%nat /\ length (o_points o) = 4%nat /\ 0 < o_safetyDistance bu + o_safetyDistance o <= 1).
Proof. exact C40_unlike_proof. Qed.
Print Assumptions C40_closing_side_refuted.

(** What holds, for a bumper with as many corners as the obstacle or an obstacle
    with at most two (and not hidden behind a single-point bumper, C39): the
    outlines touch or are the square root of the safety distance apart.  Missing
    from C40: touching outlines, distances above one, unequal corner counts. *)
Theorem C40_outlines_apart_partial : forall asserts h1 call h2 handle d g sol o i bs1 bu bs2,
  good_history asserts (h1 ++ call :: h2) -> generator asserts (h1 ++ call :: h2) handle d g -> solved g sol ->
  avoids (counts asserts (h1 ++ call :: h2)) call o i ->
  flat_map bumper_request h1 = bs1 ++ bu :: bs2 ->
  (length (o_points o) = 1%nat -> Forall (fun b => length (o_points b) <> 1%nat) bs1) ->
  (length (o_points o) = length (o_points bu) \/ (length (o_points o) < 3)%nat) ->
  let s := at_sample sol i in
  let D := Rabs (o_safetyDistance bu + o_safetyDistance o) in
  if (length (o_points bu) =? 1)%nat && (length (o_points o) =? 1)%nat
  then outlines_apart s bu o D
  else touching s bu o \/ outlines_apart s bu o (sqrt D).
Proof. exact C40_partial_proof. Qed.
Print Assumptions C40_outlines_apart_partial.

(** With safety distances that add up to at most one metre the distance is at
    least the documented one, unless the outlines touch. *)
Theorem C40_up_to_one_partial : forall asserts h1 call h2 handle d g sol o i bs1 bu bs2,
  good_history asserts (h1 ++ call :: h2) -> generator asserts (h1 ++ call :: h2) handle d g -> solved g sol ->
  avoids (counts asserts (h1 ++ call :: h2)) call o i ->
  flat_map bumper_request h1 = bs1 ++ bu :: bs2 ->
  (length (o_points o) = 1%nat -> Forall (fun b => length (o_points b) <> 1%nat) bs1) ->
  (length (o_points o) = length (o_points bu) \/ (length (o_points o) < 3)%nat) ->
  0 <= o_safetyDistance bu + o_safetyDistance o <= 1 ->
  touching (at_sample sol i) bu o \/
  outlines_apart (at_sample sol i) bu o (o_safetyDistance bu + o_safetyDistance o).
Proof. exact C40_safe_proof. Qed.
Print Assumptions C40_up_to_one_partial.

(** And they cannot touch when all sides of one of the two are short. *)
Theorem C40_short_sides_partial : forall asserts h1 call h2 handle d g sol o i bs1 bu bs2,
  good_history asserts (h1 ++ call :: h2) -> generator asserts (h1 ++ call :: h2) handle d g -> solved g sol ->
  avoids (counts asserts (h1 ++ call :: h2)) call o i ->
  flat_map bumper_request h1 = bs1 ++ bu :: bs2 ->
  (length (o_points o) = length (o_points bu) \/ (length (o_points o) < 3)%nat) ->
  length (o_points bu) <> 1%nat -> length (o_points o) <> 1%nat ->
  let s := at_sample sol i in
  let D := Rabs (o_safetyDistance bu + o_safetyDistance o) in
  (forall a b, In (a, b) (outline (o_points bu)) -> dist2 (placed s a) (placed s b) < 2 * sqrt D) \/
  (forall a b, In (a, b) (outline (o_points o)) -> dist2 (pt a) (pt b) < 2 * sqrt D) ->
  outlines_apart s bu o (sqrt D).
Proof. exact C40_short_proof. Qed.
Print Assumptions C40_short_sides_partial.

(** A square robot 2.1 m from a square it must keep 1 m from: all hypotheses
    above hold. *)
Example C40_case : forall asserts, exists g,
  good_history asserts (dock box bin) /\ generator asserts (dock box bin) 0 cart g /\ solved g parked /\
  avoids (counts asserts (dock box bin)) (OWptObstacle 0 bin) bin 0 /\
  dock box bin = dock_start box ++ OWptObstacle 0 bin :: [OControlIntervalCounts [1%nat]] /\
  flat_map bumper_request (dock_start box) = [] ++ box :: [] /\
  length (o_points bin) = length (o_points box) /\
  o_safetyDistance box + o_safetyDistance bin = 1 /\
  ~ touching (at_sample parked 0) box bin /\
  (forall a b, In (a, b) (outline (o_points box)) -> dist2 (placed (at_sample parked 0) a) (placed (at_sample parked 0) b) < 2 * 1).
Proof. exact C40_case_proof. Qed.
(** And the crossing robot of the first refutation is a solution too. *)
Example C40_crossing_case : forall asserts,
  exists g, generator asserts (dock beam pillar) 0 cart g /\ solved g parked.
Proof. intros asserts. exact (proj1 (docks_solved asserts)). Qed.
