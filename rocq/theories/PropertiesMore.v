(** Claims about more control intervals: C120. *)
From Coq Require Import List Reals ZArith.
Import ListNotations.
From Verif Require Import Outcome Num NumR Geometry Constraints Builder Generator Spec SpecBuilder SpecPhysics SpecTrajectory
  SpecGenerator SpecStep SpecLegs SpecReach SpecMore MoreProofs.
Open Scope R_scope.

(** *** C120: more control intervals never make a solvable path unsolvable *)

(** Not so: a constraint on a segment binds at the samples only.  With one
    interval the robot leaps over the point it has to keep away from; with two it
    has a sample close to it, whatever it does. *)
Theorem C120_refuted :
  forall asserts handle,
  (exists g sol, generator asserts (with_counts leap [1%nat]) handle heavy g /\ solved g sol) /\
  (exists g, generator asserts (with_counts leap [2%nat]) handle heavy g /\ forall sol, ~ solved g sol).
Proof. exact C120_refuted_proof. Qed.
Print Assumptions C120_refuted.

(** What holds instead: where a solution rests at some sample of the segment, any
    number of intervals can be added to that segment.  The robot waits there, and
    its states before and after are the same. *)
Theorem C120_rest_partial :
  forall asserts h d ns w k s handle g sol, good_history asserts h -> real_wheels d ->
  (forall n, In n ns -> (1 <= n)%nat) -> (w < length ns)%nat ->
  generator asserts (with_counts h ns) handle d g -> solved g sol ->
  (waypoint_sample ns w <= s <= waypoint_sample ns (S w))%nat -> rests (at_sample sol s) ->
  good_history asserts (with_counts h (bump ns w k)) /\
  forall handle', exists g' sol', generator asserts (with_counts h (bump ns w k)) handle' d g' /\ solved g' sol' /\
    (forall i, (i <= s)%nat -> at_sample sol' i = at_sample sol i) /\
    (forall i, (s < i <= last_sample ns)%nat -> at_sample sol' (i + k) = at_sample sol i).
Proof. exact C120_rest_proof. Qed.
Print Assumptions C120_rest_partial.

(** So it holds where the program itself asks the robot to stop at one end of
    every segment that gets more intervals. *)
Theorem C120_stops_partial :
  forall asserts h d ns ns' handle g sol, good_history asserts h -> real_wheels d ->
  (forall n, In n ns -> (1 <= n)%nat) -> length ns' = length ns -> (forall w, (nth w ns 0 <= nth w ns' 0)%nat) ->
  (forall w, (w < length ns)%nat -> (nth w ns 0 < nth w ns' 0)%nat -> asks_to_stop h w \/ asks_to_stop h (S w)) ->
  generator asserts (with_counts h ns) handle d g -> solved g sol ->
  good_history asserts (with_counts h ns') /\
  forall handle', exists g' sol', generator asserts (with_counts h ns') handle' d g' /\ solved g' sol'.
Proof. exact C120_stops_proof. Qed.
Print Assumptions C120_stops_partial.
Example C120_stops_case : forall handle, real_wheels lopsided /\ good_history true round_trip /\
  (forall k, (k <= 2)%nat -> asks_to_stop round_trip k) /\
  exists ns g sol, length ns = 2%nat /\ (forall n, In n ns -> (1 <= n)%nat) /\
    generator true (with_counts round_trip ns) handle lopsided g /\ solved g sol /\
    rests (at_sample sol (waypoint_sample ns 1)).
Proof. exact round_trip_case. Qed.

(** In particular on every tour of poses. *)
Theorem C120_tours :
  forall asserts d v w ps ns ns' handle g sol, real_wheels d ->
  (2 <= length ps)%nat -> (Z.of_nat (length ps) <= 2 ^ 63)%Z -> length ns = (length ps - 1)%nat ->
  (forall n, In n ns -> (1 <= n)%nat) -> length ns' = length ns -> (forall k, (nth k ns 0 <= nth k ns' 0)%nat) ->
  generator asserts (with_counts (tour d v w ps) ns) handle d g -> solved g sol ->
  good_history asserts (with_counts (tour d v w ps) ns') /\
  forall handle', exists g' sol', generator asserts (with_counts (tour d v w ps) ns') handle' d g' /\ solved g' sol'.
Proof. exact C120_tours_proof. Qed.
Print Assumptions C120_tours.
