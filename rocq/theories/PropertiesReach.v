(** Claims about what can be driven at all: C119. *)
From Coq Require Import List Reals ZArith.
Import ListNotations.
From Verif Require Import Outcome Num NumR Geometry Constraints Builder Generator Spec SpecBuilder SpecPhysics SpecTrajectory
  SpecGenerator SpecStep SpecLegs SpecReach ReachProofs.
Open Scope R_scope.

(** *** C119: enough control intervals *)

(** Where the modules are not all at one place and the wheels turn and push,
    every path with a way through that is free if taken slowly has solutions
    for all sufficiently large control interval counts. *)
Theorem C119_enough_intervals :
  forall asserts h d stops f eps, good_history asserts h -> last_drivetrain None h = Some d ->
  driven_wheels d -> apart d -> (1 <= segment_count (path asserts h))%nat ->
  free_way h (segment_count (path asserts h)) stops f eps ->
  exists m, forall ns, length ns = segment_count (path asserts h) -> (forall n, In n ns -> (m <= n)%nat) ->
    good_history asserts (with_counts h ns) /\
    forall handle, exists g sol, generator asserts (with_counts h ns) handle d g /\ solved g sol.
Proof. exact C119_proof. Qed.
Print Assumptions C119_enough_intervals.
(** A robot whose modules do not balance drives around a point on the straight way. *)
Example C119_case : driven_wheels lopsided /\ apart lopsided /\ ~ centred lopsided /\
  forall asserts, good_history asserts detour /\ last_drivetrain None detour = Some lopsided /\
  segment_count (path asserts detour) = 1%nat /\ free_way detour 1 detour_stops (fun w => (2 * w)%nat) 1 /\
  ~ demands (mkState 0 0 1 0 0 0 0 0 0 0) (PointPoint (mkTr 0 0) (mkTr 0 0) 1).
Proof. exact detour_case. Qed.

(** Any poses can be visited in turn, stopping at each, under any limits on
    speed and angular velocity. *)
Theorem C119_tours :
  forall asserts d v w ps, driven_wheels d -> apart d -> 0 < v -> 0 < w ->
  (2 <= length ps)%nat -> (Z.of_nat (length ps) <= 2 ^ 63)%Z ->
  exists m, forall ns, length ns = (length ps - 1)%nat -> (forall n, In n ns -> (m <= n)%nat) ->
    good_history asserts (with_counts (tour d v w ps) ns) /\
    forall handle, exists g sol, generator asserts (with_counts (tour d v w ps) ns) handle d g /\ solved g sol.
Proof. exact C119_tour_proof. Qed.
Print Assumptions C119_tours.
Example C119_tour_case : exists m, forall ns, length ns = 2%nat -> (forall n, In n ns -> (m <= n)%nat) ->
  good_history true (with_counts (tour lopsided (1 / 10) (1 / 10) [mkStop 0 0 0; mkStop 1000 0 100; mkStop 0 (-5) 0]) ns) /\
  forall handle, exists g sol,
    generator true (with_counts (tour lopsided (1 / 10) (1 / 10) [mkStop 0 0 0; mkStop 1000 0 100; mkStop 0 (-5) 0]) ns) handle lopsided g /\
    solved g sol.
Proof. exact tour_case. Qed.

(** The condition is needed: with all modules at the centre a robot cannot be turned,
    however many intervals there are. *)
Theorem C119_centre_stuck :
  forall asserts d v w p p' n handle g sol,
  (forall md, In md (d_modules d) -> pt (m_translation md) = (0, 0)) -> d_moi d <> 0 -> sin (o_a p' - o_a p) <> 0 ->
  generator asserts (with_counts (tour d v w [p; p']) [n]) handle d g -> ~ solved g sol.
Proof. exact C119_centre_proof. Qed.
Print Assumptions C119_centre_stuck.
Example C119_centre_case : driven_wheels hub_robot /\
  (forall md, In md (d_modules hub_robot) -> pt (m_translation md) = (0, 0)) /\
  d_moi hub_robot <> 0 /\ sin (o_a (mkStop 0 0 (PI / 2)) - o_a (mkStop 0 0 0)) <> 0 /\
  forall asserts n handle, exists g,
    generator asserts (with_counts (tour hub_robot 1 1 [mkStop 0 0 0; mkStop 0 0 (PI / 2)]) [n]) handle hub_robot g.
Proof. exact hub_case. Qed.
