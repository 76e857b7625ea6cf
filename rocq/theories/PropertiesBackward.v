(** * Paths driven the other way: C123 *)
From Coq Require Import List Lia Lra Reals ZArith.
Import ListNotations.
From Verif Require Import Outcome Num NumR Geometry Constraints Builder Generator Trajectory
  Spec SpecBuilder SpecPhysics SpecTrajectory SpecGenerator SpecStep SpecLegs SpecDrive SpecReach SpecBackward
  GeneratorCases DashProofs BackwardProofs.
Open Scope R_scope.

(** *** C123: a path driven the other way takes as long *)

(** It does not, and it may not be possible at all: *)
Theorem C123_refuted :
  ~ forall asserts h h' d handle handle' g g' sol, good_history asserts h -> good_history asserts h' ->
  generator asserts h handle d g -> generator asserts h' handle' d g' -> real_wheels d ->
  let N := counts asserts h in (forall k, In k N -> (1 <= k)%nat) -> counts asserts h' = rev N -> other_way (length N) h h' ->
  solved g sol -> exists sol', solved g' sol' /\ sum (s_dt sol') = sum (s_dt sol).
Proof. exact C123_refuted_proof. Qed.
Print Assumptions C123_refuted.

(** Stopping over a distance takes longer than starting over it, by a factor of at
    least the square root of (n + 1) / (n - 1); with one control interval nothing can stop. *)
Theorem C123_dash_partial :
  forall asserts handle d n D, can_dash d n D ->
  good_history asserts (brake d n D) /\ counts asserts (brake d n D) = rev (counts asserts (dash d n D)) /\
  other_way 1 (dash d n D) (brake d n D) /\
  exists g, generator asserts (brake d n D) handle d g /\
  forall sol, solved g sol -> let T := sum (s_dt sol) in
    dash_time d n D < T /\ INR (n + 1) * (dash_time d n D * dash_time d n D) <= INR (n - 1) * (T * T).
Proof. exact C123_dash_proof. Qed.
Print Assumptions C123_dash_partial.
Example C123_dash_case : can_dash cart 1 1 /\ dash_time cart 1 1 = 1 / 2.
Proof. split; [exact cart_can_dash|exact cart_dash_time]. Qed.

(** That factor is exact where the motors allow the stop; so a stop takes longer than full
    thrust needs, as a start takes less (C116). *)
Theorem C123_brake_partial :
  forall asserts handle d n D, can_brake d n D ->
  exists g, good_history asserts (brake d n D) /\ generator asserts (brake d n D) handle d g /\
  (exists sol, solved g sol /\ sum (s_dt sol) = brake_time d n D) /\
  (forall sol, solved g sol -> brake_time d n D <= sum (s_dt sol)) /\
  brake_time d n D = sqrt (INR (n + 1) / INR (n - 1)) * dash_time d n D /\ true_time d D < brake_time d n D.
Proof. exact C123_brake_proof. Qed.
Print Assumptions C123_brake_partial.
Example C123_brake_case : can_brake cart 2 1 /\ brake_time cart 2 1 = 1.
Proof. split; [exact cart_can_brake|exact cart_brake_time]. Qed.

(** A plan that does not turn the robot and stands at every waypoint can be driven the
    other way, with its time steps in the other order, whatever is asked for, if limits on
    acceleration at waypoints go on over the segment after. *)
Theorem C123_unturned_partial :
  forall asserts h h' d handle handle' g g' sol c s, good_history asserts h -> good_history asserts h' ->
  generator asserts h handle d g -> generator asserts h' handle' d g' -> real_wheels d ->
  let N := counts asserts h in (forall k, In k N -> (1 <= k)%nat) -> counts asserts h' = rev N -> other_way (length N) h h' ->
  limits_last (length N) h ->
  solved g sol -> never_turns c s (last_sample N) sol -> stands_at_waypoints N sol ->
  exists sol', solved g' sol' /\ s_dt sol' = rev (s_dt sol).
Proof. exact C123_unturned_proof. Qed.
Print Assumptions C123_unturned_partial.

(** If all poses face one way and the modules are alike and balanced, the plan may turn in between. *)
Theorem C123_straight_partial :
  forall asserts h h' d handle handle' g g' sol a i x y b, good_history asserts h -> good_history asserts h' ->
  generator asserts h handle d g -> generator asserts h' handle' d g' -> real_wheels d -> alike d -> centred d ->
  let N := counts asserts h in (forall k, In k N -> (1 <= k)%nat) -> counts asserts h' = rev N -> other_way (length N) h h' ->
  requests_are (facing_one_way a) (length N) h -> limits_last (length N) h -> In (OPoseWpt i x y b) h -> (i <= length N)%nat ->
  solved g sol -> stands_at_waypoints N sol ->
  exists sol', solved g' sol' /\ s_dt sol' = rev (s_dt sol).
Proof. exact C123_straight_proof. Qed.
Print Assumptions C123_straight_partial.

(** So every tour of poses that face one way takes as long the other way. *)
Theorem C123_tours_partial :
  forall asserts d v w ps ns a handle g sol, real_wheels d -> alike d -> centred d ->
  (2 <= length ps)%nat -> (Z.of_nat (length ps) <= 2 ^ 63)%Z -> (forall p, In p ps -> o_a p = a) ->
  length ns = (length ps - 1)%nat -> (forall n, In n ns -> (1 <= n)%nat) ->
  generator asserts (with_counts (tour d v w ps) ns) handle d g -> solved g sol ->
  good_history asserts (with_counts (tour d v w (rev ps)) (rev ns)) /\
  forall handle', exists g' sol', generator asserts (with_counts (tour d v w (rev ps)) (rev ns)) handle' d g' /\ solved g' sol' /\
    s_dt sol' = rev (s_dt sol).
Proof. exact C123_tours_proof. Qed.
Print Assumptions C123_tours_partial.

(** A tour around a corner with different numbers of control intervals meets all of these conditions. *)
Example C123_around_case : real_wheels cart /\ alike cart /\ centred cart /\ (forall p, In p around -> o_a p = 0) /\
  exists ns handle g g' sol,
  let h := with_counts (tour cart 1 1 around) ns in let h' := with_counts (tour cart 1 1 (rev around)) (rev ns) in
  good_history true h /\ good_history true h' /\ generator true h handle cart g /\ generator true h' handle cart g' /\
  counts true h = ns /\ length ns = 2%nat /\ (forall n, In n ns -> (1 <= n)%nat) /\ nth 0 ns 0%nat <> nth 1 ns 0%nat /\
  counts true h' = rev ns /\ other_way 2 h h' /\ requests_are (facing_one_way 0) 2 h /\ limits_last 2 h /\
  (exists x y b, In (OPoseWpt 0 x y b) h) /\
  solved g sol /\ never_turns (cos 0) (sin 0) (last_sample ns) sol /\ stands_at_waypoints ns sol.
Proof.
  split; [exact cart_wheels|]. split; [exact cart_alike|]. split; [exact cart_centred|].
  split; [intros p [<-|[<-|[<-|[]]]]; reflexivity|exact around_case].
Qed.
(** ... and so does the tour with a limit on acceleration. *)
Example C123_gently_case : exists m ns handle g g' sol, 0 < m /\
  let h := with_counts (gently m (tour cart 1 1 around)) ns in let h' := with_counts (gently m (tour cart 1 1 (rev around))) (rev ns) in
  good_history true h /\ good_history true h' /\ generator true h handle cart g /\ generator true h' handle cart g' /\
  counts true h = ns /\ length ns = 2%nat /\ (forall n, In n ns -> (1 <= n)%nat) /\ nth 0 ns 0%nat <> nth 1 ns 0%nat /\
  counts true h' = rev ns /\ other_way 2 h h' /\ requests_are (facing_one_way 0) 2 h /\ limits_last 2 h /\
  In (LinearAccelerationMaxMagnitude m) (wpt_requests [] h 1) /\ (exists x y b, In (OPoseWpt 0 x y b) h) /\
  solved g sol /\ never_turns (cos 0) (sin 0) (last_sample ns) sol /\ stands_at_waypoints ns sol.
Proof. exact gently_case. Qed.
