(** Claims about the problem a generator builds in double arithmetic, C113 and
    C114: its constants are doubles, the products and quotients among them rounded,
    and its variables real numbers.  cos, sin, atan2 and hypot of doubles are
    arbitrary functions unless said otherwise. *)
From Coq Require Import List ZArith Reals SpecFloat Lia.
Import ListNotations.
From Verif Require Import Outcome Num NumR NumF64 Geometry Expr Constraints Builder Generator Spec SpecBuilder SpecPhysics
  SpecTrajectory SpecGenerator SpecDouble SpecRounding RoundingClaims RoundingCases.
Local Open Scope R_scope.

(** C113. The trajectories that satisfy the problem exactly are those with the
    physics of the drivetrain and the constraints asked for, each limit rounded. *)
Theorem C113_computed_partial : forall fcos fsin fatan2 fhypot asserts h handle d g,
  ordinary_path fcos fsin fatan2 fhypot asserts h handle d g ->
  forall sol, solved (over_reals g) sol <-> fits fcos fsin fatan2 fhypot asserts h computed d sol.
Proof. exact computed_exact. Qed.
Print Assumptions C113_computed_partial.
(** They keep the exact limits up to a relative error of 4 roundings, plus
    2^-530 for limits other than 0, ... *)
Theorem C113_within_partial : forall fcos fsin fatan2 fhypot asserts h handle d g,
  ordinary_path fcos fsin fatan2 fhypot asserts h handle d g ->
  forall sol, solved (over_reals g) sol -> fits fcos fsin fatan2 fhypot asserts h (looser documented) d sol.
Proof. exact within_looser. Qed.
Print Assumptions C113_within_partial.
(** ... and every trajectory that keeps limits stricter by as much satisfies the problem. *)
Theorem C113_enough_partial : forall fcos fsin fatan2 fhypot asserts h handle d g,
  ordinary_path fcos fsin fatan2 fhypot asserts h handle d g ->
  forall sol, fits fcos fsin fatan2 fhypot asserts h (stricter documented) d sol -> solved (over_reals g) sol.
Proof. exact stricter_enough. Qed.
Print Assumptions C113_enough_partial.
(** The exact limits are those of C60: the same physics, ... *)
Theorem C113_same_physics : forall d N sol,
  obeys_up_to documented d N sol <-> obeys_physics turns_up_to_half (real_drivetrain d) N sol.
Proof. exact documented_physics. Qed.
Print Assumptions C113_same_physics.
(** ... and the same demands where cosines and sines are exact. *)
Theorem C113_same_demands : forall fcos s c, exact_angles fcos c ->
  (demands_up_to fcos documented s c <-> demands s (real_constraint c)).
Proof. exact documented_demands. Qed.
Print Assumptions C113_same_demands.
(** The exact limits themselves are not kept: a maximum velocity may be exceeded. *)
Theorem C113_exact_limits_refuted : forall fcos fsin fatan2 fhypot asserts, exists m g sol,
  ordinary_path fcos fsin fatan2 fhypot asserts (glide (LinearVelocityMaxMagnitude m)) 0 twin g /\ 0 < real m /\
  solved (over_reals g) sol /\ real m < norm2 (q_vx (at_sample sol 0), q_vy (at_sample sol 0)).
Proof. exact rounded_up. Qed.
Print Assumptions C113_exact_limits_refuted.
(** A maximum velocity of at most 2^-538 stops the robot. *)
Theorem C113_tiny_limit_stops : forall fcos fsin fatan2 fhypot asserts h handle d g sol w m,
  let A := Arith_f64 fcos fsin fatan2 fhypot in
  ordinary_path fcos fsin fatan2 fhypot asserts h handle d g -> solved (over_reals g) sol ->
  (w <= length (@counts f64 A Dbl_f64 asserts h))%nat ->
  In (LinearVelocityMaxMagnitude m) (@wpt_requests f64 A [] h w) -> Rabs (real m) <= powerRZ 2 (-538) ->
  let s := at_sample sol (waypoint_sample (@counts f64 A Dbl_f64 asserts h) w) in q_vx s = 0 /\ q_vy s = 0.
Proof. exact tiny_stops. Qed.
Print Assumptions C113_tiny_limit_stops.
(** A robot within the stricter limits, and so within the problem's and the looser ones. *)
Example C113_case : forall fcos fsin fatan2 fhypot asserts, exists g sol,
  let h := glide (LinearVelocityMaxMagnitude (two_to 1)) in
  ordinary_path fcos fsin fatan2 fhypot asserts h 0 twin g /\ q_vx (at_sample sol 0) = 1 /\ q_vy (at_sample sol 0) = 1 /\
  fits fcos fsin fatan2 fhypot asserts h (stricter documented) twin sol /\ solved (over_reals g) sol /\
  fits fcos fsin fatan2 fhypot asserts h (looser documented) twin sol.
Proof. exact brisk_case. Qed.
Example C113_demands_case : exact_angles (fun x => x) (PoseEquality (mkPose (mkTr (two_to 1) fzero) (mkRot fzero (two_to 0)))) /\
  demands (mkState 2 0 0 (-1) 0 0 0 0 0 0) (real_constraint (PoseEquality (mkPose (mkTr (two_to 1) fzero) (mkRot fzero (two_to 0))))).
Proof. exact exact_case. Qed.
Example C113_tiny_case : forall fcos fsin fatan2 fhypot asserts, exists g sol,
  let h := glide (LinearVelocityMaxMagnitude (two_to (-540))) in
  ordinary_path fcos fsin fatan2 fhypot asserts h 0 twin g /\ solved (over_reals g) sol /\
  0 < real (two_to (-540)) /\ Rabs (real (two_to (-540))) <= powerRZ 2 (-538) /\
  In (LinearVelocityMaxMagnitude (two_to (-540))) (@wpt_requests f64 (Arith_f64 fcos fsin fatan2 fhypot) [] h 0).
Proof. exact tiny_case. Qed.

(** C114. What a direction constraint demands depends on the length of the
    vector of the rounded cosine and sine: standing still is always possible;
    if it is 1, moving along it, in either sense; if it is more than 1, moving
    at one exact nonzero angle from it; if it is less than 1, nothing else. *)
Theorem C114_direction_partial : forall fcos l s u, demands_up_to fcos l s (LinearVelocityDirection u) <->
  (q_vx s = 0 /\ q_vy s = 0) \/
  (size2 u = 1 /\ exists k, q_vx s = k * real (rCos u) /\ q_vy s = k * real (rSin u)) \/
  (1 < size2 u /\ (q_vx s * real (rSin u) - q_vy s * real (rCos u)) ^ 2 = (q_vx s ^ 2 + q_vy s ^ 2) * (size2 u - 1)).
Proof. exact direction_cases. Qed.
Print Assumptions C114_direction_partial.
(** So there are angles for which the robot must stand still where it should
    move in that direction, even if cos and sin are correctly rounded, ... *)
Theorem C114_robot_must_stop_refuted : forall fatan2 fhypot asserts, exists a g, number a /\
  ordinary_path ncos64 nsin64 fatan2 fhypot asserts (glide (heading_for a)) 0 twin g /\
  (exists sol, solved (over_reals g) sol) /\
  forall sol, solved (over_reals g) sol -> q_vx (at_sample sol 0) = 0 /\ q_vy (at_sample sol 0) = 0.
Proof. exact must_stop. Qed.
Print Assumptions C114_robot_must_stop_refuted.
(** ... and angles for which it may move in other directions, but not in the one asked for. *)
Theorem C114_other_direction_refuted : forall fatan2 fhypot asserts, exists a g, number a /\
  ordinary_path ncos64 nsin64 fatan2 fhypot asserts (glide (heading_for a)) 0 twin g /\
  (exists sol, solved (over_reals g) sol /\ q_vx (at_sample sol 0) = 1 /\ q_vy (at_sample sol 0) = 0) /\
  forall sol k, solved (over_reals g) sol ->
    q_vx (at_sample sol 0) = k * cos (real a) -> q_vy (at_sample sol 0) = k * sin (real a) -> k = 0.
Proof. exact must_miss. Qed.
Print Assumptions C114_other_direction_refuted.
Example C114_case : size2 (mkRot fzero (two_to 0)) = 1 /\ 1 < size2 (mkRot (two_to 0) (two_to (-27))) /\
  demands_up_to (fun x => x) computed (mkState 0 0 1 0 0 (-3) 0 0 0 0) (LinearVelocityDirection (mkRot fzero (two_to 0))) /\
  demands_up_to (fun x => x) computed (mkState 0 0 1 0 5 0 0 0 0 0) (LinearVelocityDirection (mkRot (two_to 0) (two_to (-27)))).
Proof. exact direction_case. Qed.
