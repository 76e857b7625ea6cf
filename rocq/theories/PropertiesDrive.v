(** Claims about driving a planned trajectory: C115 and C116. *)
From Coq Require Import List Lia Lra Reals ZArith.
Import ListNotations.
From Verif Require Import Outcome Num NumR Geometry Expr Constraints Util Builder Guess Generator Trajectory
  Spec SpecBuilder SpecPhysics SpecTrajectory SpecGenerator SpecStep SpecDrive GeneratorCases StepCases DurationProofs
  Programs ProgramProofs ExampleProofs DashProofs DriveClaims.
Open Scope R_scope.

(** *** C115: a robot that executes the plan passes through its samples *)

(** Every planned trajectory can be driven: there is a motion in continuous time
    that starts as planned, whose velocity does not jump and which accelerates as
    planned between samples. *)
Theorem C115_can_be_driven_partial :
  forall asserts h handle d g sol, generator asserts h handle d g -> solved g sol ->
  forall n a, (n <= last_sample (counts asserts h))%nat -> exists m, drives sol n m /\ at_angle m 0 = a.
Proof. exact C115_drivable_proof. Qed.
Print Assumptions C115_can_be_driven_partial.

(** Every such motion has the planned velocities at the planned times, *)
Theorem C115_velocities_partial :
  forall asserts h handle d g sol, generator asserts h handle d g -> solved g sol ->
  forall n m, (n <= last_sample (counts asserts h))%nat -> drives sol n m -> forall i, (i <= n)%nat ->
  at_vx m (clock sol i) = q_vx (at_sample sol i) /\ at_vy m (clock sol i) = q_vy (at_sample sol i) /\
  at_w m (clock sol i) = q_w (at_sample sol i).
Proof. exact C115_velocities_proof. Qed.
Print Assumptions C115_velocities_partial.

(** and between two samples is never faster than at both of them. *)
Theorem C115_speed_between_samples_partial :
  forall asserts h handle d g sol, generator asserts h handle d g -> solved g sol ->
  forall n m, (n <= last_sample (counts asserts h))%nat -> drives sol n m ->
  forall i t, (1 <= i <= n)%nat -> clock sol (i - 1) <= t <= clock sol i ->
  let p := at_sample sol (i - 1) in let q := at_sample sol i in
  speed m t <= Rmax (norm2 (q_vx p, q_vy p)) (norm2 (q_vx q, q_vy q)).
Proof. exact C115_speed_proof. Qed.
Print Assumptions C115_speed_between_samples_partial.

(** But it is not at the planned places. *)
Theorem C115_places_refuted :
  ~ forall asserts h handle d g sol, good_history asserts h ->
  generator asserts h handle d g -> solved g sol -> real_wheels d -> headings_unit (counts asserts h) sol ->
  forall m, drives sol (last_sample (counts asserts h)) m -> forall i, (i <= last_sample (counts asserts h))%nat ->
  spot m (clock sol i) = position (at_sample sol i).
Proof. exact C115_refuted_proof. Qed.
Print Assumptions C115_places_refuted.

(** It lags behind by half of each change of velocity times the step, and so
    does its heading. *)
Theorem C115_offset_partial :
  forall asserts h handle d g sol, generator asserts h handle d g -> solved g sol ->
  forall n m, (n <= last_sample (counts asserts h))%nat -> drives sol n m -> forall i, (i <= n)%nat ->
  at_x m (clock sol i) = q_x (at_sample sol i) - lag q_vx sol i /\
  at_y m (clock sol i) = q_y (at_sample sol i) - lag q_vy sol i /\
  (heading_is (at_sample sol 0) (at_angle m 0) ->
   (forall k, (1 <= k <= i)%nat -> turns (at_sample sol (k - 1)) (at_sample sol k) (step_to sol k)) ->
   heading_is (at_sample sol i) (at_angle m (clock sol i) + lag q_w sol i)).
Proof. exact C115_offset_proof. Qed.
Print Assumptions C115_offset_partial.

(** If the plan stops at every waypoint, the robot passes exactly through the
    waypoints, and faces the planned way there if it does not turn there either. *)
Theorem C115_stop_and_go_partial :
  forall asserts h handle d g sol, generator asserts h handle d g -> solved g sol ->
  let N := counts asserts h in forall m, drives sol (last_sample N) m -> forall w, (w <= length N)%nat ->
  (forall v, (v <= w)%nat -> at_rest (at_sample sol (waypoint_sample N v))) ->
  let i := waypoint_sample N w in
  spot m (clock sol i) = position (at_sample sol i) /\
  ((forall v, (v <= w)%nat -> q_w (at_sample sol (waypoint_sample N v)) = 0) ->
   heading_is (at_sample sol 0) (at_angle m 0) ->
   (forall k, (1 <= k <= i)%nat -> turns (at_sample sol (k - 1)) (at_sample sol k) (step_to sol k)) ->
   heading_is (at_sample sol i) (at_angle m (clock sol i))).
Proof. exact C115_stops_proof. Qed.
Print Assumptions C115_stop_and_go_partial.

(** In any case the way from one waypoint to the next is wrong by at most
    F T^2 / (2 m n), and the robot is within one module spacing per segment of
    where it should be at each waypoint. *)
Theorem C115_how_far_off_partial :
  forall asserts h handle d g sol, generator asserts h handle d g -> solved g sol -> real_wheels d ->
  let N := counts asserts h in forall m, drives sol (last_sample N) m ->
  (forall w, (w < length N)%nat -> 0 < d_mass d ->
     let i := waypoint_sample N w in let j := waypoint_sample N (S w) in
     2 * d_mass d * INR (nth w N 0%nat) *
       dist2 (way (spot m (clock sol i)) (spot m (clock sol j)))
             (way (position (at_sample sol i)) (position (at_sample sol j)))
       <= thrust d * (elapsed sol i j * elapsed sol i j)) /\
  (forall w s, (w <= length N)%nat -> centred d -> spacing d s -> headings_unit N sol ->
     let i := waypoint_sample N w in dist2 (spot m (clock sol i)) (position (at_sample sol i)) <= INR w * s).
Proof. exact C115_near_proof. Qed.
Print Assumptions C115_how_far_off_partial.

(** The ride of two steps, planned to end at 1 and ending at 3/4. *)
Example C115_case : exists g m, good_history true ride /\ generator true ride 7 cart g /\ solved g ride_solution /\
  real_wheels cart /\ centred cart /\ spacing cart 2 /\ 0 < d_mass cart /\ headings_unit (counts true ride) ride_solution /\
  drives ride_solution (last_sample (counts true ride)) m /\ at_angle m 0 = 0 /\
  clock ride_solution 2 = 1 /\ q_x (at_sample ride_solution 2) = 1 /\ at_x m (clock ride_solution 2) = 3 / 4.
Proof.
  destruct (ride_case true) as (g & GH & G & W & _ & Sv).
  destruct (C115_can_be_driven_partial true ride 7 cart g ride_solution G Sv (last_sample (counts true ride)) 0 (le_n _)) as (m & Dr & A0).
  exists g, m. rewrite ride_counts in *. change (last_sample [2%nat]) with 2%nat in *.
  split; [exact GH|]. split; [exact G|]. split; [exact Sv|]. split; [exact W|]. split; [split; simpl; lra|].
  split.
  { split; [lra|]. exists (wheel 1 1), (wheel (-1) (-1)). split; [left; reflexivity|]. left. simpl. rewrite Rabs_right; lra. }
  split; [simpl; lra|]. split; [exact ride_headings|]. split; [exact Dr|]. split; [exact A0|].
  split; [unfold clock, elapsed, step_to, ride_solution; simpl; lra|].
  split; [unfold at_sample, ride_solution; simpl; lra|].
  destruct (C115_offset_partial true ride 7 cart g ride_solution G Sv 2 m) with (i := 2%nat) as (X & _);
    [rewrite ride_counts; unfold last_sample; simpl; lia|exact Dr|lia|].
  rewrite X. unfold lag, sum_to, at_sample, step_to, ride_solution. simpl. lra.
Qed.
(** The first example program stops at both waypoints. *)
Example C115_stop_case : exists g m, generator true example1 7 ex_drivetrain g /\ solved g best /\
  counts true (@example1 R _) = [40%nat] /\ drives best (last_sample (counts true (@example1 R _))) m /\
  at_rest (at_sample best 0) /\ at_rest (at_sample best 40).
Proof.
  destruct best_rest as (g & G & Sv & _ & _ & R0 & R1 & _).
  destruct (C115_can_be_driven_partial true example1 7 ex_drivetrain g best G Sv (last_sample (counts true (@example1 R _))) 0 (le_n _)) as (m & Dr & _).
  exists g, m. assert (counts true (@example1 R _) = [40%nat]) by reflexivity. tauto.
Qed.

(** *** C116: no trajectory is planned to be faster than the drivetrain allows *)

(** Between stops that holds, see C75.  From rest it does not: *)
Theorem C116_from_rest_refuted :
  ~ forall asserts h handle d g sol, good_history asserts h ->
  generator asserts h handle d g -> solved g sol -> real_wheels d -> 0 < d_mass d -> 0 < thrust d ->
  let N := counts asserts h in forall w, (w < length N)%nat ->
  let i := waypoint_sample N w in let j := waypoint_sample N (S w) in at_rest (at_sample sol i) ->
  true_time d (dist2 (position (at_sample sol i)) (position (at_sample sol j))) <= elapsed sol i j.
Proof. exact C116_refuted_proof. Qed.
Print Assumptions C116_from_rest_refuted.

(** Starting from rest at a waypoint, [n] intervals to the next allow
    T^2 >= n/(n+1) 2 m D / F; coming to rest at the next needs
    T^2 >= n/(n-1) 2 m D / F, which is more than necessary. *)
Theorem C116_bounds_partial :
  forall asserts h handle d g sol, generator asserts h handle d g -> solved g sol ->
  real_wheels d -> 0 < d_mass d -> let N := counts asserts h in forall w, (w < length N)%nat ->
  let i := waypoint_sample N w in let j := waypoint_sample N (S w) in let n := INR (nth w N 0%nat) in
  let D := dist2 (position (at_sample sol i)) (position (at_sample sol j)) in let T := elapsed sol i j in
  (at_rest (at_sample sol i) -> 2 * n * d_mass d * D <= (n + 1) * thrust d * (T * T)) /\
  (at_rest (at_sample sol j) -> 2 * n * d_mass d * D <= (n - 1) * thrust d * (T * T)).
Proof. exact C116_bounds_proof. Qed.
Print Assumptions C116_bounds_partial.

(** The first bound is attained by a straight dash: its shortest trajectory is
    always faster than possible and becomes slower with every interval added. *)
Theorem C116_dash_partial :
  forall asserts handle d n D, can_dash d n D ->
  exists g, good_history asserts (dash d n D) /\ generator asserts (dash d n D) handle d g /\
  (exists sol, solved g sol /\ sum (s_dt sol) = dash_time d n D) /\
  (forall sol, solved g sol -> dash_time d n D <= sum (s_dt sol)) /\
  dash_time d n D < true_time d D /\ (forall k, (n < k)%nat -> dash_time d n D < dash_time d k D).
Proof. exact C116_dash_proof. Qed.
Print Assumptions C116_dash_partial.

(** One metre in half a second, in one interval. *)
Example C116_case : can_dash cart 1 1 /\ dash_time cart 1 1 = 1 / 2 /\ real_wheels cart /\ 0 < d_mass cart /\
  exists g, good_history true (dash cart 1 1) /\ generator true (dash cart 1 1) 7 cart g /\
    solved g (dash_solution cart 1 1) /\ at_rest (at_sample (dash_solution cart 1 1) 0).
Proof.
  pose proof cart_can_dash as Cd. split; [exact Cd|]. split; [exact cart_dash_time|]. split; [exact cart_wheels|]. split; [simpl; lra|].
  destruct (dash_generator cart 1 1 true 7) as [g G]. exists g. split; [apply dash_good|]. split; [exact G|].
  split; [exact (dash_solved cart 1 1 Cd true 7 g G)|]. rewrite dash_sample by lia. split; cbn [dash_state q_vx q_vy]; simpl (INR 0); ring.
Qed.
