(** Parts of paths and of trajectories: stretches and joins (C100), constraints
    and waypoints left out or put in (C101). *)
From Coq Require Import List Lia Lra Reals ZArith.
Import ListNotations.
From Verif Require Import Outcome Num NumR Geometry Constraints Builder Generator
  Spec SpecBuilder SpecPhysics SpecTrajectory SpecGenerator SpecParts Semantics GeneratorCases PartsProofs PartsCases.
Open Scope R_scope.

(** *** C100: a trajectory is made of trajectories of its parts *)

(** The stretch of a trajectory between two waypoints is a trajectory of any path
    that has the interval counts of that stretch and asks no more there. *)
Theorem C100_stretch : forall asserts h handle d g h' handle' g' before after,
  good_history asserts h -> generator asserts h handle d g ->
  good_history asserts h' -> generator asserts h' handle' d g' ->
  real_wheels d -> (forall n, In n (counts asserts h) -> (1 <= n)%nat) ->
  counts asserts h = before ++ counts asserts h' ++ after ->
  asks_less h' h (length before) (length (counts asserts h')) ->
  forall sol, solved g sol ->
    solved g' (stretch (waypoint_sample (counts asserts h) (length before)) (last_sample (counts asserts h')) sol).
Proof. exact C100_stretch_proof. Qed.
Print Assumptions C100_stretch.

(** Its duration is that of the part up to any sample plus that of the rest. *)
Theorem C100_durations : forall asserts h handle d g sol k, generator asserts h handle d g -> solved g sol ->
  (k <= last_sample (counts asserts h))%nat ->
  sum (s_dt sol) = sum (s_dt (stretch 0 k sol)) + sum (s_dt (stretch k (last_sample (counts asserts h) - k) sol)).
Proof. exact C100_durations_proof. Qed.
Print Assumptions C100_durations.

(** So no trajectory of a path is shorter than its legs planned one by one, even
    if the legs ask nothing of the robot where they meet. *)
Theorem C100_legs : forall asserts h handle d g h1 handle1 g1 h2 handle2 g2 T1 T2,
  good_history asserts h -> generator asserts h handle d g ->
  good_history asserts h1 -> generator asserts h1 handle1 d g1 ->
  good_history asserts h2 -> generator asserts h2 handle2 d g2 ->
  real_wheels d -> (forall n, In n (counts asserts h) -> (1 <= n)%nat) ->
  counts asserts h = counts asserts h1 ++ counts asserts h2 ->
  asks_less h1 h 0 (length (counts asserts h1)) ->
  asks_less h2 h (length (counts asserts h1)) (length (counts asserts h2)) ->
  (forall sol, solved g1 sol -> T1 <= sum (s_dt sol)) ->
  (forall sol, solved g2 sol -> T2 <= sum (s_dt sol)) ->
  forall sol, solved g sol -> T1 + T2 <= sum (s_dt sol).
Proof. exact C100_legs_proof. Qed.
Print Assumptions C100_legs.

(** Trajectories of two legs, the second starting in the state in which the first
    ends, join to a trajectory of the whole path. *)
Theorem C100_joining : forall asserts h handle d g h1 handle1 g1 h2 handle2 g2,
  good_history asserts h -> generator asserts h handle d g ->
  good_history asserts h1 -> generator asserts h1 handle1 d g1 ->
  good_history asserts h2 -> generator asserts h2 handle2 d g2 ->
  real_wheels d -> (forall n, In n (counts asserts h) -> (1 <= n)%nat) ->
  counts asserts h = counts asserts h1 ++ counts asserts h2 ->
  asked_by h1 h2 h (length (counts asserts h1)) ->
  forall sol1 sol2, solved g1 sol1 -> solved g2 sol2 ->
  at_sample sol1 (last_sample (counts asserts h1)) = at_sample sol2 0 ->
  solved g (joined sol1 sol2) /\ sum (s_dt (joined sol1 sol2)) = sum (s_dt sol1) + sum (s_dt sol2).
Proof. exact C100_joining_proof. Qed.
Print Assumptions C100_joining.

(** The ride with a waypoint on the way, and its two legs. *)
Example C100_case : forall asserts, exists g g1 g2,
  good_history asserts trip /\ generator asserts trip 7 cart g /\
  good_history asserts leg_out /\ generator asserts leg_out 8 cart g1 /\
  good_history asserts leg_home /\ generator asserts leg_home 9 cart g2 /\ real_wheels cart /\
  counts asserts trip = counts asserts leg_out ++ counts asserts leg_home /\
  asks_less leg_out trip 0 1 /\ asks_less leg_home trip 1 1 /\ asked_by leg_out leg_home trip 1 /\
  solved g ride_solution /\ solved g1 (stretch 0 1 ride_solution) /\ solved g2 (stretch 1 1 ride_solution) /\
  at_sample (stretch 0 1 ride_solution) 1 = at_sample (stretch 1 1 ride_solution) 0 /\
  joined (stretch 0 1 ride_solution) (stretch 1 1 ride_solution) = ride_solution /\
  s_dt (stretch 0 1 ride_solution) = [1 / 2] /\ s_x (stretch 1 1 ride_solution) = [1 / 2; 1].
Proof. exact legs_case. Qed.

(** *** C101: leaving out a constraint or adding a free waypoint never hurts *)

(** Without one of its constraint or obstacle calls, on waypoints that exist when
    it is made, a path keeps all its trajectories. *)
Theorem C101_fewer : forall asserts h1 o h2 handle d g,
  limits (waypoint_count (path asserts h1)) o ->
  good_history asserts (h1 ++ o :: h2) -> generator asserts (h1 ++ o :: h2) handle d g ->
  good_history asserts (h1 ++ h2) /\
  exists g', generator asserts (h1 ++ h2) handle d g' /\ forall sol, solved g sol -> solved g' sol.
Proof. exact C101_fewer_proof. Qed.
Print Assumptions C101_fewer.

Example C101_fewer_case : forall asserts, exists g,
  ride = firstn 4 ride ++ OSgmtConstraint 0 1 (AngularVelocityMaxMagnitude 1) :: [OControlIntervalCounts [2%nat]] /\
  good_history asserts ride /\ generator asserts ride 7 cart g /\ solved g ride_solution /\
  limits (waypoint_count (path asserts (firstn 4 ride))) (OSgmtConstraint 0 1 (AngularVelocityMaxMagnitude 1) : op R).
Proof. exact fewer_case. Qed.

(** Not so for a bumper: leaving one out can rule a trajectory out, because a
    bumper of one corner hides the later ones from an obstacle of one corner. *)
Theorem C101_bumper_refuted : ~ (forall asserts h1 bumper h2 handle d g g',
  good_history asserts (h1 ++ OAddBumpers bumper :: h2) -> good_history asserts (h1 ++ h2) ->
  generator asserts (h1 ++ OAddBumpers bumper :: h2) handle d g -> generator asserts (h1 ++ h2) handle d g' ->
  real_wheels d -> (forall n, In n (counts asserts (h1 ++ h2)) -> (1 <= n)%nat) ->
  forall sol, solved g sol -> solved g' sol).
Proof. exact C101_bumper_refuted_proof. Qed.
Print Assumptions C101_bumper_refuted.

(** A waypoint put between two samples of a segment, at which nothing is asked
    that is not asked of the whole segment, keeps all trajectories. *)
Theorem C101_waypoint : forall asserts coarse handle d g finer handle' g' before n1 n2 after,
  good_history asserts coarse -> generator asserts coarse handle d g ->
  good_history asserts finer -> generator asserts finer handle' d g' ->
  real_wheels d -> (forall n, In n (counts asserts finer) -> (1 <= n)%nat) ->
  counts asserts coarse = before ++ [n1 + n2]%nat ++ after ->
  counts asserts finer = before ++ [n1; n2] ++ after ->
  asks_between finer coarse (S (length before)) ->
  forall sol, solved g sol -> solved g' sol.
Proof. exact C101_waypoint_proof. Qed.
Print Assumptions C101_waypoint.

Example C101_waypoint_case : forall asserts, exists g g',
  good_history asserts ride /\ generator asserts ride 7 cart g /\ solved g ride_solution /\
  good_history asserts trip /\ generator asserts trip 7 cart g' /\ real_wheels cart /\
  counts asserts ride = [] ++ [1 + 1]%nat ++ [] /\ counts asserts trip = [] ++ [1; 1]%nat ++ [] /\
  asks_between trip ride 1 /\ solved g' ride_solution.
Proof. exact trip_case. Qed.

(** It does change something even if nothing at all is asked: the two parts of the
    segment may now have different time steps. *)
Theorem C101_waypoint_refuted : ~ (forall asserts coarse handle d g finer handle' g' before n1 n2 after,
  good_history asserts coarse -> generator asserts coarse handle d g ->
  good_history asserts finer -> generator asserts finer handle' d g' ->
  real_wheels d -> (forall n, In n (counts asserts finer) -> (1 <= n)%nat) ->
  counts asserts coarse = before ++ [n1 + n2]%nat ++ after ->
  counts asserts finer = before ++ [n1; n2] ++ after ->
  (forall w, wpt_requests [] coarse w = [] /\ sgmt_requests [] coarse w = []) ->
  (forall w, wpt_requests [] finer w = [] /\ sgmt_requests [] finer w = []) ->
  forall sol, solved g' sol -> solved g sol).
Proof. exact C101_waypoint_refuted_proof. Qed.
Print Assumptions C101_waypoint_refuted.
