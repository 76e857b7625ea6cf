(** Energy, slower trajectories and what limits the shortest one (C104, C105). *)
From Coq Require Import List Lia Lra Reals.
Import ListNotations.
From Verif Require Import Outcome Num NumR Geometry Constraints Builder Generator Programs Spec SpecBuilder SpecPhysics SpecTrajectory
  SpecGenerator SpecStep SpecEnergy EnergyProofs EnergyCases.
Open Scope R_scope.

(** *** C104: the robot gains no more energy than its motors deliver *)

(** From one sample to the next the modules' work becomes kinetic energy, less
    what the step in velocity would have by itself. *)
Theorem C104_balance : forall asserts h handle d g sol, generator asserts h handle d g -> solved g sol -> real_wheels d ->
  forall i, (1 <= i <= last_sample (counts asserts h))%nat ->
  let a := at_sample sol (i - 1) in let b := at_sample sol i in
  kinetic_energy d b + jump_energy d a b = kinetic_energy d a + step_to sol i * power d b (forces sol i).
Proof. exact C104_balance_proof. Qed.
Print Assumptions C104_balance.

(** The power is at most that of all motors at full torque and full speed. *)
Theorem C104_power : forall asserts h handle d g sol, generator asserts h handle d g -> solved g sol -> real_wheels d ->
  forall i, (i <= last_sample (counts asserts h))%nat -> unit_heading (at_sample sol i) ->
  power d (at_sample sol i) (forces sol i) <= full_power d.
Proof. exact C104_power_proof. Qed.
Print Assumptions C104_power.

(** Between any two samples. *)
Theorem C104_total : forall asserts h handle d g sol, generator asserts h handle d g -> solved g sol -> real_wheels d ->
  0 <= d_mass d -> 0 <= d_moi d -> forall i j, (i <= j <= last_sample (counts asserts h))%nat ->
  (forall k, (i < k <= j)%nat -> unit_heading (at_sample sol k)) ->
  kinetic_energy d (at_sample sol j) <= kinetic_energy d (at_sample sol i) + elapsed sol i j * full_power d.
Proof. exact C104_total_proof. Qed.
Print Assumptions C104_total.

(** The first example program, half way through: 100 joules from rest. *)
Example C104_case : exists g sol, generator true (@example1 R _) 7 ex_drivetrain g /\
  solved g sol /\ real_wheels (@ex_drivetrain R _) /\ 0 <= d_mass (@ex_drivetrain R _) /\ 0 <= d_moi (@ex_drivetrain R _) /\
  last_sample (counts true (@example1 R _)) = 40%nat /\ (forall i, (i <= 40)%nat -> unit_heading (at_sample sol i)) /\
  kinetic_energy ex_drivetrain (at_sample sol 0) = 0 /\ kinetic_energy ex_drivetrain (at_sample sol 20) = 100.
Proof. exact C104_case_proof. Qed.

(** *** C105: trajectories driven slower; what limits the shortest *)

(** Driven [k] times as slowly a trajectory remains one, as long as the time
    steps stay within their bound. *)
Theorem C105_slower : forall asserts h handle d g, good_history asserts h -> generator asserts h handle d g -> real_wheels d ->
  (forall n, In n (counts asserts h) -> (1 <= n)%nat) -> forall sol k, solved g sol -> 1 <= k ->
  (forall i, (1 <= i <= last_sample (counts asserts h))%nat -> step_within d (k * step_to sol i)) ->
  solved g (slowed k sol) /\ sum (s_dt (slowed k sol)) = k * sum (s_dt sol).
Proof.
  exact (fun asserts h handle d g GH G W Pos sol k Sv K St =>
    conj (C105_slower_proof asserts h handle d g GH G W Pos sol k Sv K St) (slowed_sum k sol)).
Qed.
Print Assumptions C105_slower.

(** So every duration in between is the duration of some trajectory. *)
Theorem C105_durations : forall asserts h handle d g, good_history asserts h -> generator asserts h handle d g -> real_wheels d ->
  (forall n, In n (counts asserts h) -> (1 <= n)%nat) -> forall sol k T, solved g sol -> 1 <= k ->
  (forall i, (1 <= i <= last_sample (counts asserts h))%nat -> step_within d (k * step_to sol i)) ->
  sum (s_dt sol) <= T <= k * sum (s_dt sol) -> exists sol', solved g sol' /\ sum (s_dt sol') = T.
Proof. exact C105_durations_proof. Qed.
Print Assumptions C105_durations.

(** A shortest trajectory that takes any time reaches a limit somewhere: the top
    speed of a wheel, the largest force of a module, or a requested bound on a
    speed or an acceleration. *)
Theorem C105_shortest_reaches_limit : forall asserts h handle d g, good_history asserts h -> generator asserts h handle d g ->
  real_wheels d -> (forall n, In n (counts asserts h) -> (1 <= n)%nat) -> forall sol, solved g sol -> 0 < sum (s_dt sol) ->
  (forall sol', solved g sol' -> sum (s_dt sol) <= sum (s_dt sol')) ->
  limit_reached d (counts asserts h) (wpt_requests [] h) (sgmt_requests [] h) sol.
Proof. exact C105_limit_proof. Qed.
Print Assumptions C105_shortest_reaches_limit.

(** The shortest trajectory of the first example program can be driven at half
    its speed. *)
Example C105_case : exists g sol, generator true (@example1 R _) 7 ex_drivetrain g /\
  good_history true (@example1 R _) /\ real_wheels (@ex_drivetrain R _) /\
  (forall n, In n (counts true (@example1 R _)) -> (1 <= n)%nat) /\ solved g sol /\ 0 < sum (s_dt sol) /\
  (forall sol', solved g sol' -> sum (s_dt sol) <= sum (s_dt sol')) /\
  (forall i, (1 <= i <= last_sample (counts true (@example1 R _)))%nat -> step_within ex_drivetrain (2 * step_to sol i)).
Proof. exact C105_case_proof. Qed.
