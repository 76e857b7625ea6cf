(** The claims about driving a planned trajectory, C115 and C116, and cases. *)
From Coq Require Import List Lia Lra Psatz Reals ZArith.
Import ListNotations.
From Verif Require Import Outcome Num NumR Geometry Expr Constraints Util Builder Guess Generator Trajectory
  Spec SpecBuilder SpecPhysics SpecTrajectory SpecGenerator SpecStep SpecLegs SpecDrive Semantics
  GeneratorFacts GeneratorProofs SolutionProofs TrajectoryProofs GeneratorCases LimitProofs OrderProofs StepProofs
  DurationProofs LegProofs DriveFacts DriveProofs DashProofs.
Open Scope R_scope.

Lemma lag_segment : forall f sol dt i k, (forall j, (j < k)%nat -> step_to sol (S (i + j)) = dt) ->
  lag f sol (i + k) = lag f sol i + (f (at_sample sol (i + k)) - f (at_sample sol i)) * dt / 2.
Proof.
  intros f sol dt i k. induction k as [|k IH]; intros U.
  - rewrite Nat.add_0_r. field.
  - specialize (IH ltac:(intros; apply U; lia)). rewrite Nat.add_succ_r. unfold lag in *. rewrite sum_to_S, IH.
    replace (S (i + k) - 1)%nat with (i + k)%nat by lia. rewrite (U k) by lia. field.
Qed.

Lemma C115_drivable_proof : forall asserts h handle d g sol, generator asserts h handle d g -> solved g sol ->
  forall n a, (n <= last_sample (counts asserts h))%nat -> exists m, drives sol n m /\ at_angle m 0 = a.
Proof. intros asserts h handle d g sol G Sv n a Hn. exists (driven sol n a). exact (driven_drives asserts h handle d g sol G Sv n a Hn). Qed.

Lemma C115_velocities_proof : forall asserts h handle d g sol, generator asserts h handle d g -> solved g sol ->
  forall n m, (n <= last_sample (counts asserts h))%nat -> drives sol n m -> forall i, (i <= n)%nat ->
  at_vx m (clock sol i) = q_vx (at_sample sol i) /\ at_vy m (clock sol i) = q_vy (at_sample sol i) /\
  at_w m (clock sol i) = q_w (at_sample sol i).
Proof. intros asserts h handle d g sol G Sv n m Hn Dr. exact (velocity_met asserts h handle d g sol G Sv n m Hn Dr). Qed.

Lemma C115_speed_proof : forall asserts h handle d g sol, generator asserts h handle d g -> solved g sol ->
  forall n m, (n <= last_sample (counts asserts h))%nat -> drives sol n m ->
  forall i t, (1 <= i <= n)%nat -> clock sol (i - 1) <= t <= clock sol i ->
  let p := at_sample sol (i - 1) in let q := at_sample sol i in
  speed m t <= Rmax (norm2 (q_vx p, q_vy p)) (norm2 (q_vx q, q_vy q)).
Proof. intros asserts h handle d g sol G Sv n m Hn Dr. exact (speed_between asserts h handle d g sol G Sv n m Hn Dr). Qed.

Lemma C115_offset_proof : forall asserts h handle d g sol, generator asserts h handle d g -> solved g sol ->
  forall n m, (n <= last_sample (counts asserts h))%nat -> drives sol n m -> forall i, (i <= n)%nat ->
  at_x m (clock sol i) = q_x (at_sample sol i) - lag q_vx sol i /\
  at_y m (clock sol i) = q_y (at_sample sol i) - lag q_vy sol i /\
  (heading_is (at_sample sol 0) (at_angle m 0) ->
   (forall k, (1 <= k <= i)%nat -> turns (at_sample sol (k - 1)) (at_sample sol k) (step_to sol k)) ->
   heading_is (at_sample sol i) (at_angle m (clock sol i) + lag q_w sol i)).
Proof.
  intros asserts h handle d g sol G Sv n m Hn Dr i Hi.
  destruct (offsets asserts h handle d g sol G Sv n m Hn Dr i Hi) as [X Y]. split; [exact X|]. split; [exact Y|].
  intros H0 T. assert (M : forall k, (k <= n)%nat -> (i <= k)%nat -> clock sol i <= clock sol k).
  { induction k as [|k IH]; intros Hk Le; [replace i with 0%nat by lia; lra|].
    destruct (Nat.eq_dec i (S k)) as [->|]; [lra|].
    pose proof (clock_mono asserts h handle d g sol G Sv n Hn k ltac:(lia)). specialize (IH ltac:(lia) ltac:(lia)). lra. }
  assert (Dr' : drives sol i m).
  { destruct Dr as (A & B & C). split; [exact A|]. split.
    - intros t Ht. apply B. pose proof (M n (le_n _) Hi). lra.
    - intros k t Hk. apply C. lia. }
  exact (angles asserts h handle d g sol G Sv i m ltac:(lia) Dr' H0 T i (le_n _)).
Qed.

Lemma C115_stops_proof : forall asserts h handle d g sol, generator asserts h handle d g -> solved g sol ->
  let N := counts asserts h in forall m, drives sol (last_sample N) m -> forall w, (w <= length N)%nat ->
  (forall v, (v <= w)%nat -> at_rest (at_sample sol (waypoint_sample N v))) ->
  let i := waypoint_sample N w in
  spot m (clock sol i) = position (at_sample sol i) /\
  ((forall v, (v <= w)%nat -> q_w (at_sample sol (waypoint_sample N v)) = 0) ->
   heading_is (at_sample sol 0) (at_angle m 0) ->
   (forall k, (1 <= k <= i)%nat -> turns (at_sample sol (k - 1)) (at_sample sol k) (step_to sol k)) ->
   heading_is (at_sample sol i) (at_angle m (clock sol i))).
Proof.
  intros asserts h handle d g sol G Sv N m Dr w Hw Rs i.
  split; [exact (stop_and_go asserts h handle d g sol G Sv m Dr w Hw Rs)|].
  intros Zw H0 T.
  destruct (C115_offset_proof asserts h handle d g sol G Sv (last_sample N) m (le_n _) Dr i (waypoint_le N w)) as (_ & _ & Hd).
  specialize (Hd H0 T).
  assert (L : forall v, (v <= w)%nat -> lag q_w sol (waypoint_sample N v) = 0).
  { induction v as [|v IH]; intros Hv; [unfold lag, sum_to; destruct N; reflexivity|].
    rewrite waypoint_S by lia.
    rewrite (lag_segment q_w sol (step_to sol (S (waypoint_sample N v)))).
    - rewrite <- waypoint_S by lia. rewrite IH, !Zw by lia. field.
    - intros j Hj. apply (uniform asserts h handle d g sol G Sv v j); [fold N; lia|exact Hj]. }
  unfold i in Hd. rewrite (L w (le_n _)), Rplus_0_r in Hd. exact Hd.
Qed.

Lemma C115_near_proof : forall asserts h handle d g sol, generator asserts h handle d g -> solved g sol -> real_wheels d ->
  let N := counts asserts h in forall m, drives sol (last_sample N) m ->
  (forall w, (w < length N)%nat -> 0 < d_mass d ->
     let i := waypoint_sample N w in let j := waypoint_sample N (S w) in
     2 * d_mass d * INR (nth w N 0%nat) *
       dist2 (way (spot m (clock sol i)) (spot m (clock sol j)))
             (way (position (at_sample sol i)) (position (at_sample sol j)))
       <= thrust d * (elapsed sol i j * elapsed sol i j)) /\
  (forall w s, (w <= length N)%nat -> centred d -> spacing d s -> headings_unit N sol ->
     let i := waypoint_sample N w in dist2 (spot m (clock sol i)) (position (at_sample sol i)) <= INR w * s).
Proof.
  intros asserts h handle d g sol G Sv W N m Dr. split.
  - intros w Hw Pm. exact (way_force asserts h handle d g sol G Sv W Pm m Dr w Hw).
  - intros w s Hw Ce Sp U. exact (waypoint_off asserts h handle d g sol G Sv W Ce s Sp U m Dr w Hw).
Qed.

(** The robot of the ride is at 3/4 where the plan has it at 1. *)
Lemma C115_refuted_proof : ~ forall asserts h handle d g sol, good_history asserts h ->
  generator asserts h handle d g -> solved g sol -> real_wheels d -> headings_unit (counts asserts h) sol ->
  forall m, drives sol (last_sample (counts asserts h)) m -> forall i, (i <= last_sample (counts asserts h))%nat ->
  spot m (clock sol i) = position (at_sample sol i).
Proof.
  intros H. destruct (ride_case true) as (g & GH & G & W & _ & Sv).
  destruct (C115_drivable_proof true ride 7 cart g ride_solution G Sv 2 0) as (m & Dr & _); [rewrite ride_counts; unfold last_sample; simpl; lia|].
  assert (L : last_sample (counts true ride) = 2%nat) by (rewrite ride_counts; reflexivity).
  specialize (H true ride 7%Z cart g ride_solution GH G Sv W). rewrite ride_counts in H. specialize (H ride_headings m).
  change (last_sample [2%nat]) with 2%nat in H. specialize (H Dr 2%nat ltac:(lia)).
  destruct (C115_offset_proof true ride 7 cart g ride_solution G Sv 2 m ltac:(lia) Dr 2 ltac:(lia)) as (X & _).
  unfold spot, position in H. injection H as HX HY. rewrite X in HX.
  unfold lag, sum_to, at_sample, step_to, ride_solution in HX. simpl in HX. lra.
Qed.

Lemma C116_bounds_proof : forall asserts h handle d g sol, generator asserts h handle d g -> solved g sol ->
  real_wheels d -> 0 < d_mass d -> let N := counts asserts h in forall w, (w < length N)%nat ->
  let i := waypoint_sample N w in let j := waypoint_sample N (S w) in let n := INR (nth w N 0%nat) in
  let D := dist2 (position (at_sample sol i)) (position (at_sample sol j)) in let T := elapsed sol i j in
  (at_rest (at_sample sol i) -> 2 * n * d_mass d * D <= (n + 1) * thrust d * (T * T)) /\
  (at_rest (at_sample sol j) -> 2 * n * d_mass d * D <= (n - 1) * thrust d * (T * T)).
Proof.
  intros asserts h handle d g sol G Sv W Pm N w Hw. split.
  - exact (from_rest asserts h handle d g sol G Sv W Pm w Hw).
  - exact (to_rest asserts h handle d g sol G Sv W Pm w Hw).
Qed.

Lemma C116_refuted_proof : ~ forall asserts h handle d g sol, good_history asserts h ->
  generator asserts h handle d g -> solved g sol -> real_wheels d -> 0 < d_mass d -> 0 < thrust d ->
  let N := counts asserts h in forall w, (w < length N)%nat ->
  let i := waypoint_sample N w in let j := waypoint_sample N (S w) in at_rest (at_sample sol i) ->
  true_time d (dist2 (position (at_sample sol i)) (position (at_sample sol j))) <= elapsed sol i j.
Proof.
  intros H. pose proof cart_can_dash as Cd. destruct (dash_generator cart 1 1 true 7) as [g G].
  pose proof (dash_solved cart 1 1 Cd true 7 g G) as Sv.
  specialize (H true _ 7%Z cart g _ (dash_good cart 1 1 true) G Sv cart_wheels ltac:(simpl; lra) ltac:(rewrite cart_thrust; lra)).
  rewrite dash_counts in H. specialize (H 0%nat ltac:(simpl; lia)). cbv zeta in H.
  change (waypoint_sample [1%nat] 0) with 0%nat in H. change (waypoint_sample [1%nat] 1) with 1%nat in H.
  rewrite !dash_sample in H by lia.
  assert (E : elapsed (dash_solution cart 1 1) 0 1 = dash_time cart 1 1).
  { rewrite <- (dash_total cart 1 1 Cd). rewrite <- elapsed_all. reflexivity. }
  rewrite E in H. destruct (dash_faster cart 1 1 Cd) as [F _].
  assert (Dd : dist2 (position (dash_state cart 1 1 0)) (position (dash_state cart 1 1 1)) = 1).
  { pose proof (dash_end cart 1 1 Cd) as En. unfold position. rewrite En. unfold dist2. cbn [fst snd dash_state q_x q_y tri].
    match goal with |- sqrt ?x = _ => replace x with 1 by ring end. apply sqrt_1. }
  rewrite Dd in H. specialize (H ltac:(split; cbn [dash_state q_vx q_vy]; simpl (INR 0); ring)). lra.
Qed.
