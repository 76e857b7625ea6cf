(** * Modules listed in another order, other motors, modules farther out: C127-C129 *)
From Coq Require Import List Lra Reals ZArith Permutation.
Import ListNotations.
From Verif Require Import Outcome Num NumR Geometry Constraints Builder Generator Trajectory
  Spec SpecBuilder SpecPhysics SpecTrajectory SpecGenerator SpecChange SpecEnergy SpecLoad SpecBalance SpecHaste GeneratorCases EnergyProofs LoadProofs HasteProofs SpreadProofs.
Open Scope R_scope.

(** *** C127: which orders of the modules and which better motors keep every path *)

(** Whatever modules a robot gets instead of its own: if that keeps every path, it keeps
    every time step. *)
Theorem C127_steps : forall ms ms', turning_wheels ms -> turning_wheels ms' -> good_as ms ms' -> steps_kept ms ms'.
Proof. exact C127_steps_proof. Qed.
Print Assumptions C127_steps.

(** That is enough for the same modules listed in another order. *)
Theorem C127_order : forall ms ms', turning_wheels ms -> Permutation ms ms' -> (good_as ms ms' <-> steps_kept ms ms').
Proof. exact C127_order_proof. Qed.
Print Assumptions C127_order.

(** It is for faster and stronger motors. *)
Theorem C127_better : forall ms ms', turning_wheels ms -> Forall2 better_module ms ms' -> (good_as ms ms' <-> steps_kept ms ms').
Proof. exact C127_better_proof. Qed.
Print Assumptions C127_better.

(** Of three modules in a row, listing the far one second is as good as listing them in
    order, and not the other way round; twice the wheel speed loses a path. *)
Example C127_case : turning_wheels in_row /\ Permutation in_row in_order /\
  ~ good_as in_row in_order /\ good_as in_order in_row /\
  Forall2 better_module in_row (tuned 2 1 in_row) /\ ~ good_as in_row (tuned 2 1 in_row).
Proof.
  destruct row_torque as (T1 & _ & A). destruct row_lost as (P & N & Y).
  pose proof (row_turning [0; 3; 1] : turning_wheels in_row) as W1. pose proof (row_turning [0; 1; 3] : turning_wheels in_order) as W2.
  split; [exact W1|]. split; [exact P|].
  split; [intros K; exact (N (proj1 (C127_order _ _ W1 P) K))|].
  split; [exact (proj2 (C127_order _ _ W2 (Permutation_sym P)) Y)|].
  split; [repeat constructor; cbn; lra|].
  intros K. destruct (proj1 (C128_exact_proof in_row 2 1 W1 T1 A ltac:(lra) ltac:(lra)) K). lra.
Qed.

(** *** C128: slower wheels keep every path *)

(** With wheels [f] times as fast and motors at least [f * f] times as strong every
    trajectory remains one, driven more slowly. *)
Theorem C128_slower : forall f t, 0 < f -> 0 <= t -> f <= 1 -> f * f <= t ->
  forall asserts h handle m i ms g, good_history asserts h -> generator asserts h handle (mkDrivetrain m i ms) g ->
  turning_wheels ms -> (forall n, In n (counts asserts h) -> (1 <= n)%nat) ->
  exists g', generator asserts (h ++ [OSetDrivetrain (mkDrivetrain m i (tuned f t ms))]) handle (mkDrivetrain m i (tuned f t ms)) g' /\
    forall sol, solved g sol -> solved g' (slowed (/ f) sol).
Proof. exact C128_slower_proof. Qed.
Print Assumptions C128_slower.

(** No other factors keep every path, unless no motor has torque or all modules are at one
    place. *)
Theorem C128_exact : forall ms f t, turning_wheels ms -> some_torque ms -> some_apart ms -> 0 < f -> 0 <= t ->
  (good_as ms (tuned f t ms) <-> f <= 1 /\ f * f <= t).
Proof. exact C128_exact_proof. Qed.
Print Assumptions C128_exact.

(** So gears that make the wheels faster, and larger wheels, lose a path; gears that make them
    slower, and smaller wheels, lose none. *)
Theorem C128_gears : forall ms f, turning_wheels ms -> some_torque ms -> some_apart ms -> 0 < f ->
  (good_as ms (geared f ms) <-> f <= 1).
Proof. exact C128_gears_proof. Qed.
Print Assumptions C128_gears.
Theorem C128_wheels : forall ms r, turning_wheels ms -> some_torque ms -> some_apart ms -> 0 < r ->
  (good_as ms (rewheeled r ms) <-> r <= 1).
Proof. exact C128_wheels_proof. Qed.
Print Assumptions C128_wheels.

(** Half the speed and a quarter of the torque keep every path; half the speed and a fifth
    of the torque do not, nor do twice the speed and ten times the torque. Wheels half as
    large keep every path, wheels twice as large do not. *)
Example C128_case : turning_wheels in_row /\ some_torque in_row /\ some_apart in_row /\
  good_as in_row (tuned (1 / 2) (1 / 4) in_row) /\ ~ good_as in_row (tuned (1 / 2) (1 / 5) in_row) /\
  ~ good_as in_row (tuned 2 10 in_row) /\ good_as in_row (rewheeled (1 / 2) in_row) /\ ~ good_as in_row (rewheeled 2 in_row) /\
  good_as in_row (geared (1 / 2) in_row) /\ ~ good_as in_row (geared 2 in_row).
Proof.
  destruct row_torque as (T1 & _ & A). pose proof (row_turning [0; 3; 1] : turning_wheels in_row) as W1.
  split; [exact W1|]. split; [exact T1|]. split; [exact A|]. split; [|split; [|split; [|split; [|split; [|split]]]]].
  - apply (C128_exact in_row (1 / 2) (1 / 4) W1 T1 A); lra.
  - intros K. destruct (proj1 (C128_exact in_row (1 / 2) (1 / 5) W1 T1 A ltac:(lra) ltac:(lra)) K). lra.
  - intros K. destruct (proj1 (C128_exact in_row 2 10 W1 T1 A ltac:(lra) ltac:(lra)) K). lra.
  - apply (C128_wheels in_row (1 / 2) W1 T1 A); lra.
  - intros K. pose proof (proj1 (C128_wheels in_row 2 W1 T1 A ltac:(lra)) K). lra.
  - apply (C128_gears in_row (1 / 2) W1 T1 A); lra.
  - intros K. pose proof (proj1 (C128_gears in_row 2 W1 T1 A ltac:(lra)) K). lra.
Qed.
(** The ride of the other cases, at half the speed. *)
Example C128_ride : forall asserts, exists g, good_history asserts ride /\ generator asserts ride 7 (mkDrivetrain 2 1 (d_modules cart)) g /\
  turning_wheels (d_modules cart) /\ (forall n, In n (counts asserts ride) -> (1 <= n)%nat) /\ solved g ride_solution /\
  exists g', solved g' (slowed (/ (1 / 2)) ride_solution).
Proof.
  intros asserts. destruct (ride_case asserts) as (g & GH & G & _ & Pos & Sv).
  assert (Tw : turning_wheels (d_modules cart)) by (intros md [<-|[<-|[]]]; simpl; lra).
  exists g. split; [exact GH|]. split; [exact G|]. split; [exact Tw|]. split; [exact Pos|]. split; [exact Sv|].
  destruct (C128_slower (1 / 2) (1 / 4) ltac:(lra) ltac:(lra) ltac:(lra) ltac:(lra) asserts ride 7%Z 2 1 (d_modules cart) g GH G Tw Pos) as (g' & _ & Q).
  exists g'. exact (Q ride_solution Sv).
Qed.

(** *** C129: modules farther out keep every path *)

(** If each module has its like across the centre, moving all of them out by the same
    factor keeps every trajectory, driven more slowly. *)
Theorem C129_wider : forall s, 0 < s -> 1 <= s ->
  forall asserts h handle m i ms g, good_history asserts h -> generator asserts h handle (mkDrivetrain m i ms) g ->
  turning_wheels ms -> in_pairs ms -> (forall n, In n (counts asserts h) -> (1 <= n)%nat) ->
  exists g', generator asserts (h ++ [OSetDrivetrain (mkDrivetrain m i (spread s ms))]) handle (mkDrivetrain m i (spread s ms)) g' /\
    forall sol, solved g sol -> exists sol', solved g' sol' /\ same_motion (slowed s sol) sol'.
Proof. exact C129_wider_proof. Qed.
Print Assumptions C129_wider.

(** Moving them in does not keep every path. *)
Theorem C129_exact : forall ms s, turning_wheels ms -> in_pairs ms -> some_apart ms -> 0 < s ->
  (good_as ms (spread s ms) <-> 1 <= s).
Proof. exact C129_exact_proof. Qed.
Print Assumptions C129_exact.

Example C129_case : turning_wheels (d_modules cart) /\ in_pairs (d_modules cart) /\ some_apart (d_modules cart) /\
  good_as (d_modules cart) (spread 2 (d_modules cart)) /\ ~ good_as (d_modules cart) (spread (1 / 2) (d_modules cart)).
Proof.
  assert (Tw : turning_wheels (d_modules cart)) by (intros md [<-|[<-|[]]]; simpl; lra).
  pose proof (cart_paired : in_pairs (d_modules cart)) as P.
  assert (A : some_apart (d_modules cart)).
  { eexists. eexists. split; [left; reflexivity|]. cbn [m_translation wheel]. intros E. injection E. lra. }
  split; [exact Tw|]. split; [exact P|]. split; [exact A|]. split.
  - apply (C129_exact _ 2 Tw P A); lra.
  - intros K. pose proof (proj1 (C129_exact _ (1 / 2) Tw P A ltac:(lra)) K). lra.
Qed.
