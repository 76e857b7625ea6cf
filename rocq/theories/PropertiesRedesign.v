(** * Robots rebuilt on another scale: C130 *)
From Coq Require Import List Lra Reals ZArith Permutation.
Import ListNotations.
From Verif Require Import Outcome Num NumR Geometry Constraints Builder Generator Trajectory
  Spec SpecBuilder SpecPhysics SpecTrajectory SpecGenerator SpecChange SpecEnergy SpecLoad SpecBalance SpecHaste SpecRedesign GeneratorCases EnergyProofs LoadProofs HasteProofs RedesignProofs.
Open Scope R_scope.

(** *** C130: exactly which scales of mass, inertia, wheels, motors and frame keep every path *)

(** Under these conditions every trajectory remains one, driven more slowly. *)
Theorem C130_keeps : forall r f t s, 0 < r -> 0 < f -> 0 <= t -> 0 < s -> forall k j, 0 < k -> 0 < j ->
  1 <= s -> f * r <= s -> k * ((f * r) * (f * r)) * r <= t * (s * s) -> j * ((f * r) * (f * r)) * r <= t * (s * s * s) ->
  forall asserts h handle m i ms g, good_history asserts h -> generator asserts h handle (mkDrivetrain m i ms) g ->
  turning_wheels ms -> in_pairs ms -> (forall n, In n (counts asserts h) -> (1 <= n)%nat) ->
  exists g', generator asserts (h ++ [OSetDrivetrain (mkDrivetrain (k * m) (j * i) (rebuilt r f t s ms))]) handle (mkDrivetrain (k * m) (j * i) (rebuilt r f t s ms)) g' /\
    forall sol, solved g sol -> exists sol', solved g' sol' /\ same_motion (slowed (s / (f * r)) sol) sol'.
Proof. exact C130_keeps_proof. Qed.
Print Assumptions C130_keeps.

(** If one of them fails, some path has a solution before and none after. *)
Theorem C130_exact : forall ms k j r f t s, turning_wheels ms -> in_pairs ms -> some_apart ms -> some_lever ms ->
  0 < k -> 0 < j -> 0 < r -> 0 < f -> 0 <= t -> 0 < s ->
  (good_loaded k j ms (rebuilt r f t s ms) <->
   1 <= s /\ f * r <= s /\ k * ((f * r) * (f * r)) * r <= t * (s * s) /\ j * ((f * r) * (f * r)) * r <= t * (s * s * s)).
Proof. exact C130_exact_proof. Qed.
Print Assumptions C130_exact.

(** A robot of the same material and [l] times the size in every direction. *)
Theorem C130_larger : forall ms l f t, turning_wheels ms -> in_pairs ms -> some_apart ms -> some_lever ms -> 0 < l -> 0 < f -> 0 <= t ->
  (good_loaded (l ^ 3) (l ^ 5) ms (rebuilt l f t l ms) <-> 1 <= l /\ f <= 1 /\ l ^ 5 * (f * f) <= t).
Proof. exact C130_larger_proof. Qed.
Print Assumptions C130_larger.

(** Modules in pairs or not: with the modules where they were, and mass and inertia both [k]
    times as large, two of the conditions are enough. *)
Theorem C130_heavier : forall r f t k, 0 < r -> 0 < f -> 0 <= t -> 0 < k -> f * r <= 1 -> k * ((f * r) * (f * r)) * r <= t ->
  forall asserts h handle m i ms g, good_history asserts h -> generator asserts h handle (mkDrivetrain m i ms) g ->
  turning_wheels ms -> (forall n, In n (counts asserts h) -> (1 <= n)%nat) ->
  exists g', generator asserts (h ++ [OSetDrivetrain (mkDrivetrain (k * m) (k * i) (rebuilt r f t 1 ms))]) handle (mkDrivetrain (k * m) (k * i) (rebuilt r f t 1 ms)) g' /\
    forall sol, solved g sol -> solved g' (scaled_forces k (slowed (/ (f * r)) sol)).
Proof. exact C130_heavier_proof. Qed.
Print Assumptions C130_heavier.
(** They are needed. *)
Theorem C130_any : forall ms k r f t, turning_wheels ms -> some_apart ms -> some_torque ms -> 0 < k -> 0 < r -> 0 < f -> 0 <= t ->
  (good_loaded k k ms (rebuilt r f t 1 ms) <-> f * r <= 1 /\ k * ((f * r) * (f * r)) * r <= t).
Proof. exact C130_any_proof. Qed.
Print Assumptions C130_any.
(** Three modules in a row, off the centre. Four times the weight is fine with wheels half as
    fast, five times is not. *)
Example C130_row : turning_wheels in_row /\ some_apart in_row /\ some_torque in_row /\
  good_loaded 4 4 in_row (rebuilt 1 (1 / 2) 1 1 in_row) /\ ~ good_loaded 5 5 in_row (rebuilt 1 (1 / 2) 1 1 in_row) /\
  ~ good_loaded (1 / 9) (1 / 9) in_row (rebuilt 2 1 1 1 in_row).
Proof.
  destruct row_torque as (T1 & _ & A). pose proof (row_turning [0; 3; 1] : turning_wheels in_row) as W1.
  split; [exact W1|]. split; [exact A|]. split; [exact T1|]. split; [|split].
  - apply (C130_any in_row 4 1 (1 / 2) 1 W1 A T1); lra.
  - intros K. pose proof (proj1 (C130_any in_row 5 1 (1 / 2) 1 W1 A T1 ltac:(lra) ltac:(lra) ltac:(lra) ltac:(lra)) K). lra.
  - intros K. pose proof (proj1 (C130_any in_row (1 / 9) 2 1 1 W1 A T1 ltac:(lra) ltac:(lra) ltac:(lra) ltac:(lra)) K). lra.
Qed.

(** The cart at twice its size needs 32 times the torque, 31 times is too little. A robot of
    four times the mass and the inertia does as well as the cart with wheels half as fast. *)
Example C130_case : let ms := d_modules cart in turning_wheels ms /\ in_pairs ms /\ some_apart ms /\ some_lever ms /\
  good_loaded (2 ^ 3) (2 ^ 5) ms (rebuilt 2 1 32 2 ms) /\ ~ good_loaded (2 ^ 3) (2 ^ 5) ms (rebuilt 2 1 31 2 ms) /\
  good_loaded 4 4 ms (rebuilt 1 (1 / 2) 1 1 ms) /\ ~ good_loaded 5 4 ms (rebuilt 1 (1 / 2) 1 1 ms) /\ ~ good_loaded 4 5 ms (rebuilt 1 (1 / 2) 1 1 ms).
Proof.
  intros ms.
  assert (Tw : turning_wheels ms) by (intros md [<-|[<-|[]]]; simpl; lra).
  pose proof (cart_paired : in_pairs ms) as P.
  assert (A : some_apart ms).
  { eexists. eexists. split; [left; reflexivity|]. cbn [m_translation wheel]. intros E. injection E. lra. }
  assert (Lv : some_lever ms).
  { eexists. split; [left; reflexivity|]. split; [simpl; lra|]. unfold arm, pt. cbn [m_translation wheel tX tY]. apply norm2_gt; lra. }
  split; [exact Tw|]. split; [exact P|]. split; [exact A|]. split; [exact Lv|]. split; [|split; [|split; [|split]]].
  - apply (C130_larger ms 2 1 32 Tw P A Lv); lra.
  - intros K. pose proof (proj1 (C130_larger ms 2 1 31 Tw P A Lv ltac:(lra) ltac:(lra) ltac:(lra)) K). lra.
  - apply (C130_exact ms 4 4 1 (1 / 2) 1 1 Tw P A Lv); lra.
  - intros K. pose proof (proj1 (C130_exact ms 5 4 1 (1 / 2) 1 1 Tw P A Lv ltac:(lra) ltac:(lra) ltac:(lra) ltac:(lra) ltac:(lra) ltac:(lra)) K). lra.
  - intros K. pose proof (proj1 (C130_exact ms 4 5 1 (1 / 2) 1 1 Tw P A Lv ltac:(lra) ltac:(lra) ltac:(lra) ltac:(lra) ltac:(lra) ltac:(lra)) K). lra.
Qed.
(** The ride of the other cases on the cart at twice its size. *)
Example C130_ride : forall asserts, exists g g' sol', solved g ride_solution /\
  generator asserts (ride ++ [OSetDrivetrain (mkDrivetrain (8 * 2) (32 * 1) (rebuilt 2 1 32 2 (d_modules cart)))]) 7 (mkDrivetrain (8 * 2) (32 * 1) (rebuilt 2 1 32 2 (d_modules cart))) g' /\
  solved g' sol' /\ same_motion (slowed (2 / (1 * 2)) ride_solution) sol'.
Proof.
  intros asserts. destruct (ride_case asserts) as (g & GH & G & _ & Pos & Sv).
  assert (Tw : turning_wheels (d_modules cart)) by (intros md [<-|[<-|[]]]; simpl; lra).
  destruct (C130_keeps 2 1 32 2 ltac:(lra) ltac:(lra) ltac:(lra) ltac:(lra) 8 32 ltac:(lra) ltac:(lra) ltac:(lra) ltac:(lra) ltac:(lra) ltac:(lra)
    asserts ride 7%Z 2 1 (d_modules cart) g GH G Tw cart_paired Pos) as (g' & G' & Q).
  destruct (Q ride_solution Sv) as (sol' & Sv' & Sm). exists g, g', sol'. repeat (split; [assumption|]). exact Sm.
Qed.
