(** * Robots with a module more or less: C131, C132 *)
From Coq Require Import List Lra Reals ZArith Permutation.
Import ListNotations.
From Verif Require Import Outcome Num NumR Geometry Constraints Builder Generator Trajectory
  Spec SpecBuilder SpecPhysics SpecTrajectory SpecGenerator SpecChange SpecEnergy SpecLoad SpecBalance SpecHaste SpecFurther
  GeneratorCases PartsCases GeneratorFacts SolutionProofs OrderProofs EnergyProofs LoadProofs JumpProofs HasteProofs FurtherProofs FewerProofs.
Open Scope R_scope.

(** *** C131: which further modules keep every path *)

(** A further module that allows all time steps and is never the one that is too fast keeps
    every trajectory; it need not push. *)
Theorem C131_keeps : forall asserts h handle m i ms md g g', good_history asserts h ->
  generator asserts h handle (mkDrivetrain m i ms) g ->
  generator asserts (h ++ [OSetDrivetrain (mkDrivetrain m i (ms ++ [md]))]) handle (mkDrivetrain m i (ms ++ [md])) g' ->
  turning_wheels ms -> turning_wheels [md] -> (forall n, In n (counts asserts h) -> (1 <= n)%nat) ->
  steps_kept ms (ms ++ [md]) -> follows ms md -> forall sol, solved g sol -> solved g' (coasting sol).
Proof. exact C131_keeps_proof. Qed.
Print Assumptions C131_keeps.

(** One that is slower than all others, or takes away a time step, loses a path. *)
Theorem C131_lost : forall ms md, turning_wheels ms -> turning_wheels [md] -> some_apart ms -> good_as ms (ms ++ [md]) ->
  steps_kept ms (ms ++ [md]) /\ exists m0, In m0 ms /\ wheel_limit m0 <= wheel_limit md.
Proof. exact C131_lost_proof. Qed.
Print Assumptions C131_lost.

(** If all wheels were equally fast and some motor has torque, a path is lost unless the
    further module allows all time steps and is never the one that is too fast. *)
Theorem C131_follows : forall ms md v, turning_wheels ms -> turning_wheels [md] -> some_apart ms -> some_torque ms -> as_fast ms v ->
  (good_as ms (ms ++ [md]) <-> steps_kept ms (ms ++ [md]) /\ follows ms md).
Proof. exact C131_follows_proof. Qed.
Print Assumptions C131_follows.

(** If all wheels were equally fast and the further module is on the line between two
    others, or where one is, there is no other way to lose a path. *)
Theorem C131_exact : forall ms md v, turning_wheels ms -> turning_wheels [md] -> some_apart ms -> as_fast ms v -> amid ms md ->
  (good_as ms (ms ++ [md]) <-> steps_kept ms (ms ++ [md]) /\ v <= wheel_limit md).
Proof. exact C131_exact_proof. Qed.
Print Assumptions C131_exact.

(** So the last module may be doubled, whatever torque the second one has. *)
Theorem C131_double : forall ms md t, turning_wheels (ms ++ [md]) -> 0 <= t ->
  good_as (ms ++ [md]) ((ms ++ [md]) ++ [mkModule (m_translation md) (m_wheelRadius md) (m_wheelMaxAngularVelocity md) t]).
Proof. exact C131_double_proof. Qed.
Print Assumptions C131_double.

(** A module in the centre of the cart loses a path, as it halves the longest time step, and
    so does one on a free corner, as it is farther from where the cart may turn about; one more
    where its second module is loses none; a slower one there does. *)
Example C131_case : let ms := d_modules cart in turning_wheels ms /\ some_apart ms /\ as_fast ms 4 /\
  turning_wheels [wheel 0 0] /\ amid ms (wheel 0 0) /\ ~ good_as ms (ms ++ [wheel 0 0]) /\
  some_torque ms /\ steps_kept ms (ms ++ [wheel 1 (-1)]) /\ ~ good_as ms (ms ++ [wheel 1 (-1)]) /\
  good_as ms (ms ++ [wheel (-1) (-1)]) /\ ~ good_as ms (ms ++ [mkModule (mkTr (-1) (-1)) 1 3 4]).
Proof.
  intros ms. split; [exact cart_turning|]. split; [exact cart_apart|]. split; [exact cart_fast|]. split; [apply wheel_turning|].
  assert (Tq : some_torque ms) by (exists (wheel 1 1); split; [left; reflexivity|cbn; lra]).
  split; [exact centre_amid|]. split; [|split; [exact Tq|split; [exact corner_steps|split; [|split]]]].
  - intros K. exact (centre_lost (proj1 (proj1 (C131_exact ms (wheel 0 0) 4 cart_turning (wheel_turning 0 0) cart_apart cart_fast centre_amid) K))).
  - intros K. exact (corner_faster (proj2 (proj1 (C131_follows ms (wheel 1 (-1)) 4 cart_turning (wheel_turning 1 (-1)) cart_apart Tq cart_fast) K))).
  - exact (C131_double [wheel 1 1] (wheel (-1) (-1)) 4 cart_turning ltac:(lra)).
  - intros K. destruct (C131_lost ms (mkModule (mkTr (-1) (-1)) 1 3 4) cart_turning ltac:(intros md [<-|[]]; cbn; lra) cart_apart K) as (_ & m0 & I0 & L).
    rewrite (cart_fast m0 I0) in L. unfold wheel_limit in L. cbn in L. lra.
Qed.
(** The ride of the other cases with the second module doubled. *)
Example C131_ride : forall asserts, let ms := d_modules cart in let ms' := ms ++ [wheel (-1) (-1)] in exists g g',
  good_history asserts ride /\ generator asserts ride 7 cart g /\
  generator asserts (ride ++ [OSetDrivetrain (mkDrivetrain 2 1 ms')]) 7 (mkDrivetrain 2 1 ms') g' /\
  solved g ride_solution /\ steps_kept ms ms' /\ follows ms (wheel (-1) (-1)) /\ solved g' (coasting ride_solution).
Proof.
  intros asserts ms ms'. destruct (ride_case asserts) as (g & GH & G & _ & Pos & Sv).
  destruct (generator_exists asserts (ride ++ [OSetDrivetrain (mkDrivetrain 2 1 ms')]) 7 (mkDrivetrain 2 1 ms')) as (g' & G');
    [destruct asserts; apply PeanoNat.Nat.ltb_lt; reflexivity|reflexivity|].
  pose proof (wheel_turning (-1) (-1)) as Tm.
  assert (S : steps_kept ms ms').
  { apply (C131_lost ms (wheel (-1) (-1)) cart_turning Tm cart_apart).
    exact (C131_double [wheel 1 1] (wheel (-1) (-1)) 4 cart_turning ltac:(lra)). }
  assert (F : follows ms (wheel (-1) (-1))) by (intros s Wh; apply Wh; right; left; reflexivity).
  exists g, g'. repeat (split; [assumption|]).
  exact (C131_keeps asserts ride 7%Z 2 1 ms (wheel (-1) (-1)) g g' GH G G' cart_turning Tm Pos S F ride_solution Sv).
Qed.

(** *** C132: which modules can be left out *)

(** The last module can be left out if it has no torque: the others keep every trajectory. *)
Theorem C132_keeps : forall asserts h handle m i ms md g g', good_history asserts h ->
  generator asserts h handle (mkDrivetrain m i (ms ++ [md])) g ->
  generator asserts (h ++ [OSetDrivetrain (mkDrivetrain m i ms)]) handle (mkDrivetrain m i ms) g' ->
  turning_wheels ms -> turning_wheels [md] -> (forall n, In n (counts asserts h) -> (1 <= n)%nat) ->
  m_wheelMaxTorque md = 0 -> forall sol, solved g sol -> solved g' (without (length ms) sol).
Proof. exact C132_keeps_proof. Qed.
Print Assumptions C132_keeps.

(** It cannot if it adds more to the force than leaving it out adds to the square of the
    longest time step. *)
Theorem C132_lost : forall ms md T T', turning_wheels ms -> turning_wheels [md] -> longest_step ms T -> longest_step (ms ++ [md]) T' ->
  sum (map force_limit ms) * (T * T) < sum (map force_limit (ms ++ [md])) * (T' * T') -> ~ good_as (ms ++ [md]) ms.
Proof. exact C132_lost_proof. Qed.
Print Assumptions C132_lost.

(** So if leaving it out allows no more time steps, it can be left out only without torque. *)
Theorem C132_exact : forall ms md, turning_wheels ms -> turning_wheels [md] -> some_apart ms -> steps_kept ms (ms ++ [md]) ->
  (good_as (ms ++ [md]) ms <-> m_wheelMaxTorque md = 0).
Proof. exact C132_exact_proof. Qed.
Print Assumptions C132_exact.

(** A third module at the place of the cart's second one. *)
Example C132_case : let ms := d_modules cart in turning_wheels ms /\ some_apart ms /\
  (forall t, 0 <= t -> turning_wheels [third t] /\ steps_kept ms (ms ++ [third t]) /\ longest_step (ms ++ [third t]) (1/2)) /\ longest_step ms (1/2) /\
  sum (map force_limit ms) * (1/2 * (1/2)) < sum (map force_limit (ms ++ [third 1])) * (1/2 * (1/2)) /\
  good_as (ms ++ [third 0]) ms /\ ~ good_as (ms ++ [third 1]) ms.
Proof.
  intros ms. assert (Less : sum (map force_limit ms) * (1/2 * (1/2)) < sum (map force_limit (ms ++ [third 1])) * (1/2 * (1/2)))
    by (unfold force_limit; cbn; lra).
  split; [exact cart_turning|]. split; [exact cart_apart|].
  split; [intros t Ht; split; [exact (third_turning t Ht)|split; [exact (third_steps t Ht)|exact (third_longest t Ht)]]|].
  split; [exact cart_longest|]. split; [exact Less|]. split.
  - apply (C132_exact ms (third 0) cart_turning (third_turning 0 ltac:(lra)) cart_apart (third_steps 0 ltac:(lra))). reflexivity.
  - exact (C132_lost ms (third 1) (1/2) (1/2) cart_turning (third_turning 1 ltac:(lra)) cart_longest (third_longest 1 ltac:(lra)) Less).
Qed.
(** The ride of the other cases, with a third module without torque that is then left out. *)
Example C132_ride : forall asserts, let ms := d_modules cart in let h := ride ++ [OSetDrivetrain (mkDrivetrain 2 1 (ms ++ [third 0]))] in exists g g',
  good_history asserts h /\ generator asserts h 7 (mkDrivetrain 2 1 (ms ++ [third 0])) g /\
  generator asserts (h ++ [OSetDrivetrain cart]) 7 cart g' /\
  solved g (coasting ride_solution) /\ solved g' (without 2 (coasting ride_solution)).
Proof.
  intros asserts ms h. destruct (ride_case asserts) as (g0 & GH & G0 & _ & Pos & Sv).
  destruct (generator_exists asserts h 7 (mkDrivetrain 2 1 (ms ++ [third 0]))) as (g & G);
    [destruct asserts; apply PeanoNat.Nat.ltb_lt; reflexivity|reflexivity|].
  destruct (generator_exists asserts (h ++ [OSetDrivetrain cart]) 7 cart) as (g' & G');
    [destruct asserts; apply PeanoNat.Nat.ltb_lt; reflexivity|reflexivity|].
  pose proof (third_turning 0 ltac:(lra)) as Tm.
  assert (F : follows ms (third 0)) by (intros s Wh; apply (Wh (wheel (-1) (-1))); right; left; reflexivity).
  pose proof (C131_keeps asserts ride 7%Z 2 1 ms (third 0) g0 g GH G0 G cart_turning Tm Pos (third_steps 0 ltac:(lra)) F ride_solution Sv) as Sv'.
  pose proof (last_good asserts ride (mkDrivetrain 2 1 (ms ++ [third 0])) GH) as GH'.
  exists g, g'. repeat (split; [assumption|]).
  apply (C132_keeps asserts h 7%Z 2 1 ms (third 0) g g' GH' G G' cart_turning Tm); [|reflexivity|exact Sv'].
  unfold h. rewrite last_counts. exact Pos.
Qed.
