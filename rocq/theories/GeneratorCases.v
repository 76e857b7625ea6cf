(** Concrete paths and solutions: examples for the generator theorems and
    counterexamples to the claims that are false. *)
From Coq Require Import List Lia Lra Psatz Reals ZArith.
Import ListNotations.
From Verif Require Import Outcome Num NumR Geometry Expr Constraints Util Builder Guess Generator Trajectory
  Spec SpecBuilder SpecPhysics SpecTrajectory SpecGenerator Semantics
  UtilFacts GeometryFacts BuilderFacts BuilderHistory ConstraintFacts GuessFacts GeneratorFacts SeedFacts FeasibleFacts
  GeneratorProofs HistoryFacts SolutionProofs TrajectoryProofs.
Local Open Scope nat_scope.

Lemma generator_exists : forall {K} {HA : Arith K} {HD : Dbl K} asserts (h : list (op K)) handle d,
  length (counts asserts h) < waypoint_count (path asserts h) -> last_drivetrain None h = Some d ->
  exists g, generator asserts h handle d g.
Proof.
  intros K HA HD asserts h handle d L D. rewrite <- path_drivetrain with (asserts := asserts) in D.
  destruct (construct_ok (path asserts h) handle d (path_inv asserts h) L D) as (p & C & _).
  eexists. split; [exact C|exact D].
Qed.

Open Scope R_scope.

(** Two modules on opposite sides of the robot's centre. *)
Definition wheel (x y : R) : swerve_module R := mkModule (mkTr x y) 1 4 4.
Definition cart : drivetrain R := mkDrivetrain 2 1 [wheel 1 1; wheel (-1) (-1)].
Lemma cart_wheels : real_wheels cart.
Proof. intros md [<-|[<-|[]]]; simpl; lra. Qed.

(** From rest to the pose (1,0) turned by one radian, in two intervals. *)
Definition ride : list (op R) :=
  [OSetDrivetrain cart; OPoseWpt 0 0 0 0; OPoseWpt 1 1 0 1;
   OWptConstraint 0 (LinearVelocityMaxMagnitude 0);
   OSgmtConstraint 0 1 (AngularVelocityMaxMagnitude 1);
   OControlIntervalCounts [2%nat]].
(** A solution: constant angular velocity, a push in the first interval. *)
Definition ride_solution : solution R :=
  mkSolution [1/2; 1/2] [0; 1/2; 1] [0; 0; 0]
    [cos 0; cos (1/2); cos 1] [sin 0; sin (1/2); sin 1]
    [0; 1; 1] [0; 0; 0] [1; 1; 1] [0; 2; 0] [0; 0; 0] [0; 0; 0]
    [[0; 0]; [2; 2]; [0; 0]] [[0; 0]; [0; 0]; [0; 0]].

Lemma ride_counts : forall asserts, counts asserts ride = [2%nat].
Proof. destruct asserts; reflexivity. Qed.
Lemma ride_generator : forall asserts handle, exists g, generator asserts ride handle cart g.
Proof.
  intros asserts handle. apply generator_exists; [|reflexivity].
  destruct asserts; apply Nat.ltb_lt; reflexivity.
Qed.
Lemma ride_good : forall asserts, good_history asserts ride.
Proof.
  intros asserts. split; [repeat constructor|]. split.
  - repeat constructor; simpl; try exact I; unfold unit_rot; simpl.
  - destruct asserts; repeat split; reflexivity.
Qed.
Lemma ride_shaped : well_shaped [2%nat] 2 ride_solution /\ uniform_steps [2%nat] ride_solution.
Proof.
  split; [repeat split; repeat constructor|].
  intros s k Hs Hk. simpl in Hs. assert (s = 0)%nat as -> by lia. simpl in Hk.
  destruct k as [|[|k]]; [reflexivity|reflexivity|lia].
Qed.
Lemma norm2_le : forall x y m, 0 <= m -> x * x + y * y <= m * m -> norm2 (x, y) <= m.
Proof.
  intros x y m Hm H. rewrite <- (Rabs_right m) by lra. apply sum_sqr_bound. exact H.
Qed.
Lemma norm2_gt : forall x y m, 0 <= m -> m * m < x * x + y * y -> m < norm2 (x, y).
Proof.
  intros x y m Hm H. destruct (Rlt_le_dec m (norm2 (x, y))) as [L|L]; [exact L|].
  rewrite <- (Rabs_right m) in L by lra. apply sum_sqr_bound in L. lra.
Qed.
Lemma three : forall i, (i <= 2)%nat -> i = 0%nat \/ i = 1%nat \/ i = 2%nat.
Proof. lia. Qed.
Lemma ride_headings : headings_unit [2%nat] ride_solution.
Proof.
  intros i Hi. simpl in Hi. unfold unit_heading.
  destruct (three i Hi) as [->|[->| ->]]; simpl; apply pyth.
Qed.
Lemma cart_steps : forall dt, 0 <= dt <= 1/2 -> step_within cart dt.
Proof.
  intros dt Hd. split; [lra|]. intros md a b Hm Hab. simpl in Hab. destruct Hab as [E|[]].
  injection E as <- <-. simpl. replace (1 - -1) with 2 by lra.
  rewrite Rabs_right by lra. destruct Hm as [<-|[<-|[]]]; simpl; split; intros _; lra.
Qed.
Lemma ride_physics : obeys_physics turns cart [2%nat] ride_solution.
Proof.
  split.
  - intros i Hi. simpl in Hi.
    assert (C : forall a, cos (a + 1/2) = cos a * cos (1 * (1/2)) - sin a * sin (1 * (1/2)))
      by (intros a; rewrite Rmult_1_l; apply cos_plus).
    assert (S : forall a, sin (a + 1/2) = cos a * sin (1 * (1/2)) + sin a * cos (1 * (1/2)))
      by (intros a; rewrite Rmult_1_l, sin_plus; ring).
    assert (i = 1 \/ i = 2)%nat as [->| ->] by lia;
      (split; [apply cart_steps; unfold step_to, ride_solution; simpl; lra|]); unfold moves, turns, accelerates;
      cbn [at_sample ride_solution step_to s_dt s_x s_y s_thetacos s_thetasin s_vx s_vy s_omega s_ax s_ay s_alpha
        nth Nat.sub q_x q_y q_c q_s q_vx q_vy q_w q_ax q_ay q_al].
    + rewrite <- C, <- S. replace (0 + 1/2) with (1/2) by lra. repeat split; lra.
    + rewrite <- C, <- S. replace (1/2 + 1/2) with 1 by lra. repeat split; lra.
  - intros i Hi. simpl in Hi.
    assert (B : forall a, -1 <= cos a <= 1 /\ -1 <= sin a <= 1)
      by (intros a; split; [apply COS_bound|apply SIN_bound]).
    pose proof (B 0). pose proof (B (1/2)). pose proof (B 1).
    pose proof (pyth 0). pose proof (pyth (1/2)). pose proof (pyth 1).
    assert (W : forall x y c s v w md, In md (d_modules cart) -> 0 <= v <= 1 -> 0 <= w <= 1 ->
              -1 <= c <= 1 -> -1 <= s <= 1 -> c * c + s * s = 1 ->
              norm2 (wheel_velocity (mkState x y c s v 0 w 0 0 0) (m_translation md)) <= 4).
    { intros x y c s v w md Hm Hv Hw Hc Hs U. unfold wheel_velocity. cbn [q_vx q_vy q_c q_s q_w].
      apply norm2_le; [lra|].
      assert (X : -1 <= v * c <= 1) by nra. assert (Y : -1 <= v * s <= 1) by nra.
      set (vc := v * c) in *. set (vs := v * s) in *.
      destruct Hm as [<-|[<-|[]]]; simpl; nra. }
    assert (F : forall fx, -4 <= fx <= 4 -> norm2 (fx, 0) <= 4 / 1) by (intros; apply norm2_le; nra).
    destruct (three i Hi) as [->|[->| ->]]; (split; [|split]).
    all: try (unfold newton, cross2, turned, forces, at_sample, ride_solution; simpl; repeat split; lra).
    all: try (unfold forces_within, forces, ride_solution; simpl;
              intros md f Hf; destruct Hf as [E|[E|[]]]; injection E as <- <-; simpl; apply F; lra).
    all: intros md Hm; assert (L : m_wheelRadius md * m_wheelMaxAngularVelocity md = 4)
           by (destruct Hm as [<-|[<-|[]]]; simpl; lra); rewrite L;
         unfold at_sample, ride_solution; cbn [s_x s_y s_thetacos s_thetasin s_vx s_vy s_omega s_ax s_ay s_alpha nth].
    + apply (W 0 0 (cos 0) (sin 0) 0 1); try lra. exact Hm.
    + unfold wheel_velocity. cbn [q_vx q_vy q_c q_s q_w].
      apply (W 0 0 (cos (1/2)) (sin (1/2)) 1 1); try lra. exact Hm.
    + apply (W 0 0 (cos 1) (sin 1) 1 1); try lra. exact Hm.
Qed.
Lemma ride_requests : meets_requests [2%nat] ride_solution (wpt_requests [] ride) (sgmt_requests [] ride).
Proof.
  split.
  - intros w c Hw Hc. simpl in Hw. assert (w = 0 \/ w = 1)%nat as [->| ->] by lia.
    + simpl in Hc. destruct Hc as [<-|[<-|[<-|[]]]]; simpl.
      * repeat split; try lra; left; split; reflexivity.
      * rewrite Rabs_right by lra. apply norm2_le; lra.
      * rewrite Rabs_right; lra.
    + simpl in Hc. destruct Hc as [<-|[<-|[]]]; simpl.
      * repeat split; try lra; left; split; reflexivity.
      * rewrite Rabs_right; lra.
  - intros w c i Hw Hc Hi. simpl in Hw. assert (w = 1)%nat as -> by lia.
    simpl in Hc. destruct Hc as [<-|[]]. unfold waypoint_sample in Hi. simpl in Hi.
    assert (i = 1 \/ i = 2)%nat as [->| ->] by lia; simpl; rewrite Rabs_right; lra.
Qed.
Lemma ride_solved : forall asserts handle g, generator asserts ride handle cart g -> solved g ride_solution.
Proof.
  intros asserts handle g G.
  apply (C15_accepts_proof asserts ride handle cart g (ride_good asserts) G cart_wheels);
    rewrite ?ride_counts; try apply ride_shaped; try apply ride_headings; try apply ride_physics;
    try apply ride_requests.
  intros n [<-|[]]. lia.
Qed.
(** The whole case: history, generator and solution. *)
Lemma ride_case : forall asserts, exists g,
  good_history asserts ride /\ generator asserts ride 7 cart g /\ real_wheels cart /\
  (forall n, In n (counts asserts ride) -> (1 <= n)%nat) /\ solved g ride_solution.
Proof.
  intros asserts. destruct (ride_generator asserts 7) as [g G]. exists g.
  split; [apply ride_good|]. split; [exact G|]. split; [apply cart_wheels|].
  split; [rewrite ride_counts; intros n [<-|[]]; lia|]. exact (ride_solved asserts 7 g G).
Qed.

(** ** Counterexamples *)
Lemma solved_intro : forall asserts h handle d g sol, good_history asserts h -> generator asserts h handle d g ->
  real_wheels d -> (forall n, In n (counts asserts h) -> (1 <= n)%nat) ->
  well_shaped (counts asserts h) (length (d_modules d)) sol -> uniform_steps (counts asserts h) sol ->
  obeys_physics turns_up_to_half d (counts asserts h) sol ->
  meets_requests (counts asserts h) sol (wpt_requests [] h) (sgmt_requests [] h) -> solved g sol.
Proof.
  intros asserts h handle d g sol Gd G W P Sh U Ph M.
  destruct (C15_complete_proof asserts h handle d g G sol Sh U) as (env & E).
  exists env. split; [|exact E].
  apply (C15_proof asserts h handle d g Gd G W P env sol E). split; assumption.
Qed.

(** Two waypoints at the same place, one interval. *)
Definition stay (a b : op R) : list (op R) := [OSetDrivetrain cart; a; b; OControlIntervalCounts [1%nat]].
Definition park : list (op R) := stay (OPoseWpt 0 0 0 0) (OPoseWpt 1 0 0 0).
Definition hover : list (op R) := stay (OTranslationWpt 0 0 0 0) (OTranslationWpt 1 0 0 0).
(** A robot that stays at the origin: only headings, angular motion and forces
    vary. *)
Definition staying (c0 c1 w0 w1 al1 f f0 : R) : solution R :=
  mkSolution [1/2] [0; 0] [0; 0] [c0; c1] [0; 0] [0; 0] [0; 0] [w0; w1] [0; 0] [0; 0] [-4 * c0 * f0; al1]
    [[f0; - f0]; [f; - f]] [[- f0; f0]; [- f; f]].

Lemma stay_shaped : forall c0 c1 w0 w1 al1 f f0,
  well_shaped [1%nat] 2 (staying c0 c1 w0 w1 al1 f f0) /\ uniform_steps [1%nat] (staying c0 c1 w0 w1 al1 f f0).
Proof.
  intros. split; [repeat split; repeat constructor|].
  intros s k Hs Hk. simpl in Hs. assert (s = 0)%nat as -> by lia. simpl in Hk.
  assert (k = 0)%nat as -> by lia. reflexivity.
Qed.

Lemma stay_physics : forall c0 c1 w0 al1 f f0, (c0 * c1 = 1 \/ c0 * c1 = -1) ->
  -2 <= w0 <= 2 -> w0 + al1 / 2 = 0 -> -4 * c1 * f = al1 -> -2 <= f <= 2 -> -2 <= f0 <= 2 ->
  obeys_physics turns_up_to_half cart [1%nat] (staying c0 c1 w0 0 al1 f f0).
Proof.
  intros c0 c1 w0 al1 f f0 Hc Hw Ha Hf Bf Bf0. split.
  - intros i Hi. simpl in Hi. assert (i = 1)%nat as -> by lia.
    split; [apply cart_steps; unfold step_to, staying; simpl; lra|].
    unfold moves, turns_up_to_half, accelerates, at_sample, staying, step_to.
    cbn [s_dt s_x s_y s_thetacos s_thetasin s_vx s_vy s_omega s_ax s_ay s_alpha
        nth Nat.sub q_x q_y q_c q_s q_vx q_vy q_w q_ax q_ay q_al].
    rewrite Rmult_0_l, cos_0, sin_0. split; [split; ring|]. split.
    + destruct Hc; [left|right]; split; lra.
    + repeat split; try ring. lra.
  - intros i Hi. simpl in Hi. assert (B : w0 * w0 <= 4) by nra. assert (B2 : f * f <= 4) by nra. assert (B3 : f0 * f0 <= 4) by nra.
    assert (i = 0 \/ i = 1)%nat as [->| ->] by lia; (split; [|split]).
    + unfold newton, cross2, turned, forces, at_sample, staying; simpl. repeat split; try lra.
    + intros md [<-|[<-|[]]]; unfold wheel_velocity, at_sample, staying; simpl; apply norm2_le; nra.
    + intros md fo [E|[E|[]]]; injection E as <- <-; simpl; apply norm2_le; lra.
    + unfold newton, cross2, turned, forces, at_sample, staying; simpl. repeat split; try lra.
    + intros md [<-|[<-|[]]]; unfold wheel_velocity, at_sample, staying; simpl; apply norm2_le; lra.
    + intros md fo [E|[E|[]]]; injection E as <- <-; simpl; apply norm2_le; lra.
Qed.

Lemma stay_counts : counts true park = [1%nat] /\ counts true hover = [1%nat].
Proof. split; reflexivity. Qed.
Lemma stay_generator : (exists g, generator true park 0 cart g) /\ (exists g, generator true hover 0 cart g).
Proof. split; (apply generator_exists; [apply Nat.ltb_lt; reflexivity|reflexivity]). Qed.
Lemma stay_good : good_history true park /\ good_history true hover.
Proof. split; repeat split; repeat constructor. Qed.

(** A robot that turns round within one interval although its angular velocity
    is zero. *)
Lemma flip_solved : forall g, generator true park 0 cart g -> solved g (staying 1 (-1) 0 0 0 0 0).
Proof.
  intros g G.
  apply (solved_intro true park 0 cart g _ (proj1 stay_good) G cart_wheels);
    change (counts true park) with [1%nat]; try apply stay_shaped.
  - intros n [<-|[]]. lia.
  - apply stay_physics; lra.
  - split.
    + intros w c Hw Hc. simpl in Hw. assert (w = 0 \/ w = 1)%nat as [->| ->] by lia;
        simpl in Hc; destruct Hc as [<-|[]]; simpl; (split; [reflexivity|split; [reflexivity|]]);
        rewrite cos_0, sin_0; [left|right]; split; lra.
    + intros w c i Hw Hc Hi. simpl in Hw. assert (w = 1)%nat as -> by lia. destruct Hc.
Qed.
(** A robot whose heading vector is stretched, turning as it stops. *)
Lemma hover_solved : forall g c0 c1 w0 al1 f f0, generator true hover 0 cart g ->
  c0 * c1 = 1 -> -2 <= w0 <= 2 -> w0 + al1 / 2 = 0 -> -4 * c1 * f = al1 -> -2 <= f <= 2 -> -2 <= f0 <= 2 ->
  solved g (staying c0 c1 w0 0 al1 f f0).
Proof.
  intros g c0 c1 w0 al1 f f0 G H1 H2 H3 H4 H5 H6.
  apply (solved_intro true hover 0 cart g _ (proj2 stay_good) G cart_wheels);
    change (counts true hover) with [1%nat]; try apply stay_shaped.
  - intros n [<-|[]]. lia.
  - apply stay_physics; try assumption. left. exact H1.
  - split.
    + intros w c Hw Hc. simpl in Hw. assert (w = 0 \/ w = 1)%nat as [->| ->] by lia;
        simpl in Hc; destruct Hc as [<-|[]]; simpl; split; reflexivity.
    + intros w c i Hw Hc Hi. simpl in Hw. assert (w = 1)%nat as -> by lia. destruct Hc.
Qed.

Lemma C17_refuted_proof : ~ (forall asserts h handle d g sol, good_history asserts h ->
  generator asserts h handle d g -> real_wheels d -> solved g sol -> headings_unit (counts asserts h) sol).
Proof.
  intros H. destruct (proj2 stay_generator) as [g G].
  pose proof (H true hover 0%Z cart g _ (proj2 stay_good) G cart_wheels
    (hover_solved g 2 (1/2) 0 0 0 0 G ltac:(lra) ltac:(lra) ltac:(lra) ltac:(lra) ltac:(lra) ltac:(lra)) 0%nat ltac:(lia)) as U.
  unfold unit_heading in U. simpl in U. lra.
Qed.

Lemma C18_refuted_proof : ~ (forall asserts h handle d g sol, good_history asserts h ->
  generator asserts h handle d g -> real_wheels d -> solved g sol -> headings_unit (counts asserts h) sol ->
  forall i, (1 <= i <= last_sample (counts asserts h))%nat ->
  turns (at_sample sol (i - 1)) (at_sample sol i) (step_to sol i)).
Proof.
  intros H. destruct (proj1 stay_generator) as [g G].
  assert (U : headings_unit (counts true park) (staying 1 (-1) 0 0 0 0 0)).
  { intros i Hi. change (counts true park) with [1%nat] in Hi. simpl in Hi. unfold unit_heading.
    assert (i = 0 \/ i = 1)%nat as [->| ->] by lia; simpl; lra. }
  destruct (H true park 0%Z cart g _ (proj1 stay_good) G cart_wheels (flip_solved g G) U 1%nat
    ltac:(change (counts true park) with [1%nat]; simpl; lia)) as [T _].
  simpl in T. rewrite Rmult_0_l, cos_0, sin_0 in T. lra.
Qed.

Lemma C28_solution_refuted_proof : ~ (forall asserts h handle d g sol i x y a, good_history asserts h ->
  generator asserts h handle d g -> real_wheels d -> solved g sol ->
  In (OPoseWpt i x y a) h -> (i <= length (counts asserts h))%nat ->
  heading_is (at_sample sol (waypoint_sample (counts asserts h) i)) a).
Proof.
  intros H. destruct (proj1 stay_generator) as [g G].
  pose proof (H true park 0%Z cart g _ 1%nat 0 0 0 (proj1 stay_good) G cart_wheels (flip_solved g G)
    ltac:(simpl; tauto) ltac:(change (counts true park) with [1%nat]; simpl; lia)) as [T _].
  change (counts true park) with [1%nat] in T. simpl in T. rewrite cos_0 in T. lra.
Qed.

Lemma C20_refuted_proof : ~ (forall asserts h handle d g sol, good_history asserts h ->
  generator asserts h handle d g -> real_wheels d -> solved g sol ->
  forall i md, (i <= last_sample (counts asserts h))%nat -> In md (d_modules d) ->
  norm2 (ground_velocity (at_sample sol i) (m_translation md)) <= m_wheelRadius md * m_wheelMaxAngularVelocity md).
Proof.
  intros H. destruct (proj2 stay_generator) as [g G].
  pose proof (H true hover 0%Z cart g _ (proj2 stay_good) G cart_wheels
    (hover_solved g 2 (1/2) 2 (-4) 2 0 G ltac:(lra) ltac:(lra) ltac:(lra) ltac:(lra) ltac:(lra) ltac:(lra))
    0%nat (wheel 1 1) ltac:(lia) ltac:(simpl; tauto)) as B.
  unfold ground_velocity in B. cbn [m_wheelRadius m_wheelMaxAngularVelocity wheel] in B.
  match type of B with norm2 (?x, ?y) <= _ => pose proof (norm2_gt x y 4) as X end.
  simpl in X. simpl in B. apply Rle_not_lt in B. apply B. replace (1 * 4) with 4 by lra. apply X; lra.
Qed.

Lemma C15_refuted_proof : ~ (forall asserts h handle d g, good_history asserts h ->
  generator asserts h handle d g -> real_wheels d -> (forall n, In n (counts asserts h) -> (1 <= n)%nat) ->
  forall env sol, ConstructSwerveSolution g env = Ok sol -> headings_unit (counts asserts h) sol ->
  (feasible env (g_problem g) ->
   obeys_physics turns d (counts asserts h) sol)).
Proof.
  intros H.
  destruct (proj1 stay_generator) as [g G]. destruct (flip_solved g G) as (env & F & E).
  assert (U : headings_unit (counts true park) (staying 1 (-1) 0 0 0 0 0)).
  { intros i Hi. change (counts true park) with [1%nat] in Hi. simpl in Hi. unfold unit_heading.
    assert (i = 0 \/ i = 1)%nat as [->| ->] by lia; simpl; lra. }
  destruct (H true park 0%Z cart g (proj1 stay_good) G cart_wheels
    ltac:(change (counts true park) with [1%nat]; intros n [<-|[]]; lia) env _ E U F) as [P _].
  destruct (P 1%nat ltac:(change (counts true park) with [1%nat]; simpl; lia)) as (_ & _ & [T _] & _).
  simpl in T. rewrite Rmult_0_l, cos_0, sin_0 in T. lra.
Qed.
