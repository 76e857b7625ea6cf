(** Concrete parts, joins and inserted waypoints for C100 and C101. *)
From Coq Require Import List Lia Lra Psatz Reals ZArith.
Import ListNotations.
From Verif Require Import Outcome Num NumR Geometry Expr Constraints Util Builder Guess Generator Trajectory
  Spec SpecBuilder SpecPhysics SpecTrajectory SpecGenerator SpecChange SpecParts Semantics
  BuilderHistory GeneratorProofs HistoryFacts SolutionProofs TrajectoryProofs GeneratorCases ObstacleCases PartsProofs.
Open Scope R_scope.

(** The ride with a waypoint on the way, and its two legs. *)
Definition trip : list (op R) :=
  [OSetDrivetrain cart; OPoseWpt 0 0 0 0; OPoseWpt 2 1 0 1; OWptConstraint 0 (LinearVelocityMaxMagnitude 0);
   OSgmtConstraint 0 2 (AngularVelocityMaxMagnitude 1); OControlIntervalCounts [1%nat; 1%nat]].
Definition leg_out : list (op R) :=
  [OSetDrivetrain cart; OPoseWpt 0 0 0 0; OWptConstraint 0 (LinearVelocityMaxMagnitude 0);
   OSgmtConstraint 0 1 (AngularVelocityMaxMagnitude 1); OControlIntervalCounts [1%nat]].
Definition leg_home : list (op R) :=
  [OSetDrivetrain cart; OPoseWpt 1 1 0 1; OSgmtConstraint 0 1 (AngularVelocityMaxMagnitude 1); OControlIntervalCounts [1%nat]].

Ltac good_list := intros asserts; split; [repeat constructor; apply nine; simpl; lia|]; split;
  [repeat constructor; simpl; try exact I; unfold unit_rot; simpl
  |destruct asserts; repeat split; reflexivity].
Lemma trip_good : forall asserts, good_history asserts trip.
Proof. good_list. Qed.
Lemma out_good : forall asserts, good_history asserts leg_out.
Proof. good_list. Qed.
Lemma home_good : forall asserts, good_history asserts leg_home.
Proof. good_list. Qed.
Lemma trip_counts : forall asserts, counts asserts trip = [1; 1]%nat.
Proof. destruct asserts; reflexivity. Qed.
Lemma out_counts : forall asserts, counts asserts leg_out = [1]%nat.
Proof. destruct asserts; reflexivity. Qed.
Lemma home_counts : forall asserts, counts asserts leg_home = [1]%nat.
Proof. destruct asserts; reflexivity. Qed.
Lemma trip_generator : forall asserts, exists g, generator asserts trip 7 cart g.
Proof. intros. apply generator_exists; [destruct asserts; apply Nat.ltb_lt; reflexivity|reflexivity]. Qed.
Lemma out_generator : forall asserts, exists g, generator asserts leg_out 8 cart g.
Proof. intros. apply generator_exists; [destruct asserts; apply Nat.ltb_lt; reflexivity|reflexivity]. Qed.
Lemma home_generator : forall asserts, exists g, generator asserts leg_home 9 cart g.
Proof. intros. apply generator_exists; [destruct asserts; apply Nat.ltb_lt; reflexivity|reflexivity]. Qed.

Lemma trip_between : asks_between trip ride 1.
Proof.
  split; [|split; [|split]].
  - intros [|w] H; [|lia]. split; intros c Hc; cbn in Hc |- *; tauto.
  - intros c Hc; cbn in Hc |- *; tauto.
  - intros c Hc; cbn in Hc |- *; tauto.
  - intros [|[|w]] H; [lia|split; intros c Hc; cbn in Hc |- *; tauto|split; intros c Hc; cbn in Hc; contradiction].
Qed.
Lemma out_less : asks_less leg_out trip 0 1.
Proof.
  split.
  - intros [|[|w]] H; [| |lia]; intros c Hc; cbn in Hc |- *; tauto.
  - intros [|[|w]] H; [lia| |lia]; intros c Hc; cbn in Hc |- *; tauto.
Qed.
Lemma home_less : asks_less leg_home trip 1 1.
Proof.
  split.
  - intros [|[|w]] H; [| |lia]; intros c Hc; cbn in Hc |- *; tauto.
  - intros [|[|w]] H; [lia| |lia]; intros c Hc; cbn in Hc |- *; tauto.
Qed.
Lemma trip_asked : asked_by leg_out leg_home trip 1.
Proof.
  split; intros [|[|[|w]]] c Hc; cbn in Hc; cbn; try contradiction; destruct Hc as [<-|Hc];
    repeat (destruct Hc as [<-|Hc]); try contradiction; try (left; split; [lia|tauto]); right; (split; [lia|tauto]).
Qed.
Lemma trip_case : forall asserts, exists g g',
  good_history asserts ride /\ generator asserts ride 7 cart g /\ solved g ride_solution /\
  good_history asserts trip /\ generator asserts trip 7 cart g' /\ real_wheels cart /\
  counts asserts ride = [] ++ [1 + 1]%nat ++ [] /\ counts asserts trip = [] ++ [1; 1]%nat ++ [] /\
  asks_between trip ride 1 /\ solved g' ride_solution.
Proof.
  intros asserts. destruct (ride_generator asserts 7) as [g G]. destruct (trip_generator asserts) as [g' G']. exists g, g'.
  pose proof (ride_solved asserts 7 g G) as S.
  assert (S' : solved g' ride_solution).
  { apply (C101_waypoint_proof asserts ride 7 cart g trip 7 g' [] 1 1 [] (ride_good asserts) G (trip_good asserts) G' cart_wheels);
      [rewrite trip_counts; intros n [<-|[<-|[]]]; lia|apply ride_counts|apply trip_counts|exact trip_between|exact S]. }
  split; [apply ride_good|]. split; [exact G|]. split; [exact S|]. split; [apply trip_good|]. split; [exact G'|].
  split; [exact cart_wheels|]. split; [apply ride_counts|]. split; [apply trip_counts|]. split; [exact trip_between|exact S'].
Qed.

Lemma legs_case : forall asserts, exists g g1 g2,
  good_history asserts trip /\ generator asserts trip 7 cart g /\
  good_history asserts leg_out /\ generator asserts leg_out 8 cart g1 /\
  good_history asserts leg_home /\ generator asserts leg_home 9 cart g2 /\ real_wheels cart /\
  counts asserts trip = counts asserts leg_out ++ counts asserts leg_home /\
  asks_less leg_out trip 0 1 /\ asks_less leg_home trip 1 1 /\ asked_by leg_out leg_home trip 1 /\
  solved g ride_solution /\ solved g1 (stretch 0 1 ride_solution) /\ solved g2 (stretch 1 1 ride_solution) /\
  at_sample (stretch 0 1 ride_solution) 1 = at_sample (stretch 1 1 ride_solution) 0 /\
  joined (stretch 0 1 ride_solution) (stretch 1 1 ride_solution) = ride_solution /\
  s_dt (stretch 0 1 ride_solution) = [1 / 2] /\ s_x (stretch 1 1 ride_solution) = [1 / 2; 1].
Proof.
  intros asserts. destruct (trip_case asserts) as (g0 & g & _ & _ & _ & GH & G & W & _ & Ec & _ & S).
  destruct (out_generator asserts) as [g1 G1]. destruct (home_generator asserts) as [g2 G2]. exists g, g1, g2.
  assert (Pos : forall n, In n (counts asserts trip) -> (1 <= n)%nat) by (rewrite trip_counts; intros n [<-|[<-|[]]]; lia).
  pose proof (C100_stretch_proof asserts trip 7 cart g leg_out 8 g1 [] [1]%nat GH G (out_good asserts) G1 W Pos) as S1.
  pose proof (C100_stretch_proof asserts trip 7 cart g leg_home 9 g2 [1]%nat [] GH G (home_good asserts) G2 W Pos) as S2.
  rewrite out_counts in S1. rewrite home_counts in S2. rewrite !trip_counts in S1, S2.
  specialize (S1 eq_refl out_less _ S). specialize (S2 eq_refl home_less _ S).
  split; [exact GH|]. split; [exact G|]. split; [apply out_good|]. split; [exact G1|]. split; [apply home_good|]. split; [exact G2|].
  split; [exact W|]. split; [rewrite trip_counts, out_counts, home_counts; reflexivity|].
  split; [exact out_less|]. split; [exact home_less|]. split; [exact trip_asked|]. split; [exact S|]. split; [exact S1|]. split; [exact S2|].
  repeat split; reflexivity.
Qed.

(** ** Where an extra waypoint does change something *)
(** A robot that is told nothing stands still, first for half a second, then for
    a quarter. *)
Definition idle (ns : list nat) : list (op R) :=
  [OSetDrivetrain cart; OWptInitialGuessPoint 2 (pose_xyh 0 0 0); OControlIntervalCounts ns].
Definition idle_solution : solution R :=
  mkSolution [1/2; 1/4] [0; 0; 0] [0; 0; 0] [1; 1; 1] [0; 0; 0] [0; 0; 0] [0; 0; 0] [0; 0; 0] [0; 0; 0] [0; 0; 0] [0; 0; 0]
    [[0; 0]; [0; 0]; [0; 0]] [[0; 0]; [0; 0]; [0; 0]].
Lemma idle_good : forall asserts ns, good_history asserts (idle ns).
Proof.
  intros asserts ns. split; [repeat constructor; apply nine; simpl; lia|]. split; [repeat constructor|].
  destruct asserts; repeat split; reflexivity.
Qed.
Lemma idle_generator : forall asserts ns, (length ns <= 2)%nat -> exists g, generator asserts (idle ns) 0 cart g.
Proof.
  intros asserts ns H. apply generator_exists; [|reflexivity].
  assert (E : waypoint_count (path asserts (idle ns)) = 3%nat) by (destruct asserts; reflexivity).
  assert (E' : b_counts (path asserts (idle ns)) = ns) by (destruct asserts; reflexivity).
  rewrite E. first [rewrite E'|change (counts asserts (idle ns)) with (b_counts (path asserts (idle ns))); rewrite E']. lia.
Qed.
Lemma idle_requests : forall ns w, wpt_requests [] (idle ns) w = [] /\ sgmt_requests [] (idle ns) w = [].
Proof. intros. split; reflexivity. Qed.
Lemma idle_solved : forall asserts g, generator asserts (idle [1; 1]%nat) 0 cart g -> solved g idle_solution.
Proof.
  intros asserts g G. assert (C : counts asserts (idle [1; 1]%nat) = [1; 1]%nat) by (destruct asserts; reflexivity).
  apply (solved_intro asserts (idle [1; 1]%nat) 0 cart g _ (idle_good asserts _) G cart_wheels); rewrite ?C.
  - intros n [<-|[<-|[]]]; lia.
  - repeat split; repeat constructor.
  - intros s k Hs Hk. destruct s as [|[|s]]; cbn in Hs, Hk; [| |lia]; destruct k; try lia; reflexivity.
  - split.
    + intros i Hi. cbn in Hi. assert (i = 1 \/ i = 2)%nat as [->| ->] by lia;
      (split; [apply cart_steps; unfold step_to, idle_solution; simpl; lra|]);
      unfold moves, turns_up_to_half, accelerates, at_sample, idle_solution, step_to;
      cbn [s_dt s_x s_y s_thetacos s_thetasin s_vx s_vy s_omega s_ax s_ay s_alpha
        nth Nat.sub q_x q_y q_c q_s q_vx q_vy q_w q_ax q_ay q_al];
      rewrite Rmult_0_l, cos_0, sin_0; (split; [split; ring|]); (split; [left; split; lra|]); repeat split; ring.
    + intros i Hi. cbn in Hi.
      assert (i = 0 \/ i = 1 \/ i = 2)%nat as [->|[->| ->]] by lia; (split; [|split]);
      try (unfold newton, cross2, turned, forces, at_sample, idle_solution; simpl; repeat split; lra);
      try (intros md fo [E|[E|[]]]; injection E as <- <-; simpl; apply norm2_le; lra);
      intros md [<-|[<-|[]]]; unfold wheel_velocity, at_sample, idle_solution; simpl; apply norm2_le; lra.
  - split; intros w c; [intros _ Hc|intros i _ Hc _]; destruct (idle_requests [1; 1]%nat w) as [E1 E2];
      [rewrite E1 in Hc|rewrite E2 in Hc]; contradiction.
Qed.
Lemma C101_waypoint_refuted_proof : ~ (forall asserts coarse handle d g finer handle' g' before n1 n2 after,
  good_history asserts coarse -> generator asserts coarse handle d g ->
  good_history asserts finer -> generator asserts finer handle' d g' ->
  real_wheels d -> (forall n, In n (counts asserts finer) -> (1 <= n)%nat) ->
  counts asserts coarse = before ++ [n1 + n2]%nat ++ after ->
  counts asserts finer = before ++ [n1; n2] ++ after ->
  (forall w, wpt_requests [] coarse w = [] /\ sgmt_requests [] coarse w = []) ->
  (forall w, wpt_requests [] finer w = [] /\ sgmt_requests [] finer w = []) ->
  forall sol, solved g' sol -> solved g sol).
Proof.
  intros H. destruct (idle_generator true [2]%nat ltac:(simpl; lia)) as [g G]. destruct (idle_generator true [1; 1]%nat ltac:(simpl; lia)) as [g' G'].
  pose proof (H true (idle [2]%nat) 0%Z cart g (idle [1; 1]%nat) 0%Z g' [] 1%nat 1%nat [] (idle_good _ _) G (idle_good _ _) G' cart_wheels
    ltac:(intros n [<-|[<-|[]]]; lia) eq_refl eq_refl (idle_requests _) (idle_requests _) idle_solution (idle_solved true g' G')) as S.
  apply (solved_exact true (idle [2]%nat) 0 cart g (idle_good _ _) G cart_wheels) in S; [|intros n [<-|[]]; lia].
  destruct S as (_ & U & _). specialize (U 0%nat 1%nat ltac:(cbn; lia) ltac:(cbn; lia)).
  unfold step_to, idle_solution in U. cbn in U. lra.
Qed.

(** ** Where a bumper less does hurt *)
(** Two bumpers of one corner each, and an obstacle of one corner that touches
    the second. *)
Definition nose : obstacle R := mkObstacle 0 [mkTr 0 0].
Definition tail : obstacle R := mkObstacle 0 [mkTr 1 0].
Definition bollard : obstacle R := mkObstacle (1/2) [mkTr 1 0].
Definition yard_start : list (op R) := [OSetDrivetrain cart; OPoseWpt 0 0 0 0; OPoseWpt 1 0 0 0].
Definition yard_end : list (op R) := [OAddBumpers tail; OWptObstacle 0 bollard; OControlIntervalCounts [1%nat]].
Lemma yard_good : good_history false (yard_start ++ OAddBumpers nose :: yard_end) /\ good_history false (yard_start ++ yard_end).
Proof.
  split; (split; [repeat constructor; apply nine; simpl; lia|]); (split; [repeat constructor|]); repeat split; reflexivity.
Qed.
Lemma yard_generators : (exists g, generator false (yard_start ++ OAddBumpers nose :: yard_end) 0 cart g) /\
  (exists g, generator false (yard_start ++ yard_end) 0 cart g).
Proof. split; (apply generator_exists; [apply Nat.ltb_lt; reflexivity|reflexivity]). Qed.
Lemma C101_bumper_refuted_proof : ~ (forall asserts h1 bumper h2 handle d g g',
  good_history asserts (h1 ++ OAddBumpers bumper :: h2) -> good_history asserts (h1 ++ h2) ->
  generator asserts (h1 ++ OAddBumpers bumper :: h2) handle d g -> generator asserts (h1 ++ h2) handle d g' ->
  real_wheels d -> (forall n, In n (counts asserts (h1 ++ h2)) -> (1 <= n)%nat) ->
  forall sol, solved g sol -> solved g' sol).
Proof.
  intros H. destruct yard_generators as [[g G] [g' G']]. destruct yard_good as [GH GH'].
  assert (Dp : forall p, demands (at_sample parked p) (PoseEquality (pose_xyh 0 0 0)) \/ (2 <= p)%nat).
  { intros [|[|p]]; [left|left|right; lia]; cbn; (split; [reflexivity|split; [reflexivity|]]); rewrite cos_0, sin_0; left; split; lra. }
  assert (S : solved g parked).
  { apply (solved_intro false (yard_start ++ OAddBumpers nose :: yard_end) 0 cart g _ GH G cart_wheels).
    - intros n [<-|[]]. lia.
    - apply stay_shaped.
    - apply stay_shaped.
    - apply stay_physics; lra.
    - change (counts false (yard_start ++ OAddBumpers nose :: yard_end)) with [1%nat]. split.
      + intros w c Hw Hc. cbn in Hw. destruct (Dp 0%nat) as [D0|]; [|lia]. destruct (Dp 1%nat) as [D1|]; [|lia].
        destruct w as [|[|w]]; [| |lia]; cbn -[demands parked] in Hc.
        * destruct Hc as [<-|[<-|[]]]; [exact D0|]. cbn [demands]. rewrite dock_placed.
          rewrite Rabs_right by (cbn; lra). unfold dist2, pt. cbn.
          match goal with |- _ <= sqrt ?e => replace e with (1 * 1) by ring; rewrite sqrt_square by lra; lra end.
        * destruct Hc as [<-|[]]; exact D1.
      + intros w c i Hw Hc Hi. cbn in Hw. assert (w = 1)%nat as -> by lia. destruct Hc. }
  pose proof (H false yard_start nose yard_end 0%Z cart g g' GH GH' G G' cart_wheels ltac:(intros n [<-|[]]; lia) parked S) as S'.
  apply (solved_exact false (yard_start ++ yard_end) 0 cart g' GH' G' cart_wheels) in S'; [|intros n [<-|[]]; lia].
  destruct S' as (_ & _ & _ & M & _).
  assert (D : demands (at_sample parked 0) (PointPoint (mkTr 1 0) (mkTr 1 0) (0 + 1/2))).
  { apply (M 0%nat); [cbn; lia|]. cbn -[demands]. right. left. reflexivity. }
  cbn [demands] in D. rewrite dock_placed in D. rewrite Rabs_right in D by lra. unfold dist2, pt in D. cbn in D.
  match type of D with _ <= sqrt ?e => replace e with 0 in D by ring; rewrite sqrt_0 in D; lra end.
Qed.
(** One constraint less: the ride without its limit on the angular velocity. *)
Lemma fewer_case : forall asserts, exists g,
  ride = firstn 4 ride ++ OSgmtConstraint 0 1 (AngularVelocityMaxMagnitude 1) :: [OControlIntervalCounts [2%nat]] /\
  good_history asserts ride /\ generator asserts ride 7 cart g /\ solved g ride_solution /\
  limits (waypoint_count (path asserts (firstn 4 ride))) (OSgmtConstraint 0 1 (AngularVelocityMaxMagnitude 1) : op R).
Proof.
  intros asserts. destruct (ride_case asserts) as (g & GH & G & _ & _ & S). exists g.
  split; [reflexivity|]. split; [exact GH|]. split; [exact G|]. split; [exact S|].
  assert (E : waypoint_count (path asserts (firstn 4 ride)) = 2%nat) by (destruct asserts; reflexivity). rewrite E. cbn. lia.
Qed.
