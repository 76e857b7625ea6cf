(** Concrete robots and obstacles for C40: a case meeting the theorem's
    hypotheses and three cases in which the claim fails. *)
From Coq Require Import Reals Lra Lia Psatz List ZArith.
Import ListNotations.
From Verif Require Import Outcome Num NumR Geometry Expr Constraints Util Builder Generator Spec SpecBuilder SpecPhysics
  SpecTrajectory SpecGenerator SpecObstacle UtilFacts GeometryFacts ConstraintFacts BuilderFacts BuilderHistory
  BuilderCases SolutionProofs GeneratorCases ObstacleProofs.
Open Scope R_scope.

(** A robot parked at the origin, heading along the x axis, told to keep clear
    of [o] at its first waypoint. *)
Definition dock_start (bu : obstacle R) : list (op R) :=
  [OSetDrivetrain cart; OPoseWpt 0 0 0 0; OPoseWpt 1 0 0 0; OAddBumpers bu].
Definition dock (bu o : obstacle R) : list (op R) :=
  dock_start bu ++ OWptObstacle 0 o :: [OControlIntervalCounts [1%nat]].
Definition parked : solution R := staying 1 1 0 0 0 0 0.

Lemma dock_placed : forall c, placed (at_sample parked 0) c = (tX c, tY c).
Proof. intros c. unfold placed, at_sample, parked, staying. simpl. f_equal; lra. Qed.

Section Dock.
Variables (bu o : obstacle R).
Hypothesis Lb : (0 < length (o_points bu) <= length (o_points o))%nat \/
  (0 < length (o_points bu) /\ 0 < length (o_points o) < 3)%nat.
Hypothesis Sb : (length (o_points bu) <= 9)%nat /\ (length (o_points o) <= 9)%nat.
Hypothesis Db : 0 <= o_safetyDistance bu + o_safetyDistance o.

Lemma nine : forall n, (n <= 9)%nat -> in_size_t n.
Proof. intros n H. unfold in_size_t. change (2 ^ 64)%Z with 18446744073709551616%Z. lia. Qed.
Lemma dock_good : forall asserts, good_history asserts (dock bu o).
Proof.
  intros asserts. assert (P : Forall proper_call (dock_start bu)).
  { repeat apply Forall_cons; try exact I; try (apply nine; simpl; lia); try apply Forall_nil. }
  split; [|split].
  - apply Forall_app. split; [exact P|]. repeat apply Forall_cons; try apply Forall_nil; [|exact I].
    split; [apply nine; lia|apply nine, Sb].
  - repeat apply Forall_cons; try apply Forall_nil; exact I.
  - do 4 (split; [destruct asserts; reflexivity|]). split; [|split; [reflexivity|exact I]].
    apply (proj2 (C38_returns_proof asserts (dock_start bu) o 0 P (nine _ (proj2 Sb)) ltac:(lia))).
    simpl. split; [|intros _; exact I]. right. split; [lia|]. split; [lia|]. split; [lia|].
    intros _. unfold nleb, nadd, nlit, Arith_R, Dbl_R, Rleb, Q2R. destruct (Rle_dec _ _) as [L|L]; [reflexivity|].
    exfalso. apply L. cbn. lra.
Qed.
Lemma dock_counts : forall asserts, counts asserts (dock bu o) = [1%nat].
Proof. intros. reflexivity. Qed.
Lemma dock_solved : forall asserts g, generator asserts (dock bu o) 0 cart g ->
  (forall c, In c (actual_obstacle [bu] o) -> demands (at_sample parked 0) c) -> solved g parked.
Proof.
  intros asserts g G D.
  apply (solved_intro asserts (dock bu o) 0 cart g _ (dock_good asserts) G cart_wheels); rewrite ?dock_counts;
    try apply stay_shaped.
  - intros n [<-|[]]. lia.
  - apply stay_physics; lra.
  - assert (P : demands (at_sample parked 0) (PoseEquality (pose_xyh 0 0 0)) /\
                demands (at_sample parked 1) (PoseEquality (pose_xyh 0 0 0))).
    { split; simpl; (split; [reflexivity|split; [reflexivity|]]); rewrite cos_0, sin_0; left; split; lra. }
    split.
    + intros w c Hw Hc. simpl in Hw. assert (w = 0 \/ w = 1)%nat as [->| ->] by lia.
      * cbn -[demands actual_obstacle] in Hc. rewrite app_nil_r in Hc. destruct Hc as [<-|Hc]; [apply P|]. exact (D c Hc).
      * cbn -[demands actual_obstacle] in Hc. destruct Hc as [<-|[]]. apply P.
    + intros w c i Hw Hc Hi. simpl in Hw. assert (w = 1)%nat as -> by lia. destruct Hc.
Qed.
End Dock.

Lemma dock_generator : forall asserts bu o, (2 <= waypoint_count (path asserts (dock bu o)))%nat ->
  exists g, generator asserts (dock bu o) 0 cart g.
Proof. intros asserts bu o H. apply generator_exists; [|reflexivity]. rewrite dock_counts. simpl. lia. Qed.

(** Robot and obstacle crossing like a plus sign. *)
Definition beam : obstacle R := mkObstacle (1/2) [mkTr 5 (1/2); mkTr (-5) (1/2); mkTr (-5) (-1/2); mkTr 5 (-1/2)].
Definition pillar : obstacle R := mkObstacle (1/2) [mkTr (1/2) 5; mkTr (-1/2) 5; mkTr (-1/2) (-5); mkTr (1/2) (-5)].
(** A square robot 2.1 metres from a square. *)
Definition box : obstacle R := mkObstacle (1/2) [mkTr (9/10) (9/10); mkTr (-9/10) (9/10); mkTr (-9/10) (-9/10); mkTr (9/10) (-9/10)].
Definition bin : obstacle R := mkObstacle (1/2) [mkTr 5 1; mkTr 3 1; mkTr 3 (-1); mkTr 5 (-1)].
(** A flat robot three metres from a point it should keep nine metres from. *)
Definition plank : obstacle R := mkObstacle 1 [mkTr (-20) 0; mkTr 20 0].
Definition post : obstacle R := mkObstacle 8 [mkTr 0 3].
(** A triangular robot lying across the fourth side of a square obstacle. *)
Definition wedge : obstacle R := mkObstacle (1/2) [mkTr (-1) (-1); mkTr (-1) 1; mkTr 1 0].
Definition crate : obstacle R := mkObstacle (1/2) [mkTr 0 10; mkTr (-20) 10; mkTr (-20) (-10); mkTr 0 (-10)].

Ltac far :=
  let p := fresh "p" in let t := fresh "t" in let Ht := fresh "Ht" in
  intros p (t & Ht & ->); rewrite dist2_sq; apply sqrt_le_1_alt;
  unfold sq, along; cbn [fst snd pt tX tY];
  rewrite Rabs_right by lra;
  match goal with |- ?d <= (?x - ?y) * (?x - ?y) + (?z - ?w) * (?z - ?w) =>
    first [ assert (1 <= x - y) by lra; nra | assert (1 <= y - x) by lra; nra
          | assert (1 <= z - w) by lra; nra | assert (1 <= w - z) by lra; nra ] end.

Lemma beam_demands : forall c, In c (actual_obstacle [beam] pillar) -> demands (at_sample parked 0) c.
Proof.
  intros c H. cbn in H.
  repeat (destruct H as [<-|H]; [cbn [demands]; rewrite !dock_placed; unfold pt; cbn [tX tY];
    (split; [intros E; apply (f_equal fst) in E as E1; apply (f_equal snd) in E as E2; simpl in E1, E2; lra|far])|]).
  destruct H.
Qed.
Lemma box_demands : forall c, In c (actual_obstacle [box] bin) -> demands (at_sample parked 0) c.
Proof.
  intros c H. cbn in H.
  repeat (destruct H as [<-|H]; [cbn [demands]; rewrite !dock_placed; unfold pt; cbn [tX tY];
    (split; [intros E; apply (f_equal fst) in E as E1; apply (f_equal snd) in E as E2; simpl in E1, E2; lra|far])|]).
  destruct H.
Qed.
Lemma wedge_demands : forall c, In c (actual_obstacle [wedge] crate) -> demands (at_sample parked 0) c.
Proof.
  intros c H. cbn in H.
  repeat (destruct H as [<-|H]; [cbn [demands]; rewrite !dock_placed; unfold pt; cbn [tX tY];
    (split; [intros E; apply (f_equal fst) in E as E1; apply (f_equal snd) in E as E2; simpl in E1, E2; lra|])|]).
  all: try (destruct H; fail).
  all: try far.
  all: intros p (t & Ht & ->); rewrite dist2_sq; apply sqrt_le_1_alt; unfold sq, along; cbn [fst snd];
    rewrite Rabs_right by lra;
    match goal with |- _ <= ?x * ?x + ?y * ?y =>
      assert (8 <= y - x) by lra; pose proof (Rle_0_sqr (x + y)) as Q; unfold Rsqr in Q; nra end.
Qed.
Lemma plank_demands : forall c, In c (actual_obstacle [plank] post) -> demands (at_sample parked 0) c.
Proof.
  intros c H. cbn in H.
  destruct H as [<-|[<-|[<-|[]]]]; cbn [demands]; rewrite !dock_placed; unfold pt; cbn [tX tY].
  - split; [intros E; apply (f_equal fst) in E; simpl in E; lra|].
    intros p (t & Ht & ->). rewrite dist2_sq. apply sqrt_le_1_alt. unfold sq, along. cbn [fst snd].
    rewrite Rabs_right by lra.
    pose proof (Rle_0_sqr (-20 + t * (20 - -20) - 0)) as Q. unfold Rsqr in Q. lra.
  - rewrite Rabs_right by lra. rewrite dist2_sq. rewrite <- (sqrt_square (1 + 8)) by lra. apply sqrt_le_1_alt.
    unfold sq. cbn [fst snd]. lra.
  - rewrite Rabs_right by lra. rewrite dist2_sq. rewrite <- (sqrt_square (1 + 8)) by lra. apply sqrt_le_1_alt.
    unfold sq. cbn [fst snd]. lra.
Qed.

(** All four robots have a solution that satisfies the problem. *)
Lemma docks_solved : forall asserts,
  (exists g, generator asserts (dock beam pillar) 0 cart g /\ solved g parked) /\
  (exists g, generator asserts (dock plank post) 0 cart g /\ solved g parked) /\
  (exists g, generator asserts (dock wedge crate) 0 cart g /\ solved g parked) /\
  (exists g, generator asserts (dock box bin) 0 cart g /\ solved g parked).
Proof.
  intros asserts.
  assert (W : forall bu o, (2 <= waypoint_count (path asserts (dock bu o)))%nat).
  { intros bu o. exact (proj1 (C09_append_proof asserts (dock_start bu) (OWptObstacle 0 o :: [OControlIntervalCounts [1%nat]]) 0)). }
  split; [|split; [|split]].
  - destruct (dock_generator asserts beam pillar (W _ _)) as [g G]. exists g. split; [exact G|].
    apply (dock_solved beam pillar) with asserts; simpl; try lia; try lra; [exact G|exact beam_demands].
  - destruct (dock_generator asserts plank post (W _ _)) as [g G]. exists g. split; [exact G|].
    apply (dock_solved plank post) with asserts; simpl; try lia; try lra; [exact G|exact plank_demands].
  - destruct (dock_generator asserts wedge crate (W _ _)) as [g G]. exists g. split; [exact G|].
    apply (dock_solved wedge crate) with asserts; simpl; try lia; try lra; [exact G|exact wedge_demands].
  - destruct (dock_generator asserts box bin (W _ _)) as [g G]. exists g. split; [exact G|].
    apply (dock_solved box bin) with asserts; simpl; try lia; try lra; [exact G|exact box_demands].
Qed.

Lemma meeting : forall p q e, outlines_apart (at_sample parked 0) p q e -> forall x,
  on_outline (placed (at_sample parked 0)) (o_points p) x -> on_outline pt (o_points q) x -> e <= 0.
Proof.
  intros p q e H x A B. specialize (H x x A B). rewrite dist2_sq in H. unfold sq in H.
  replace (_ + _) with 0 in H by ring. rewrite sqrt_0 in H. exact H.
Qed.

Lemma dock_avoids : forall asserts bu o, avoids (counts asserts (dock bu o)) (OWptObstacle 0 o) o 0.
Proof. intros. split; [reflexivity|]. split; [lia|reflexivity]. Qed.

Lemma C40_across_proof : forall asserts, ~ keeps_distance asserts (fun bu o =>
  length (o_points o) = length (o_points bu) /\ 0 < o_safetyDistance bu + o_safetyDistance o <= 1).
Proof.
  intros asserts H. destruct (docks_solved asserts) as ((g & G & S) & _).
  assert (X := H (dock_start beam) (OWptObstacle 0 pillar) [OControlIntervalCounts [1%nat]] 0%Z cart g parked pillar 0%nat beam
    (dock_good beam pillar ltac:(simpl; lia) ltac:(simpl; lia) ltac:(simpl; lra) asserts) G S
    (dock_avoids asserts beam pillar) eq_refl ltac:(simpl; split; [reflexivity|lra])).
  cut (o_safetyDistance beam + o_safetyDistance pillar <= 0); [simpl; lra|]. apply (meeting _ _ _ X (1/2, 1/2)).
  - right. exists (mkTr 5 (1/2)), (mkTr (-5) (1/2)). split; [simpl; tauto|]. rewrite !dock_placed.
    exists (9/20). split; [lra|]. unfold along. simpl. f_equal; lra.
  - right. exists (mkTr (1/2) (-5)), (mkTr (1/2) 5). split; [simpl; tauto|].
    exists (11/20). split; [lra|]. unfold along, pt. simpl. f_equal; lra.
Qed.
Lemma C40_large_proof : forall asserts, ~ keeps_distance asserts (fun bu o =>
  length (o_points bu) = 2%nat /\ length (o_points o) = 1%nat).
Proof.
  intros asserts H. destruct (docks_solved asserts) as (_ & (g & G & S) & _).
  assert (X := H (dock_start plank) (OWptObstacle 0 post) [OControlIntervalCounts [1%nat]] 0%Z cart g parked post 0%nat plank
    (dock_good plank post ltac:(simpl; lia) ltac:(simpl; lia) ltac:(simpl; lra) asserts) G S
    (dock_avoids asserts plank post) eq_refl ltac:(simpl; split; reflexivity)).
  specialize (X (0, 0) (0, 3)). rewrite dist2_sq in X. unfold sq in X. cbn [fst snd] in X.
  replace ((0 - 0) * (0 - 0) + (0 - 3) * (0 - 3)) with (3 * 3) in X by ring. rewrite sqrt_square in X by lra. simpl in X.
  enough (1 + 8 <= 3) by lra. apply X.
  - right. exists (mkTr (-20) 0), (mkTr 20 0). split; [left; reflexivity|]. rewrite !dock_placed.
    exists (1/2). split; [lra|]. unfold along. simpl. f_equal; lra.
  - left. exists (mkTr 0 3). split; [left; reflexivity|reflexivity].
Qed.
(** Fewer bumper corners than obstacle corners: the last side of the obstacle
    is not looked at.  Here no corner of the robot is inside, on or even near
    a side that is looked at. *)
Lemma C40_unlike_proof : forall asserts, ~ keeps_distance asserts (fun bu o =>
  length (o_points bu) = 3%nat /\ length (o_points o) = 4%nat /\ 0 < o_safetyDistance bu + o_safetyDistance o <= 1).
Proof.
  intros asserts H. destruct (docks_solved asserts) as (_ & _ & (g & G & S) & _).
  assert (X := H (dock_start wedge) (OWptObstacle 0 crate) [OControlIntervalCounts [1%nat]] 0%Z cart g parked crate 0%nat wedge
    (dock_good wedge crate ltac:(simpl; lia) ltac:(simpl; lia) ltac:(simpl; lra) asserts) G S
    (dock_avoids asserts wedge crate) eq_refl ltac:(simpl; repeat split; lra)).
  cut (o_safetyDistance wedge + o_safetyDistance crate <= 0); [simpl; lra|]. apply (meeting _ _ _ X (0, 1/2)).
  - right. exists (mkTr (-1) 1), (mkTr 1 0). split; [simpl; tauto|]. rewrite !dock_placed.
    exists (1/2). split; [lra|]. unfold along. simpl. f_equal; lra.
  - right. exists (mkTr 0 (-10)), (mkTr 0 10). split; [simpl; tauto|].
    exists (21/40). split; [lra|]. unfold along, pt. simpl. f_equal; lra.
Qed.

(** The square robot meets the hypotheses, and does not touch the square. *)
Lemma C40_case_proof : forall asserts, exists g,
  good_history asserts (dock box bin) /\ generator asserts (dock box bin) 0 cart g /\ solved g parked /\
  avoids (counts asserts (dock box bin)) (OWptObstacle 0 bin) bin 0 /\
  dock box bin = dock_start box ++ OWptObstacle 0 bin :: [OControlIntervalCounts [1%nat]] /\
  flat_map bumper_request (dock_start box) = [] ++ box :: [] /\
  length (o_points bin) = length (o_points box) /\
  o_safetyDistance box + o_safetyDistance bin = 1 /\
  ~ touching (at_sample parked 0) box bin /\
  (forall a b, In (a, b) (outline (o_points box)) -> dist2 (placed (at_sample parked 0) a) (placed (at_sample parked 0) b) < 2 * 1).
Proof.
  intros asserts. destruct (docks_solved asserts) as (_ & _ & _ & (g & G & S)). exists g.
  split; [apply dock_good; simpl; lia || lra|]. split; [exact G|]. split; [exact S|].
  split; [apply dock_avoids|]. do 3 (split; [reflexivity|]). split; [simpl; lra|].
  assert (A : forall p, on_outline (placed (at_sample parked 0)) (o_points box) p -> fst p <= 1).
  { intros p [(c & I & ->)|(a & b & I & t & Ht & ->)]; rewrite !dock_placed; simpl in I;
      repeat (destruct I as [I|I]; [first [injection I as <- <-|subst]; unfold along; simpl; lra|]); destruct I. }
  assert (B : forall p, on_outline pt (o_points bin) p -> 3 <= fst p).
  { intros p [(c & I & ->)|(a & b & I & t & Ht & ->)]; simpl in I;
      repeat (destruct I as [I|I]; [first [injection I as <- <-|subst]; unfold along, pt; simpl; lra|]); destruct I. }
  split; [intros (p & P & Q); specialize (A p P); specialize (B p Q); lra|].
  intros a b I. rewrite !dock_placed, dist2_sq, Rmult_1_r, <- (sqrt_square 2) by lra. apply sqrt_lt_1_alt. unfold sq. cbn [fst snd].
  split; [apply Rplus_le_le_0_compat; apply Rle_0_sqr|]. simpl in I.
  repeat (destruct I as [I|I]; [injection I as <- <-; simpl; lra|]). destruct I.
Qed.
