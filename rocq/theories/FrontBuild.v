(** Building a path with another front (C118). *)
From Coq Require Import List Lia Lra Psatz Reals ZArith.
Import ListNotations.
From Verif Require Import Outcome Num NumR Geometry Constraints Builder
  Spec SpecBuilder SpecPhysics SpecTrajectory SpecGenerator SpecSymmetry SpecFront GeometryFacts SymmetryBuild.
Open Scope R_scope.

Section Sim.
  Variable fr : R.
  Notation nc := (front_constraint fr).
  Definition front_waypoint (w : waypoint R) : waypoint R :=
    mkWaypoint (map nc (waypointConstraints w)) (map nc (segmentConstraints w)).
  Record sim (b b' : builder R) : Prop := mkSim {
    sim_w : b_waypoints b' = map front_waypoint (b_waypoints b);
    sim_d : b_drivetrain b' = option_map (front_drivetrain fr) (b_drivetrain b);
    sim_b : b_bumpers b' = map (front_bumpers fr) (b_bumpers b);
    sim_g : map (@length _) (b_guess b') = map (@length _) (b_guess b);
    sim_c : b_counts b' = b_counts b
  }.
  Definition agree {A} (r : A -> A -> Prop) (o o' : outcome A) : Prop :=
    match o, o' with
    | Ok a, Ok a' => r a a'
    | Ok _, _ | _, Ok _ => False
    | Throw e, Throw e' => e = e'
    | AssertFail, AssertFail => True
    | Undef u, Undef u' => u = u'
    | OutOfFuel, OutOfFuel => True
    | _, _ => False
    end.
  Definition simv {A} (r : A -> A -> Prop) (m m' : bld R A) : Prop := forall b b', sim b b' ->
    sim (fst (m b)) (fst (m' b')) /\ agree r (snd (m b)) (snd (m' b')).
  Notation simu := (simv (@eq unit)).

  Lemma simv_ret : forall {A} (r : A -> A -> Prop) a a', r a a' -> simv r (bret a) (bret a').
  Proof. intros A r a a' H b b' S. split; [exact S|exact H]. Qed.
  Lemma simv_lift : forall {A} (r : A -> A -> Prop) o o', agree r o o' -> simv r (blift o) (blift o').
  Proof. intros A r o o' H b b' S. split; [exact S|exact H]. Qed.
  Lemma simv_bind : forall {A B} (r : A -> A -> Prop) (q : B -> B -> Prop) m m' f f', simv r m m' ->
    (forall a a', r a a' -> simv q (f a) (f' a')) -> simv q (bbind m f) (bbind m' f').
  Proof.
    intros A B r q m m' f f' M F b b' S. destruct (M b b' S) as (S1 & O1). unfold bbind.
    destruct (m b) as [b1 o1], (m' b') as [b1' o1']. cbn [fst snd] in *.
    destruct o1, o1'; cbn [agree] in O1; try contradiction; try (split; [exact S1|exact O1]).
    apply F; assumption.
  Qed.
  Lemma simv_for : forall {A B} (f : A -> bld R unit) (g : B -> bld R unit) (h : A -> B), (forall a, simu (f a) (g (h a))) ->
    forall l, simu (bfor l f) (bfor (map h l) g).
  Proof.
    intros A B f g h E. induction l as [|a l IH]; cbn [map bfor]; [apply simv_ret; reflexivity|].
    apply (simv_bind eq); [apply E|]. intros; exact IH.
  Qed.
  Lemma simv_same : forall {A} (f g : A -> bld R unit), (forall a, simu (f a) (g a)) -> forall l, simu (bfor l f) (bfor l g).
  Proof. intros A f g E l. rewrite <- (map_id l) at 2. apply (simv_for f g (fun a => a)). exact E. Qed.
  Lemma simv_loop : forall (f g : nat -> bld R unit), (forall i, simu (f i) (g i)) ->
    forall fuel i bound, simu (bloop fuel i bound f) (bloop fuel i bound g).
  Proof.
    intros f g E. induction fuel as [|fuel IH]; intros i bound; cbn [bloop]; destruct (Z.of_nat i <? bound)%Z;
      try (apply simv_ret; reflexivity).
    - apply simv_lift. exact I.
    - apply (simv_bind eq); [apply E|]. intros; apply IH.
  Qed.
  Lemma agree_at : forall {A} (f : A -> A) l i, agree (fun a a' => a' = f a) (at_ l i) (at_ (map f l) i).
  Proof. intros A f l i. unfold at_. rewrite nth_error_map. destruct (nth_error l i); cbn; reflexivity. Qed.

  Lemma agree_same : forall {A} (l : list A) i, agree eq (at_ l i) (at_ l i).
  Proof. intros A l i. unfold at_. destruct (nth_error l i); cbn; reflexivity. Qed.

  Lemma sim_add : forall n i b b', sim b b' -> sim (add_wpts n i b) (add_wpts n i b').
  Proof.
    induction n as [|n IH]; intros i b b' S; [exact S|]. cbn [add_wpts]. apply IH. destruct S as [W D B G C].
    split; cbn [b_waypoints b_drivetrain b_bumpers b_guess b_counts]; try assumption.
    - rewrite W, map_app. reflexivity.
    - rewrite !map_app, G. reflexivity.
    - rewrite C. reflexivity.
  Qed.
  Lemma simu_new : forall i, simu (newWpts i) (newWpts i).
  Proof.
    intros i b b' S. unfold newWpts. cbn [fst snd]. split; [|reflexivity]. unfold NewWpts.
    rewrite (sim_w _ _ S), map_length. destruct (_ <? _)%Z; [apply sim_add|]; exact S.
  Qed.
  Lemma simu_push : forall i c, simu (push_wpt i c) (push_wpt i (nc c)).
  Proof.
    intros i c b b' S. unfold push_wpt, upd_at. rewrite (sim_w _ _ S), map_length.
    destruct (i <? _)%nat; cbn [fst snd]; [|split; [exact S|reflexivity]]. split; [|reflexivity].
    destruct S as [W D B G C]. split; cbn [set_waypoints b_waypoints b_drivetrain b_bumpers b_guess b_counts]; try assumption.
    symmetry. apply map_upd. intros w. unfold front_waypoint. cbn [waypointConstraints segmentConstraints]. rewrite map_app. reflexivity.
  Qed.
  Lemma simu_push_sgmt : forall i c, simu (push_sgmt i c) (push_sgmt i (nc c)).
  Proof.
    intros i c b b' S. unfold push_sgmt, upd_at. rewrite (sim_w _ _ S), map_length.
    destruct (i <? _)%nat; cbn [fst snd]; [|split; [exact S|reflexivity]]. split; [|reflexivity].
    destruct S as [W D B G C]. split; cbn [set_waypoints b_waypoints b_drivetrain b_bumpers b_guess b_counts]; try assumption.
    symmetry. apply map_upd. intros w. unfold front_waypoint. cbn [waypointConstraints segmentConstraints]. rewrite map_app. reflexivity.
  Qed.
  Lemma simu_seq : forall (m m' k k' : bld R unit), simu m m' -> simu k k' -> simu (bbind m (fun _ => k)) (bbind m' (fun _ => k')).
  Proof. intros m m' k k' M Q. apply (simv_bind eq); [exact M|]. intros; exact Q. Qed.

  Lemma simu_wpt : forall i c, simu (WptConstraint i c) (WptConstraint i (nc c)).
  Proof. intros i c. apply simu_seq; [apply simu_new|apply simu_push]. Qed.
  Lemma simu_sgmt : forall asserts f u c, simu (SgmtConstraint asserts f u c) (SgmtConstraint asserts f u (nc c)).
  Proof.
    intros asserts f u c. unfold SgmtConstraint. apply simu_seq.
    { destruct (asserts && _)%bool; [apply simv_lift; exact I|apply simv_ret; reflexivity]. }
    apply simu_seq; [apply simu_new|]. apply simu_seq; [apply simu_push|].
    rewrite <- (map_id (seq (S f) (u - f))) at 2. apply simv_for. intros i. apply simu_seq; [apply simu_push|apply simu_push_sgmt].
  Qed.

  Lemma nth_length : forall {A} (l l' : list (list A)) i, map (@length A) l' = map (@length A) l ->
    option_map (@length A) (nth_error l' i) = option_map (@length A) (nth_error l i).
  Proof. intros A l l' i E. rewrite <- !nth_error_map, E. reflexivity. Qed.
  Lemma simu_guess : forall i p p', simu (WptInitialGuessPoint i p) (WptInitialGuessPoint i p').
  Proof.
    intros i p p'. apply simu_seq; [apply simu_new|]. intros b b' S.
    pose proof (nth_length _ _ i (sim_g _ _ S)) as E. unfold at_.
    destruct (nth_error (b_guess b) i) as [[|q l]|], (nth_error (b_guess b') i) as [[|q' l']|]; cbn in E; try discriminate;
      cbn [fst snd]; try (split; [exact S|reflexivity]).
    split; [|reflexivity]. destruct S as [W D B G C].
    split; cbn [set_guess b_waypoints b_drivetrain b_bumpers b_guess b_counts]; try assumption.
    assert (L : forall (x : Pose2 R) l, length (set_back l x) = S (pred (length l))).
    { intros x m. unfold set_back. rewrite app_length. cbn [length]. rewrite Nat.add_1_r. f_equal.
      clear. induction m as [|a [|b m] IH]; [reflexivity..|]. cbn [removelast length pred] in *. rewrite IH. reflexivity. }
    rewrite !(map_upd (@length _) _ (fun n => S (pred n)) (L _)), G. reflexivity.
  Qed.
  Lemma simu_guesses : forall i ps ps', length ps' = length ps -> simu (SgmtInitialGuessPoints i ps) (SgmtInitialGuessPoints i ps').
  Proof.
    intros i ps ps' E. apply simu_seq; [apply simu_new|]. intros b b' S. unfold upd_at.
    assert (L : length (b_guess b') = length (b_guess b)).
    { rewrite <- (map_length (@length _) (b_guess b')), (sim_g _ _ S), map_length. reflexivity. }
    rewrite L. destruct (_ <? _)%nat; cbn [fst snd]; [|split; [exact S|reflexivity]].
    split; [|reflexivity]. destruct S as [W D B G C].
    split; cbn [set_guess b_waypoints b_drivetrain b_bumpers b_guess b_counts]; try assumption.
    rewrite !(map_upd (@length _) _ (fun n => length ps + n)%nat) by (intros; rewrite app_length, ?E; reflexivity).
    rewrite G. reflexivity.
  Qed.

  (** Obstacles. *)
  Lemma agree_nonneg : forall asserts x (c c' : constraint R), c' = nc c ->
    agree (fun c c' => c' = nc c) (assert_nonneg asserts x c) (assert_nonneg asserts x c').
  Proof.
    intros asserts x c c' E. unfold assert_nonneg. destruct asserts; cbn [andb]; [|exact E].
    destruct (nleb (nlit 0) x); cbn [negb]; [exact E|exact I].
  Qed.
  Section Obstacle.
    Variables (asserts : bool) (add add' : constraint R -> bld R unit) (o : obstacle R).
    Hypothesis Add : forall c, simu (add c) (add' (nc c)).
    Lemma simu_add : forall c c', c' = nc c -> simu (add c) (add' c').
    Proof. intros c c' ->. apply Add. Qed.
    Ltac same_at := apply (simv_bind _ _ _ _ _ _ (simv_lift _ _ _ (agree_same _ _))).
    Ltac step_at := apply (simv_bind _ _ _ _ _ _ (simv_lift _ _ _ (agree_at _ _ _))).

    Lemma simu_line : forall p q f m, simu
      (c <~ blift (mkLinePoint asserts p q f m) ;; add c)
      (c <~ blift (mkLinePoint asserts (front_point fr p) (front_point fr q) f m) ;; add' c).
    Proof.
      intros. apply (simv_bind (fun c c' => c' = nc c)); [apply simv_lift, agree_nonneg; reflexivity|apply simu_add].
    Qed.
    Lemma simu_point_line : forall p q f m, simu
      (c <~ blift (mkPointLine asserts p q f m) ;; add c)
      (c <~ blift (mkPointLine asserts (front_point fr p) q f m) ;; add' c).
    Proof.
      intros. apply (simv_bind (fun c c' => c' = nc c)); [apply simv_lift, agree_nonneg; reflexivity|apply simu_add].
    Qed.
    Lemma simu_point_point : forall p q m, simu
      (c <~ blift (mkPointPoint asserts p q m) ;; add c)
      (c <~ blift (mkPointPoint asserts (front_point fr p) q m) ;; add' c).
    Proof.
      intros. apply (simv_bind (fun c c' => c' = nc c)); [apply simv_lift, agree_nonneg; reflexivity|apply simu_add].
    Qed.

    Lemma simu_bumper_edges : forall bu m, simu (bumper_edges asserts add o bu m)
      (bumper_edges asserts add' o (front_bumpers fr bu) m).
    Proof.
      intros bu m. unfold bumper_edges. cbn [front_bumpers o_points]. rewrite map_length.
      apply simv_same. intros f. apply simu_seq.
      - apply simv_loop. intros i. step_at. intros p p' ->. step_at. intros q q' ->. apply simu_line.
      - destruct (3 <=? _)%nat; [|apply simv_ret; reflexivity].
        step_at. intros p p' ->. step_at. intros q q' ->. apply simu_line.
    Qed.
    Lemma simu_obstacle_edges : forall bu m, simu (obstacle_edges asserts add o bu m)
      (obstacle_edges asserts add' o (front_bumpers fr bu) m).
    Proof.
      intros bu m. unfold obstacle_edges. cbn [front_bumpers o_points]. rewrite !map_length.
      apply simv_for. intros f. destruct (1 <? _)%nat.
      - apply simu_seq.
        + apply simv_loop. intros i. same_at. intros p p' <-. same_at. intros q q' <-. apply simu_point_line.
        + destruct (3 <=? _)%nat; [|apply simv_ret; reflexivity].
          same_at. intros p p' <-. same_at. intros q q' <-. apply simu_point_line.
      - same_at. intros p p' <-. apply simu_point_point.
    Qed.
    Lemma simu_obstacle : forall bs, simu (obstacle_loop asserts add o bs)
      (obstacle_loop asserts add' o (map (front_bumpers fr) bs)).
    Proof.
      induction bs as [|bu bs IH]; cbn [obstacle_loop map]; [apply simv_ret; reflexivity|].
      cbn [front_bumpers o_points o_safetyDistance]. rewrite !map_length. destruct (_ && _)%bool.
      - step_at. intros p p' ->. same_at. intros q q' <-. apply simu_point_point.
      - apply simu_seq; [apply simu_bumper_edges|]. apply simu_seq; [apply simu_obstacle_edges|exact IH].
    Qed.
  End Obstacle.

  Lemma front_pose_xyh : forall x y a, nc (PoseEquality (pose_xyh x y a)) = PoseEquality (pose_xyh x y (a + fr)).
  Proof.
    intros x y a. cbn [front_constraint]. f_equal. unfold front_pose, pose_xyh. f_equal.
    cbn [pRot]. unfold front_rot, rot_angle, front_heading. cbn [rCos rSin fst snd ncos nsin]. cbn.
    rewrite cos_plus, sin_plus. f_equal; ring.
  Qed.

  Lemma simu_op : forall asserts o, simu (run_op asserts o) (run_op asserts (front_call fr o)).
  Proof.
    intros asserts o. destruct o; cbn [run_op front_call].
    - intros b b' [W D B G C]. split; [|reflexivity]. split; cbn; try assumption. reflexivity.
    - apply simu_seq; [|apply simu_guess]. unfold mkPoseEquality. rewrite <- front_pose_xyh. apply simu_wpt.
    - apply simu_seq; [|apply simu_guess]. apply (simu_wpt index (mkTranslationEquality x y)).
    - apply simu_guess.
    - apply simu_guesses. apply map_length.
    - intros b b' [W D B G C]. split; [|reflexivity]. split; cbn; try assumption. rewrite B, map_app. reflexivity.
    - intros b b' S. unfold WptObstacle. rewrite (sim_b _ _ S). apply simu_obstacle; [intros; apply simu_wpt|exact S].
    - intros b b' S. unfold SgmtObstacle. rewrite (sim_b _ _ S). apply simu_obstacle; [intros; apply simu_sgmt|exact S].
    - apply simu_wpt.
    - apply simu_sgmt.
    - intros b b' [W D B G C]. split; [|reflexivity]. split; cbn; try assumption. reflexivity.
    - intros b b' [W D B G C]. split; [|reflexivity]. split; cbn; assumption.
  Qed.
  Lemma sim_run : forall asserts h b b', sim b b' ->
    sim (run_ops asserts h b) (run_ops asserts (map (front_call fr) h) b') /\
    (all_returned asserts h b -> all_returned asserts (map (front_call fr) h) b').
  Proof.
    induction h as [|o h IH]; intros b b' S; [split; [exact S|auto]|].
    destruct (simu_op asserts o b b' S) as (S1 & O). destruct (IH _ _ S1) as (S2 & A).
    split; [exact S2|]. cbn [map all_returned]. intros (E & R). split; [|exact (A R)].
    rewrite E in O. destruct (snd (run_op asserts (front_call fr o) b')); cbn in O; try contradiction. rewrite <- O. reflexivity.
  Qed.
  Lemma sim_path : forall asserts h, sim (path asserts h) (path asserts (map (front_call fr) h)).
  Proof. intros. apply sim_run. split; reflexivity. Qed.

  Lemma sim_at : forall b b', sim b b' -> forall i, constraints_at b' i = map nc (constraints_at b i) /\
    segment_constraints_to b' i = map nc (segment_constraints_to b i).
  Proof.
    intros b b' S i. unfold constraints_at, segment_constraints_to. rewrite (sim_w _ _ S), nth_error_map.
    destruct (nth_error (b_waypoints b) i); cbn; split; reflexivity.
  Qed.
End Sim.
