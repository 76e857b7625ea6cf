(** A robot with four modules on the corners of a square, listed in two orders,
    and a trajectory in which the modules push differently. *)
From Coq Require Import List Lia Lra Psatz Reals ZArith Permutation.
Import ListNotations.
From Verif Require Import Outcome Num NumR Geometry Expr Constraints Util Builder Guess Generator Trajectory
  Spec SpecBuilder SpecPhysics SpecTrajectory SpecGenerator Semantics
  UtilFacts GeometryFacts BuilderFacts BuilderHistory ConstraintFacts GuessFacts GeneratorFacts SeedFacts FeasibleFacts
  GeneratorProofs HistoryFacts SolutionProofs TrajectoryProofs GeneratorCases OrderProofs.
Local Open Scope nat_scope.
Open Scope R_scope.

Definition square_drive : drivetrain R := mkDrivetrain 2 1 [wheel 1 1; wheel (-1) 1; wheel (-1) (-1); wheel 1 (-1)].
(** The same modules, listed zigzag. *)
Definition zigzag_drive : drivetrain R := mkDrivetrain 2 1 [wheel 1 1; wheel (-1) (-1); wheel (-1) 1; wheel 1 (-1)].
Lemma square_wheels : real_wheels square_drive.
Proof. intros md [<-|[<-|[<-|[<-|[]]]]]; simpl; lra. Qed.
Lemma square_reordered : reordered square_drive zigzag_drive.
Proof. repeat split. simpl. apply perm_skip, perm_swap. Qed.
Lemma square_rectangular : rectangular 1 1 square_drive.
Proof.
  unfold rectangular, pt. simpl. apply perm_skip.
  apply Permutation_trans with (l' := [(1, -1); (-1, 1); (-1, -1)]).
  - apply Permutation_sym, (Permutation_cons_append [(-1, 1); (-1, -1)] (1, -1)).
  - replace (-1) with (- (1)) by lra. apply Permutation_refl.
Qed.
Lemma square_steps : forall dt, 0 <= dt <= 1/2 -> step_within square_drive dt.
Proof.
  intros dt Hd. apply (rectangular_step 1 1 square_drive dt); [lra|lra|apply square_rectangular|].
  split; [lra|]. intros md [<-|[<-|[<-|[<-|[]]]]]; simpl; lra.
Qed.

Definition errand : list (op R) :=
  [OPoseWpt 0 0 0 0; OPoseWpt 1 1 0 1;
   OWptConstraint 0 (LinearVelocityMaxMagnitude 0);
   OSgmtConstraint 0 1 (AngularVelocityMaxMagnitude 1);
   OControlIntervalCounts [2%nat]].
(** Two opposite modules push, the other two do not. *)
Definition errand_solution : solution R :=
  mkSolution [1/2; 1/2] [0; 1/2; 1] [0; 0; 0]
    [cos 0; cos (1/2); cos 1] [sin 0; sin (1/2); sin 1]
    [0; 1; 1] [0; 0; 0] [1; 1; 1] [0; 2; 0] [0; 0; 0] [0; 0; 0]
    [[0; 0; 0; 0]; [2; 0; 2; 0]; [0; 0; 0; 0]] [[0; 0; 0; 0]; [0; 0; 0; 0]; [0; 0; 0; 0]].

Lemma errand_generator : forall d, exists g, generator true (errand ++ [OSetDrivetrain d]) 7 d g.
Proof. intros d. apply generator_exists; [apply Nat.ltb_lt; reflexivity|reflexivity]. Qed.
Lemma errand_good : good_history true errand.
Proof. repeat split; repeat constructor. Qed.
Lemma errand_counts : counts true errand = [2%nat].
Proof. reflexivity. Qed.
Lemma errand_solved : forall g, generator true (errand ++ [OSetDrivetrain square_drive]) 7 square_drive g ->
  solved g errand_solution.
Proof.
  intros g G.
  apply (C15_accepts_proof true _ 7 _ g (last_good true errand _ errand_good) G square_wheels);
    rewrite last_counts, errand_counts.
  - intros n [<-|[]]. lia.
  - repeat split; repeat constructor.
  - intros s k Hs Hk. simpl in Hs. assert (s = 0)%nat as -> by lia. simpl in Hk.
    destruct k as [|[|k]]; [reflexivity|reflexivity|lia].
  - intros i Hi. exact (ride_headings i Hi).
  - destruct ride_physics as [P1 P2]. split.
    + intros i Hi. destruct (P1 i Hi) as (_ & M & T & A). split; [|split; [exact M|split; [exact T|exact A]]].
      simpl in Hi. apply square_steps. assert (i = 1 \/ i = 2)%nat as [->| ->] by lia; unfold step_to; simpl; lra.
    + intros i Hi. destruct (P2 i Hi) as (_ & _ & _). simpl in Hi.
      assert (B : forall a, -1 <= cos a <= 1 /\ -1 <= sin a <= 1)
        by (intros a; split; [apply COS_bound|apply SIN_bound]).
      pose proof (B 0). pose proof (B (1/2)). pose proof (B 1).
      pose proof (pyth 0). pose proof (pyth (1/2)). pose proof (pyth 1).
      assert (W : forall x y c s v w md, In md (d_modules square_drive) -> 0 <= v <= 1 -> 0 <= w <= 1 ->
                -1 <= c <= 1 -> -1 <= s <= 1 -> c * c + s * s = 1 ->
                norm2 (wheel_velocity (mkState x y c s v 0 w 0 0 0) (m_translation md)) <= 4).
      { intros x y c s v w md Hm Hv Hw Hc Hs U. unfold wheel_velocity. cbn [q_vx q_vy q_c q_s q_w].
        apply norm2_le; [lra|].
        assert (X : -1 <= v * c <= 1) by nra. assert (Y : -1 <= v * s <= 1) by nra.
        set (vc := v * c) in *. set (vs := v * s) in *.
        destruct Hm as [<-|[<-|[<-|[<-|[]]]]]; simpl; nra. }
      assert (F : forall fx, -4 <= fx <= 4 -> norm2 (fx, 0) <= 4 / 1) by (intros; apply norm2_le; nra).
      destruct (three i Hi) as [->|[->| ->]]; (split; [|split]).
      all: try (unfold newton, cross2, turned, forces, at_sample, errand_solution; simpl; repeat split; lra).
      all: try (unfold forces_within, forces, errand_solution; simpl;
                intros md f Hf; destruct Hf as [E|[E|[E|[E|[]]]]]; injection E as <- <-; simpl; apply F; lra).
      all: intros md Hm; assert (L : m_wheelRadius md * m_wheelMaxAngularVelocity md = 4)
             by (destruct Hm as [<-|[<-|[<-|[<-|[]]]]]; simpl; lra); rewrite L;
           unfold at_sample, errand_solution; cbn [s_x s_y s_thetacos s_thetasin s_vx s_vy s_omega s_ax s_ay s_alpha nth].
      * apply (W 0 0 (cos 0) (sin 0) 0 1); try lra. exact Hm.
      * apply (W 0 0 (cos (1/2)) (sin (1/2)) 1 1); try lra. exact Hm.
      * apply (W 0 0 (cos 1) (sin 1) 1 1); try lra. exact Hm.
  - apply (meets_ext _ _ (wpt_requests [] ride) _ (sgmt_requests [] ride)).
    + intros w. rewrite last_wpt. reflexivity.
    + intros w. rewrite last_sgmt. reflexivity.
    + exact ride_requests.
Qed.
(** The whole case. *)
Lemma errand_case : exists g g', good_history true errand /\
  generator true (errand ++ [OSetDrivetrain square_drive]) 7 square_drive g /\
  generator true (errand ++ [OSetDrivetrain zigzag_drive]) 7 zigzag_drive g' /\
  reordered square_drive zigzag_drive /\ rectangular 1 1 square_drive /\ real_wheels square_drive /\
  centred square_drive /\ (forall n, In n (counts true errand) -> (1 <= n)%nat) /\ solved g errand_solution.
Proof.
  destruct (errand_generator square_drive) as [g G]. destruct (errand_generator zigzag_drive) as [g' G'].
  exists g, g'. split; [exact errand_good|]. split; [exact G|]. split; [exact G'|].
  split; [exact square_reordered|]. split; [exact square_rectangular|]. split; [exact square_wheels|].
  split; [split; simpl; lra|]. split; [intros n [<-|[]]; lia|]. exact (errand_solved g G).
Qed.

(** ** Module order *)
Lemma C23_partial_proof : forall asserts h handle d d' g g', good_history asserts h ->
  generator asserts (h ++ [OSetDrivetrain d]) handle d g ->
  generator asserts (h ++ [OSetDrivetrain d']) handle d' g' ->
  reordered d d' -> real_wheels d -> (forall n, In n (counts asserts h) -> (1 <= n)%nat) ->
  (forall dt, step_within d dt -> step_within d' dt) ->
  forall sol, solved g sol ->
  (exists sol', solved g' sol' /\ same_motion sol sol' /\
     forall i, (i <= last_sample (counts asserts h))%nat -> same_forces d d' sol sol' i) /\
  (forall sol', well_shaped (counts asserts h) (length (d_modules d')) sol' -> same_motion sol sol' ->
     (forall i, (i <= last_sample (counts asserts h))%nat -> same_forces d d' sol sol' i) -> solved g' sol').
Proof.
  intros asserts h handle d d' g g' Gd G G' Or W P St sol Sv. split.
  - exact (order_exists asserts h handle d d' g g' Gd G G' Or W St P sol Sv).
  - intros sol'. exact (order_transfer asserts h handle d d' g g' Gd G G' Or W St P sol sol' Sv).
Qed.
Lemma C63_proof : forall asserts h handle d d' g g' a b, good_history asserts h ->
  generator asserts (h ++ [OSetDrivetrain d]) handle d g ->
  generator asserts (h ++ [OSetDrivetrain d']) handle d' g' ->
  0 < a -> 0 < b -> rectangular a b d ->
  reordered d d' -> real_wheels d -> (forall n, In n (counts asserts h) -> (1 <= n)%nat) ->
  forall sol, solved g sol ->
  (exists sol', solved g' sol' /\ same_motion sol sol' /\
     forall i, (i <= last_sample (counts asserts h))%nat -> same_forces d d' sol sol' i) /\
  (forall sol', well_shaped (counts asserts h) (length (d_modules d')) sol' -> same_motion sol sol' ->
     (forall i, (i <= last_sample (counts asserts h))%nat -> same_forces d d' sol sol' i) -> solved g' sol').
Proof.
  intros asserts h handle d d' g g' a b Gd G G' Ha Hb Rc Or W P.
  exact (C23_partial_proof asserts h handle d d' g g' Gd G G' Or W P (rectangular_order a b d d' Ha Hb Rc Or)).
Qed.
