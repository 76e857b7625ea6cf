(** What the example programs' trajectories do (C110). *)
From Coq Require Import List Lia Lra Psatz Reals ZArith Qreals.
Import ListNotations.
From Verif Require Import Outcome Num NumR Geometry Expr Constraints Util Builder Guess Generator Trajectory RustFFI Programs
  Spec SpecBuilder SpecPhysics SpecTrajectory SpecGenerator SpecRust SpecPrograms
  GeometryFacts ConstraintFacts ProgramProofs PartsProofs ExampleProofs RustProofs.
Open Scope R_scope.

Lemma tells_pose : forall s x y a x' y' cx cy, x = x' -> y = y' -> (cos a = cx /\ sin a = cy) \/ (cos a = - cx /\ sin a = - cy) ->
  demands s (PoseEquality (pose_xyh x y a)) <-> happens s (At x' y') /\ happens s (Lined cx cy).
Proof.
  intros s x y a x' y' cx cy -> -> A. cbn. split.
  - intros (X & Y & L). split; [tauto|]. destruct A as [[C S]|[C S]], L as [[L M]|[L M]]; rewrite C, S in *; [left|right|right|left]; lra.
  - intros ((X & Y) & L). repeat (split; [assumption|]).
    destruct A as [[C S]|[C S]], L as [[L M]|[L M]]; rewrite C, S in *; [left|right|right|left]; lra.
Qed.
Lemma tells_translation : forall s x y x' y', x = x' -> y = y' ->
  demands s (TranslationEquality (mkTr x y)) <-> happens s (At x' y').
Proof. intros s x y x' y' -> ->. reflexivity. Qed.
Lemma tells_rest : forall s, demands s zeroLinearVelocity <-> happens s Resting.
Proof.
  intros s. split; [apply zero_velocity|]. intros (X & Y). cbn. rewrite X, Y. unfold norm2. cbn. rewrite !Rmult_0_l, Rplus_0_l, sqrt_0.
  apply Rabs_pos.
Qed.
Lemma tells_steady : forall s, demands s zeroAngularVelocity <-> happens s Steady.
Proof.
  intros s. cbn. replace (Q2R 0) with 0 by (lits; lra). split.
  - intros A. destruct (Req_dec (q_w s) 0) as [E|E]; [exact E|]. pose proof (Rabs_pos_lt _ E). lra.
  - intros ->. rewrite Rabs_R0. lra.
Qed.
Lemma tells_moving : forall s a x y, cos a = x -> sin a = y ->
  demands s (mkLinearVelocityDirection a) <-> happens s (Moving x y).
Proof. intros s a x y <- <-. reflexivity. Qed.
Lemma tells_clear : forall s,
  demands s (PointPoint (mkTr 0 0) (mkTr 1 0) 1) <-> happens s (Clear 1 0 1).
Proof.
  intros s. cbn. unfold placed, dist2, pt. cbn. rewrite Rabs_right by lra.
  match goal with |- _ <= sqrt ?e <-> _ => replace e with ((q_x s - 1) * (q_x s - 1) + (q_y s - 0) * (q_y s - 0)) by field end.
  set (e := _ + _) at 1. split.
  - intros L. fold e. destruct (Rle_dec 0 e) as [P|P].
    + pose proof (sqrt_sqrt e P). pose proof (sqrt_pos e). nra.
    + rewrite sqrt_neg_0 in L by lra. lra.
  - intros L. fold e in L. apply Rle_trans with (sqrt 1); [rewrite sqrt_1; lra|apply sqrt_le_1_alt; lra].
Qed.

Lemma follows_nil : forall sol, follows sol [].
Proof. intros sol a b e []. Qed.
Lemma follows_cons : forall sol a b e l, follows sol ((a, b, e) :: l) <->
  (forall i, (a <= i <= b)%nat -> happens (at_sample sol i) e) /\ follows sol l.
Proof.
  intros sol a b e l. split.
  - intros F. split; [intros i; apply (F a b e); left; reflexivity|]. intros a' b' e' I. apply (F a' b' e'). right. exact I.
  - intros (A & F) a' b' e' [E|I]; [injection E as <- <- <-; exact A|exact (F a' b' e' I)].
Qed.
Lemma follows_one : forall sol a e l, follows sol ((a, a, e) :: l) <-> happens (at_sample sol a) e /\ follows sol l.
Proof.
  intros sol a e l. rewrite follows_cons. split; intros (A & B); (split; [|exact B]); [apply A; lia|].
  intros i Hi. replace i with a by lia. exact A.
Qed.

(** Requests of the waypoints and segments one by one. *)
Definition met (sol : solution R) (i : nat) (l : list (constraint R)) : Prop := forall c, In c l -> demands (at_sample sol i) c.
Lemma met_nil : forall sol i, met sol i [] <-> True.
Proof. intros. split; [trivial|intros _ c []]. Qed.
Lemma met_cons : forall sol i c l, met sol i (c :: l) <-> demands (at_sample sol i) c /\ met sol i l.
Proof.
  intros. split.
  - intros M. split; [apply M; left; reflexivity|]. intros c' I. apply M. right. exact I.
  - intros (D & M) c' [<-|I]; [exact D|exact (M c' I)].
Qed.
Fixpoint met_points (sol : solution R) (f : nat -> list (constraint R)) (at_ : nat -> nat) (w n : nat) : Prop :=
  match n with O => True | S n => met sol (at_ w) (f w) /\ met_points sol f at_ (S w) n end.
Lemma met_points_iff : forall sol f at_ n w, met_points sol f at_ w n <->
  (forall k c, (w <= k < w + n)%nat -> In c (f k) -> demands (at_sample sol (at_ k)) c).
Proof.
  intros sol f at_ n. induction n as [|n IH]; intros w; cbn [met_points].
  - split; [intros _ k c Hk; lia|trivial].
  - rewrite IH. split.
    + intros (M & F) k c Hk. destruct (Nat.eq_dec k w) as [->|Ne]; [apply M|apply F; lia].
    + intros F. split; [intros c; apply F; lia|]. intros k c Hk. apply F. lia.
Qed.

Lemma requests_one_by_one : forall N sol at_wpt to_wpt, meets_requests N sol at_wpt to_wpt <->
  met_points sol at_wpt (waypoint_sample N) 0 (S (length N)) /\
  (forall w c i, (1 <= w <= length N)%nat -> In c (to_wpt w) ->
     (waypoint_sample N (w - 1) < i <= waypoint_sample N w)%nat -> demands (at_sample sol i) c).
Proof.
  intros. rewrite met_points_iff. unfold meets_requests. split; intros (A & B); (split; [|exact B]); intros w c Hw; apply A; lia.
Qed.

Lemma lined_0 : forall q, q = 0 -> (cos q = 1 /\ sin q = 0) \/ (cos q = - 1 /\ sin q = - 0).
Proof. intros q ->. rewrite cos_0, sin_0. left. split; reflexivity. Qed.
Lemma lined_up : forall q, q = PI / 2 -> (cos q = 0 /\ sin q = 1) \/ (cos q = - 0 /\ sin q = - 1).
Proof. intros q ->. rewrite cos_PI2, sin_PI2. left. split; reflexivity. Qed.
Lemma lined_down : forall q, q = - (PI / 2) -> (cos q = 0 /\ sin q = 1) \/ (cos q = - 0 /\ sin q = - 1).
Proof. intros q ->. rewrite cos_neg, sin_neg, cos_PI2, sin_PI2. right. lra. Qed.
Lemma lined_back : forall q, q = PI -> (cos q = 1 /\ sin q = 0) \/ (cos q = - 1 /\ sin q = - 0).
Proof. intros q ->. rewrite cos_PI, sin_PI. right. lra. Qed.
Lemma up_is : cos (PI / 2) = 0 /\ sin (PI / 2) = 1.
Proof. split; [apply cos_PI2|apply sin_PI2]. Qed.

Definition told (asserts : bool) (h : list (op R)) (N : list nat) (story : list happening) : Prop :=
  good_history asserts h /\ counts asserts h = N /\ (forall n, In n N -> (1 <= n)%nat) /\
  forall sol, meets_requests N sol (wpt_requests [] h) (sgmt_requests [] h) <-> follows sol story.
Lemma told_solved : forall asserts h N story handle g, told asserts h N story -> generator asserts h handle ex_drivetrain g ->
  forall sol, solved g sol <-> well_shaped N 4 sol /\ uniform_steps N sol /\ obeys_physics turns_up_to_half ex_drivetrain N sol /\ follows sol story.
Proof.
  intros asserts h N story handle g (GH & <- & Pos & F) G sol.
  rewrite (solved_exact asserts h handle ex_drivetrain g GH G ex_wheels Pos sol), (F sol). reflexivity.
Qed.
Ltac to_events := repeat match goal with
  | |- context [demands ?s (PoseEquality (pose_xyh ?x ?y ?a))] =>
      first [rewrite (tells_pose s x y a _ _ _ _ eq_refl eq_refl (lined_0 a ltac:(cbn; lits; lra)))
            |rewrite (tells_pose s x y a _ _ _ _ eq_refl eq_refl (lined_up a ltac:(cbn; lits; lra)))
            |rewrite (tells_pose s x y a _ _ _ _ eq_refl eq_refl (lined_down a ltac:(cbn; lits; lra)))
            |rewrite (tells_pose s x y a _ _ _ _ eq_refl eq_refl (lined_back a ltac:(cbn; lits; lra)))]
  end; rewrite ?tells_rest, ?tells_steady.
Lemma lit0 : nlit 0 = 0 :> R.
Proof. cbn. lits. lra. Qed.
Lemma lit1 : nlit 1 = 1 :> R.
Proof. cbn. lits. lra. Qed.
Lemma lit2 : nlit 2 = 2 :> R.
Proof. cbn. lits. lra. Qed.
Lemma moving_up : forall s, demands s (mkLinearVelocityDirection quarter) <-> happens s (Moving 0 1).
Proof.
  intros s. apply tells_moving; unfold quarter; cbn; lits; replace (PI / (2 * / 1)) with (PI / 2) by lra; [apply cos_PI2|apply sin_PI2].
Qed.

Ltac tell N :=
  split; [match goal with |- good_history ?a _ => destruct a end; repeat split; repeat constructor; apply pyth || idtac|split;
    [match goal with |- counts ?a _ = _ => destruct a end; reflexivity|split; [intros n I; simpl in I; lia|]]];
  intros sol; rewrite requests_one_by_one; cbn [met_points length];
  cbn [wpt_requests wpt_request sgmt_requests sgmt_request example1 example2 example3 example4 example5 example6 example7
       Nat.eqb Nat.leb andb app bumper_request actual_obstacle flat_map o_points];
  rewrite ?met_cons, ?met_nil; unfold stand, rest, during; cbn [app]; rewrite ?follows_one; to_events;
  rewrite ?moving_up; unfold waypoint_sample; cbn [firstn fold_right list_sum Nat.add]; rewrite ?lit0, ?lit1, ?lit2;
  pose proof (follows_nil sol).
Ltac tell_points := match goal with |- _ /\ ?Q <-> _ => assert Q by (intros w c i Hw []) end; tauto.

Lemma told1 : forall asserts, told asserts example1 [40%nat] forward.
Proof. intros asserts. unfold forward. tell 0. tell_points. Qed.
Lemma told2 : forall asserts, told asserts example2 [40%nat] curve.
Proof. intros asserts. unfold curve. tell 0. tell_points. Qed.
Lemma told3 : forall asserts, told asserts example3 [40%nat; 40%nat] three.
Proof. intros asserts. unfold three. tell 0. tell_points. Qed.
Lemma told4 : forall asserts, told asserts example4 [40%nat] rolling.
Proof. intros asserts. unfold rolling. tell 0. tell_points. Qed.
Lemma told5 : forall asserts, told asserts example5 [40%nat] forward.
Proof. intros asserts. unfold forward. tell 0. match goal with |- _ /\ ?Q <-> _ => assert Q end.
  { intros w c i Hw Hc. destruct ((0 <? w)%nat && (w <=? 1)%nat)%bool; destruct Hc. }
  tauto.
Qed.
Lemma told6 : forall asserts, told asserts example6 [40; 30; 30; 40]%nat pick_up.
Proof. intros asserts. unfold pick_up. tell 0.  tell_points. Qed.
Lemma told7 : forall asserts, told asserts example7 [30%nat] around.
Proof.
  intros asserts. unfold around. tell 0. rewrite follows_cons, !follows_one. split.
  - intros ((((P0 & L0) & C0 & R0 & _) & (C1 & (P1 & L1) & R1 & _) & _) & F). repeat (split; [first [assumption|idtac]|]); try assumption.
    intros i Hi. destruct i as [|i]; [apply tells_clear, C0|].
    apply tells_clear, (F 1%nat); [lia|left; reflexivity|]. cbn [Nat.sub firstn list_sum fold_right Nat.add]. lia.
  - intros (P0 & L0 & C & P1 & L1 & R0 & R1 & _).
    assert (C' : forall i, (i <= 30)%nat -> demands (at_sample sol i) (PointPoint (mkTr 0 0) (mkTr 1 0) 1))
      by (intros i Hi; apply tells_clear, C; lia).
    repeat split; try assumption; try (apply P0); try (apply P1); try (apply R0); try (apply R1); try (apply (C' 0%nat); lia);
      try (apply (C' 30%nat); lia).
    intros w c i Hw Hc Hi. assert (w = 1%nat) as -> by lia. cbn in Hc. destruct Hc as [<-|[]].
    cbn [Nat.sub firstn list_sum fold_right Nat.add] in Hi. apply C'. lia.
Qed.

Lemma C110_proof : forall asserts handle h N story g, In (h, N, story) stories -> generator asserts h handle ex_drivetrain g ->
  forall sol, solved g sol <-> well_shaped N 4 sol /\ uniform_steps N sol /\
    obeys_physics turns_up_to_half ex_drivetrain N sol /\ follows sol story.
Proof.
  intros asserts handle h N story g I G. apply (told_solved asserts h N story handle g); [|exact G].
  cbn [stories In] in I. destruct I as [E|[E|[E|[E|[E|[E|[E|[]]]]]]]]; injection E as <- <- <-;
    [apply told1|apply told2|apply told3|apply told4|apply told5|apply told6|apply told7].
Qed.
Lemma C110_told_proof : map (fun s => fst (fst s)) stories = examples.
Proof. reflexivity. Qed.

Lemma C110_rust_proof : forall {K} {HA : Arith K} {HD : Dbl K} asserts b,
  rs_run asserts (@rs_example K HA) rs_new = inl b -> b = path asserts rust_calls.
Proof. intros K HA HD asserts b Ru. apply C48_history_proof in Ru as (_ & _ & ->). destruct asserts; reflexivity. Qed.
