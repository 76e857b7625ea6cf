(** The example programs ask for something possible (C81). *)
From Coq Require Import List Lia Lra Psatz Reals ZArith Qreals.
Import ListNotations.
From Verif Require Import Outcome Num NumR Geometry Expr Constraints Util Builder Guess Generator Trajectory RustFFI Programs
  Spec SpecBuilder SpecPhysics SpecTrajectory SpecGenerator SpecStep SpecLegs
  GeometryFacts GeneratorCases LimitProofs OrderProofs StepProofs DurationProofs ProgramProofs LegProofs.
Open Scope R_scope.

Lemma ex_centred : centred ex_drivetrain.
Proof. unfold centred. cbn. lits. lra. Qed.
Lemma ex_moi : d_moi ex_drivetrain = 6.
Proof. cbn. lits. lra. Qed.
Lemma ex_arm : forall md, In md (d_modules ex_drivetrain) -> arm md * arm md = 72/100.
Proof.
  intros md Hm. unfold arm, pt. rewrite norm2_sqr. destruct Hm as [<-|[<-|[<-|[<-|[]]]]]; cbn; lits; lra.
Qed.
Lemma ex_arms : arms ex_drivetrain = 288/100.
Proof.
  unfold arms. cbn [d_modules ex_drivetrain map sum].
  rewrite !ex_arm by (cbn; tauto). lra.
Qed.
Lemma ex_step : step_within ex_drivetrain (2/5).
Proof.
  apply (rectangular_step (6/10) (6/10) ex_drivetrain (2/5)); [lra|lra|exact ex_square|].
  split; [lra|]. intros md [<-|[<-|[<-|[<-|[]]]]]; cbn; lits; lra.
Qed.
Lemma ex_leg : forall n p p', In n [10; 30; 40]%nat ->
  dist2 (stop_point p) (stop_point p') <= 2 -> Rabs (o_a p' - o_a p) <= 2 -> leg_within ex_drivetrain n (2/5) p p'.
Proof.
  intros n p p' Hn D A. split; [simpl in Hn; lia|]. split; [lra|]. split; [exact ex_step|]. cbv zeta. intros md Hm.
  assert (E : wheel_limit md = 28/10 /\ force_limit md = 50).
  { unfold wheel_limit, force_limit. destruct Hm as [<-|[<-|[<-|[<-|[]]]]]; cbn; lits; split; field. }
  destruct E as [-> ->]. rewrite ex_arms, ex_mass, ex_moi. replace (INR (length (d_modules (@ex_drivetrain R _)))) with 4 by (simpl; lra).
  pose proof (ex_arm md Hm) as Sq. assert (P : 0 <= arm md) by apply norm2_pos.
  assert (B : arm md <= 85/100) by nra. clear Sq Hm.
  pose proof (ConstraintFacts.dist2_nonneg (stop_point p) (stop_point p')) as D0. pose proof (Rabs_pos (o_a p' - o_a p)) as A0.
  set (x := dist2 _ _) in *. set (y := Rabs _) in *. set (z := arm md) in *. clearbody x y z.
  assert (Y : 0 <= y * z <= 17/10) by (split; nra).
  assert (T : 0 <= top_rate n (2/5) <= 1/2 /\ 4 <= units n * (2/5 * (2/5))).
  { unfold top_rate, units. simpl in Hn. destruct Hn as [<-|[<-|[<-|[]]]];
      [change (10 / 2)%nat with 5%nat; change (10 * 10 / 4)%nat with 25%nat; replace (INR 5) with 5 by (simpl; lra); replace (INR 25) with 25 by (simpl; lra)
      |change (30 / 2)%nat with 15%nat; change (30 * 30 / 4)%nat with 225%nat; replace (INR 15) with 15 by (simpl; lra); replace (INR 225) with 225 by (rewrite INR_IZR_INZ; reflexivity)
      |change (40 / 2)%nat with 20%nat; change (40 * 40 / 4)%nat with 400%nat; replace (INR 20) with 20 by (simpl; lra); replace (INR 400) with 400 by (rewrite INR_IZR_INZ; reflexivity)]; lra. }
  destruct T as [T1 T2]. set (t := top_rate _ _) in *. set (u := units n * _) in *. clearbody t u. split.
  - apply Rle_trans with (37/10 * (1/2)); [apply Rmult_le_compat; lra|lra].
  - apply Rmult_le_reg_r with u; [lra|]. unfold Rdiv at 1. rewrite Rmult_assoc, Rinv_l by lra. 
    replace (6 * y * z / (288/100)) with (6 / (288/100) * (y * z)) by field. nra.
Qed.

Lemma legs_lookup : forall (legs : list (nat * R)) (Q : nat * R -> nat -> Prop),
  (forall k l, nth_error legs k = Some l -> Q l k) -> forall k, (k < length legs)%nat -> Q (nth k legs (0%nat, 0)) k.
Proof. intros legs Q H k Hk. apply H. apply nth_error_nth'. exact Hk. Qed.

Lemma dist2_le : forall p q r, 0 <= r ->
  (fst q - fst p) * (fst q - fst p) + (snd q - snd p) * (snd q - snd p) <= r * r -> dist2 p q <= r.
Proof. intros p q r Hr H. rewrite dist2_norm. apply norm2_le; assumption. Qed.

Lemma stops_pose : forall p q x y a, stands p q -> x = o_x p -> y = o_y p -> a = o_a p ->
  demands q (PoseEquality (pose_xyh x y a)).
Proof.
  intros p q x y a (A1 & A2 & [A3 A4] & _) -> -> ->. cbn. rewrite A1, A2, A3, A4. tauto.
Qed.
Lemma stops_translation : forall p q x y, stands p q -> x = o_x p -> y = o_y p ->
  demands q (TranslationEquality (mkTr x y)).
Proof. intros p q x y (A1 & A2 & _) -> ->. cbn. tauto. Qed.
Lemma stops_velocity : forall p q, stands p q -> demands q zeroLinearVelocity.
Proof.
  intros p q (_ & _ & _ & [A5 A6] & _). cbn. rewrite A5, A6, norm2_zero. apply Rabs_pos.
Qed.
Lemma stops_omega : forall p q, stands p q -> demands q zeroAngularVelocity.
Proof. intros p q (_ & _ & _ & _ & A7). cbn. rewrite A7, Rabs_R0. lits. lra. Qed.
Lemma stops_direction : forall p q a, stands p q -> demands q (mkLinearVelocityDirection a).
Proof. intros p q a (_ & _ & _ & [A5 A6] & _). exists 0. rewrite A5, A6. split; ring. Qed.

(** A table of stops. *)
Definition table (l : list stop) (k : nat) : stop := nth k l (mkStop 0 0 0).

Ltac request :=
  first [eapply stops_pose; [eassumption|cbn; lits; lra..] | eapply stops_translation; [eassumption|cbn; lits; lra..]
        |eapply stops_velocity; eassumption | eapply stops_omega; eassumption | eapply stops_direction; eassumption].
Ltac example l m f :=
  match goal with G : generator ?asserts ?h ?handle _ ?g |- exists sol, solved _ sol =>
    destruct (C80_proof asserts h handle ex_drivetrain g (map (fun n => (n, 2/5)) l) (table m) f) as (sol & S & _);
    [destruct asserts; repeat split; repeat constructor; apply pyth || idtac | exact G | exact ex_wheels | exact ex_centred
    |rewrite ex_arms; lra|rewrite ex_mass; lra|rewrite ex_moi; lra| | discriminate| | | | |exists sol; exact S]
  end.
Ltac example_legs := intros k Hk; apply (legs_lookup (map (fun n => (n, 2/5)) _)
    (fun l k => leg_within ex_drivetrain (fst l) (snd l) (table _ k) (table _ (S k)))); [|exact Hk];
  clear k Hk; intros k l Hl;
  repeat (destruct k as [|k]; [cbn in Hl; injection Hl as <-; cbn [fst snd]; apply ex_leg;
     [simpl; tauto|apply dist2_le; [lra|]; cbn; lra|cbn; apply Rabs_le; pose proof PI_RGT_0; pose proof PI_4; lra]|]);
  destruct k; discriminate Hl.
Ltac example_waypoints := intros w c q Hw Hc St; cbn [length] in Hw;
  repeat (destruct w as [|w]; [cbn in Hc; repeat (destruct Hc as [<-|Hc]; [request|]); destruct Hc|try (exfalso; lia)]).
Ltac one_leg_each := split; [reflexivity|split;
  [intros w Hw; cbn [length] in Hw; repeat (destruct w as [|w]; [split; [simpl; lia|reflexivity]|try (exfalso; lia)])
  |intros w k Hw Hk; assert (k = w) as -> by lia; reflexivity]].
Ltac no_requests := intros w c k q Hw Hc; cbn [length] in Hw; repeat (destruct w as [|w]; [destruct Hc|try (exfalso; lia)]).
Ltac positive_counts := let n := fresh in let H := fresh in intros n H; simpl in H; lia.

Definition feasible_program (h : list (op R)) : Prop := forall asserts handle g,
  generator asserts h handle ex_drivetrain g -> exists sol, solved g sol.

Lemma ex1 : feasible_program example1.
Proof.
  intros asserts handle g G.
  assert (N : counts asserts (@example1 R _) = [40%nat]) by (destruct asserts; reflexivity).
  example [40%nat] [mkStop 0 0 0; mkStop 1 0 0] (fun w : nat => w); rewrite ?N;
    [positive_counts|one_leg_each|example_legs|example_waypoints|no_requests].
Qed.
Lemma ex2 : feasible_program example2.
Proof.
  intros asserts handle g G.
  assert (N : counts asserts (@example2 R _ _) = [40%nat]) by (destruct asserts; reflexivity).
  example [40%nat] [mkStop 1 1 (- PI / 2); mkStop 2 0 0] (fun w : nat => w); rewrite ?N;
    [positive_counts|one_leg_each|example_legs|example_waypoints|no_requests].
Qed.
Lemma ex3 : feasible_program example3.
Proof.
  intros asserts handle g G.
  assert (N : counts asserts (@example3 R _ _) = [40%nat; 40%nat]) by (destruct asserts; reflexivity).
  example [40%nat; 40%nat] [mkStop 0 0 (PI / 2); mkStop 1 1 0; mkStop 2 0 (PI / 2)] (fun w : nat => w); rewrite ?N;
    [positive_counts|one_leg_each|example_legs|example_waypoints|no_requests].
Qed.
Lemma ex4 : feasible_program example4.
Proof.
  intros asserts handle g G.
  assert (N : counts asserts (@example4 R _) = [40%nat]) by (destruct asserts; reflexivity).
  example [40%nat] [mkStop 0 0 0; mkStop 0 1 0] (fun w : nat => w); rewrite ?N;
    [positive_counts|one_leg_each|example_legs|example_waypoints|no_requests].
Qed.
Lemma ex5 : feasible_program example5.
Proof.
  intros asserts handle g G.
  assert (N : counts asserts (@example5 R _) = [40%nat]) by (destruct asserts; reflexivity).
  example [40%nat] [mkStop 0 0 0; mkStop 1 0 0] (fun w : nat => w); rewrite ?N;
    [positive_counts|one_leg_each|example_legs|example_waypoints|no_requests].
Qed.
Lemma ex6 : feasible_program example6.
Proof.
  intros asserts handle g G.
  assert (N : counts asserts (@example6 R _ _) = [40; 30; 30; 40]%nat) by (destruct asserts; reflexivity).
  example [40; 30; 30; 40]%nat [mkStop 0 0 0; mkStop 1 1 (PI / 2); mkStop 1 2 (PI / 2); mkStop 1 1 (PI / 2); mkStop 2 0 PI] (fun w : nat => w); rewrite ?N;
    [positive_counts|one_leg_each|example_legs|example_waypoints|no_requests].
Qed.
(** Around the point: up, across and down again. *)
Lemma keeps_off : forall x y c s vx vy w ax ay al, 1 <= (1 - x) * (1 - x) + y * y ->
  demands (mkState x y c s vx vy w ax ay al) (PointPoint (mkTr (nlit 0) (nlit 0)) (mkTr (nlit 1) (nlit 0)) (nlit 1)).
Proof.
  intros x y c s vx vy w ax ay al H. cbn. unfold placed, dist2, pt. cbn. lits. rewrite Rabs_right by lra.
  match goal with |- _ <= sqrt ?e => replace e with ((1 - x) * (1 - x) + y * y) by field end.
  apply Rle_trans with (sqrt 1); [rewrite sqrt_1; lra|apply sqrt_le_1_alt, H].
Qed.
Lemma ex7 : feasible_program example7.
Proof.
  intros asserts handle g G.
  assert (N : counts asserts (@example7 R _) = [30%nat]) by (destruct asserts; reflexivity).
  example [10; 10; 10]%nat [mkStop 0 0 0; mkStop 0 1 0; mkStop 2 1 0; mkStop 2 0 0] (fun w : nat => 3 * w)%nat; rewrite ?N.
  - positive_counts.
  - split; [reflexivity|]. split.
    + intros w Hw. destruct w as [|[|w]]; [split; [simpl; lia|reflexivity]..|simpl in Hw; lia].
    + intros w k Hw Hk. simpl in Hw. assert (w = 0)%nat as -> by lia. cbn in Hk. destruct k as [|[|[|k]]]; [reflexivity..|lia].
  - example_legs.
  - intros w c q Hw Hc St. destruct w as [|[|w]]; [| |simpl in Hw; lia]; cbn in Hc;
      repeat (destruct Hc as [<-|Hc];
        [first [request | destruct q, St as (A1 & A2 & _); cbn in A1, A2; subst; apply keeps_off; lra]|]); destruct Hc.
  - intros w c k q Hw Hc Hk. destruct w as [|[|w]]; [simpl in Hw; lia| |simpl in Hw; lia]. cbn in Hk, Hc. destruct Hc as [<-|[]].
    intros (u & r & Hu & _ & X & Y & _). destruct q. cbn in X, Y.
    destruct k as [|[|[|k]]]; [| | |lia]; cbn in X, Y; subst; apply keeps_off;
      pose proof (Rle_0_sqr u); pose proof (Rle_0_sqr (1 - u)); pose proof (Rle_0_sqr (1 - 2 * u)); unfold Rsqr in *; lra.
Qed.
Lemma C81_proof : forall asserts handle h g, In h (@examples R _ _) -> generator asserts h handle ex_drivetrain g ->
  exists sol, solved g sol.
Proof.
  intros asserts handle h g Hh G. cbn [examples In] in Hh.
  destruct Hh as [<-|[<-|[<-|[<-|[<-|[<-|[<-|[]]]]]]]];
    [apply (ex1 asserts handle g G)|apply (ex2 asserts handle g G)|apply (ex3 asserts handle g G)|apply (ex4 asserts handle g G)
    |apply (ex5 asserts handle g G)|apply (ex6 asserts handle g G)|apply (ex7 asserts handle g G)].
Qed.

Lemma C80_case_proof : centred ex_drivetrain /\ 0 < arms ex_drivetrain /\ counts true (@example7 R _) = [30%nat] /\
  subdivide [30%nat] [(10%nat, 2/5); (10%nat, 2/5); (10%nat, 2/5)] (fun w => (3 * w)%nat) /\
  leg_within ex_drivetrain 10 (2/5) (mkStop 0 1 0) (mkStop 2 1 0) /\
  (forall q, under_way (mkStop 0 1 0) (mkStop 2 1 0) (top_rate 10 (2/5)) q ->
     demands q (PointPoint (mkTr (nlit 0) (nlit 0)) (mkTr (nlit 1) (nlit 0)) (nlit 1))) /\
  total_time [(10%nat, 2/5); (10%nat, 2/5); (10%nat, 2/5)] = 12.
Proof.
  split; [exact ex_centred|]. split; [rewrite ex_arms; lra|]. split; [reflexivity|]. split; [|split; [|split]].
  - split; [reflexivity|]. split.
    + intros w Hw. destruct w as [|[|w]]; [split; [simpl; lia|reflexivity]..|simpl in Hw; lia].
    + intros w k Hw Hk. simpl in Hw. assert (w = 0)%nat as -> by lia. cbn in Hk. destruct k as [|[|[|k]]]; [reflexivity..|lia].
  - apply ex_leg; [simpl; tauto|apply dist2_le; [lra|]; cbn; lra|cbn; apply Rabs_le; lra].
  - intros q (u & r & Hu & _ & X & Y & _). destruct q. cbn in X, Y. subst. apply keeps_off.
    pose proof (Rle_0_sqr (1 - 2 * u)). unfold Rsqr in *. lra.
  - unfold total_time. cbn [map sum fst snd]. replace (INR 10) with 10 by (simpl; lra). lra.
Qed.
