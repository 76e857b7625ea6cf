(** Further builder proofs and concrete histories (number type R). *)
From Coq Require Import List Lia ZArith Bool Reals Lra.
Import ListNotations.
From Verif Require Import Outcome Num NumR Geometry Constraints Builder UtilFacts BuilderFacts SpecBuilder
  BuilderEffects BuilderProofs BuilderHistory.
Local Open Scope nat_scope.

Section G.
  Context {K : Type} {HA : Arith K} {HD : Dbl K}.

  Lemma accepts_all_each : forall asserts (bumpers : list (obstacle K)) o,
    (forall bu, In bu bumpers -> length (o_points bu) <> 1 \/ length (o_points o) <> 1) ->
    accepts_all asserts bumpers o -> Forall (fun bu => accepts asserts bu o) bumpers.
  Proof.
    intros asserts bumpers o. induction bumpers as [|bu rest IH]; intros H A; [constructor|].
    destruct A as [A1 A2]. constructor; [assumption|]. apply IH; [intros; apply H; right; assumption|].
    apply A2. apply andb_false_iff. rewrite !Nat.eqb_neq. apply H. left. reflexivity.
  Qed.

  Lemma below63 : forall i, (Z.of_nat i < 2 ^ 63)%Z <-> i < max63.
  Proof. intros i. rewrite <- max63_Z. lia. Qed.
  Lemma below63_size : forall i, i < max63 -> in_size_t i.
  Proof.
    intros i Hi. apply below63 in Hi. rewrite pow63_val in Hi. unfold in_size_t.
    change (2 ^ 64)%Z with 18446744073709551616%Z. lia.
  Qed.

  Lemma C12_wrapped_proof : forall asserts h f ps, Z.of_nat f = (2 ^ 64 - 1)%Z ->
    let b := run_ops asserts h (@new_builder K) in
    exists b', run_op asserts (OSgmtInitialGuessPoints f ps) b = (b', Ok tt) /\
      waypoint_count b' = Nat.max (waypoint_count b) 1 /\
      nth 0 (b_guess b') [] = ps ++ nth 0 (b_guess b) [zero_pose] /\
      (forall j, nth (S j) (b_guess b') [] = nth (S j) (b_guess b) []) /\
      (forall j, constraints_at b' j = constraints_at b j /\ segment_constraints_to b' j = segment_constraints_to b j) /\
      b_counts b' = b_counts b /\ b_bumpers b' = b_bumpers b /\ b_drivetrain b' = b_drivetrain b /\
      b_callbacks b' = b_callbacks b.
  Proof.
    intros asserts h f ps Hf b.
    assert (Hb : inv b) by (apply run_ops_inv; apply inv_new).
    assert (M1 : 1 <= max63) by (apply Nat2Z.inj_le; rewrite max63_Z, pow63_val; lia).
    assert (E : succ64 f = 0).
    { unfold succ64. rewrite two64_val, Hf. reflexivity. }
    destruct (guess_upd b 1 0 (fun l => ps ++ l) Hb ltac:(lia) M1) as (E1 & E2 & E3 & E4 & E5 & E6 & E7 & E8).
    pose proof (inv_extend 1 b Hb M1) as (I1 & I2 & I3). pose proof (wlen_extend 1 b) as W.
    set (b' := set_guess (extend 1 b) (upd (b_guess (extend 1 b)) 0 (fun l => ps ++ l))) in *.
    assert (L' : length (b_guess b') = Nat.max (wlen b) 1).
    { unfold b'. cbn [set_guess b_guess]. rewrite upd_length. lia. }
    exists b'. split; [|split; [exact E1|split; [|split; [|split; [|split]]]]].
    - cbn [run_op]. unfold SgmtInitialGuessPoints, bbind, newWpts. rewrite E, NewWpts_small by (try apply Hb; lia).
      rewrite upd_at_ok by lia. reflexivity.
    - specialize (E4 0). unfold guess_at in E4. cbn [Nat.eqb] in E4. rewrite <- E4. apply nth_indep. lia.
    - intros j. specialize (E4 (S j)). unfold guess_at in E4. cbn [Nat.eqb] in E4.
      destruct Hb as (B1 & _).
      destruct (Nat.lt_ge_cases (S j) (wlen b)) as [L|L].
      + rewrite (nth_indep _ [] [zero_pose]) by lia. rewrite E4. apply nth_indep. lia.
      + rewrite !nth_overflow by lia. reflexivity.
    - intros j. split; [apply E2|apply E3].
    - rewrite E5, E1. replace (Nat.max (wlen b) 1 - 1 - (wlen b - 1)) with 0 by lia. apply app_nil_r.
    - repeat split; assumption.
  Qed.

  Lemma C38_returns_proof : forall asserts h o i, Forall proper_call h ->
    in_size_t (length (o_points o)) -> (Z.of_nat i < 2 ^ 63)%Z ->
    let b := run_ops asserts h (@new_builder K) in
    (snd (run_op asserts (OWptObstacle i o) b) = Ok tt <->
     accepts_all asserts (flat_map bumper_request h) o).
  Proof.
    intros asserts h o i Hh Ho Hi b.
    assert (Hb : inv b) by (apply run_ops_inv; apply inv_new).
    assert (EB : b_bumpers b = flat_map bumper_request h) by apply C41_bumpers_proof.
    assert (Hs : Forall small_points (b_bumpers b)) by (apply reach_small; assumption).
    apply below63 in Hi. rewrite <- EB. split.
    - intros H. cbn [run_op] in H. unfold WptObstacle in H.
      destruct (obstacle_loop asserts (WptConstraint i) o (b_bumpers b) b) as [b' r] eqn:E.
      simpl in H. subst r. eapply obstacle_loop_returned; eassumption.
    - intros A. cbn [run_op]. unfold WptObstacle. rewrite obstacle_loop_eq by assumption.
      destruct (bfor_effect (WptConstraint i) (S i) (only i) (fun _ => none)
          (fun c b Hb => WptConstraint_ok i c b Hb Hi) (actual_obstacle (b_bumpers b) o) b Hb) as (b2 & -> & _).
      reflexivity.
  Qed.

  Lemma single_bumper : forall asserts (bu o : obstacle K) i, i < max63 -> small_points bu -> small_points o ->
    accepts asserts bu o ->
    constraints_at (run_ops asserts [OAddBumpers bu; OWptObstacle i o] new_builder) i = actual_obstacle [bu] o.
  Proof.
    intros asserts bu o i Hi Hs Ho Ha.
    assert (R : all_returned asserts [OAddBumpers bu; OWptObstacle i o] new_builder).
    { split; [reflexivity|]. split; [|exact I].
      set (b := fst (run_op asserts (OAddBumpers bu) new_builder)).
      apply (obstacle_call_ok asserts b); [exact inv_new| | | |assumption].
      - simpl. constructor; [assumption|constructor].
      - assumption.
      - simpl. constructor; [assumption|constructor]. }
    rewrite (proj1 (C11_proof asserts [OAddBumpers bu; OWptObstacle i o]
      ltac:(repeat constructor; simpl; auto using below63_size) R i)).
    cbn [wpt_requests wpt_request bumper_request app]. rewrite Nat.eqb_refl, app_nil_r. reflexivity.
  Qed.

  Lemma C39_partial_api : forall asserts h o i, Forall proper_call h ->
    (Z.of_nat i < 2 ^ 63)%Z -> in_size_t (length (o_points o)) ->
    let b := run_ops asserts h (@new_builder K) in
    let bumpers := flat_map bumper_request h in
    (forall bu, In bu bumpers -> length (o_points bu) <> 1 \/ length (o_points o) <> 1) ->
    snd (run_op asserts (OWptObstacle i o) b) = Ok tt ->
    constraints_at (fst (run_op asserts (OWptObstacle i o) b)) i =
      constraints_at b i ++
      flat_map (fun bu =>
        constraints_at (run_ops asserts [OAddBumpers bu; OWptObstacle i o] new_builder) i) bumpers.
  Proof.
    intros asserts h o i Hh Hi Ho b bumpers H1 Hr. apply below63 in Hi.
    assert (Hb : inv b) by (apply run_ops_inv; apply inv_new).
    assert (EB : b_bumpers b = bumpers) by apply C41_bumpers_proof.
    assert (Hs : Forall small_points (b_bumpers b)) by (apply reach_small; assumption).
    pose proof Hr as Hr'. cbn [run_op] in Hr'. unfold WptObstacle in Hr'.
    destruct (obstacle_loop asserts (WptConstraint i) o (b_bumpers b) b) as [b' r] eqn:E.
    simpl in Hr'. subst r. pose proof (obstacle_loop_returned _ _ _ _ _ _ Hs Ho E) as A.
    rewrite EB in A. apply accepts_all_each in A; [|assumption].
    destruct (run_op_returned asserts (OWptObstacle i o) b Hb (conj (below63_size i Hi) Ho) Hs Hr) as (_ & E2 & _).
    rewrite E2. f_equal. cbn [wpt_request]. rewrite Nat.eqb_refl, EB.
    rewrite (C39_partial_proof _ _ H1).
    rewrite EB in Hs. rewrite Forall_forall in A, Hs.
    clear -A Hi Ho Hs. induction bumpers as [|bu l IH]; [reflexivity|]. cbn [flat_map]. f_equal.
    - symmetry. apply single_bumper; auto; [apply Hs|apply A]; left; reflexivity.
    - apply IH; intros; [apply Hs|apply A]; right; assumption.
  Qed.
End G.

Open Scope R_scope.

(** A square bumper, a triangle, a point. *)
Definition square : obstacle R :=
  mkObstacle 0 [mkTr 1 1; mkTr (-1) 1; mkTr (-1) (-1); mkTr 1 (-1)].
Definition triangle : obstacle R := mkObstacle 0 [mkTr 5 5; mkTr 6 5; mkTr 5 6].
Definition point_at (x y : R) : obstacle R := mkObstacle 0 [mkTr x y].

Lemma C38_throws : snd (run_op false (OWptObstacle 0 triangle)
    (run_ops false [OAddBumpers square] new_builder)) = Throw OutOfRange.
Proof. reflexivity. Qed.

(** A triangular bumper and a square obstacle: the obstacle's closing edge,
    from (1,-1) to (1,1), is left out. *)
Lemma C38_wrong_edge :
  let r := run_op false (OWptObstacle 0 square) (run_ops false [OAddBumpers triangle] new_builder) in
  snd r = Ok tt /\
  ~ In (PointLine (mkTr 5 5) (mkTr 1 (-1)) (mkTr 1 1) (0 + 0)) (constraints_at (fst r) 0) /\
  In (PointLine (mkTr 5 5) (mkTr 1 (-1)) (mkTr 1 1) (0 + 0)) (documented_obstacle [triangle] square).
Proof.
  intros r. split; [reflexivity|]. split.
  - intros H. 
    assert (E : constraints_at (fst r) 0 = actual_obstacle [triangle] square) by reflexivity.
    rewrite E in H. clear E r. 
    cbn [actual_obstacle triangle square o_points o_safetyDistance pair_constraints length
      outline outline_from consecutive combine tl Nat.leb Nat.sub nth map flat_map app fst snd andb Nat.eqb] in H.
    repeat (destruct H as [H|H]; [try discriminate H; injection H; intros; lra|]).
    exact H.
  - cbn. tauto.
Qed.

Lemma C38_throws_refuted_proof :
  ~ (forall (bu o : obstacle R) i, (3 <= length (o_points bu))%nat -> (3 <= length (o_points o))%nat ->
       snd (run_op false (OWptObstacle i o) (run_ops false [OAddBumpers bu] new_builder)) = Ok tt).
Proof.
  intros H. specialize (H square triangle 0%nat). rewrite C38_throws in H.
  assert (E : Throw OutOfRange = Ok tt) by (apply H; simpl; lia). discriminate E.
Qed.
Lemma C38_closing_edge_refuted_proof :
  ~ (forall (bu o : obstacle R) i, (3 <= length (o_points bu))%nat -> (3 <= length (o_points o))%nat ->
       let r := run_op false (OWptObstacle i o) (run_ops false [OAddBumpers bu] new_builder) in
       snd r = Ok tt ->
       forall c, In c (documented_obstacle [bu] o) -> In c (constraints_at (fst r) i)).
Proof.
  intros H. destruct C38_wrong_edge as (A & B & C).
  apply B. apply (H triangle square 0%nat); [simpl; lia|simpl; lia|exact A|exact C].
Qed.

(** Two bumpers, the first a point, and a point obstacle. *)
Lemma C39_refuted_proof :
  ~ (forall (b1 b2 o : obstacle R) i,
       o_points b1 <> [] -> o_points b2 <> [] -> o_points o <> [] ->
       let h := [OAddBumpers b1; OAddBumpers b2] in
       snd (run_op false (OWptObstacle i o) (run_ops false h new_builder)) = Ok tt ->
       forall c, In c (constraints_at (run_ops false [OAddBumpers b2; OWptObstacle i o] new_builder) i) ->
                 In c (constraints_at (fst (run_op false (OWptObstacle i o) (run_ops false h new_builder))) i)).
Proof.
  intros H. specialize (H (point_at 0 0) square (point_at 5 5) 0%nat).
  specialize (H ltac:(discriminate) ltac:(discriminate) ltac:(discriminate) eq_refl).
  specialize (H (PointPoint (mkTr 1 1) (mkTr 5 5) (0 + 0))).
  match type of H with ?A -> ?B =>
    assert (X : A); [|specialize (H X)] end.
  { change (constraints_at _ 0%nat) with (actual_obstacle [square] (point_at 5 5)).
    cbn. tauto. }
  match type of H with In _ ?l =>
    assert (E : l = actual_obstacle [point_at 0 0; square] (point_at 5 5)) by reflexivity end.
  rewrite E in H. cbn in H. destruct H as [H|[]]. injection H. intros. lra.
Qed.
