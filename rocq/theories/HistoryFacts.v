(** Facts about builder histories used for whole-run theorems. *)
From Coq Require Import List Lia Bool Arith.
Import ListNotations.
From Verif Require Import Outcome Num NumR Geometry Constraints Util Builder
  SpecBuilder SpecPhysics Spec SpecGenerator UtilFacts BuilderFacts BuilderEffects BuilderProofs BuilderHistory GeometryFacts.
Local Open Scope nat_scope.

Section HF.
  Context {K : Type} {HA : Arith K} {HD : Dbl K}.

  Lemma run_op_rest : forall asserts (o : op K) b, inv b ->
    let b' := fst (run_op asserts o b) in
    b_drivetrain b' = last_drivetrain (b_drivetrain b) [o] /\
    b_callbacks b' = b_callbacks b ++ callback_request o.
  Proof.
    intros asserts o b Hb.
    assert (D : forall m : bld K unit, preserves keeps1 m ->
      b_drivetrain (fst (m b)) = b_drivetrain b /\ b_callbacks (fst (m b)) = b_callbacks b ++ []).
    { intros m Hm. destruct (Hm b Hb) as ((A & B & C & F & G) & _). rewrite app_nil_r. auto. }
    destruct o; cbn [run_op callback_request last_drivetrain].
    - split; [reflexivity|symmetry; apply app_nil_r].
    - apply D. apply k_bind; [apply k_WptConstraint|intros; apply k_WptGuess].
    - apply D. apply k_bind; [apply k_WptConstraint|intros; apply k_WptGuess].
    - apply D. apply k_WptGuess.
    - destruct (k_SgmtGuess fromIndex ps b Hb) as ((A & B & C & F & G) & _). rewrite app_nil_r. auto.
    - split; [reflexivity|symmetry; apply app_nil_r].
    - apply (D (WptObstacle asserts index o)). intros x Hx. apply k_obstacle; auto using k_WptConstraint.
    - apply (D (SgmtObstacle asserts fromIndex toIndex o)). intros x Hx.
      apply k_obstacle; auto using k_SgmtConstraint.
    - apply D. apply k_WptConstraint.
    - apply D. apply k_SgmtConstraint.
    - split; [reflexivity|symmetry; apply app_nil_r].
    - split; reflexivity.
  Qed.

  Lemma run_op_inv : forall asserts (o : op K) b, inv b -> inv (fst (run_op asserts o b)).
  Proof. intros. apply (run_op_grows asserts o b H). assumption. Qed.

  Lemma run_ops_rest : forall asserts (h : list (op K)) b, inv b ->
    b_drivetrain (run_ops asserts h b) = last_drivetrain (b_drivetrain b) h /\
    b_callbacks (run_ops asserts h b) = b_callbacks b ++ flat_map callback_request h.
  Proof.
    intros asserts h. induction h as [|o h IH]; intros b Hb.
    - split; [reflexivity|symmetry; apply app_nil_r].
    - destruct (run_op_rest asserts o b Hb) as [D C].
      destruct (IH (fst (run_op asserts o b)) (run_op_inv _ _ _ Hb)) as [D' C'].
      change (run_ops asserts (o :: h) b) with (run_ops asserts h (fst (run_op asserts o b))).
      rewrite D', C', D, C, <- app_assoc. split; [|reflexivity]. destruct o; reflexivity.
  Qed.

  Lemma path_inv : forall asserts (h : list (op K)), inv (path asserts h).
  Proof. intros. apply run_ops_inv, inv_new. Qed.
  Lemma path_drivetrain : forall asserts (h : list (op K)),
    b_drivetrain (path asserts h) = last_drivetrain None h.
  Proof. intros. apply (run_ops_rest asserts h new_builder inv_new). Qed.
  Lemma path_callbacks : forall asserts (h : list (op K)),
    b_callbacks (path asserts h) = flat_map callback_request h.
  Proof. intros. apply (run_ops_rest asserts h new_builder inv_new). Qed.
  Lemma last_drivetrain_app : forall (h1 h2 : list (op K)) d,
    last_drivetrain d (h1 ++ h2) = last_drivetrain (last_drivetrain d h1) h2.
  Proof.
    induction h1 as [|o h1 IH]; intros h2 d; [reflexivity|].
    simpl. destruct o; apply IH.
  Qed.

  (** Requests are those of the calls. *)
  Lemma in_wpt_requests : forall h bs i (c : constraint K), In c (wpt_requests bs h i) <->
    exists h1 o h2, h = h1 ++ o :: h2 /\ In c (wpt_request (bs ++ flat_map bumper_request h1) o i).
  Proof.
    induction h as [|o h IH]; intros bs i c; cbn [wpt_requests].
    - split; [intros []|]. intros (h1 & o & h2 & E & _). destruct h1; discriminate.
    - rewrite in_app_iff, IH. split.
      + intros [G|(h1 & o' & h2 & -> & G)].
        * exists [], o, h. split; [reflexivity|]. rewrite app_nil_r. assumption.
        * exists (o :: h1), o', h2. split; [reflexivity|]. cbn [flat_map]. rewrite app_assoc. assumption.
      + intros (h1 & o' & h2 & E & G). destruct h1 as [|o1 h1]; cbn [app] in E; injection E as -> ->.
        * left. rewrite app_nil_r in G. assumption.
        * right. exists h1, o', h2. split; [reflexivity|]. cbn [flat_map] in G. rewrite app_assoc in G. assumption.
  Qed.
  Lemma in_sgmt_requests : forall h bs i (c : constraint K), In c (sgmt_requests bs h i) <->
    exists h1 o h2, h = h1 ++ o :: h2 /\ In c (sgmt_request (bs ++ flat_map bumper_request h1) o i).
  Proof.
    induction h as [|o h IH]; intros bs i c; cbn [sgmt_requests].
    - split; [intros []|]. intros (h1 & o & h2 & E & _). destruct h1; discriminate.
    - rewrite in_app_iff, IH. split.
      + intros [G|(h1 & o' & h2 & -> & G)].
        * exists [], o, h. split; [reflexivity|]. rewrite app_nil_r. assumption.
        * exists (o :: h1), o', h2. split; [reflexivity|]. cbn [flat_map]. rewrite app_assoc. assumption.
      + intros (h1 & o' & h2 & E & G). destruct h1 as [|o1 h1]; cbn [app] in E; injection E as -> ->.
        * left. rewrite app_nil_r in G. assumption.
        * right. exists h1, o', h2. split; [reflexivity|]. cbn [flat_map] in G. rewrite app_assoc in G. assumption.
  Qed.

  (** Everything of a builder that decides counts and later requests. *)
  Definition same_shape (b b' : builder K) : Prop :=
    wlen b = wlen b' /\ b_counts b = b_counts b' /\ b_bumpers b = b_bumpers b'.

  Lemma same_shape_op : forall asserts o b b', inv b -> inv b' -> proper_call o ->
    Forall small_points (b_bumpers b) -> same_shape b b' ->
    snd (run_op asserts o b) = Ok tt -> snd (run_op asserts o b') = Ok tt ->
    same_shape (fst (run_op asserts o b)) (fst (run_op asserts o b')).
  Proof.
    intros asserts o b b' I I' P S (W & C & B) R R'.
    destruct (run_op_returned asserts o b I P S R) as (E1 & _).
    rewrite B in S. destruct (run_op_returned asserts o b' I' P S R') as (E1' & _).
    destruct (run_op_keeps asserts o b I) as (_ & C1 & B1 & _).
    destruct (run_op_keeps asserts o b' I') as (_ & C1' & B1' & _).
    assert (W' : wlen (fst (run_op asserts o b)) = wlen (fst (run_op asserts o b'))).
    { rewrite E1, E1', B, W. reflexivity. }
    split; [exact W'|]. split; [|rewrite B1, B1', B; reflexivity].
    rewrite C1, C1'. unfold counts_after. destruct o; rewrite ?W', ?W, ?C; reflexivity.
  Qed.

  Lemma small_after : forall asserts o b, inv b -> proper_call o -> Forall small_points (b_bumpers b) ->
    Forall small_points (b_bumpers (fst (run_op asserts o b))).
  Proof.
    intros asserts o b I P S. destruct (run_op_keeps asserts o b I) as (_ & _ & B & _). rewrite B.
    apply Forall_app. split; [assumption|]. destruct o; simpl; auto.
  Qed.

  Lemma same_shape_ops : forall asserts h b b', inv b -> inv b' -> Forall proper_call h ->
    Forall small_points (b_bumpers b) -> same_shape b b' ->
    all_returned asserts h b -> all_returned asserts h b' ->
    same_shape (run_ops asserts h b) (run_ops asserts h b').
  Proof.
    intros asserts h. induction h as [|o h IH]; intros b b' I I' P S E R R'; [exact E|].
    inversion P; subst. destruct R as [R1 R2], R' as [R1' R2'].
    change (run_ops asserts (o :: h) ?x) with (run_ops asserts h (fst (run_op asserts o x))).
    apply IH; try assumption; try (apply run_op_inv; assumption).
    - apply small_after; assumption.
    - apply same_shape_op; assumption.
  Qed.

  Lemma all_returned_app : forall asserts h1 h2 (b : builder K),
    all_returned asserts (h1 ++ h2) b <-> all_returned asserts h1 b /\ all_returned asserts h2 (run_ops asserts h1 b).
  Proof.
    intros asserts h1. induction h1 as [|o h1 IH]; intros h2 b; simpl; [tauto|].
    rewrite IH. change (run_ops asserts (o :: h1) b) with (run_ops asserts h1 (fst (run_op asserts o b))). tauto.
  Qed.

  (** A call on existing waypoints that changes no counts or bumpers does not
      change the shape of what follows. *)
  Lemma insert_shape : forall asserts h1 o h2,
    Forall proper_call (h1 ++ o :: h2) -> no_counts o -> bumper_request o = [] ->
    needed (b_bumpers (path asserts h1)) o <= waypoint_count (path asserts h1) ->
    all_returned asserts (h1 ++ o :: h2) new_builder -> all_returned asserts (h1 ++ h2) new_builder ->
    same_shape (path asserts (h1 ++ h2)) (path asserts (h1 ++ o :: h2)).
  Proof.
    intros asserts h1 o h2 P NC NB NW R R'. unfold path. rewrite !run_ops_app.
    apply all_returned_app in R. apply all_returned_app in R'.
    destruct R as [R1 [R2 R3]], R' as [_ R2'].
    apply Forall_app in P. destruct P as [P1 P2]. inversion P2; subst.
    change (run_ops asserts (o :: h2) ?x) with (run_ops asserts h2 (fst (run_op asserts o x))).
    fold (path asserts h1) in *. set (b := path asserts h1) in *.
    assert (I : inv b) by apply path_inv.
    assert (S : Forall small_points (b_bumpers b)).
    { unfold b, path. rewrite run_ops_bumpers by apply inv_new. simpl. clear -P1.
      induction P1 as [|o h P1 _ IH]; [constructor|]. cbn [flat_map]. apply Forall_app. split; [|exact IH].
      destruct o; simpl; auto. }
    assert (E : same_shape b (fst (run_op asserts o b))).
    { destruct (run_op_returned asserts o b I H1 S R2) as (E1 & _).
      destruct (run_op_keeps asserts o b I) as (_ & C1 & B1 & _).
      assert (W : wlen b = wlen (fst (run_op asserts o b))) by (rewrite E1; unfold waypoint_count, wlen in *; lia).
      split; [exact W|]. split; [|rewrite B1, NB, app_nil_r; reflexivity].
      rewrite C1. unfold counts_after. destruct o; try contradiction;
        rewrite <- W, Nat.sub_diag; simpl; rewrite app_nil_r; reflexivity. }
    apply same_shape_ops; try assumption. apply run_op_inv. assumption.
  Qed.

  Lemma wpt_requests_app : forall h1 h2 bs i,
    wpt_requests bs (h1 ++ h2) i = wpt_requests bs h1 i ++ wpt_requests (bs ++ flat_map (@bumper_request K) h1) h2 i.
  Proof.
    induction h1 as [|o h1 IH]; intros h2 bs i; cbn [app wpt_requests flat_map].
    - rewrite app_nil_r. reflexivity.
    - rewrite IH, <- !app_assoc. reflexivity.
  Qed.
  Lemma sgmt_requests_app : forall h1 h2 bs i,
    sgmt_requests bs (h1 ++ h2) i = sgmt_requests bs h1 i ++ sgmt_requests (bs ++ flat_map (@bumper_request K) h1) h2 i.
  Proof.
    induction h1 as [|o h1 IH]; intros h2 bs i; cbn [app sgmt_requests flat_map].
    - rewrite app_nil_r. reflexivity.
    - rewrite IH, <- !app_assoc. reflexivity.
  Qed.
End HF.

From Coq Require Import Reals.
(** Every constraint requested by a proper history is proper. *)
Lemma obstacle_proper : forall bs o c, In c (actual_obstacle bs o) -> proper_constraint c.
Proof.
  intros bs o. induction bs as [|bu bs IH]; intros c Hc; cbn [actual_obstacle] in Hc; [destruct Hc|].
  apply in_app_iff in Hc. destruct Hc as [Hc|Hc].
  - unfold pair_constraints in Hc. apply in_app_iff in Hc. destruct Hc as [Hc|Hc].
    + apply in_flat_map in Hc. destruct Hc as (p & _ & Hc). apply in_map_iff in Hc.
      destruct Hc as (e & <- & _). exact I.
    + apply in_flat_map in Hc. destruct Hc as (r & _ & Hc).
      destruct (o_points o) as [|q [|q' l]].
      * apply in_map_iff in Hc. destruct Hc as (e & <- & _). exact I.
      * destruct Hc as [<-|[]]. exact I.
      * apply in_map_iff in Hc. destruct Hc as (e & <- & _). exact I.
  - destruct (_ && _)%bool; [destruct Hc|]. apply IH. assumption.
Qed.
Lemma unit_xyh : forall x y h : R, unit_rot (pRot (pose_xyh x y h)).
Proof. intros. unfold unit_rot. cbn. apply pyth. Qed.
Lemma requests_proper : forall h bs w c, Forall proper_request h ->
  In c (wpt_requests bs h w) \/ In c (sgmt_requests bs h w) -> proper_constraint c.
Proof.
  intros h bs w c P [G|G].
  - apply in_wpt_requests in G. destruct G as (h1 & o & h2 & -> & G).
    apply Forall_app in P. destruct P as [_ P]. inversion P; subst.
    destruct o; cbn [wpt_request] in G; try (destruct G; fail);
      repeat match type of G with context [if ?x then _ else _] => destruct x end; try (destruct G; fail);
      try (destruct G as [<-|[]]); try assumption; try exact I; try apply unit_xyh;
      eapply obstacle_proper; eassumption.
  - apply in_sgmt_requests in G. destruct G as (h1 & o & h2 & -> & G).
    apply Forall_app in P. destruct P as [_ P]. inversion P; subst.
    destruct o; cbn [sgmt_request] in G; try (destruct G; fail);
      repeat match type of G with context [if ?x then _ else _] => destruct x end; try (destruct G; fail);
      try (destruct G as [<-|[]]); try assumption; eapply obstacle_proper; eassumption.
Qed.
