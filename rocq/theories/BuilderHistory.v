(** Histories of builder calls: proofs of C08-C12, C38, C39, C41, C42, C59. *)
From Coq Require Import List Lia ZArith Bool.
Import ListNotations.
From Verif Require Import Outcome Num Geometry Constraints Builder UtilFacts BuilderFacts SpecBuilder
  BuilderEffects BuilderProofs.
Local Open Scope nat_scope.

Section BH.
  Context {K : Type} {HA : Arith K} {HD : Dbl K}.
  Implicit Types b : builder K.

  (** ** What every call keeps, whatever its outcome *)
  Definition keeps b b' : Prop :=
    grows b b' /\
    b_counts b' = b_counts b ++ repeat 40 ((wlen b' - 1) - (wlen b - 1)) /\
    b_bumpers b' = b_bumpers b /\ b_drivetrain b' = b_drivetrain b /\ b_callbacks b' = b_callbacks b.
  Definition one0 b b' : Prop := length (guess_at b 0) = 1 -> length (guess_at b' 0) = 1.
  Definition keeps1 b b' : Prop := keeps b b' /\ one0 b b'.

  Lemma keeps_refl : forall b, keeps b b.
  Proof.
    intros b. split; [apply grows_refl|]. rewrite Nat.sub_diag. simpl. rewrite app_nil_r. auto.
  Qed.
  Lemma keeps_trans : forall x y z, keeps x y -> keeps y z -> keeps x z.
  Proof.
    intros x y z (A1 & A2 & A3 & A4 & A5) (B1 & B2 & B3 & B4 & B5).
    split; [eapply grows_trans; eassumption|]. split; [|repeat split; congruence].
    destruct A1 as (_ & A1 & _), B1 as (_ & B1 & _).
    rewrite B2, A2, <- app_assoc, <- repeat_app. f_equal. f_equal. lia.
  Qed.
  Lemma keeps1_refl : forall b, keeps1 b b.
  Proof. intros b. split; [apply keeps_refl|]. intro. assumption. Qed.
  Lemma keeps1_trans : forall x y z, keeps1 x y -> keeps1 y z -> keeps1 x z.
  Proof.
    intros x y z (A1 & A2) (B1 & B2). split; [eapply keeps_trans; eassumption|].
    unfold one0 in *. auto.
  Qed.
  Lemma keeps1_inv : forall x y, keeps1 x y -> inv x -> inv y.
  Proof. intros x y (((H & _) & _) & _). exact H. Qed.

  Lemma keeps1_extend : forall n b, inv b -> n <= max63 -> keeps1 b (extend n b).
  Proof.
    intros n b Hb Hn. destruct (effect_extend n b Hb Hn) as (E & E4 & E5 & E6 & E7 & E8 & _).
    split; [split; [apply grows_extend; assumption|repeat split; assumption]|].
    unfold one0. rewrite E4. auto.
  Qed.
  Lemma k_newWpts : forall i, preserves keeps1 (newWpts i).
  Proof.
    intros i b Hb. simpl. destruct (NewWpts_cases i b) as (n & Hn & ->); [apply Hb|].
    apply keeps1_extend; assumption.
  Qed.
  Lemma k_lift : forall {A} (o : outcome A), preserves keeps1 (blift o).
  Proof. intros A o b Hb. apply keeps1_refl. Qed.
  Lemma k_ret : forall {A} (a : A), preserves keeps1 (bret a).
  Proof. intros A o b Hb. apply keeps1_refl. Qed.
  Lemma k_bind : forall {A B} (m : bld K A) (f : A -> bld K B),
    preserves keeps1 m -> (forall a, preserves keeps1 (f a)) -> preserves keeps1 (bbind m f).
  Proof. intros. apply preserves_bind; auto; [exact keeps1_trans|exact keeps1_inv]. Qed.
  Lemma k_for : forall {A} (l : list A) (f : A -> bld K unit),
    (forall a, preserves keeps1 (f a)) -> preserves keeps1 (bfor l f).
  Proof. induction l; intros; simpl; [apply k_ret|]. apply k_bind; auto. Qed.
  Lemma k_loop : forall fuel i bound (f : nat -> bld K unit),
    (forall a, preserves keeps1 (f a)) -> preserves keeps1 (bloop fuel i bound f).
  Proof.
    induction fuel; intros i bound f Hf; simpl; destruct (_ <? bound)%Z; auto using k_ret, k_lift.
    apply k_bind; auto.
  Qed.
  Lemma effect_keeps1 : forall b b' u v, grows b b' -> effect b b' 0 u v -> keeps1 b b'.
  Proof.
    intros b b' u v G (_ & E4 & E5 & E6 & E7 & E8 & _).
    split; [split; [assumption|repeat split; assumption]|]. unfold one0. rewrite E4. auto.
  Qed.
  Lemma k_push_wpt : forall i c, preserves keeps1 (push_wpt i c).
  Proof.
    intros i c b Hb. destruct (Nat.lt_ge_cases i (wlen b)) as [L|L].
    - pose proof (pres_push_wpt i c b Hb) as G.
      destruct (push_wpt_ok i c b L) as (b' & P & E). rewrite P in *. simpl in *.
      eapply effect_keeps1; eassumption.
    - rewrite push_wpt_throw by assumption. apply keeps1_refl.
  Qed.
  Lemma k_push_sgmt : forall i c, preserves keeps1 (push_sgmt i c).
  Proof.
    intros i c b Hb. destruct (Nat.lt_ge_cases i (wlen b)) as [L|L].
    - pose proof (pres_push_sgmt i c b Hb) as G.
      destruct (push_sgmt_ok i c b L) as (b' & P & E). rewrite P in *. simpl in *.
      eapply effect_keeps1; eassumption.
    - unfold push_sgmt. rewrite upd_at_throw by assumption. apply keeps1_refl.
  Qed.
  Lemma k_WptConstraint : forall i c, preserves keeps1 (WptConstraint i c).
  Proof. intros. apply k_bind; [apply k_newWpts|intros; apply k_push_wpt]. Qed.
  Lemma k_SgmtConstraint : forall asserts f t c, preserves keeps1 (SgmtConstraint asserts f t c).
  Proof.
    intros. unfold SgmtConstraint.
    apply k_bind; [destruct (_ && _); auto using k_lift, k_ret|intros _].
    apply k_bind; [apply k_newWpts|intros _].
    apply k_bind; [apply k_push_wpt|intros _].
    apply k_for. intros. apply k_bind; [apply k_push_wpt|intros; apply k_push_sgmt].
  Qed.
  Lemma k_obstacle : forall asserts add o bumpers,
    (forall c, preserves keeps1 (add c)) -> preserves keeps1 (obstacle_loop asserts add o bumpers).
  Proof.
    intros asserts add o bumpers Hadd. induction bumpers as [|bu bumpers IH]; [apply k_ret|].
    cbn [obstacle_loop]. destruct (_ && _)%bool.
    - repeat (apply k_bind; [apply k_lift|intros]). apply Hadd.
    - apply k_bind; [|intros _; apply k_bind; [|intros _; exact IH]].
      + apply k_for. intros c. apply k_bind.
        * apply k_loop. intros i. repeat (apply k_bind; [apply k_lift|intros]). apply Hadd.
        * intros _. destruct (3 <=? _); [|apply k_ret].
          repeat (apply k_bind; [apply k_lift|intros]). apply Hadd.
      + apply k_for. intros c. destruct (1 <? _).
        * apply k_bind.
          -- apply k_loop. intros i. repeat (apply k_bind; [apply k_lift|intros]). apply Hadd.
          -- intros _. destruct (3 <=? _); [|apply k_ret].
             repeat (apply k_bind; [apply k_lift|intros]). apply Hadd.
        * repeat (apply k_bind; [apply k_lift|intros]). apply Hadd.
  Qed.

  Lemma keeps_set_guess : forall b g, grows b (set_guess b g) -> keeps b (set_guess b g).
  Proof.
    intros b g G. split; [assumption|]. unfold wlen. simpl. rewrite Nat.sub_diag. simpl.
    rewrite app_nil_r. auto.
  Qed.
  Lemma k_WptGuess : forall i p, preserves keeps1 (WptInitialGuessPoint i p).
  Proof.
    intros i p. apply k_bind; [apply k_newWpts|intros _].
    intros b Hb. unfold at_. destruct (nth_error (b_guess b) i) as [[|q l]|] eqn:E; simpl; auto using keeps1_refl.
    split.
    - apply keeps_set_guess. apply grows_set_guess; [apply upd_length|].
      intros F. apply Forall_upd; [assumption|]. intros. apply set_back_nonempty.
    - unfold one0, guess_at. simpl. destruct (b_guess b) as [|g gs]; [destruct i; auto|].
      destruct i; simpl; auto. intros H. unfold set_back. rewrite app_length. simpl.
      destruct g as [|a [|? ?]]; simpl in *; try discriminate. reflexivity.
  Qed.
  Lemma k_SgmtGuess : forall i ps b, inv b ->
    keeps b (fst (SgmtInitialGuessPoints i ps b)) /\
    (succ64 i <> 0 -> one0 b (fst (SgmtInitialGuessPoints i ps b))).
  Proof.
    intros i ps b Hb. unfold SgmtInitialGuessPoints, bbind, newWpts.
    pose proof (k_newWpts (succ64 i) b Hb) as (K1 & K2). simpl in K1, K2.
    set (b1 := NewWpts (succ64 i) b) in *.
    unfold upd_at. destruct (_ <? _) eqn:E; simpl; [|auto].
    split.
    - eapply keeps_trans; [exact K1|]. apply keeps_set_guess. apply grows_set_guess; [apply upd_length|].
      intros F. apply Forall_upd; [assumption|]. intros l Hl E'. destruct (app_eq_nil _ _ E'). auto.
    - intros N. unfold one0 in *. intros H. specialize (K2 H). unfold guess_at in *. simpl.
      destruct (b_guess b1); [reflexivity|]. destruct (succ64 i); [congruence|]. exact K2.
  Qed.

  (** A call that does not replace the counts / insert guesses before waypoint 0. *)
  Definition no_counts (o : op K) : Prop := match o with OControlIntervalCounts _ => False | _ => True end.
  Definition no_wrap (o : op K) : Prop :=
    match o with OSgmtInitialGuessPoints f _ => succ64 f <> 0 | _ => True end.

  Lemma run_op_keeps : forall asserts o b, inv b ->
    let b' := fst (run_op asserts o b) in
    grows b b' /\
    b_counts b' = counts_after o b b' /\
    b_bumpers b' = b_bumpers b ++ bumper_request o /\
    (no_wrap o -> one0 b b').
  Proof.
    intros asserts o b Hb.
    assert (D : forall m : bld K unit, preserves keeps1 m ->
      grows b (fst (m b)) /\
      b_counts (fst (m b)) = b_counts b ++ repeat 40 ((wlen (fst (m b)) - 1) - (wlen b - 1)) /\
      b_bumpers (fst (m b)) = b_bumpers b ++ [] /\ (True -> one0 b (fst (m b)))).
    { intros m Hm. destruct (Hm b Hb) as ((A & B & C & _ & _) & F). rewrite app_nil_r. auto. }
    assert (S0 : forall x, b_waypoints x = b_waypoints b -> b_guess x = b_guess b ->
      wlen x = wlen b /\ one0 b x).
    { intros x W G. unfold wlen, one0, guess_at. rewrite W, G. auto. }
    destruct o; cbn [run_op bumper_request counts_after no_wrap].
    - split; [apply grows_same; reflexivity|]. destruct (S0 (fst (SetDrivetrain d b)) eq_refl eq_refl) as [-> ?].
      rewrite Nat.sub_diag. simpl. rewrite !app_nil_r. auto.
    - apply D. apply k_bind; [apply k_WptConstraint|intros; apply k_WptGuess].
    - apply D. apply k_bind; [apply k_WptConstraint|intros; apply k_WptGuess].
    - apply D. apply k_WptGuess.
    - destruct (k_SgmtGuess fromIndex ps b Hb) as ((A & B & C & _ & _) & F). rewrite app_nil_r. auto.
    - split; [apply grows_same; reflexivity|]. destruct (S0 (fst (AddBumpers o b)) eq_refl eq_refl) as [-> ?].
      rewrite Nat.sub_diag. simpl. rewrite !app_nil_r. auto.
    - apply (D (WptObstacle asserts index o)). intros x Hx. apply k_obstacle; auto using k_WptConstraint.
    - apply (D (SgmtObstacle asserts fromIndex toIndex o)). intros x Hx.
      apply k_obstacle; auto using k_SgmtConstraint.
    - apply D. apply k_WptConstraint.
    - apply D. apply k_SgmtConstraint.
    - split; [apply grows_same; reflexivity|]. simpl. rewrite app_nil_r. split; [reflexivity|].
      split; [reflexivity|]. intros _ H. exact H.
    - split; [apply grows_same; reflexivity|].
      destruct (S0 (fst (AddIntermediateCallback cb b)) eq_refl eq_refl) as [-> ?].
      rewrite Nat.sub_diag. simpl. rewrite !app_nil_r. auto.
  Qed.

  Lemma run_ops_app : forall asserts h1 h2 b,
    run_ops asserts (h1 ++ h2) b = run_ops asserts h2 (run_ops asserts h1 b).
  Proof. intros. unfold run_ops. apply fold_left_app. Qed.

  Lemma run_ops_counts : forall asserts h b, inv b -> Forall no_counts h ->
    b_counts (run_ops asserts h b) =
    b_counts b ++ repeat 40 ((wlen (run_ops asserts h b) - 1) - (wlen b - 1)).
  Proof.
    intros asserts h. induction h as [|o h IH]; intros b Hb F.
    - simpl. rewrite Nat.sub_diag. simpl. rewrite app_nil_r. reflexivity.
    - inversion F; subst. simpl run_ops.
      destruct (run_op_keeps asserts o b Hb) as (G & C & _ & _).
      change (fold_left _ h ?x) with (run_ops asserts h x).
      set (b1 := fst (run_op asserts o b)) in *.
      assert (Hb1 : inv b1) by (apply G; assumption).
      rewrite IH by assumption. pose proof (run_ops_grows asserts h b1 Hb1) as (_ & G2 & _).
      destruct G as (_ & G & _).
      replace (counts_after o b b1) with (b_counts b ++ repeat 40 ((wlen b1 - 1) - (wlen b - 1))) in C
        by (destruct o; simpl in *; tauto).
      rewrite C, <- app_assoc, <- repeat_app. f_equal. f_equal. lia.
  Qed.
  Lemma run_ops_bumpers : forall asserts h b, inv b ->
    b_bumpers (run_ops asserts h b) = b_bumpers b ++ flat_map bumper_request h.
  Proof.
    intros asserts h. induction h as [|o h IH]; intros b Hb; [symmetry; apply app_nil_r|].
    destruct (run_op_keeps asserts o b Hb) as (G & _ & B & _).
    simpl. change (fold_left _ h ?x) with (run_ops asserts h x).
    rewrite IH by (apply G; assumption). rewrite B, <- app_assoc. reflexivity.
  Qed.
  Lemma run_ops_one0 : forall asserts h b, inv b -> Forall no_wrap h -> one0 b (run_ops asserts h b).
  Proof.
    intros asserts h. induction h as [|o h IH]; intros b Hb F; [intro H; exact H|].
    inversion F; subst. destruct (run_op_keeps asserts o b Hb) as (G & _ & _ & O).
    simpl. change (fold_left _ h ?x) with (run_ops asserts h x).
    intros H. apply IH; [apply G; assumption|assumption|]. apply O; assumption.
  Qed.

  (** ** C08 *)
  Lemma C08_proof : forall asserts h,
    let b := run_ops asserts h new_builder in
    length (b_guess b) = waypoint_count b /\
    (forall g, In g (b_guess b) -> g <> []) /\
    ((forall f ps, In (OSgmtInitialGuessPoints f ps) h -> in_size_t (S f)) ->
       0 < waypoint_count b -> exists p, nth_error (b_guess b) 0 = Some [p]) /\
    ((forall l, ~ In (OControlIntervalCounts l) h) ->
       b_counts b = repeat 40 (segment_count b)).
  Proof.
    intros asserts h b.
    assert (I : inv b) by (apply run_ops_inv; apply inv_new).
    pose proof I as (I1 & I2 & I3).
    split; [exact I1|]. split; [apply Forall_forall; exact I2|]. split.
    - intros Hw Hpos.
      assert (F : Forall no_wrap h).
      { apply Forall_forall. intros o Ho. destruct o; simpl; auto. specialize (Hw _ _ Ho).
        unfold in_size_t in Hw. rewrite succ64_small by assumption. discriminate. }
      pose proof (run_ops_one0 asserts h new_builder inv_new F eq_refl) as L.
      change (run_ops asserts h new_builder) with b in L. unfold guess_at in L.
      unfold waypoint_count in Hpos. change (length (b_waypoints b)) with (wlen b) in Hpos.
      destruct (b_guess b) as [|g gs]; [simpl in I1; lia|]. simpl in L |- *.
      destruct g as [|p [|? ?]]; simpl in L; try discriminate. eauto.
    - intros Hc.
      assert (F : Forall no_counts h).
      { apply Forall_forall. intros o Ho. destruct o; simpl; auto. apply (Hc _ Ho). }
      pose proof (run_ops_counts asserts h new_builder inv_new F) as C.
      change (run_ops asserts h new_builder) with b in C. rewrite C. simpl.
      unfold segment_count, wlen. simpl. rewrite Nat.sub_0_r. reflexivity.
  Qed.

  (** ** C10 *)
  Lemma C10_proof : forall asserts,
    (forall h1 l h2, (forall l', ~ In (OControlIntervalCounts l') h2) ->
       let before := run_ops asserts h1 new_builder in
       let after := run_ops asserts (h1 ++ OControlIntervalCounts l :: h2) new_builder in
       GetControlIntervalCounts after = l ++ repeat 40 (segment_count after - segment_count before)) /\
    (forall h, (forall l', ~ In (OControlIntervalCounts l') h) ->
       let after := run_ops asserts h new_builder in
       GetControlIntervalCounts after = repeat 40 (segment_count after)).
  Proof.
    intros asserts. split.
    - intros h1 l h2 Hn before after. unfold after. rewrite run_ops_app. fold before.
      simpl. change (fold_left _ h2 ?x) with (run_ops asserts h2 x).
      set (b1 := mkBuilder _ _ _ _ _ _).
      assert (I0 : inv before) by (apply run_ops_inv; apply inv_new).
      assert (I : inv b1) by exact I0.
      assert (F : Forall no_counts h2).
      { apply Forall_forall. intros o Ho. destruct o; simpl; auto. apply (Hn _ Ho). }
      unfold GetControlIntervalCounts. rewrite (run_ops_counts asserts h2 b1 I F). reflexivity.
    - intros h Hn after. apply C08_proof. assumption.
  Qed.

  (** ** Histories of calls that returned *)
  Lemma set_back_snoc : forall (l : list (Pose2 K)) p q, set_back (l ++ [p]) q = l ++ [q].
  Proof. intros. unfold set_back. rewrite removelast_last. reflexivity. Qed.

  Lemma history : forall asserts h b, inv b -> Forall small_points (b_bumpers b) ->
    Forall proper_call h -> all_returned asserts h b ->
    let b' := run_ops asserts h b in
    (forall i, constraints_at b' i = constraints_at b i ++ wpt_requests (b_bumpers b) h i) /\
    (forall i, segment_constraints_to b' i = segment_constraints_to b i ++ sgmt_requests (b_bumpers b) h i) /\
    (forall i ps d, guess_at b i = ps ++ [d] -> guess_at b' i = sgmt_guesses h i ++ ps ++ [last_guess d h i]).
  Proof.
    intros asserts h. induction h as [|o h IH]; intros b Hb Hs Hp Hr b'.
    - simpl in b'. subst b'. cbn [wpt_requests sgmt_requests sgmt_guesses last_guess].
      repeat split; intros; rewrite ?app_nil_r; auto.
    - inversion Hp; subst. destruct Hr as [Hr1 Hr2].
      destruct (run_op_returned asserts o b Hb H1 Hs Hr1) as (E1 & E2 & E3 & E4 & E5 & E6 & E7 & E8).
      set (b1 := fst (run_op asserts o b)) in *.
      assert (Hb1 : inv b1) by (apply (run_op_grows asserts o b Hb); assumption).
      assert (Hs1 : Forall small_points (b_bumpers b1)).
      { rewrite E6. apply Forall_app. split; [assumption|]. destruct o; simpl; auto. }
      destruct (IH b1 Hb1 Hs1 H2 Hr2) as (A1 & A2 & A3).
      change b' with (run_ops asserts h b1). cbn [wpt_requests sgmt_requests sgmt_guesses last_guess].
      rewrite E6 in A1, A2.
      split; [intros; rewrite A1, E2, app_assoc; reflexivity|].
      split; [intros; rewrite A2, E3, app_assoc; reflexivity|].
      intros i ps d Hg. rewrite <- app_assoc.
      specialize (E4 i). rewrite Hg in E4.
      destruct (wpt_guess o i) as [p|].
      + rewrite set_back_snoc in E4. rewrite app_assoc in E4. rewrite (A3 i _ _ E4), <- app_assoc. reflexivity.
      + rewrite app_assoc in E4. rewrite (A3 i _ _ E4), <- app_assoc. reflexivity.
  Qed.

  Lemma new_small : Forall small_points (b_bumpers (@new_builder K)).
  Proof. constructor. Qed.

  Lemma C11_proof : forall asserts h, Forall proper_call h -> all_returned asserts h new_builder ->
    forall i,
      constraints_at (run_ops asserts h new_builder) i = wpt_requests [] h i /\
      segment_constraints_to (run_ops asserts h new_builder) i = sgmt_requests [] h i.
  Proof.
    intros asserts h Hp Hr i.
    destruct (history asserts h new_builder inv_new new_small Hp Hr) as (A & B & _).
    rewrite A, B. split; destruct i; reflexivity.
  Qed.
  Lemma C12_proof : forall asserts h, Forall proper_call h -> all_returned asserts h new_builder ->
    forall i, i < waypoint_count (run_ops asserts h new_builder) ->
      nth_error (b_guess (run_ops asserts h new_builder)) i =
        Some (sgmt_guesses h i ++ [last_guess zero_pose h i]).
  Proof.
    intros asserts h Hp Hr i Hi.
    destruct (history asserts h new_builder inv_new new_small Hp Hr) as (_ & _ & C).
    specialize (C i [] zero_pose). cbn [app] in C.
    assert (I : inv (run_ops asserts h (@new_builder K))) by (apply run_ops_inv; apply inv_new).
    destruct I as (I1 & _).
    unfold waypoint_count in Hi. unfold wlen in I1.
    rewrite <- I1 in Hi. rewrite <- C by (destruct i; reflexivity). unfold guess_at.
    apply nth_error_nth'. assumption.
  Qed.

  (** ** C09 *)
  Lemma reach_small : forall asserts h, Forall proper_call h ->
    Forall small_points (b_bumpers (run_ops asserts h (@new_builder K))).
  Proof.
    intros asserts h Hp. rewrite run_ops_bumpers by apply inv_new. simpl.
    induction Hp as [|o h Ho Hp IH]; [constructor|]. simpl. apply Forall_app. split; [|exact IH].
    destruct o; simpl; auto.
  Qed.
  Lemma constraints_at_none : forall b i, waypoint_count b <= i ->
    constraints_at b i = [] /\ segment_constraints_to b i = [].
  Proof.
    intros b i H. unfold constraints_at, segment_constraints_to, waypoint_count in *.
    rewrite (proj2 (nth_error_None _ _) H). auto.
  Qed.
  Lemma nth_error_guess : forall b i, inv b -> i < wlen b -> nth_error (b_guess b) i = Some (guess_at b i).
  Proof.
    intros b i (I1 & _) H. unfold guess_at. apply nth_error_nth'. lia.
  Qed.

  Lemma C09_proof : forall asserts h o, Forall proper_call h -> proper_call o ->
    let b := run_ops asserts h new_builder in
    let b' := fst (run_op asserts o b) in
    snd (run_op asserts o b) = Ok tt ->
    waypoint_count b' = Nat.max (waypoint_count b) (needed (b_bumpers b) o) /\
    (forall i, i < waypoint_count b ->
       constraints_at b' i = constraints_at b i ++ wpt_request (b_bumpers b) o i /\
       segment_constraints_to b' i = segment_constraints_to b i ++ sgmt_request (b_bumpers b) o i /\
       (wpt_guess o i = None -> sgmt_guess o i = [] ->
        nth_error (b_guess b') i = nth_error (b_guess b) i)) /\
    (forall i, waypoint_count b <= i < waypoint_count b' ->
       (wpt_request (b_bumpers b) o i = [] -> constraints_at b' i = []) /\
       (sgmt_request (b_bumpers b) o i = [] -> segment_constraints_to b' i = []) /\
       (wpt_guess o i = None -> sgmt_guess o i = [] ->
        nth_error (b_guess b') i = Some [pose_xyh (nlit 0) (nlit 0) (nlit 0)])).
  Proof.
    intros asserts h o Hh Ho b b' Hr.
    assert (Hb : inv b) by (apply run_ops_inv; apply inv_new).
    assert (Hb' : inv b') by (apply (run_op_grows asserts o b Hb); assumption).
    destruct (run_op_returned asserts o b Hb Ho (reach_small asserts h Hh) Hr)
      as (E1 & E2 & E3 & E4 & _). fold b' in E1, E2, E3, E4.
    split; [exact E1|]. split.
    - intros i Hi. split; [apply E2|]. split; [apply E3|]. intros Hw Hg.
      rewrite nth_error_guess by (try assumption; rewrite E1; unfold waypoint_count, wlen in *; lia).
      rewrite nth_error_guess by assumption.
      rewrite E4, Hw, Hg. reflexivity.
    - intros i Hi. destruct (constraints_at_none b i) as [N1 N2]; [lia|].
      split; [intros Z; rewrite E2, N1, Z; reflexivity|].
      split; [intros Z; rewrite E3, N2, Z; reflexivity|].
      intros Hw Hg. rewrite nth_error_guess by (try assumption; apply Hi).
      rewrite E4, Hw, Hg. unfold guess_at.
      rewrite nth_overflow; [reflexivity|]. destruct Hb as (-> & _). apply Hi.
  Qed.

  (** Constraint lists grow by appending, also when a call fails. *)
  Lemma C09_append_proof : forall asserts h1 h2 i,
    let b := run_ops asserts h1 new_builder in
    let b' := run_ops asserts (h1 ++ h2) new_builder in
    waypoint_count b <= waypoint_count b' /\
    (exists u, constraints_at b' i = constraints_at b i ++ u) /\
    (exists v, segment_constraints_to b' i = segment_constraints_to b i ++ v).
  Proof.
    intros asserts h1 h2 i b b'. unfold b'. rewrite run_ops_app. fold b.
    assert (Hb : inv b) by (apply run_ops_inv; apply inv_new).
    destruct (run_ops_grows asserts h2 b Hb) as (_ & G1 & G2).
    split; [exact G1|]. unfold constraints_at, segment_constraints_to.
    destruct (nth_error (b_waypoints b) i) as [w|] eqn:E; [|split; eexists; reflexivity].
    destruct (G2 i w E) as (u & v & ->). simpl. eauto.
  Qed.

  (** ** C41 *)
  Lemma C41_proof : forall asserts b,
    (b_bumpers b = [] -> forall i f t o,
       run_op asserts (OWptObstacle i o) b = (b, Ok tt) /\
       run_op asserts (OSgmtObstacle f t o) b = (b, Ok tt)) /\
    (forall o, let b' := fst (run_op asserts (OAddBumpers o) b) in
       snd (run_op asserts (OAddBumpers o) b) = Ok tt /\
       b_waypoints b' = b_waypoints b /\ b_guess b' = b_guess b /\ b_counts b' = b_counts b /\
       b_bumpers b' = b_bumpers b ++ [o]).
  Proof.
    intros asserts b. split.
    - intros E i f t o. cbn [run_op]. unfold WptObstacle, SgmtObstacle. rewrite E. split; reflexivity.
    - intros o b'. repeat split.
  Qed.
  (** The bumpers a call sees are those added before it. *)
  Lemma C41_bumpers_proof : forall asserts h,
    b_bumpers (run_ops asserts h new_builder) = flat_map bumper_request h.
  Proof. intros. rewrite run_ops_bumpers by apply inv_new. reflexivity. Qed.

  (** ** C42 *)
  Lemma huge_max63 : forall i, huge i -> max63 <= i /\ (Z.of_nat i < two64)%Z.
  Proof.
    intros i [H1 H2]. split; [|exact H2]. apply Nat2Z.inj_le. rewrite max63_Z. exact H1.
  Qed.

  Lemma run_op_fail_sgmt : forall asserts f t c b, inv b -> huge t -> f < t ->
    snd (SgmtConstraint asserts f t c b) = Throw OutOfRange.
  Proof.
    intros asserts f t c b Hb Ht Hft. destruct (huge_max63 t Ht) as [G Ht'].
    unfold SgmtConstraint. replace (f <? t) with true by (symmetry; apply Nat.ltb_lt; lia).
    cbn [negb]. rewrite andb_false_r. unfold bbind at 1. simpl.
    unfold bbind at 1, newWpts. rewrite NewWpts_big by (try apply Hb; assumption).
    unfold bbind at 1. destruct (Nat.lt_ge_cases f (wlen b)) as [L|L].
    2: { rewrite push_wpt_throw by assumption. reflexivity. }
    destruct (push_wpt_ok f c b L) as (b1 & P & E). rewrite P.
    assert (W : wlen b1 = wlen b) by (rewrite (effect_wlen _ _ _ _ _ E); lia).
    assert (Hw : wlen b <= t) by (destruct Hb as (_ & _ & ?); lia).
    clear P E Hb. 
    assert (Q : forall n s b1, wlen b1 < s + n -> 
      snd (bfor (seq s n) (fun i => push_wpt i c ;~ push_sgmt i c) b1) = Throw OutOfRange \/ wlen b1 < s).
    { induction n as [|n IH]; intros s b2 Hn; [right; lia|].
      destruct (Nat.lt_ge_cases (wlen b2) s) as [L1|L1]; [auto|]. left.
      cbn [seq bfor]. unfold bbind.
      destruct (Nat.lt_ge_cases s (wlen b2)) as [L2|L2].
      - destruct (push_wpt_ok s c b2 L2) as (b3 & P3 & E3). rewrite P3.
        assert (W3 : wlen b3 = wlen b2) by (rewrite (effect_wlen _ _ _ _ _ E3); lia).
        destruct (push_sgmt_ok s c b3) as (b4 & P4 & E4); [lia|]. rewrite P4.
        assert (W4 : wlen b4 = wlen b3) by (rewrite (effect_wlen _ _ _ _ _ E4); lia).
        destruct (IH (S s) b4) as [Q|Q]; [lia|exact Q|lia].
      - rewrite push_wpt_throw by assumption. reflexivity. }
    destruct (Q (t - f) (S f) b1) as [H|H]; [lia|exact H|lia].
  Qed.

  Lemma C42_proof : forall asserts h o,
    let b := run_ops asserts h new_builder in
    let b' := fst (run_op asserts o b) in
    (* single-waypoint calls with an unusable index: exception, no change *)
    (match o with
     | OPoseWpt i _ _ _ | OTranslationWpt i _ _ _ | OWptInitialGuessPoint i _
     | OWptConstraint i _ => huge i
     | OSgmtInitialGuessPoints f _ => huge (S f)
     | _ => False
     end -> run_op asserts o b = (b, Throw OutOfRange)) /\
    (* segment constraints: exception *)
    (forall f t c, o = OSgmtConstraint f t c -> f < t -> huge t ->
       snd (run_op asserts o b) = Throw OutOfRange) /\
    (* whatever the outcome: invariants kept, nothing recorded is lost *)
    length (b_guess b') = waypoint_count b' /\
    (forall g, In g (b_guess b') -> g <> []) /\
    (forall i, exists u v, constraints_at b' i = constraints_at b i ++ u /\
                           segment_constraints_to b' i = segment_constraints_to b i ++ v).
  Proof.
    intros asserts h o b b'.
    assert (Hb : inv b) by (apply run_ops_inv; apply inv_new).
    destruct (run_op_grows asserts o b Hb) as (G & G1 & G2). fold b' in G, G1, G2.
    destruct (G Hb) as (I1 & I2 & I3).
    split; [|split; [|split; [exact I1|split; [apply Forall_forall; exact I2|]]]].
    - intros Hu. destruct o; try destruct Hu; cbn [run_op].
      + destruct (huge_max63 index) as [L1 L2]; [split; assumption|].
        unfold PoseWpt, bbind. rewrite WptConstraint_big by assumption. reflexivity.
      + destruct (huge_max63 index) as [L1 L2]; [split; assumption|].
        unfold TranslationWpt, bbind. rewrite WptConstraint_big by assumption. reflexivity.
      + destruct (huge_max63 wptIndex) as [L1 L2]; [split; assumption|]. apply WptGuess_big; assumption.
      + destruct (huge_max63 (S fromIndex)) as [L1 L2]; [split; assumption|]. apply SgmtGuess_big; assumption.
      + destruct (huge_max63 index) as [L1 L2]; [split; assumption|]. apply WptConstraint_big; assumption.
    - intros f t c -> Hft Ht. apply run_op_fail_sgmt; assumption.
    - intros i. unfold constraints_at, segment_constraints_to.
      destruct (nth_error (b_waypoints b) i) as [w|] eqn:E.
      + destruct (G2 i w E) as (u & v & ->). simpl. eauto.
      + eexists _, _. split; reflexivity.
  Qed.

  (** ** C59: no undefined behaviour *)
  Definition fine (asserts : bool) {A} (o : outcome A) : Prop :=
    match o with
    | Ok _ => True
    | Throw e => e = OutOfRange
    | AssertFail => asserts = true
    | Undef _ | OutOfFuel => False
    end.
  Definition safe (asserts : bool) {A} (m : bld K A) : Prop :=
    preserves grows m /\ forall b, inv b -> fine asserts (snd (m b)).
  Lemma safe_bind : forall asserts {A B} (m : bld K A) (f : A -> bld K B),
    safe asserts m -> (forall a, safe asserts (f a)) -> safe asserts (bbind m f).
  Proof.
    intros asserts A B m f [M1 M2] F. split; [apply pres_bind; [assumption|intros; apply F]|].
    intros b Hb. specialize (M1 b Hb). specialize (M2 b Hb). unfold bbind.
    destruct (m b) as [b1 [a|e| |u|]]; simpl in *; auto.
    apply F. apply M1. assumption.
  Qed.
  Lemma safe_lift : forall asserts {A} (o : outcome A), fine asserts o -> safe asserts (blift o).
  Proof. intros. split; [apply pres_lift|]. intros. assumption. Qed.
  Lemma safe_ret : forall asserts {A} (a : A), safe asserts (bret a).
  Proof. intros. split; [apply pres_ret|]. intros. exact I. Qed.
  Lemma safe_for : forall asserts {A} (l : list A) (f : A -> bld K unit),
    (forall a, safe asserts (f a)) -> safe asserts (bfor l f).
  Proof. induction l; intros; simpl; [apply safe_ret|]. apply safe_bind; auto. Qed.
  Lemma fine_at : forall asserts {A} (l : list A) i, fine asserts (at_ l i).
  Proof. intros. unfold at_. destruct (nth_error l i); simpl; auto. Qed.
  Lemma fine_assert : forall asserts {A} d (a : A), fine asserts (assert_nonneg asserts d a).
  Proof. intros [] A d a; unfold assert_nonneg; simpl; auto. destruct (negb _); simpl; auto. Qed.
  Lemma safe_loop : forall asserts {A} (l : list A) fuel i bound (g : A -> A -> bld K unit),
    i <= length l -> length l < i + fuel -> (forall p q, safe asserts (g p q)) ->
    safe asserts (bloop fuel i bound (fun i => p <~ blift (at_ l i) ;; q <~ blift (at_ l (S i)) ;; g p q)).
  Proof.
    intros asserts A l. induction fuel; intros i bound g Hi Hf Hg; cbn [bloop]; [lia|].
    destruct (_ <? bound)%Z; [|apply safe_ret].
    destruct (Nat.lt_ge_cases (S i) (length l)) as [L|L].
    - apply safe_bind.
      + apply safe_bind; [apply safe_lift, fine_at|intros]. apply safe_bind; [apply safe_lift, fine_at|auto].
      + intros _. apply IHfuel; auto; lia.
    - assert (E : forall b, (bbind (p <~ blift (at_ l i) ;; q <~ blift (at_ l (S i)) ;; g p q)
        (fun _ => bloop fuel (S i) bound (fun i => p <~ blift (at_ l i) ;; q <~ blift (at_ l (S i)) ;; g p q)))
        b = (b, Throw OutOfRange)).
      { intros b. unfold bbind, blift. rewrite (at_throw l (S i)) by lia.
        unfold at_. destruct (nth_error l i); reflexivity. }
      split; intros b Hb; rewrite E; [apply grows_refl|reflexivity].
  Qed.

  Lemma safe_newWpts : forall asserts i, safe asserts (newWpts i).
  Proof. intros. split; [apply pres_newWpts|]. intros. exact I. Qed.
  Lemma safe_push_wpt : forall asserts i c, safe asserts (push_wpt i c).
  Proof.
    intros. split; [apply pres_push_wpt|]. intros b Hb. unfold push_wpt, upd_at.
    destruct (_ <? _); simpl; auto.
  Qed.
  Lemma safe_push_sgmt : forall asserts i c, safe asserts (push_sgmt i c).
  Proof.
    intros. split; [apply pres_push_sgmt|]. intros b Hb. unfold push_sgmt, upd_at.
    destruct (_ <? _); simpl; auto.
  Qed.
  Lemma safe_WptConstraint : forall asserts i c, safe asserts (WptConstraint i c).
  Proof. intros. apply safe_bind; [apply safe_newWpts|intros; apply safe_push_wpt]. Qed.
  Lemma safe_SgmtConstraint : forall asserts f t c, safe asserts (SgmtConstraint asserts f t c).
  Proof.
    intros. unfold SgmtConstraint.
    apply safe_bind; [destruct asserts, (f <? t); simpl; auto using safe_ret; apply safe_lift; reflexivity|intros _].
    apply safe_bind; [apply safe_newWpts|intros _].
    apply safe_bind; [apply safe_push_wpt|intros _].
    apply safe_for. intros. apply safe_bind; [apply safe_push_wpt|intros; apply safe_push_sgmt].
  Qed.
  Ltac safe_steps := repeat first [apply safe_bind; [apply safe_lift; first [apply fine_at|apply fine_assert]|intros]].
  Lemma safe_obstacle : forall asserts add o bumpers,
    (forall c, safe asserts (add c)) -> safe asserts (obstacle_loop asserts add o bumpers).
  Proof.
    intros asserts add o bumpers Hadd. induction bumpers as [|bu bumpers IH]; [apply safe_ret|].
    cbn [obstacle_loop]. destruct (_ && _)%bool.
    - safe_steps. apply Hadd.
    - apply safe_bind; [|intros _; apply safe_bind; [|intros _; exact IH]].
      + apply safe_for. intros c. apply safe_bind.
        * apply safe_loop; [lia|lia|]. intros. safe_steps. apply Hadd.
        * intros _. destruct (3 <=? _); [|apply safe_ret]. safe_steps. apply Hadd.
      + apply safe_for. intros c. destruct (1 <? _).
        * apply safe_bind.
          -- apply safe_loop; [lia|lia|]. intros. safe_steps. apply Hadd.
          -- intros _. destruct (3 <=? _); [|apply safe_ret]. safe_steps. apply Hadd.
        * safe_steps. apply Hadd.
  Qed.
  Lemma safe_WptGuess : forall asserts i p, safe asserts (WptInitialGuessPoint i p).
  Proof.
    intros. apply safe_bind; [apply safe_newWpts|intros _]. split.
    - intros b Hb. unfold at_. destruct (nth_error _ _) as [[|q l]|]; simpl; auto using grows_refl.
      apply grows_set_guess; [apply upd_length|].
      intros F. apply Forall_upd; [assumption|]. intros. apply set_back_nonempty.
    - intros b (_ & F & _). unfold at_. destruct (nth_error (b_guess b) i) as [[|q l]|] eqn:E; simpl; auto.
      apply nth_error_In in E. rewrite Forall_forall in F. apply (F _ E). reflexivity.
  Qed.
  Lemma safe_SgmtGuess : forall asserts i ps, safe asserts (SgmtInitialGuessPoints i ps).
  Proof.
    intros. split; [apply pres_SgmtGuess|]. intros b Hb.
    unfold SgmtInitialGuessPoints, bbind, newWpts, upd_at. destruct (_ <? _); simpl; auto.
  Qed.

  Lemma C59_proof : forall asserts h o,
    match snd (run_op asserts o (run_ops asserts h new_builder)) with
    | Ok _ => True
    | Throw e => e = OutOfRange
    | AssertFail => asserts = true
    | Undef _ | OutOfFuel => False
    end.
  Proof.
    intros asserts h o. set (b := run_ops asserts h new_builder).
    assert (Hb : inv b) by (apply run_ops_inv; apply inv_new).
    change (fine asserts (snd (run_op asserts o b))).
    destruct o; cbn [run_op]; try exact I.
    - apply safe_bind; [apply safe_WptConstraint|intros; apply safe_WptGuess|assumption].
    - apply safe_bind; [apply safe_WptConstraint|intros; apply safe_WptGuess|assumption].
    - apply safe_WptGuess; assumption.
    - apply safe_SgmtGuess; assumption.
    - apply safe_obstacle; auto using safe_WptConstraint.
    - apply safe_obstacle; auto using safe_SgmtConstraint.
    - apply safe_WptConstraint; assumption.
    - apply safe_SgmtConstraint; assumption.
  Qed.

  (** ** C38, C39 *)
  Lemma nth_last_tr : forall (ps : list (Translation2 K)) n, n = length ps -> 
    outline_from (n - 1) ps = outline ps.
  Proof. intros; subst; reflexivity. Qed.

  Definition matched (bu o : obstacle K) : Prop :=
    length (o_points bu) = length (o_points o) \/ length (o_points o) < 3.

  Lemma outline_small : forall k (ps : list (Translation2 K)), length ps < 3 ->
    outline_from k ps = outline ps.
  Proof.
    intros k ps H. unfold outline, outline_from. destruct (Nat.leb_spec 3 (length ps)); [lia|reflexivity].
  Qed.

  Lemma actual_documented : forall bumpers o,
    Forall (fun bu => matched bu o) bumpers ->
    Forall (fun bu => length (o_points bu) <> 1 \/ length (o_points o) <> 1) bumpers ->
    actual_obstacle bumpers o = documented_obstacle bumpers o.
  Proof.
    intros bumpers o. induction bumpers as [|bu rest IH]; intros Hm Hs; [reflexivity|].
    inversion Hm as [|? ? M Hm']; inversion Hs as [|? ? S1 Hs']; subst. cbn [actual_obstacle documented_obstacle flat_map].
    replace ((length (o_points bu) =? 1) && (length (o_points o) =? 1)) with false.
    2: { symmetry. apply andb_false_iff. rewrite !Nat.eqb_neq. tauto. }
    rewrite IH by assumption. f_equal. unfold pair_constraints.
    f_equal. destruct M as [M|M]; [rewrite (nth_last_tr _ _ M)|rewrite outline_small by assumption]; reflexivity.
  Qed.

  Lemma accepts_all_intro : forall asserts bumpers o,
    Forall (fun bu => accepts asserts bu o) bumpers -> accepts_all asserts bumpers o.
  Proof. induction 1; simpl; auto. Qed.

  Lemma obstacle_call_ok : forall asserts b, inv b ->
    forall o, Forall small_points (b_bumpers b) -> small_points o ->
    Forall (fun bu => accepts asserts bu o) (b_bumpers b) ->
    (forall i, i < max63 -> snd (run_op asserts (OWptObstacle i o) b) = Ok tt) /\
       (forall f t, f < t -> t < max63 -> snd (run_op asserts (OSgmtObstacle f t o) b) = Ok tt).
  Proof.
    intros asserts b Hb o Hs Ho Ha. split.
    - intros i Hi. cbn [run_op]. unfold WptObstacle.
      rewrite obstacle_loop_eq by auto using accepts_all_intro.
      destruct (bfor_effect (WptConstraint i) (S i) (only i) (fun _ => none)
          (fun c b Hb => WptConstraint_ok i c b Hb Hi) (actual_obstacle (b_bumpers b) o) b Hb) as (b2 & -> & _).
      reflexivity.
    - intros f t Hft Ht. cbn [run_op]. unfold SgmtObstacle.
      rewrite obstacle_loop_eq by auto using accepts_all_intro.
      destruct (bfor_effect (SgmtConstraint asserts f t) (S t)
          (fun c => within f t [c]) (fun c => within' f t [c])
          (fun c b Hb => SgmtConstraint_ok asserts f t c b Hb Hft Ht) (actual_obstacle (b_bumpers b) o) b Hb)
          as (b2 & -> & _).
      reflexivity.
  Qed.

  (** The obstacle call as documented, for matching corner counts. *)
  Lemma C38_partial_proof : forall asserts h o, Forall proper_call h ->
    in_size_t (length (o_points o)) -> o_points o <> [] ->
    let b := run_ops asserts h new_builder in
    let bumpers := flat_map bumper_request h in
    Forall (fun bu => o_points bu <> []) bumpers ->
    Forall (fun bu => length (o_points bu) = length (o_points o) \/ length (o_points o) < 3) bumpers ->
    Forall (fun bu => length (o_points bu) <> 1 \/ length (o_points o) <> 1) bumpers ->
    (asserts = true -> Forall (fun bu =>
       nleb (nlit 0) (nadd (o_safetyDistance bu) (o_safetyDistance o)) = true) bumpers) ->
    (forall i, (Z.of_nat i < 2 ^ 63)%Z ->
       let r := run_op asserts (OWptObstacle i o) b in
       snd r = Ok tt /\
       (forall j, constraints_at (fst r) j = constraints_at b j ++
          if j =? i then documented_obstacle bumpers o else []) /\
       (forall j, segment_constraints_to (fst r) j = segment_constraints_to b j)) /\
       (forall f t, f < t -> (Z.of_nat t < 2 ^ 63)%Z ->
       let r := run_op asserts (OSgmtObstacle f t o) b in
       snd r = Ok tt /\
       (forall j, constraints_at (fst r) j = constraints_at b j ++
          if (f <=? j) && (j <=? t) then documented_obstacle bumpers o else []) /\
       (forall j, segment_constraints_to (fst r) j = segment_constraints_to b j ++
          if (f <? j) && (j <=? t) then documented_obstacle bumpers o else [])).
  Proof.
    intros asserts h o Hh Ho Hne b bumpers Hb1 Hb2 Hb3 Hb4.
    assert (Hb : inv b) by (apply run_ops_inv; apply inv_new).
    assert (EB : b_bumpers b = bumpers) by apply C41_bumpers_proof.
    assert (Hs : Forall small_points (b_bumpers b)) by (apply reach_small; assumption).
    assert (Hacc : Forall (fun bu => accepts asserts bu o) (b_bumpers b)).
    { rewrite EB. rewrite Forall_forall in *. intros bu Hin. right.
      specialize (Hb1 bu Hin). specialize (Hb2 bu Hin).
      split; [destruct (o_points bu); [congruence|simpl; lia]|].
      split; [destruct (o_points o); [congruence|simpl; lia]|].
      split; [intros; lia|]. intros E. exact (Hb4 E bu Hin). }
    assert (L63 : forall i, (Z.of_nat i < 2 ^ 63)%Z -> i < max63 /\ in_size_t i).
    { intros i Hi. split; [apply Nat2Z.inj_lt; rewrite max63_Z; exact Hi|].
      unfold in_size_t. change (2 ^ 64)%Z with 18446744073709551616%Z. rewrite pow63_val in Hi. lia. }
    destruct (obstacle_call_ok asserts b Hb o Hs Ho Hacc) as [O1 O2].
    assert (EA : actual_obstacle (b_bumpers b) o = documented_obstacle bumpers o).
    { rewrite EB. apply actual_documented; assumption. }
    split.
    - intros i Hi r. destruct (L63 i Hi) as [Hi1 Hi2]. split; [apply O1; assumption|].
      destruct (run_op_returned asserts (OWptObstacle i o) b Hb (conj Hi2 Ho) Hs (O1 i Hi1))
        as (_ & E2 & E3 & _).
      split; intros j; [rewrite <- EA; apply E2|]. unfold r. rewrite E3. cbn [sgmt_request]. apply app_nil_r.
    - intros f t Hft Ht r. destruct (L63 t Ht) as [Hi1 Hi2]. split; [apply O2; assumption|].
      assert (Hf : in_size_t f) by (unfold in_size_t in *; lia).
      destruct (run_op_returned asserts (OSgmtObstacle f t o) b Hb
        (conj Hf (conj Hi2 (conj Hft Ho))) Hs (O2 f t Hft Hi1)) as (_ & E2 & E3 & _).
      split; intros j; rewrite <- EA; [apply E2|apply E3].
  Qed.

  (** Every bumper is considered unless one faces the obstacle point to point. *)
  Lemma C39_partial_proof : forall (bumpers : list (obstacle K)) o,
    (forall bu, In bu bumpers -> length (o_points bu) <> 1 \/ length (o_points o) <> 1) ->
    actual_obstacle bumpers o = flat_map (fun bu => actual_obstacle [bu] o) bumpers.
  Proof.
    intros bumpers o H. induction bumpers as [|bu rest IH]; [reflexivity|].
    cbn [flat_map]. rewrite <- IH by (intros; apply H; right; assumption).
    cbn [actual_obstacle].
    replace ((length (o_points bu) =? 1) && (length (o_points o) =? 1)) with false.
    2: { symmetry. apply andb_false_iff. rewrite !Nat.eqb_neq. apply H. left. reflexivity. }
    rewrite app_nil_r. reflexivity.
  Qed.
End BH.
