(** Proofs of the builder properties C08-C12, C38, C39, C41, C42, C59. *)
From Coq Require Import List Lia ZArith Bool.
Import ListNotations.
From Verif Require Import Outcome Num Geometry Constraints Builder UtilFacts BuilderFacts SpecBuilder
  BuilderEffects.
Local Open Scope nat_scope.

Section BP.
  Context {K : Type} {HA : Arith K} {HD : Dbl K}.
  Implicit Types b : builder K.

  (** ** Guess calls *)
  Definition guess_effect b b' (n : nat) (i : nat) (f : list (Pose2 K) -> list (Pose2 K)) : Prop :=
    wlen b' = Nat.max (wlen b) n /\
    (forall j, constraints_at b' j = constraints_at b j) /\
    (forall j, segment_constraints_to b' j = segment_constraints_to b j) /\
    (forall j, guess_at b' j = if j =? i then f (guess_at b j) else guess_at b j) /\
    b_counts b' = b_counts b ++ repeat 40 ((wlen b' - 1) - (wlen b - 1)) /\
    b_bumpers b' = b_bumpers b /\ b_drivetrain b' = b_drivetrain b /\
    b_callbacks b' = b_callbacks b.

  Lemma guess_upd : forall b n i f, inv b -> i < n -> n <= max63 ->
    guess_effect b (set_guess (extend n b) (upd (b_guess (extend n b)) i f)) n i f.
  Proof.
    intros b n i f Hb Hi Hn.
    destruct (effect_extend n b Hb Hn) as ((E1 & E2 & E3) & E4 & E5 & E6 & E7 & E8 & E9).
    unfold guess_effect.
    split; [exact E1|]. split; [intros; specialize (E2 j); unfold none in E2; rewrite app_nil_r in E2; exact E2|].
    split; [intros; specialize (E3 j); unfold none in E3; rewrite app_nil_r in E3; exact E3|].
    split.
    - intros j. rewrite <- (E4 j). unfold guess_at. cbn [set_guess b_guess].
      destruct (Nat.lt_ge_cases j (length (b_guess (extend n b)))) as [L|L].
      + destruct (nth_error (b_guess (extend n b)) j) as [g|] eqn:Eg.
        2: { apply nth_error_None in Eg. lia. }
        rewrite (nth_error_nth _ _ _ Eg).
        apply nth_error_nth. rewrite upd_nth, Eg. destruct (j =? i); reflexivity.
      + assert (length (b_guess (extend n b)) = wlen (extend n b)) as EL by apply (E9 Hb).
        rewrite wlen_extend in EL.
        rewrite !nth_overflow by (rewrite ?upd_length; assumption).
        destruct (Nat.eqb_spec j i); [lia|reflexivity].
    - repeat split; assumption.
  Qed.

  Lemma inv_guess_nonempty : forall b i, inv b -> guess_at b i <> [].
  Proof.
    intros b i (_ & F & _). unfold guess_at.
    destruct (nth_in_or_default i (b_guess b) [zero_pose]) as [H| ->]; [|discriminate].
    rewrite Forall_forall in F. auto.
  Qed.

  Lemma WptGuess_ok : forall i p b, inv b -> i < max63 ->
    exists b', WptInitialGuessPoint i p b = (b', Ok tt) /\
      guess_effect b b' (S i) i (fun l => set_back l p).
  Proof.
    intros i p b Hb Hi. eexists. split; [|apply (guess_upd b (S i) i (fun l => set_back l p) Hb); lia].
    unfold WptInitialGuessPoint, bbind, newWpts. rewrite NewWpts_small by (try apply Hb; assumption).
    assert (I : inv (extend (S i) b)) by (apply inv_extend; [assumption|lia]).
    pose proof (wlen_extend (S i) b) as W. destruct I as (I1 & I2 & I3).
    unfold at_. destruct (nth_error (b_guess (extend (S i) b)) i) as [[|q l]|] eqn:E.
    - exfalso. rewrite Forall_forall in I2. apply nth_error_In in E. apply (I2 [] E). reflexivity.
    - reflexivity.
    - apply nth_error_None in E. lia.
  Qed.
  Lemma WptGuess_big : forall i p b, inv b -> max63 <= i -> (Z.of_nat i < two64)%Z ->
    WptInitialGuessPoint i p b = (b, Throw OutOfRange).
  Proof.
    intros i p b Hb Hi Hi'. unfold WptInitialGuessPoint, bbind, newWpts.
    rewrite NewWpts_big by (try apply Hb; assumption).
    unfold at_. destruct (nth_error (b_guess b) i) eqn:E; [|reflexivity].
    assert (i < length (b_guess b)) by (apply nth_error_Some; congruence).
    destruct Hb as (? & _ & ?). lia.
  Qed.
  Lemma succ64_small : forall f, (Z.of_nat (S f) < two64)%Z -> succ64 f = S f.
  Proof. intros f H. unfold succ64. destruct (Z.eqb_spec (Z.of_nat f) (two64 - 1)); lia. Qed.
  Lemma SgmtGuess_ok : forall f ps b, inv b -> S f < max63 ->
    exists b', SgmtInitialGuessPoints f ps b = (b', Ok tt) /\
      guess_effect b b' (S (S f)) (S f) (fun l => ps ++ l).
  Proof.
    intros f ps b Hb Hi. eexists. split; [|apply (guess_upd b (S (S f)) (S f) (fun l => ps ++ l) Hb); lia].
    unfold SgmtInitialGuessPoints, bbind, newWpts.
    rewrite succ64_small by (apply inj_lt in Hi; rewrite max63_Z, pow63_val in Hi; rewrite two64_val; lia).
    rewrite NewWpts_small by (try apply Hb; assumption).
    assert (I : inv (extend (S (S f)) b)) by (apply inv_extend; [assumption|lia]).
    pose proof (wlen_extend (S (S f)) b) as W. destruct I as (I1 & I2 & I3).
    rewrite upd_at_ok by lia. reflexivity.
  Qed.
  Lemma SgmtGuess_big : forall f ps b, inv b -> max63 <= S f -> (Z.of_nat (S f) < two64)%Z ->
    SgmtInitialGuessPoints f ps b = (b, Throw OutOfRange).
  Proof.
    intros f ps b Hb Hi Hi'. unfold SgmtInitialGuessPoints, bbind, newWpts.
    rewrite succ64_small by assumption.
    rewrite NewWpts_big by (try apply Hb; assumption).
    rewrite upd_at_throw; [reflexivity|]. destruct Hb as (? & _ & ?). lia.
  Qed.

  (** ** One call that returned *)
  Definition counts_after (o : op K) b b' : list nat :=
    match o with
    | OControlIntervalCounts l => l
    | _ => b_counts b ++ repeat 40 ((wlen b' - 1) - (wlen b - 1))
    end.
  Definition op_effect (o : op K) b b' : Prop :=
    wlen b' = Nat.max (wlen b) (needed (b_bumpers b) o) /\
    (forall j, constraints_at b' j = constraints_at b j ++ wpt_request (b_bumpers b) o j) /\
    (forall j, segment_constraints_to b' j = segment_constraints_to b j ++ sgmt_request (b_bumpers b) o j) /\
    (forall j, guess_at b' j = sgmt_guess o j ++
       match wpt_guess o j with Some p => set_back (guess_at b j) p | None => guess_at b j end) /\
    b_counts b' = counts_after o b b' /\
    b_bumpers b' = b_bumpers b ++ bumper_request o /\
    b_drivetrain b' = match o with OSetDrivetrain d => Some d | _ => b_drivetrain b end /\
    b_callbacks b' = b_callbacks b ++ match o with OAddIntermediateCallback c => [c] | _ => [] end.

  Lemma effect_op : forall o b b' u v,
    effect b b' (needed (b_bumpers b) o) u v ->
    (forall j, u j = wpt_request (b_bumpers b) o j) -> (forall j, v j = sgmt_request (b_bumpers b) o j) ->
    (forall j, sgmt_guess o j = []) -> (forall j, wpt_guess o j = None) ->
    match o with OControlIntervalCounts _ | OAddBumpers _ | OSetDrivetrain _
               | OAddIntermediateCallback _ => False | _ => True end ->
    op_effect o b b'.
  Proof.
    intros o b b' u v ((E1 & E2 & E3) & E4 & E5 & E6 & E7 & E8 & E9) Hu Hv Hg Hw Ho.
    unfold op_effect.
    split; [exact E1|]. split; [intros; rewrite E2, Hu; reflexivity|].
    split; [intros; rewrite E3, Hv; reflexivity|].
    split; [intros; rewrite Hg, Hw; apply E4|].
    destruct o; try destruct Ho; simpl; rewrite ?app_nil_r; repeat split; assumption.
  Qed.

  Lemma guess_op : forall o b b' n i f,
    guess_effect b b' n i f -> needed (b_bumpers b) o = n ->
    (forall j, wpt_request (b_bumpers b) o j = []) -> (forall j, sgmt_request (b_bumpers b) o j = []) ->
    (forall j l, (if j =? i then f l else l) =
       sgmt_guess o j ++ match wpt_guess o j with Some p => set_back l p | None => l end) ->
    match o with OControlIntervalCounts _ | OAddBumpers _ | OSetDrivetrain _
               | OAddIntermediateCallback _ => False | _ => True end ->
    op_effect o b b'.
  Proof.
    intros o b b' n i f (E1 & E2 & E3 & E4 & E5 & E6 & E7 & E8) Hn Hu Hv Hg Ho.
    unfold op_effect. subst n.
    split; [exact E1|]. split; [intros; rewrite E2, Hu, app_nil_r; reflexivity|].
    split; [intros; rewrite E3, Hv, app_nil_r; reflexivity|].
    split; [intros; rewrite <- Hg; apply E4|].
    destruct o; try destruct Ho; simpl; rewrite ?app_nil_r; repeat split; assumption.
  Qed.

  Lemma op_effect_same : forall o b b', b_waypoints b' = b_waypoints b -> b_guess b' = b_guess b ->
    needed (b_bumpers b) o = 0 -> (forall j, wpt_request (b_bumpers b) o j = []) ->
    (forall j, sgmt_request (b_bumpers b) o j = []) -> (forall j, sgmt_guess o j = []) ->
    (forall j, wpt_guess o j = None) ->
    b_counts b' = counts_after o b b' ->
    b_bumpers b' = b_bumpers b ++ bumper_request o ->
    b_drivetrain b' = match o with OSetDrivetrain d => Some d | _ => b_drivetrain b end ->
    b_callbacks b' = b_callbacks b ++ match o with OAddIntermediateCallback c => [c] | _ => [] end ->
    op_effect o b b'.
  Proof.
    intros o b b' W G N U V Sg Wg C B D Cb. unfold op_effect, constraints_at, segment_constraints_to, guess_at, wlen.
    rewrite W, G, N. repeat split; auto; intros.
    - lia.
    - rewrite U, app_nil_r. reflexivity.
    - rewrite V, app_nil_r. reflexivity.
    - rewrite Sg, Wg. reflexivity.
  Qed.

  Lemma pose_then_guess : forall o i c p b b1 b2 n,
    effect b b1 n (only i c) none -> guess_effect b1 b2 n i (fun l => set_back l p) ->
    needed (b_bumpers b) o = n ->
    (forall j, wpt_request (b_bumpers b) o j = only i c j) -> (forall j, sgmt_request (b_bumpers b) o j = []) ->
    (forall j l, (if j =? i then set_back l p else l) =
       sgmt_guess o j ++ match wpt_guess o j with Some q => set_back l q | None => l end) ->
    match o with OControlIntervalCounts _ | OAddBumpers _ | OSetDrivetrain _
               | OAddIntermediateCallback _ => False | _ => True end ->
    op_effect o b b2.
  Proof.
    intros o i c p b b1 b2 n ((E1 & E2 & E3) & E4 & E5 & E6 & E7 & E8 & E9)
      (F1 & F2 & F3 & F4 & F5 & F6 & F7 & F8) Hn Hu Hv Hg Ho.
    unfold op_effect. subst n.
    split; [lia|]. split; [intros; rewrite F2, E2, Hu; reflexivity|].
    split; [intros; rewrite F3, E3, Hv; reflexivity|].
    split; [intros; rewrite <- Hg, F4, E4; reflexivity|].
    assert (b_counts b2 = b_counts b ++ repeat 40 ((wlen b2 - 1) - (wlen b - 1))).
    { rewrite F5, E5, <- app_assoc, <- repeat_app. f_equal. f_equal. lia. }
    destruct o; try destruct Ho; simpl; rewrite ?app_nil_r; repeat split; congruence.
  Qed.

  Lemma run_op_returned : forall asserts o b, inv b -> proper_call o ->
    Forall small_points (b_bumpers b) ->
    snd (run_op asserts o b) = Ok tt -> op_effect o b (fst (run_op asserts o b)).
  Proof.
    intros asserts o b Hb Hp Hs Hr.
    destruct (run_op asserts o b) as [b' r] eqn:E. simpl in Hr |- *. subst r.
    destruct o; simpl in Hp; unfold in_size_t in Hp; change (2 ^ 64)%Z with two64 in Hp; cbn [run_op] in E.
    - injection E as <-. apply op_effect_same; try reflexivity; simpl;
        unfold wlen; rewrite ?app_nil_r, ?Nat.sub_diag; simpl; rewrite ?app_nil_r; reflexivity.
    - (* PoseWpt *)
      unfold PoseWpt in E. apply bind_inv in E. destruct E as (b1 & [] & P1 & P2).
      assert (Hi : index < max63) by (eapply WptConstraint_returned; eassumption).
      destruct (WptConstraint_ok index (mkPoseEquality x y heading) b Hb Hi) as (b1' & P1' & E1).
      assert (b1' = b1) by congruence. subst b1'.
      destruct (WptGuess_ok index (pose_xyh x y heading) b1) as (b2 & P2' & E2);
        [eapply effect_inv; eassumption|assumption|].
      assert (b2 = b') by congruence. subst b2.
      eapply pose_then_guess; [exact E1|exact E2|reflexivity|reflexivity|reflexivity| |exact I].
      intros j l. simpl. destruct (j =? index); reflexivity.
    - (* TranslationWpt *)
      unfold TranslationWpt in E. apply bind_inv in E. destruct E as (b1 & [] & P1 & P2).
      assert (Hi : index < max63) by (eapply WptConstraint_returned; eassumption).
      destruct (WptConstraint_ok index (mkTranslationEquality x y) b Hb Hi) as (b1' & P1' & E1).
      assert (b1' = b1) by congruence. subst b1'.
      destruct (WptGuess_ok index (pose_xyh x y headingGuess) b1) as (b2 & P2' & E2);
        [eapply effect_inv; eassumption|assumption|].
      assert (b2 = b') by congruence. subst b2.
      eapply pose_then_guess; [exact E1|exact E2|reflexivity|reflexivity|reflexivity| |exact I].
      intros j l. simpl. destruct (j =? index); reflexivity.
    - destruct (Nat.lt_ge_cases wptIndex max63) as [L|L].
      + destruct (WptGuess_ok wptIndex p b Hb L) as (b2 & P2 & E2).
        assert (b2 = b') by congruence. subst b2.
        eapply guess_op; [exact E2|reflexivity|reflexivity|reflexivity| |exact I].
        intros j l. simpl. destruct (j =? wptIndex); reflexivity.
      + rewrite WptGuess_big in E by assumption. discriminate.
    - destruct (Nat.lt_ge_cases (S fromIndex) max63) as [L|L].
      + destruct (SgmtGuess_ok fromIndex ps b Hb L) as (b2 & P2 & E2).
        assert (b2 = b') by congruence. subst b2.
        eapply guess_op; [exact E2|reflexivity|reflexivity|reflexivity| |exact I].
        intros j l. cbn [sgmt_guess wpt_guess]. destruct (j =? S fromIndex); reflexivity.
      + rewrite SgmtGuess_big in E by assumption. discriminate.
    - injection E as <-. apply op_effect_same; try reflexivity; simpl;
        unfold wlen; rewrite ?app_nil_r, ?Nat.sub_diag; simpl; rewrite ?app_nil_r; reflexivity.
    - (* WptObstacle *)
      destruct Hp as [Hp1 Hp2]. unfold WptObstacle in E.
      pose proof (obstacle_loop_returned _ _ _ _ _ _ Hs Hp2 E) as Hacc.
      rewrite (obstacle_loop_eq _ _ _ _ Hs Hp2 Hacc) in E.
      destruct (actual_obstacle (b_bumpers b) o) as [|c cs] eqn:EA.
      + injection E as <-. apply op_effect_same; try reflexivity; simpl; intros; rewrite ?EA; auto;
          unfold wlen; rewrite ?app_nil_r, ?Nat.sub_diag; simpl; rewrite ?app_nil_r; try reflexivity;
          destruct (_ =? _); reflexivity.
      + assert (Hi : index < max63).
        { cbn [bfor] in E. apply bind_inv in E. destruct E as (b1 & [] & E & _).
          eapply WptConstraint_returned; eassumption. }
        destruct (bfor_effect (WptConstraint index) (S index) (only index) (fun _ => none)
          (fun c b Hb => WptConstraint_ok index c b Hb Hi) (c :: cs) b Hb) as (b2 & P2 & E2).
        assert (b2 = b') by congruence. subst b2.
        eapply effect_op; [cbn [needed]; rewrite EA; exact E2| | | | |exact I]; intros j; try reflexivity.
        * cbv beta. rewrite flat_only. cbn [wpt_request]. rewrite EA. reflexivity.
        * cbv beta. rewrite flat_none. reflexivity.
    - (* SgmtObstacle *)
      destruct Hp as (Hp1 & Hp2 & Hft & Hp3). unfold SgmtObstacle in E.
      pose proof (obstacle_loop_returned _ _ _ _ _ _ Hs Hp3 E) as Hacc.
      rewrite (obstacle_loop_eq _ _ _ _ Hs Hp3 Hacc) in E.
      destruct (actual_obstacle (b_bumpers b) o) as [|c cs] eqn:EA.
      + injection E as <-. apply op_effect_same; try reflexivity; simpl; intros; rewrite ?EA; auto;
          unfold wlen; rewrite ?app_nil_r, ?Nat.sub_diag; simpl; rewrite ?app_nil_r; try reflexivity;
          destruct (_ && _); reflexivity.
      + assert (Hi : toIndex < max63).
        { cbn [bfor] in E. apply bind_inv in E. destruct E as (b1 & [] & E & _).
          eapply SgmtConstraint_returned; eassumption. }
        destruct (bfor_effect (SgmtConstraint asserts fromIndex toIndex) (S toIndex)
          (fun c => within fromIndex toIndex [c]) (fun c => within' fromIndex toIndex [c])
          (fun c b Hb => SgmtConstraint_ok asserts fromIndex toIndex c b Hb Hft Hi) (c :: cs) b Hb)
          as (b2 & P2 & E2).
        assert (b2 = b') by congruence. subst b2.
        eapply effect_op; [cbn [needed]; rewrite EA; exact E2| | | | |exact I]; intros j; try reflexivity.
        * cbv beta. rewrite flat_within. cbn [wpt_request]. rewrite EA. reflexivity.
        * cbv beta. rewrite flat_within'. cbn [sgmt_request]. rewrite EA. reflexivity.
    - assert (Hi : index < max63) by (eapply WptConstraint_returned; eassumption).
      destruct (WptConstraint_ok index c b Hb Hi) as (b2 & P2 & E2).
      assert (b2 = b') by congruence. subst b2.
      eapply effect_op; [exact E2| | | | |exact I]; reflexivity.
    - destruct Hp as (Hp1 & Hp2 & Hft).
      assert (Hi : toIndex < max63) by (eapply SgmtConstraint_returned; eassumption).
      destruct (SgmtConstraint_ok asserts fromIndex toIndex c b Hb Hft Hi) as (b2 & P2 & E2).
      assert (b2 = b') by congruence. subst b2.
      eapply effect_op; [exact E2| | | | |exact I]; reflexivity.
    - injection E as <-. apply op_effect_same; try reflexivity; simpl;
        unfold wlen; rewrite ?app_nil_r, ?Nat.sub_diag; simpl; rewrite ?app_nil_r; reflexivity.
    - injection E as <-. apply op_effect_same; try reflexivity; simpl;
        unfold wlen; rewrite ?app_nil_r, ?Nat.sub_diag; simpl; rewrite ?app_nil_r; reflexivity.
  Qed.
End BP.
