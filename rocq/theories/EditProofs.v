(** Paths edited through GetPath (C91). *)
From Coq Require Import List Lia Lra Reals Bool ZArith.
Import ListNotations.
From Verif Require Import Outcome Num NumR Geometry Expr Constraints Util Builder Guess Generator Edits
  Spec SpecBuilder SpecEdits SpecPhysics SpecTrajectory SpecGenerator Semantics
  UtilFacts GeometryFacts BuilderFacts BuilderEffects BuilderHistory GuessFacts GuessProofs GeneratorFacts SeedFacts GeneratorProofs SessionProofs
  SolutionProofs GeneratorCases.
Local Open Scope nat_scope.

Section Any.
  Context {K : Type} {HA : Arith K} {HD : Dbl K}.
  Implicit Types b : builder K.

  Definition winv b : Prop := Forall (fun l => l <> []) (b_guess b) /\ wlen b <= max63.

  Definition keeps (asserts : bool) {A} (m : bld K A) : Prop :=
    forall b, winv b -> winv (fst (m b)) /\ fine asserts (snd (m b)).

  Lemma keeps_bind : forall asserts {A B} (m : bld K A) (f : A -> bld K B),
    keeps asserts m -> (forall a, keeps asserts (f a)) -> keeps asserts (bbind m f).
  Proof.
    intros asserts A B m f M F b Hb. destruct (M b Hb) as [M1 M2]. unfold bbind.
    destruct (m b) as [b1 [a|e| |u|]]; cbn [fst snd] in *; auto. apply F. assumption.
  Qed.
  Lemma keeps_lift : forall asserts {A} (o : outcome A), fine asserts o -> keeps asserts (blift o).
  Proof. intros asserts A o F b Hb. split; assumption. Qed.
  Lemma keeps_ret : forall asserts {A} (a : A), keeps asserts (bret a).
  Proof. intros asserts A a b Hb. split; [assumption|exact I]. Qed.
  Lemma keeps_for : forall asserts {A} (l : list A) (f : A -> bld K unit),
    (forall a, keeps asserts (f a)) -> keeps asserts (bfor l f).
  Proof. induction l; intros; simpl; [apply keeps_ret|]. apply keeps_bind; auto. Qed.
  Lemma keeps_loop : forall asserts {A} (l : list A) fuel i bound (g : A -> A -> bld K unit),
    i <= length l -> length l < i + fuel -> (forall p q, keeps asserts (g p q)) ->
    keeps asserts (bloop fuel i bound (fun i => p <~ blift (at_ l i) ;; q <~ blift (at_ l (S i)) ;; g p q)).
  Proof.
    intros asserts A l. induction fuel; intros i bound g Hi Hf Hg; cbn [bloop]; [lia|].
    destruct (_ <? bound)%Z; [|apply keeps_ret].
    destruct (Nat.lt_ge_cases (S i) (length l)) as [L|L].
    - apply keeps_bind.
      + apply keeps_bind; [apply keeps_lift, fine_at|intros]. apply keeps_bind; [apply keeps_lift, fine_at|auto].
      + intros _. apply IHfuel; auto; lia.
    - assert (E : forall b, (bbind (p <~ blift (at_ l i) ;; q <~ blift (at_ l (S i)) ;; g p q)
        (fun _ => bloop fuel (S i) bound (fun i => p <~ blift (at_ l i) ;; q <~ blift (at_ l (S i)) ;; g p q)))
        b = (b, Throw OutOfRange)).
      { intros b. unfold bbind, blift. rewrite (at_throw l (S i)) by lia.
        unfold at_. destruct (nth_error l i); reflexivity. }
      intros b Hb. rewrite E. split; [exact Hb|reflexivity].
  Qed.
  Lemma winv_extend : forall n b, winv b -> n <= max63 -> winv (extend n b).
  Proof.
    intros n b (H2 & H3) Hn. split.
    - unfold extend. simpl. apply Forall_app. split; [assumption|].
      apply Forall_forall. intros x Hx. apply repeat_spec in Hx. subst. discriminate.
    - rewrite wlen_extend. lia.
  Qed.
  Lemma keeps_newWpts : forall asserts i, keeps asserts (newWpts i).
  Proof.
    intros asserts i b Hb. split; [|exact I]. simpl.
    destruct (NewWpts_cases i b) as (n & Hn & ->); [apply Hb|]. apply winv_extend; assumption.
  Qed.
  Lemma keeps_push_wpt : forall asserts i c, keeps asserts (push_wpt i c).
  Proof.
    intros asserts i c b (F & L). unfold push_wpt, upd_at. destruct (_ <? _); (split; [|simpl; auto]); split; try assumption.
    unfold wlen in *. simpl. rewrite upd_length. assumption.
  Qed.
  Lemma keeps_push_sgmt : forall asserts i c, keeps asserts (push_sgmt i c).
  Proof.
    intros asserts i c b (F & L). unfold push_sgmt, upd_at. destruct (_ <? _); (split; [|simpl; auto]); split; try assumption.
    unfold wlen in *. simpl. rewrite upd_length. assumption.
  Qed.
  Lemma keeps_WptConstraint : forall asserts i c, keeps asserts (WptConstraint i c).
  Proof. intros. apply keeps_bind; [apply keeps_newWpts|intros; apply keeps_push_wpt]. Qed.
  Lemma keeps_SgmtConstraint : forall asserts f t c, keeps asserts (SgmtConstraint asserts f t c).
  Proof.
    intros. unfold SgmtConstraint.
    apply keeps_bind; [destruct asserts, (f <? t); simpl; auto using keeps_ret; apply keeps_lift; reflexivity|intros _].
    apply keeps_bind; [apply keeps_newWpts|intros _].
    apply keeps_bind; [apply keeps_push_wpt|intros _].
    apply keeps_for. intros. apply keeps_bind; [apply keeps_push_wpt|intros; apply keeps_push_sgmt].
  Qed.
  Ltac keeps_steps := repeat first [apply keeps_bind; [apply keeps_lift; first [apply fine_at|apply fine_assert]|intros]].
  Lemma keeps_obstacle : forall asserts add o bumpers,
    (forall c, keeps asserts (add c)) -> keeps asserts (obstacle_loop asserts add o bumpers).
  Proof.
    intros asserts add o bumpers Hadd. induction bumpers as [|bu bumpers IH]; [apply keeps_ret|].
    cbn [obstacle_loop]. destruct (_ && _)%bool.
    - keeps_steps. apply Hadd.
    - apply keeps_bind; [|intros _; apply keeps_bind; [|intros _; exact IH]].
      + apply keeps_for. intros c. apply keeps_bind.
        * apply keeps_loop; [lia|lia|]. intros. keeps_steps. apply Hadd.
        * intros _. destruct (3 <=? _); [|apply keeps_ret]. keeps_steps. apply Hadd.
      + apply keeps_for. intros c. destruct (1 <? _).
        * apply keeps_bind.
          -- apply keeps_loop; [lia|lia|]. intros. keeps_steps. apply Hadd.
          -- intros _. destruct (3 <=? _); [|apply keeps_ret]. keeps_steps. apply Hadd.
        * keeps_steps. apply Hadd.
  Qed.
  Lemma keeps_WptGuess : forall asserts i p, keeps asserts (WptInitialGuessPoint i p).
  Proof.
    intros. apply keeps_bind; [apply keeps_newWpts|intros _].
    intros b (F & L). unfold at_. destruct (nth_error (b_guess b) i) as [[|q l]|] eqn:E; simpl.
    - apply nth_error_In in E. rewrite Forall_forall in F. destruct (F _ E eq_refl).
    - split; [|auto]. split; [|assumption]. simpl. apply Forall_upd; [assumption|]. intros. apply set_back_nonempty.
    - split; [split; assumption|reflexivity].
  Qed.
  Lemma keeps_SgmtGuess : forall asserts i ps, keeps asserts (SgmtInitialGuessPoints i ps).
  Proof.
    intros. apply keeps_bind; [apply keeps_newWpts|intros _].
    intros b (F & L). unfold upd_at. destruct (_ <? _); simpl.
    - split; [|auto]. split; [|assumption]. simpl. apply Forall_upd; [assumption|].
      intros l Hl E. destruct (app_eq_nil _ _ E). auto.
    - split; [split; assumption|reflexivity].
  Qed.
  Lemma keeps_op : forall asserts o, keeps asserts (run_op asserts o).
  Proof.
    intros asserts o. destruct o; cbn [run_op]; try (intros b Hb; split; [exact Hb|exact I]).
    - apply keeps_bind; [apply keeps_WptConstraint|intros; apply keeps_WptGuess].
    - apply keeps_bind; [apply keeps_WptConstraint|intros; apply keeps_WptGuess].
    - apply keeps_WptGuess.
    - apply keeps_SgmtGuess.
    - intros b. apply (keeps_obstacle asserts _ o (b_bumpers b)); auto using keeps_WptConstraint.
    - intros b. apply (keeps_obstacle asserts _ o (b_bumpers b)); auto using keeps_SgmtConstraint.
    - apply keeps_WptConstraint.
    - apply keeps_SgmtConstraint.
  Qed.
  Lemma winv_new : winv new_builder.
  Proof. split; [constructor|]. unfold wlen. simpl. lia. Qed.
  Lemma winv_steps : forall asserts ss b, winv b -> Forall small_edit ss -> winv (run_steps asserts ss b).
  Proof.
    intros asserts. induction ss as [|s ss IH]; intros b Hb F; [exact Hb|]. inversion F; subst. cbn [run_steps fold_left].
    apply IH; [|assumption]. destruct s as [o|p]; cbn [run_step]; [apply keeps_op; exact Hb|].
    destruct Hb as [G _]. split; [exact G|]. unfold wlen, SetPath. cbn [b_waypoints]. cbn [small_edit] in H1.
    apply Nat2Z.inj_le. rewrite max63_Z. exact H1.
  Qed.

  (** ** Outcomes of the constructor *)
  Lemma guess_cases : forall b, winv b ->
    (b_guess b = [] -> CalculateInitialGuess b = Undef EmptyAccess) /\
    (0 < length (b_guess b) <= length (b_counts b) -> CalculateInitialGuess b = Throw OutOfRange) /\
    (length (b_counts b) < length (b_guess b) ->
     CalculateInitialGuess b = Ok (guess_result (b_guess b) (b_counts b))).
  Proof.
    intros b (I2 & _). rewrite Forall_forall in I2. unfold CalculateInitialGuess. split; [|split].
    - intros ->. unfold GenerateLinearInitialGuess. rewrite GetIndex_ok by lia. reflexivity.
    - intros L. apply GenerateLinearInitialGuess_throw; [destruct (b_guess b); [simpl in L; lia|discriminate]|lia|assumption].
    - intros L. apply GenerateLinearInitialGuess_ok; assumption.
  Qed.

  Lemma foldM_prefix : forall {A S : Type} (f : A -> S -> outcome S) l1 l2 s r, foldM f (l1 ++ l2) s = Ok r ->
    exists s', foldM f l1 s = Ok s'.
  Proof.
    intros A S f l1 l2 s r E. rewrite foldM_app in E. destruct (foldM f l1 s) as [s'| | | |]; try discriminate.
    exists s'. reflexivity.
  Qed.

  Lemma wpt_throws : forall m N wpts (p : problem K), length wpts <= length N ->
    foldM (wpt_constraints (layout (1 + list_sum N) m (length N)) N wpts) (seq 0 (1 + length N)) p = Throw OutOfRange.
  Proof.
    intros m N wpts p L. set (lay := layout _ _ _).
    set (more := wpts ++ repeat (mkWaypoint [] []) (1 + length N)).
    assert (Long : length N < length more) by (unfold more; rewrite app_length, repeat_length; lia).
    pose proof (wpt_ok (1 + list_sum N) m (length N) N eq_refl eq_refl more p Long) as E. fold lay in E.
    replace (seq 0 (1 + length N)) with (seq 0 (length wpts) ++ seq (length wpts) (1 + length N - length wpts)) in *
      by (rewrite <- seq_app; f_equal; lia).
    destruct (foldM_prefix _ _ _ _ _ E) as [p' E'].
    rewrite foldM_app.
    assert (X : foldM (wpt_constraints lay N wpts) (seq 0 (length wpts)) p = Ok p').
    { rewrite <- E'. apply foldM_ext. intros i q Hi. apply in_seq in Hi. unfold wpt_constraints, at_.
      unfold more. rewrite nth_error_app1 by lia. reflexivity. }
    rewrite X. cbn [obind]. replace (1 + length N - length wpts) with (S (length N - length wpts)) by lia.
    cbn [seq foldM]. unfold wpt_constraints at 1. rewrite (at_throw wpts (length wpts)) by lia. reflexivity.
  Qed.

  Ltac go_dynamics b :=
    change (GetControlIntervalCounts b) with (b_counts b);
    rewrite GetIndex_ok by lia; cbn [obind Nat.ltb Nat.leb];
    match goal with |- context [alloc_samples ?t _ _] =>
      replace t with (1 + list_sum (b_counts b))
        by (replace (1 + length (b_counts b) - 1) with (length (b_counts b)) by lia; rewrite firstn_len; simpl; lia)
    end.

  Lemma construct_none : forall b handle, winv b -> length (b_counts b) < length (b_guess b) ->
    b_drivetrain b = None -> construct b handle = Undef Uninitialized.
  Proof.
    intros b handle I L D. unfold construct. rewrite (proj2 (proj2 (guess_cases b I)) L). cbn [obind].
    go_dynamics b. rewrite D. cbn [length].
    rewrite alloc_samples_ok by reflexivity. cbn [obind].
    rewrite minWidth_ok. cbn [obind].
    rewrite alloc_dt_ok by reflexivity. cbn [obind].
    match goal with |- context [foldM (obj_step _ _) _ (_, ?p0)] =>
      destruct (obj_ok (1 + list_sum (b_counts b)) 0 (length (b_counts b)) (b_counts b) p0 (le_n _))
        as (vals & E & _); rewrite E; clear E end.
    cbn [obind].
    replace (1 + length (b_counts b) - 1) with (length (b_counts b)) by lia.
    rewrite kin_ok by reflexivity. cbn [obind].
    rewrite (dyn_none _ 0 _ (b_counts b)) by reflexivity. reflexivity.
  Qed.

  Lemma construct_short : forall b handle d, winv b -> length (b_counts b) < length (b_guess b) ->
    b_drivetrain b = Some d -> waypoint_count b <= length (b_counts b) -> construct b handle = Throw OutOfRange.
  Proof.
    intros b handle d I L D S. unfold construct. rewrite (proj2 (proj2 (guess_cases b I)) L). cbn [obind].
    go_dynamics b. rewrite D.
    rewrite alloc_samples_ok by reflexivity. cbn [obind].
    rewrite minWidth_ok. cbn [obind].
    rewrite alloc_dt_ok by reflexivity. cbn [obind].
    match goal with |- context [foldM (obj_step _ _) _ (_, ?p0)] =>
      destruct (obj_ok (1 + list_sum (b_counts b)) (length (d_modules d)) (length (b_counts b)) (b_counts b) p0 (le_n _))
        as (vals & E & _); rewrite E; clear E end.
    cbn [obind].
    replace (1 + length (b_counts b) - 1) with (length (b_counts b)) by lia.
    rewrite kin_ok by reflexivity. cbn [obind].
    rewrite (dyn_ok _ (length (d_modules d)) _ (b_counts b)) by reflexivity. cbn [obind].
    rewrite wpt_throws by exact S. reflexivity.
  Qed.

  (** The part of a builder the constructor reads. *)
  Definition used b : builder K :=
    mkBuilder (firstn (1 + length (b_counts b)) (b_waypoints b)) (b_drivetrain b) (b_callbacks b) (b_bumpers b)
      (firstn (1 + length (b_counts b)) (b_guess b)) (b_counts b).
  Lemma used_nth : forall {A} (l : list A) n i, i <= n -> nth_error (firstn (1 + n) l) i = nth_error l i.
  Proof.
    intros A l n i Hi. rewrite <- (firstn_skipn (1 + n) l) at 2. destruct (Nat.lt_ge_cases i (length (firstn (1 + n) l))) as [L|L].
    - rewrite nth_error_app1 by exact L. reflexivity.
    - rewrite (proj2 (nth_error_None _ _) L). symmetry. apply nth_error_None. rewrite firstn_skipn.
      rewrite firstn_length in L. lia.
  Qed.
  Lemma used_inv : forall b, winv b -> length (b_counts b) < length (b_guess b) ->
    length (b_counts b) < waypoint_count b -> inv (used b).
  Proof.
    intros b (F & M) L W. unfold waypoint_count in W. unfold inv, wlen in *. unfold used. cbn [b_guess b_waypoints].
    rewrite !firstn_length. split; [lia|]. split; [|lia].
    rewrite Forall_forall in *. intros x Hx. apply F.
    rewrite <- (firstn_skipn (1 + length (b_counts b)) (b_guess b)). apply in_or_app. left. exact Hx.
  Qed.
  Lemma used_construct : forall b handle, construct b handle = construct (used b) handle.
  Proof.
    intros b handle. apply construct_agree; try reflexivity;
      intros i Hi; unfold used; cbn [b_waypoints b_guess]; symmetry; apply used_nth; exact Hi.
  Qed.
  Lemma used_wpts : forall b, length (b_counts b) < waypoint_count b -> waypoint_count (used b) = 1 + length (b_counts b).
  Proof. intros b L. unfold waypoint_count in *. unfold used. cbn [b_waypoints]. rewrite firstn_length. lia. Qed.

  Lemma construct_edited : forall b handle d, winv b -> length (b_counts b) < length (b_guess b) ->
    b_drivetrain b = Some d -> length (b_counts b) < waypoint_count b -> exists g, construct b handle = Ok g.
  Proof.
    intros b handle d I L D W. rewrite used_construct.
    destruct (construct_ok (used b) handle d (used_inv b I L W)) as (p & C & _).
    - cbn [used b_counts]. rewrite used_wpts by exact W. unfold used. cbn [b_counts]. lia.
    - exact D.
    - eexists. exact C.
  Qed.

  Lemma outcomes_winv : forall b handle, winv b ->
    (b_guess b = [] -> construct b handle = Undef EmptyAccess) /\
    (0 < length (b_guess b) <= length (b_counts b) -> construct b handle = Throw OutOfRange) /\
    (length (b_counts b) < length (b_guess b) -> b_drivetrain b = None -> construct b handle = Undef Uninitialized) /\
    (forall d, length (b_counts b) < length (b_guess b) -> b_drivetrain b = Some d ->
       (waypoint_count b <= length (b_counts b) -> construct b handle = Throw OutOfRange) /\
       (length (b_counts b) < waypoint_count b -> exists g, construct b handle = Ok g /\ g_callbacks g = b_callbacks b /\ g_handle g = handle)).
  Proof.
    intros b handle I.
    destruct (guess_cases b I) as (G1 & G2 & _). split; [|split; [|split]].
    - intros E. unfold construct. rewrite (G1 E). reflexivity.
    - intros E. unfold construct. rewrite (G2 E). reflexivity.
    - apply construct_none. exact I.
    - intros d L D. split; [apply (construct_short b handle d I L D)|].
      intros W. destruct (construct_edited b handle d I L D W) as [g C]. exists g. split; [exact C|].
      rewrite used_construct in C. destruct (construct_inversion (used b) handle g (used_inv b I L W) C) as (_ & d' & p & _ & -> & _).
      split; reflexivity.
  Qed.

  Lemma C91_outcomes_proof : forall asserts ss handle, Forall small_edit ss ->
    let b := run_steps asserts ss (@new_builder K) in
    (b_guess b = [] -> construct b handle = Undef EmptyAccess) /\
    (0 < length (b_guess b) <= length (b_counts b) -> construct b handle = Throw OutOfRange) /\
    (length (b_counts b) < length (b_guess b) -> b_drivetrain b = None -> construct b handle = Undef Uninitialized) /\
    (forall d, length (b_counts b) < length (b_guess b) -> b_drivetrain b = Some d ->
       (waypoint_count b <= length (b_counts b) -> construct b handle = Throw OutOfRange) /\
       (length (b_counts b) < waypoint_count b -> exists g, construct b handle = Ok g /\ g_callbacks g = b_callbacks b /\ g_handle g = handle)).
  Proof. intros asserts ss handle Small. exact (outcomes_winv _ handle (winv_steps asserts ss new_builder winv_new Small)). Qed.

  Lemma C91_guess_kept_proof : forall asserts ss p (b0 : builder K),
    let b := run_steps asserts ss b0 in let b' := run_steps asserts (ss ++ [SEdit p]) b0 in
    CalculateInitialGuess b' = CalculateInitialGuess b /\
    GetControlIntervalCounts b' = GetControlIntervalCounts b /\ GetPath b' = p.
  Proof.
    intros asserts ss p b0 b b'. unfold b'. unfold run_steps. rewrite fold_left_app. fold (run_steps asserts ss b0). fold b.
    destruct p. repeat split.
  Qed.

  Lemma C91_calls_proof : forall asserts ss o, Forall small_edit ss ->
    match snd (run_op asserts o (run_steps asserts ss (@new_builder K))) with
    | Ok _ => True
    | Throw e => e = OutOfRange
    | AssertFail => asserts = true
    | Undef _ | OutOfFuel => False
    end.
  Proof. intros asserts ss o Small. exact (proj2 (keeps_op asserts o _ (winv_steps asserts ss new_builder winv_new Small))). Qed.
End Any.

Open Scope R_scope.
Lemma problem_winv : forall (b : builder R) handle d g, winv b ->
  construct b handle = Ok g -> b_drivetrain b = Some d -> real_wheels d ->
  (forall n, In n (b_counts b) -> (1 <= n)%nat) ->
  (forall w, In w (b_waypoints b) -> Forall proper_constraint (waypointConstraints w ++ segmentConstraints w)) ->
  forall env sol, ConstructSwerveSolution g env = Ok sol ->
  (feasible env (g_problem g) <->
   obeys_physics turns_up_to_half d (b_counts b) sol /\
   meets_requests (b_counts b) sol (constraints_at b) (segment_constraints_to b)).
Proof.
  intros b handle d g I C D W Pos Pr env sol E.
  destruct (guess_cases b I) as (G1 & G2 & _).
  assert (L : (length (b_counts b) < length (b_guess b))%nat).
  { destruct (le_lt_dec (length (b_guess b)) (length (b_counts b))) as [X|X]; [|exact X]. exfalso.
    unfold construct in C. destruct (b_guess b) as [|p l] eqn:G.
    - rewrite G1 in C by reflexivity. discriminate.
    - rewrite G2 in C by (cbn [length] in *; lia). discriminate. }
  assert (L' : (length (b_counts b) < waypoint_count b)%nat).
  { destruct (le_lt_dec (waypoint_count b) (length (b_counts b))) as [X|X]; [|exact X]. exfalso.
    rewrite (construct_short b handle d I L D X) in C. discriminate. }
  assert (A : forall w, (w <= length (b_counts b))%nat -> constraints_at (used b) w = constraints_at b w /\
     segment_constraints_to (used b) w = segment_constraints_to b w).
  { intros w Hw. unfold constraints_at, segment_constraints_to, used. cbn [b_waypoints]. rewrite used_nth by exact Hw. split; reflexivity. }
  assert (Pr' : forall w c, In c (constraints_at (used b) w) \/ In c (segment_constraints_to (used b) w) -> proper_constraint c).
  { intros w c. unfold constraints_at, segment_constraints_to, used. cbn [b_waypoints].
    destruct (nth_error (firstn _ _) w) as [wp|] eqn:N; [|intros [[]|[]]].
    apply nth_error_In in N. assert (M : In wp (b_waypoints b)).
    { rewrite <- (firstn_skipn (1 + length (b_counts b)) (b_waypoints b)). apply in_or_app. left. exact N. }
    specialize (Pr wp M). rewrite Forall_forall in Pr. intros H. apply Pr. apply in_or_app. exact H. }
  rewrite used_construct in C.
  rewrite (feasible_iff (used b) handle g d (used_inv b I L L') C D W Pos Pr' env sol E).
  change (b_counts (used b)) with (b_counts b).
  assert (M : meets_requests (b_counts b) sol (constraints_at (used b)) (segment_constraints_to (used b)) <->
    meets_requests (b_counts b) sol (constraints_at b) (segment_constraints_to b)).
  { unfold meets_requests. split; intros [M1 M2]; split; intros w c.
    - intros Hw Hc. apply M1; [exact Hw|]. rewrite (proj1 (A w Hw)). exact Hc.
    - intros i Hw Hc Hi. apply (M2 w c i Hw); [|exact Hi]. rewrite (proj2 (A w ltac:(lia))). exact Hc.
    - intros Hw Hc. apply M1; [exact Hw|]. rewrite <- (proj1 (A w Hw)). exact Hc.
    - intros i Hw Hc Hi. apply (M2 w c i Hw); [|exact Hi]. rewrite <- (proj2 (A w ltac:(lia))). exact Hc. }
  rewrite M. reflexivity.
Qed.

Lemma C91_problem_proof : forall asserts ss handle d g, Forall small_edit ss ->
  let b := run_steps asserts ss (@new_builder R) in
  construct b handle = Ok g -> b_drivetrain b = Some d -> real_wheels d ->
  (forall n, In n (b_counts b) -> (1 <= n)%nat) ->
  (forall w, In w (b_waypoints b) -> Forall proper_constraint (waypointConstraints w ++ segmentConstraints w)) ->
  forall env sol, ConstructSwerveSolution g env = Ok sol ->
  (feasible env (g_problem g) <->
   obeys_physics turns_up_to_half d (b_counts b) sol /\
   meets_requests (b_counts b) sol (constraints_at b) (segment_constraints_to b)).
Proof.
  intros asserts ss handle d g Small. exact (problem_winv _ handle d g (winv_steps asserts ss new_builder winv_new Small)).
Qed.

(** ** Cases *)
(** The ride, with every waypoint erased through GetPath and the two poses added
    again. *)
Definition wiped : list (step R) :=
  map SCall ride ++ [SEdit (mkSpath [] (Some cart) [])] ++ map SCall [OPoseWpt 0 0 0 0; OPoseWpt 1 1 0 1].
(** The ride, with all constraints but one replaced through GetPath. *)
Definition freed : list (step R) :=
  map SCall ride ++
  [SEdit (mkSpath [mkWaypoint [LinearVelocityMaxMagnitude 0] []; mkWaypoint [] []] (Some cart) [])].

Lemma wiped_proof : Forall small_edit wiped /\
  let b := run_steps true wiped new_builder in
  waypoint_count b = 2%nat /\ b_counts b = [2; 40]%nat /\ length (b_guess b) = 4%nat /\
  construct b 7 = Throw OutOfRange.
Proof.
  assert (S : Forall small_edit wiped) by (repeat constructor; simpl; lia).
  split; [exact S|]. cbv zeta.
  assert (E1 : waypoint_count (run_steps true wiped new_builder) = 2%nat) by (vm_compute; reflexivity).
  assert (E2 : b_counts (run_steps true wiped new_builder) = [2; 40]%nat) by (vm_compute; reflexivity).
  assert (E3 : length (b_guess (run_steps true wiped new_builder)) = 4%nat) by (vm_compute; reflexivity).
  repeat (split; [assumption|]).
  destruct (C91_outcomes_proof true wiped 7 S) as (_ & _ & _ & O). cbv zeta in O. rewrite E1, E2, E3 in O. simpl length in O.
  apply (O cart); [lia| |lia]. reflexivity.
Qed.

Lemma freed_proof : exists g env, let b := run_steps true freed new_builder in
  Forall small_edit freed /\ construct b 7 = Ok g /\ b_drivetrain b = Some cart /\ real_wheels cart /\
  (forall n, In n (b_counts b) -> (1 <= n)%nat) /\
  (forall w, In w (b_waypoints b) -> Forall proper_constraint (waypointConstraints w ++ segmentConstraints w)) /\
  ConstructSwerveSolution g env = Ok ride_solution /\ feasible env (g_problem g).
Proof.
  assert (S : Forall small_edit freed) by (repeat constructor; simpl; lia).
  assert (E1 : waypoint_count (run_steps true freed new_builder) = 2%nat) by (vm_compute; reflexivity).
  assert (E2 : b_counts (run_steps true freed new_builder) = [2]%nat) by (vm_compute; reflexivity).
  assert (E3 : length (b_guess (run_steps true freed new_builder)) = 2%nat) by (vm_compute; reflexivity).
  assert (E4 : b_waypoints (run_steps true freed new_builder) =
    [mkWaypoint [LinearVelocityMaxMagnitude 0] []; mkWaypoint [] []]) by reflexivity.
  assert (E5 : b_drivetrain (run_steps true freed new_builder) = Some cart) by reflexivity.
  pose proof (winv_steps true freed new_builder winv_new S) as I.
  destruct (C91_outcomes_proof true freed 7 S) as (_ & _ & _ & O). cbv zeta in O. rewrite E1, E2, E3 in O. simpl length in O.
  destruct (proj2 (O cart ltac:(lia) E5) ltac:(lia)) as (g & C & _). clear O.
  pose proof (C91_problem_proof true freed 7 cart g S) as P. cbv zeta in P.
  assert (V : inv (used (run_steps true freed new_builder))) by (apply used_inv; [exact I|rewrite E2, E3; simpl; lia|rewrite E1, E2; simpl; lia]).
  assert (C' := C). rewrite used_construct in C'.
  pose proof (read_surjective _ _ _ cart V C' E5 ride_solution) as Rd.
  change (b_counts (used (run_steps true freed new_builder))) with (b_counts (run_steps true freed new_builder)) in Rd.
  revert P Rd C. unfold constraints_at, segment_constraints_to. rewrite E2, E4, E5. generalize (run_steps true freed new_builder). intros b P Rd C.
  destruct (Rd (proj1 ride_shaped) (proj2 ride_shaped)) as [env E]. exists g, env. cbv zeta.
  assert (Pos : forall n, In n [2]%nat -> (1 <= n)%nat) by (intros n [<-|[]]; lia).
  assert (Pr : forall w, In w [mkWaypoint [LinearVelocityMaxMagnitude 0] []; mkWaypoint [] []] ->
     Forall proper_constraint (waypointConstraints w ++ segmentConstraints w)).
  { intros w [<-|[<-|[]]]; repeat constructor. }
  repeat (split; [first [assumption|exact cart_wheels|reflexivity]|]).
  apply (P C eq_refl cart_wheels Pos Pr env ride_solution E).
  destruct (ride_case true) as (g' & Gd & G' & W & Ps & env' & F' & E').
  split.
  - pose proof (proj1 (C15_proof true ride 7 cart g' Gd G' W Ps env' ride_solution E') F') as [X _].
    rewrite ride_counts in X. exact X.
  - split.
    + intros w c Hw Hc. simpl in Hw. assert (w = 0 \/ w = 1)%nat as [->| ->] by lia; simpl in Hc; [|destruct Hc].
      destruct Hc as [<-|[]]. simpl. rewrite Rabs_right by lra. apply norm2_le; lra.
    + intros w c i Hw Hc. simpl in Hw. assert (w = 1)%nat as -> by lia. destruct Hc.
Qed.

Lemma freed_kept_proof :
  GetPath (run_steps true freed new_builder) <> GetPath (run_steps true (map SCall ride) new_builder) /\
  CalculateInitialGuess (run_steps true freed new_builder) =
  CalculateInitialGuess (run_steps true (map SCall ride) new_builder).
Proof.
  split; [|apply (C91_guess_kept_proof true (map SCall ride))].
  intros E. apply (f_equal (fun p => length (waypointConstraints (nth 0 (sp_waypoints p) (mkWaypoint [] []))))) in E.
  vm_compute in E. discriminate.
Qed.

Lemma wiped_guess_proof : Forall small_edit wiped /\
  snd (run_op true (OWptConstraint 1 (AngularVelocityMaxMagnitude 1)) (run_steps true wiped new_builder)) = Ok tt.
Proof. split; [apply wiped_proof|vm_compute; reflexivity]. Qed.
