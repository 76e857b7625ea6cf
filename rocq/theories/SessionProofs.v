(** Proofs about client sessions and about which paths the generator accepts. *)
From Coq Require Import List Lia ZArith.
Import ListNotations.
From Verif Require Import Outcome Num Geometry Expr Constraints Util Builder Guess Generator Runtime Session RustFFI
  SpecBuilder SpecGenerator SpecSession
  UtilFacts BuilderFacts BuilderHistory GuessFacts GeneratorFacts SeedFacts HistoryFacts.
Local Open Scope nat_scope.

Lemma foldM_ext : forall {A S} (f g : A -> S -> outcome S) l s,
  (forall a s, In a l -> f a s = g a s) -> foldM f l s = foldM g l s.
Proof.
  intros A S f g l. induction l as [|a l IH]; intros s E; [reflexivity|].
  cbn [foldM]. rewrite E by (left; reflexivity).
  destruct (g a s) as [s'| | | |]; try reflexivity. apply IH. intros; apply E. right. assumption.
Qed.
Lemma obind_ext : forall {A B} (m : outcome A) (f g : A -> outcome B),
  (forall a, f a = g a) -> obind m f = obind m g.
Proof. intros A B [] f g E; simpl; auto. Qed.

Section Proofs.
  Context {K : Type} {HA : Arith K} {HD : Dbl K}.

  (** * Sessions *)
  Lemma call_builder : forall stop asserts (s : session K) c,
    ss_builder (fst (session_call stop asserts s c)) =
    run_ops asserts (builder_calls [c]) (ss_builder s).
  Proof.
    intros stop asserts s [o|handle|k code env]; cbn [session_call builder_calls].
    - unfold run_ops. cbn [fold_left]. destruct (run_op asserts o (ss_builder s)). reflexivity.
    - destruct (construct (ss_builder s) handle); reflexivity.
    - destruct (nth_error (ss_gens s) k); reflexivity.
  Qed.
  Lemma builder_calls_app : forall cs cs' : list (call K),
    builder_calls (cs ++ cs') = builder_calls cs ++ builder_calls cs'.
  Proof.
    induction cs as [|[o|h|k c e] cs IH]; intros cs'; [reflexivity| | |]; simpl; rewrite IH; reflexivity.
  Qed.
  Lemma run_builder : forall stop asserts cs (s : session K),
    ss_builder (session_run stop asserts cs s) = run_ops asserts (builder_calls cs) (ss_builder s).
  Proof.
    intros stop asserts cs. induction cs as [|c cs IH]; intros s; [reflexivity|].
    cbn [session_run fold_left]. change (fold_left _ cs ?x) with (session_run stop asserts cs x).
    rewrite IH, call_builder. change (c :: cs) with ([c] ++ cs). rewrite builder_calls_app.
    unfold run_ops. rewrite fold_left_app. reflexivity.
  Qed.

  Lemma same_refl : forall g : gen K, same_generator g g.
  Proof. intros g. repeat split. Qed.
  Lemma same_trans : forall g1 g2 g3 : gen K, same_generator g1 g2 -> same_generator g2 g3 -> same_generator g1 g3.
  Proof.
    intros g1 g2 g3 (A1 & A2 & A3 & A4 & A5 & A6 & A7) (B1 & B2 & B3 & B4 & B5 & B6 & B7).
    repeat split; eapply eq_trans; eassumption.
  Qed.
  Lemma nth_upd : forall {A} (l : list A) i j f,
    nth_error (upd l i f) j = if Nat.eqb j i then option_map f (nth_error l j) else nth_error l j.
  Proof.
    induction l as [|a l IH]; intros [|i] [|j] f; cbn [upd nth_error Nat.eqb]; try reflexivity.
    - destruct (Nat.eqb j i); reflexivity.
    - apply IH.
  Qed.

  Lemma call_generator : forall stop asserts (s : session K) c k g,
    nth_error (ss_gens s) k = Some g ->
    exists g', nth_error (ss_gens (fst (session_call stop asserts s c))) k = Some g' /\
      same_generator g g' /\ (~ generates k c -> g' = g) /\
      (forall code env, c = CGenerate k code env -> pr_vals (g_problem g') = env).
  Proof.
    intros stop asserts s c k g N. destruct c as [o|handle|j code env]; cbn [session_call].
    - destruct (run_op asserts o (ss_builder s)) as [b r]. exists g. cbn [fst ss_gens].
      split; [exact N|]. split; [apply same_refl|]. split; [reflexivity|]. discriminate.
    - destruct (construct (ss_builder s) handle) as [g0| | | |]; cbn [fst ss_gens];
        (exists g; split; [|split; [apply same_refl|]; split; [reflexivity|discriminate]]); try exact N.
      rewrite nth_error_app1; [exact N|]. apply nth_error_Some. congruence.
    - destruct (nth_error (ss_gens s) j) as [g0|] eqn:E; cbn [fst ss_gens].
      + rewrite nth_upd, N. destruct (Nat.eqb_spec k j) as [<-|D].
        * rewrite E in N. injection N as ->. cbn [option_map]. eexists. split; [reflexivity|].
          split; [repeat split|]. split; [simpl; congruence|]. intros c e Q. injection Q as -> ->. reflexivity.
        * exists g. split; [reflexivity|]. split; [apply same_refl|]. split; [reflexivity|].
          intros c e Q. congruence.
      + exists g. split; [exact N|]. split; [apply same_refl|]. split; [reflexivity|].
        intros c e Q. injection Q as -> _ _. congruence.
  Qed.
  Lemma run_generator : forall stop asserts cs (s : session K) k g,
    nth_error (ss_gens s) k = Some g ->
    exists g', nth_error (ss_gens (session_run stop asserts cs s)) k = Some g' /\
      same_generator g g' /\ ((forall c, In c cs -> ~ generates k c) -> g' = g).
  Proof.
    intros stop asserts cs. induction cs as [|c cs IH]; intros s k g N.
    - exists g. split; [exact N|]. split; [apply same_refl|reflexivity].
    - cbn [session_run fold_left]. change (fold_left _ cs ?x) with (session_run stop asserts cs x).
      destruct (call_generator stop asserts s c k g N) as (g1 & N1 & S1 & F1 & _).
      destruct (IH _ k g1 N1) as (g2 & N2 & S2 & F2). exists g2. split; [exact N2|].
      split; [exact (same_trans _ _ _ S1 S2)|]. intros F.
      rewrite F2 by (intros c' I; apply F; right; exact I). apply F1. apply F. left. reflexivity.
  Qed.

  Theorem C54_builder_proof : forall stop asserts (cs : list (call K)),
    ss_builder (session_run stop asserts cs session_new) = path asserts (builder_calls cs).
  Proof. intros. apply run_builder. Qed.

  Theorem C54_generator_proof : forall stop asserts (cs1 cs2 : list (call K)) handle g,
    construct (path asserts (builder_calls cs1)) handle = Ok g ->
    let before := session_run stop asserts cs1 session_new in
    let after := session_run stop asserts (cs1 ++ CConstruct handle :: cs2) session_new in
    let k := length (ss_gens before) in
    snd (session_call stop asserts before (CConstruct handle)) = AConstructed (Ok k) /\
    (exists g', nth_error (ss_gens after) k = Some g' /\ same_generator g g' /\
       ((forall c, In c cs2 -> ~ generates k c) -> g' = g)) /\
    (forall code env, snd (session_call stop asserts after (CGenerate k code env)) =
       AGenerated (generate_result stop g code env)).
  Proof.
    intros stop asserts cs1 cs2 handle g C before after k.
    assert (E : after = session_run stop asserts cs2 (fst (session_call stop asserts before (CConstruct handle)))).
    { unfold after, session_run. rewrite fold_left_app. reflexivity. }
    assert (B : construct (ss_builder before) handle = Ok g).
    { unfold before. rewrite C54_builder_proof. exact C. }
    assert (S : session_call stop asserts before (CConstruct handle) =
                (mkSession (ss_builder before) (ss_gens before ++ [g]), AConstructed (Ok k))).
    { cbn [session_call]. rewrite B. reflexivity. }
    rewrite S in E. cbn [fst] in E.
    assert (N : nth_error (ss_gens (mkSession (ss_builder before) (ss_gens before ++ [g]))) k = Some g).
    { cbn [ss_gens]. unfold k. rewrite nth_error_app2, Nat.sub_diag by lia. reflexivity. }
    destruct (run_generator stop asserts cs2 _ k g N) as (g' & N' & S' & F').
    rewrite <- E in N'. split; [rewrite S; reflexivity|].
    split; [exists g'; repeat (split; [assumption|]); exact F'|].
    intros code env. cbn [session_call]. rewrite N'. cbn [snd]. f_equal.
    destruct S' as (A1 & A2 & _). unfold generate_result, ConstructSwerveSolution, left_at. cbn [g_vars g_N].
    rewrite A1, A2. reflexivity.
  Qed.

  Theorem C54_twice_proof : forall (b : builder K) handle handle' g, construct b handle = Ok g ->
    construct b handle' = Ok (mkGen (g_vars g) (g_N g) (g_problem g) (g_callbacks g) handle').
  Proof.
    intros b handle handle' g C. unfold construct in *.
    repeat match type of C with
    | obind ?m _ = Ok _ => destruct m as [?| | | |] eqn:?; cbn [obind] in C |- *; try discriminate C
    | context [let '(_, _) := ?s in _] => destruct s
    end.
    injection C as <-. reflexivity.
  Qed.

  (** * Which paths are accepted *)
  Theorem C55_accepts_proof : forall asserts (h : list (op K)) handle d,
    b_drivetrain (path asserts h) = Some d -> 0 < waypoint_count (path asserts h) ->
    (length (counts asserts h) <= waypoint_count (path asserts h) - 1 <->
       exists g, construct (path asserts h) handle = Ok g) /\
    (~ length (counts asserts h) <= waypoint_count (path asserts h) - 1 ->
       construct (path asserts h) handle = Throw OutOfRange).
  Proof.
    intros asserts h handle d D W. unfold counts.
    pose proof (path_inv asserts h) as I.
    assert (T : ~ length (b_counts (path asserts h)) <= waypoint_count (path asserts h) - 1 ->
       construct (path asserts h) handle = Throw OutOfRange).
    { intros L. apply (construct_fails _ handle I). lia. }
    split; [|exact T]. split.
    - intros L. destruct (construct_ok _ handle d I ltac:(lia) D) as (p & C & _). eexists. exact C.
    - intros (g & C). destruct (Compare_dec.le_dec (length (b_counts (path asserts h))) (waypoint_count (path asserts h) - 1)) as [L|L];
        [exact L|]. rewrite (T L) in C. discriminate C.
  Qed.

  Lemma same_nth : forall (b b' : builder K) i,
    constraints_at b i = constraints_at b' i ->
    segment_constraints_to b i = segment_constraints_to b' i ->
    i < waypoint_count b -> i < waypoint_count b' ->
    nth_error (b_waypoints b) i = nth_error (b_waypoints b') i.
  Proof.
    intros b b' i E1 E2 L L'. unfold constraints_at, segment_constraints_to, waypoint_count in *.
    destruct (nth_error (b_waypoints b) i) as [[w s]|] eqn:N; [|apply nth_error_None in N; lia].
    destruct (nth_error (b_waypoints b') i) as [[w' s']|] eqn:N'; [|apply nth_error_None in N'; lia].
    simpl in *. congruence.
  Qed.

  Lemma guess_agree : forall (b b' : builder K), b_counts b = b_counts b' ->
    (forall i, i <= length (b_counts b) -> nth_error (b_guess b) i = nth_error (b_guess b') i) ->
    CalculateInitialGuess b = CalculateInitialGuess b'.
  Proof.
    intros b b' EN G. unfold CalculateInitialGuess, GenerateLinearInitialGuess. rewrite <- EN.
    assert (A : forall i, i <= length (b_counts b) -> at_ (b_guess b) i = at_ (b_guess b') i).
    { intros i Hi. unfold at_. rewrite G by exact Hi. reflexivity. }
    apply obind_ext. intros tot.
    assert (F : front (b_guess b) = front (b_guess b')).
    { specialize (G 0 ltac:(lia)). destruct (b_guess b), (b_guess b'); simpl in *; congruence. }
    rewrite F. apply obind_ext. intros first. apply obind_ext. intros p.
    apply foldM_ext. intros w s Hw. apply in_seq in Hw. unfold guess_segment.
    rewrite !A by lia. reflexivity.
  Qed.

  Lemma construct_agree : forall (b b' : builder K) handle, b_counts b = b_counts b' ->
    b_drivetrain b = b_drivetrain b' -> b_callbacks b = b_callbacks b' ->
    (forall i, i <= length (b_counts b) -> nth_error (b_waypoints b) i = nth_error (b_waypoints b') i) ->
    (forall i, i <= length (b_counts b) -> nth_error (b_guess b) i = nth_error (b_guess b') i) ->
    construct b handle = construct b' handle.
  Proof.
    intros b b' handle EN ED EC W G. unfold construct.
    rewrite (guess_agree b b' EN G). unfold GetControlIntervalCounts. rewrite <- EN, <- ED, <- EC.
    assert (A : forall i, i <= length (b_counts b) -> at_ (b_waypoints b) i = at_ (b_waypoints b') i).
    { intros i Hi. unfold at_. rewrite W by exact Hi. reflexivity. }
    apply obind_ext. intros guess. apply obind_ext. intros tot. apply obind_ext. intros s.
    apply obind_ext. intros w. apply obind_ext. intros [v p]. apply obind_ext. intros [T p1].
    apply obind_ext. intros p2. apply obind_ext. intros p3.
    assert (E1 : forall p, foldM (wpt_constraints v (b_counts b) (b_waypoints b)) (seq 0 (1 + length (b_counts b))) p =
                 foldM (wpt_constraints v (b_counts b) (b_waypoints b')) (seq 0 (1 + length (b_counts b))) p).
    { intros q. apply foldM_ext. intros i q' Hi. apply in_seq in Hi. unfold wpt_constraints.
      rewrite A by lia. reflexivity. }
    assert (E2 : forall p, foldM (sgmt_constraints v (b_counts b) (b_waypoints b)) (seq 0 (length (b_counts b))) p =
                 foldM (sgmt_constraints v (b_counts b) (b_waypoints b')) (seq 0 (length (b_counts b))) p).
    { intros q. apply foldM_ext. intros i q' Hi. apply in_seq in Hi. unfold sgmt_constraints.
      rewrite A by lia. reflexivity. }
    rewrite E1. apply obind_ext. intros p4. rewrite E2. reflexivity.
  Qed.

  Theorem C55_trailing_proof : forall asserts asserts' (h h' : list (op K)) handle,
    counts asserts h = counts asserts' h' ->
    last_drivetrain None h = last_drivetrain None h' ->
    flat_map callback_request h = flat_map callback_request h' ->
    length (counts asserts h) < waypoint_count (path asserts h) ->
    length (counts asserts h) < waypoint_count (path asserts' h') ->
    (forall i, i <= length (counts asserts h) -> same_waypoint (path asserts h) (path asserts' h') i) ->
    construct (path asserts h) handle = construct (path asserts' h') handle.
  Proof.
    intros asserts asserts' h h' handle EN ED EC L L' W. unfold counts in *.
    apply construct_agree; try assumption.
    - rewrite !path_drivetrain. exact ED.
    - rewrite !path_callbacks. exact EC.
    - intros i Hi. destruct (W i Hi) as (W1 & W2 & _). apply same_nth; try assumption; lia.
    - intros i Hi. apply (W i Hi).
  Qed.

  Theorem C66_proof : forall asserts (h : list (op K)) handle,
    (waypoint_count (path asserts h) = 0 ->
       construct (path asserts h) handle = Undef EmptyAccess) /\
    (length (counts asserts h) < waypoint_count (path asserts h) -> last_drivetrain None h = None ->
       construct (path asserts h) handle = Undef Uninitialized).
  Proof.
    intros asserts h handle. destruct (construct_fails _ handle (path_inv asserts h)) as (F1 & _ & F3).
    split; [exact F1|]. intros L D. apply F3; [exact L|]. rewrite path_drivetrain. exact D.
  Qed.

  Lemma inv_rs_new : inv (rs_new : builder K).
  Proof. exact (inv_new (K := K)). Qed.

  (** The same through the Rust bridge, whose builder starts value-initialised. *)
  Lemma rust_drivetrain : forall asserts (h : list (op K)) (b : builder K), inv b ->
    b_drivetrain (run_ops asserts h b) = last_drivetrain (b_drivetrain b) h.
  Proof. intros asserts h b I. apply run_ops_rest. exact I. Qed.

  Lemma last_drivetrain_some : forall (h : list (op K)) d, last_drivetrain (Some d) h <> None.
  Proof.
    induction h as [|o h IH]; intros d; [discriminate|]. destruct o; cbn [last_drivetrain]; apply IH.
  Qed.
  Lemma last_drivetrain_none : forall (h : list (op K)) d, last_drivetrain None h = None -> last_drivetrain d h = d.
  Proof.
    induction h as [|o h IH]; intros d E; [reflexivity|].
    destruct o; cbn [last_drivetrain] in *; try (apply IH; exact E).
    exfalso. eapply last_drivetrain_some. exact E.
  Qed.

  Theorem C66_rust_proof : forall asserts (h : list (op K)) handle,
    let b := run_ops asserts h rs_new in
    0 < waypoint_count b -> length (b_counts b) < waypoint_count b ->
    last_drivetrain None h = None ->
    exists g, construct b handle = Ok g /\ b_drivetrain b = Some (mkDrivetrain (nlit 0) (nlit 0) []).
  Proof.
    intros asserts h handle b W L D.
    assert (E : b_drivetrain b = Some (mkDrivetrain (nlit 0) (nlit 0) [])).
    { unfold b. rewrite rust_drivetrain by apply inv_rs_new. cbn [b_drivetrain rs_new].
      apply last_drivetrain_none. exact D. }
    destruct (construct_ok b handle _ (run_ops_inv asserts h _ inv_rs_new) L E) as (p & C & _).
    eexists. split; [exact C|exact E].
  Qed.

  Theorem C56_refuted_proof : ~ (forall asserts (h : list (op K)) handle,
    waypoint_count (path asserts h) = 0 \/ last_drivetrain None h = None ->
    exists e, construct (path asserts h) handle = Throw e).
  Proof.
    intros C. destruct (C true [] 0%Z (or_introl eq_refl)) as (e & E).
    rewrite (proj1 (C66_proof true [] 0%Z) eq_refl) in E. discriminate E.
  Qed.
End Proofs.
