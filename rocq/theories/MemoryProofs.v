(** Running out of memory in the builder (C99). *)
From Coq Require Import List Lia Reals Bool ZArith.
Import ListNotations.
From Verif Require Import Outcome Num NumR Geometry Expr Constraints Util Builder Guess Generator Memory Edits
  Spec SpecBuilder SpecEdits SpecMemory SpecPhysics SpecTrajectory SpecGenerator Semantics
  UtilFacts GeometryFacts BuilderFacts BuilderEffects BuilderHistory BuilderProofs GuessFacts GuessProofs ConstraintProofs GeneratorFacts EditProofs GeneratorCases.
Local Open Scope nat_scope.

Section Any.
  Context {K : Type} {HA : Arith K} {HD : Dbl K}.
  Implicit Types b : builder K.

  (** ** The obstacle loops, split into the calls they make *)
  Definition replay (cs : list (constraint K)) (r : outcome unit) (add : constraint K -> bld K unit) : bld K unit :=
    bfor cs add ;~ blift r.
  Definition splits (m : (constraint K -> bld K unit) -> bld K unit) : Prop :=
    exists cs r, forall add b, m add b = replay cs r add b.

  Lemma splits_ret : splits (fun _ => bret tt).
  Proof. exists [], (Ok tt). reflexivity. Qed.
  Lemma splits_add : forall c, splits (fun add => add c).
  Proof.
    intros c. exists [c], (Ok tt). intros add b. unfold replay. cbn [bfor]. unfold bbind, bret, blift.
    destruct (add c b) as [b' [[]|e| |u|]]; reflexivity.
  Qed.
  Lemma splits_lift : forall {A} (o : outcome A) f, (forall a, splits (f a)) ->
    splits (fun add => a <~ blift o ;; f a add).
  Proof.
    intros A [a|e| |u|] f F.
    - destruct (F a) as (cs & r & E). exists cs, r. intros add b. rewrite <- E. reflexivity.
    - exists [], (Throw e). reflexivity.
    - exists [], AssertFail. reflexivity.
    - exists [], (Undef u). reflexivity.
    - exists [], OutOfFuel. reflexivity.
  Qed.
  Lemma splits_seq : forall m f, splits m -> splits f -> splits (fun add => m add ;~ f add).
  Proof.
    intros m f (cs & r & E) (cs' & r' & E').
    destruct r as [[]|e| |u|].
    - exists (cs ++ cs'), r'. intros add b. unfold replay.
      unfold bbind at 1. rewrite E. unfold replay, bbind, blift. rewrite bfor_app. unfold bbind.
      destruct (bfor cs add b) as [b1 [[]|e| |u|]]; try reflexivity. rewrite E'. reflexivity.
    - exists cs, (Throw e). intros add b. unfold bbind at 1. rewrite E. unfold replay, bbind, blift.
      destruct (bfor cs add b) as [b1 [[]|e'| |u|]]; reflexivity.
    - exists cs, AssertFail. intros add b. unfold bbind at 1. rewrite E. unfold replay, bbind, blift.
      destruct (bfor cs add b) as [b1 [[]|e'| |u|]]; reflexivity.
    - exists cs, (Undef u). intros add b. unfold bbind at 1. rewrite E. unfold replay, bbind, blift.
      destruct (bfor cs add b) as [b1 [[]|e'| |u'|]]; reflexivity.
    - exists cs, OutOfFuel. intros add b. unfold bbind at 1. rewrite E. unfold replay, bbind, blift.
      destruct (bfor cs add b) as [b1 [[]|e'| |u|]]; reflexivity.
  Qed.
  Lemma splits_for : forall {A} (l : list A) (f : A -> (constraint K -> bld K unit) -> bld K unit),
    (forall a, splits (f a)) -> splits (fun add => bfor l (fun a => f a add)).
  Proof.
    induction l as [|a l IH]; intros f F; [exact splits_ret|]. cbn [bfor].
    apply (splits_seq (f a) (fun add => bfor l (fun a => f a add))); auto.
  Qed.
  Lemma splits_loop : forall fuel i bound (f : nat -> (constraint K -> bld K unit) -> bld K unit),
    (forall i, splits (f i)) -> splits (fun add => bloop fuel i bound (fun i => f i add)).
  Proof.
    induction fuel; intros i bound f F; cbn [bloop]; destruct (_ <? bound)%Z; try exact splits_ret.
    - exists [], OutOfFuel. reflexivity.
    - apply (splits_seq (f i) (fun add => bloop fuel (S i) bound (fun i => f i add))); auto.
  Qed.
  Lemma splits_obstacle : forall asserts o bumpers, splits (fun add => obstacle_loop asserts add o bumpers).
  Proof.
    intros asserts o bumpers. induction bumpers as [|bu bumpers IH]; [exact splits_ret|].
    cbn [obstacle_loop]. destruct (_ && _)%bool.
    - apply (splits_lift _ (fun p add => _)). intros p. apply (splits_lift _ (fun q add => _)). intros q.
      apply (splits_lift _ (fun c add => _)). intros c. apply splits_add.
    - apply (splits_seq (fun add => bumper_edges asserts add o bu _) (fun add => _ ;~ _)).
      + unfold bumper_edges. apply (splits_for _ (fun c add => _ ;~ _)). intros c.
        apply (splits_seq (fun add => bloop _ _ _ _) (fun add => _)).
        * apply (splits_loop _ _ _ (fun i add => _)). intros i.
          apply (splits_lift _ (fun p add => _)). intros p. apply (splits_lift _ (fun q add => _)). intros q.
          apply (splits_lift _ (fun c add => _)). intros c'. apply splits_add.
        * destruct (3 <=? _); [|exact splits_ret].
          apply (splits_lift _ (fun p add => _)). intros p. apply (splits_lift _ (fun q add => _)). intros q.
          apply (splits_lift _ (fun c add => _)). intros c'. apply splits_add.
      + apply (splits_seq (fun add => obstacle_edges asserts add o bu _) (fun add => _)); [|exact IH].
        unfold obstacle_edges. apply (splits_for _ (fun c add => _)). intros c. destruct (1 <? _).
        * apply (splits_seq (fun add => bloop _ _ _ _) (fun add => _)).
          -- apply (splits_loop _ _ _ (fun i add => _)). intros i.
             apply (splits_lift _ (fun p add => _)). intros p. apply (splits_lift _ (fun q add => _)). intros q.
             apply (splits_lift _ (fun c add => _)). intros c'. apply splits_add.
          -- destruct (3 <=? _); [|exact splits_ret].
             apply (splits_lift _ (fun p add => _)). intros p. apply (splits_lift _ (fun q add => _)). intros q.
             apply (splits_lift _ (fun c add => _)). intros c'. apply splits_add.
        * apply (splits_lift _ (fun p add => _)). intros p.
          apply (splits_lift _ (fun c add => _)). intros c'. apply splits_add.
  Qed.

  Lemma collect : forall cs (r : outcome unit) l,
    replay cs r (push_wpt 0) (set_waypoints new_builder [mkWaypoint l []]) =
    (set_waypoints new_builder [mkWaypoint (l ++ cs) []], r).
  Proof.
    induction cs as [|c cs IH]; intros r l.
    - rewrite app_nil_r. reflexivity.
    - specialize (IH r (l ++ [c])). rewrite <- app_assoc in IH. exact IH.
  Qed.
  Lemma obstacle_calls_eq : forall asserts add o bumpers b,
    obstacle_loop asserts add o bumpers b =
    replay (fst (obstacle_calls asserts o bumpers)) (snd (obstacle_calls asserts o bumpers)) add b.
  Proof.
    intros asserts add o bumpers b. destruct (splits_obstacle asserts o bumpers) as (cs & r & E).
    rewrite E. unfold obstacle_calls. rewrite E, collect. cbn [fst snd]. simpl. rewrite app_nil_r. reflexivity.
  Qed.

  (** ** With enough memory a call is the call of Builder.v *)
  Definition plain (m : mem K unit) (m0 : bld K unit) : Prop := forall b, m None b = (None, m0 b).
  Lemma plain_bind : forall m m0 f f0, plain m m0 -> plain f f0 -> plain (m ;^ f) (m0 ;~ f0).
  Proof.
    intros m m0 f f0 M F b. unfold mbind, bbind. rewrite M.
    destruct (m0 b) as [b' [[]|e| |u|]]; try reflexivity. apply F.
  Qed.
  Lemma plain_keep : forall m, plain (mkeep m) m.
  Proof. intros m b. reflexivity. Qed.
  Lemma plain_grow : forall m, plain (mgrow m) m.
  Proof. intros m b. unfold mgrow. destruct (m b) as [b' [[]|e| |u|]]; reflexivity. Qed.
  Lemma plain_for : forall {A} (l : list A) (f : A -> mem K unit) f0,
    (forall a, plain (f a) (f0 a)) -> plain (mfor l f) (bfor l f0).
  Proof. induction l; intros f f0 F; cbn [mfor bfor]; [apply plain_keep|]. apply plain_bind; auto. Qed.
  Lemma plain_add : forall n i, plain (mem_add_wpts n i) (fun b => (add_wpts n i b, Ok tt)).
  Proof.
    induction n as [|n IH]; intros i b; [reflexivity|]. cbn [mem_add_wpts add_wpts].
    unfold mbind. rewrite (plain_grow grow_waypoints). cbn [grow_waypoints].
    rewrite (plain_grow grow_guess). cbn [grow_guess].
    destruct (i =? 0)%Z; [|rewrite (plain_grow grow_counts)]; cbn [mkeep bret grow_counts]; apply IH.
  Qed.
  Lemma plain_new : forall i, plain (mem_NewWpts i) (newWpts i).
  Proof.
    intros i b. unfold mem_NewWpts, newWpts, NewWpts. cbv zeta. destruct (_ <? _)%Z; [|reflexivity]. apply plain_add.
  Qed.
  Lemma plain_WptConstraint : forall i c, plain (mem_WptConstraint i c) (WptConstraint i c).
  Proof. intros. apply plain_bind; [apply plain_new|apply plain_grow]. Qed.
  Lemma plain_SgmtConstraint : forall a f t c, plain (mem_SgmtConstraint a f t c) (SgmtConstraint a f t c).
  Proof.
    intros. apply plain_bind; [apply plain_keep|]. apply plain_bind; [apply plain_new|].
    apply plain_bind; [apply plain_grow|]. apply plain_for. intros i. apply plain_bind; apply plain_grow.
  Qed.
  Lemma plain_obstacle : forall asserts add add0 o, (forall c, plain (add c) (add0 c)) ->
    plain (mem_obstacle asserts add o) (fun b => obstacle_loop asserts add0 o (b_bumpers b) b).
  Proof.
    intros asserts add add0 o P b. rewrite obstacle_calls_eq. unfold mem_obstacle.
    destruct (obstacle_calls asserts o (b_bumpers b)) as [cs r]. cbn [fst snd].
    apply (plain_bind (mfor cs add) (bfor cs add0) (mkeep (blift r)) (blift r)); [apply plain_for, P|apply plain_keep].
  Qed.
  Lemma plain_op : forall asserts o, plain (mem_op asserts o) (run_op asserts o).
  Proof.
    intros asserts o. destruct o; cbn [mem_op run_op]; try apply plain_keep; try apply plain_grow.
    - apply plain_bind; [apply plain_WptConstraint|]. apply plain_bind; [apply plain_new|apply plain_keep].
    - apply plain_bind; [apply plain_WptConstraint|]. apply plain_bind; [apply plain_new|apply plain_keep].
    - apply plain_bind; [apply plain_new|apply plain_keep].
    - apply plain_bind; [apply plain_new|apply plain_grow].
    - apply plain_obstacle, plain_WptConstraint.
    - apply plain_obstacle, plain_SgmtConstraint.
    - apply plain_WptConstraint.
    - apply plain_SgmtConstraint.
  Qed.
  Lemma C99_unlimited_proof : forall asserts o b, run_mem asserts (o, None) b = run_op asserts o b.
  Proof. intros. unfold run_mem. cbn [fst snd]. rewrite plain_op. reflexivity. Qed.

  (** ** A large enough budget is no limit *)
  Definition enough (m : mem K unit) : Prop := forall b, exists N, forall n, N <= n ->
    m (Some n) b = (Some (n - N), snd (m None b)).
  Lemma none_stays : forall m, (exists m0, plain m m0) -> forall b, fst (m None b) = None.
  Proof. intros m [m0 P] b. rewrite P. reflexivity. Qed.
  Lemma enough_bind : forall m f, (exists m0, plain m m0) -> enough m -> enough f -> enough (m ;^ f).
  Proof.
    intros m f P M F b. pose proof (none_stays m P b) as E. destruct (M b) as [N H]. unfold mbind.
    destruct (m None b) as [s [b1 [[]|e| |u|]]]; cbn [fst snd] in *; subst s;
      try (exists N; intros n Hn; rewrite H by assumption; reflexivity).
    destruct (F b1) as [N' H']. exists (N + N'). intros n Hn. rewrite H by lia. rewrite H' by lia.
    f_equal. f_equal. lia.
  Qed.
  Lemma enough_keep : forall m, enough (mkeep m).
  Proof. intros m b. exists 0. intros n _. unfold mkeep. rewrite Nat.sub_0_r. reflexivity. Qed.
  Lemma enough_grow : forall m, enough (mgrow m).
  Proof.
    intros m b. unfold mgrow. destruct (m b) as [b' [a|e| |u|]]; cbn [snd];
      try (exists 0; intros n _; rewrite Nat.sub_0_r; reflexivity).
    exists 1. intros [|n] Hn; [lia|]. rewrite Nat.sub_succ, Nat.sub_0_r. reflexivity.
  Qed.
  Lemma enough_for : forall {A} (l : list A) (f : A -> mem K unit),
    (forall a, exists m0, plain (f a) m0) -> (forall a, enough (f a)) -> enough (mfor l f).
  Proof. induction l; intros f P F; cbn [mfor]; [apply enough_keep|]. apply enough_bind; auto. Qed.
  Lemma some_keep : forall m : bld K unit, exists m0, plain (mkeep m) m0.
  Proof. intros m. exists m. apply plain_keep. Qed.
  Lemma some_grow : forall m : bld K unit, exists m0, plain (mgrow m) m0.
  Proof. intros m. exists m. apply plain_grow. Qed.
  Lemma some_new : forall i, exists m0, plain (mem_NewWpts i) m0.
  Proof. intros i. eexists. apply plain_new. Qed.
  Lemma enough_add : forall n i, enough (mem_add_wpts n i).
  Proof.
    induction n as [|n IH]; intros i; [apply enough_keep|]. cbn [mem_add_wpts].
    apply enough_bind; [apply some_grow|apply enough_grow|].
    apply enough_bind; [apply some_grow|apply enough_grow|].
    destruct (i =? 0)%Z; (apply enough_bind; [first [apply some_keep|apply some_grow]|first [apply enough_keep|apply enough_grow]|apply IH]).
  Qed.
  Lemma enough_new : forall i, enough (mem_NewWpts i).
  Proof.
    intros i b. unfold mem_NewWpts. cbv zeta. destruct (_ <? _)%Z; [apply enough_add|].
    exists 0. intros n _. rewrite Nat.sub_0_r. reflexivity.
  Qed.
  Lemma enough_WptConstraint : forall i c, enough (mem_WptConstraint i c).
  Proof. intros. apply enough_bind; [apply some_new|apply enough_new|apply enough_grow]. Qed.
  Lemma enough_SgmtConstraint : forall a f t c, enough (mem_SgmtConstraint a f t c).
  Proof.
    intros. apply enough_bind; [apply some_keep|apply enough_keep|]. apply enough_bind; [apply some_new|apply enough_new|].
    apply enough_bind; [apply some_grow|apply enough_grow|]. apply enough_for; intros i.
    - eexists. apply plain_bind; apply plain_grow.
    - apply enough_bind; [apply some_grow|apply enough_grow|apply enough_grow].
  Qed.
  Lemma enough_obstacle : forall asserts add o, (forall c, exists m0, plain (add c) m0) -> (forall c, enough (add c)) ->
    (forall cs, exists m0, plain (mfor cs add) m0) -> enough (mem_obstacle asserts add o).
  Proof.
    intros asserts add o P E F b. unfold mem_obstacle. destruct (obstacle_calls asserts o (b_bumpers b)) as [cs r].
    apply (enough_bind (mfor cs add) (mkeep (blift r))); [apply F|apply enough_for; assumption|apply enough_keep].
  Qed.
  Lemma enough_op : forall asserts o, enough (mem_op asserts o).
  Proof.
    intros asserts o. destruct o; cbn [mem_op]; try apply enough_keep; try apply enough_grow.
    - apply enough_bind; [eexists; apply plain_WptConstraint|apply enough_WptConstraint|].
      apply enough_bind; [apply some_new|apply enough_new|apply enough_keep].
    - apply enough_bind; [eexists; apply plain_WptConstraint|apply enough_WptConstraint|].
      apply enough_bind; [apply some_new|apply enough_new|apply enough_keep].
    - apply enough_bind; [apply some_new|apply enough_new|apply enough_keep].
    - apply enough_bind; [apply some_new|apply enough_new|apply enough_grow].
    - apply enough_obstacle; [intros; eexists; apply plain_WptConstraint|intros; apply enough_WptConstraint|].
      intros cs. eexists. apply plain_for. intros. apply plain_WptConstraint.
    - apply enough_obstacle; [intros; eexists; apply plain_SgmtConstraint|intros; apply enough_SgmtConstraint|].
      intros cs. eexists. apply plain_for. intros. apply plain_SgmtConstraint.
    - apply enough_WptConstraint.
    - apply enough_SgmtConstraint.
  Qed.
  Lemma C99_enough_proof : forall asserts o b, exists N, forall n, N <= n ->
    run_mem asserts (o, Some n) b = run_op asserts o b.
  Proof.
    intros asserts o b. destruct (enough_op asserts o b) as [N E]. exists N. intros n Hn.
    unfold run_mem. cbn [fst snd]. rewrite E by assumption. cbn [snd]. rewrite plain_op. reflexivity.
  Qed.

  (** ** What any call does whatever its budget *)
  Definition fineM (asserts : bool) (s : budget) (o : outcome unit) : Prop :=
    match o with
    | Ok _ => True
    | Throw e => e = OutOfRange \/ (e = BadAlloc /\ s <> None)
    | AssertFail => asserts = true
    | Undef _ | OutOfFuel => False
    end.
  (** Waypoints and constraints are only added. *)
  Definition adds b b' : Prop :=
    wlen b <= wlen b' /\
    forall j w, nth_error (b_waypoints b) j = Some w ->
      exists u v, nth_error (b_waypoints b') j =
        Some (mkWaypoint (waypointConstraints w ++ u) (segmentConstraints w ++ v)).
  (** Waypoints and guess points come together unless memory runs out. *)
  Definition pairs b b' (o : outcome unit) : Prop :=
    length (b_guess b) <= length (b_guess b') /\
    exists d, d <= 1 /\ wlen b' + length (b_guess b) = d + wlen b + length (b_guess b') /\
      (d <> 0 -> o = Throw BadAlloc).
  Definition sound (asserts : bool) (s : budget) b (r : budget * (builder K * outcome unit)) : Prop :=
    let '(s', (b', o)) := r in
    winv b' /\ adds b b' /\ pairs b b' o /\ fineM asserts s o /\ (s = None -> s' = None).
  Definition safe (asserts : bool) (m : mem K unit) : Prop :=
    forall s b, winv b -> sound asserts s b (m s b).

  Lemma adds_refl : forall b, adds b b.
  Proof.
    intros b. split; [lia|]. intros j w H. exists [], []. rewrite !app_nil_r, H. destruct w; reflexivity.
  Qed.
  Lemma adds_trans : forall x y z, adds x y -> adds y z -> adds x z.
  Proof.
    intros x y z (A2 & A3) (B2 & B3). split; [lia|].
    intros j w H. destruct (A3 _ _ H) as (u & v & H'). destruct (B3 _ _ H') as (u' & v' & H'').
    exists (u ++ u'), (v ++ v'). rewrite H''. simpl. rewrite !app_assoc. reflexivity.
  Qed.
  Lemma adds_same : forall b b', b_waypoints b' = b_waypoints b -> adds b b'.
  Proof.
    intros b b' E. unfold adds, wlen. rewrite E. apply adds_refl.
  Qed.
  Lemma pairs_refl : forall b o, pairs b b o.
  Proof. intros. split; [lia|]. exists 0. repeat split; lia. Qed.
  Lemma pairs_same : forall b b' o, b_waypoints b' = b_waypoints b -> length (b_guess b') = length (b_guess b) -> pairs b b' o.
  Proof. intros b b' o E E'. unfold pairs, wlen. rewrite E, E'. apply pairs_refl. Qed.
  Lemma pairs_trans : forall x y z o, pairs x y (Ok tt) -> pairs y z o -> pairs x z o.
  Proof.
    intros x y z o (L & d & Hd & E & N) (L' & d' & Hd' & E' & N'). split; [lia|].
    assert (d = 0) by (destruct d; [reflexivity|discriminate (N ltac:(lia))]). subst d.
    exists d'. repeat split; [assumption|lia|assumption].
  Qed.
  Lemma sound_trans : forall asserts s s' b b' r, winv b' -> adds b b' -> pairs b b' (Ok tt) -> (s = None -> s' = None) ->
    sound asserts s' b' r -> sound asserts s b r.
  Proof.
    intros asserts s s' b b' [s2 [b2 o]] W A P N (W2 & A2 & P2 & F2 & N2). cbn.
    split; [assumption|]. split; [eapply adds_trans; eassumption|]. split; [eapply pairs_trans; eassumption|].
    split; [|auto]. destruct o; cbn in *; auto. destruct F2 as [F2|[F2 F3]]; [left; exact F2|].
    right. split; [exact F2|]. intros E. apply F3, N, E.
  Qed.
  Lemma safe_bind : forall asserts m f, safe asserts m -> safe asserts f -> safe asserts (m ;^ f).
  Proof.
    intros asserts m f M F s b Hb. pose proof (M s b Hb) as S. unfold mbind.
    destruct (m s b) as [s' [b' [[]|e| |u|]]]; try exact S.
    destruct S as (W & A & P & _ & N). apply (sound_trans asserts s s' b b'); auto.
  Qed.
  Lemma sound_stop : forall asserts s b o, winv b -> fineM asserts s o -> sound asserts s b (s, (b, o)).
  Proof. intros. split; [assumption|]. split; [apply adds_refl|]. split; [apply pairs_refl|]. split; auto. Qed.
  Lemma safe_skip : forall asserts o, fine asserts o -> safe asserts (mkeep (blift o)).
  Proof.
    intros asserts o F s b Hb. apply sound_stop; [assumption|]. destruct o; cbn in *; auto.
  Qed.
  Lemma safe_for : forall asserts {A} (l : list A) (f : A -> mem K unit),
    (forall a, safe asserts (f a)) -> safe asserts (mfor l f).
  Proof.
    induction l; intros; cbn [mfor]; [apply (safe_skip asserts (Ok tt)); exact I|]. apply safe_bind; auto.
  Qed.
  (** A statement that keeps waypoints and guesses paired may be a growth. *)
  Definition paired (asserts : bool) (m : bld K unit) : Prop := forall b, winv b ->
    winv (fst (m b)) /\ adds b (fst (m b)) /\ pairs b (fst (m b)) (Ok tt) /\ fine asserts (snd (m b)).
  Lemma fine_M : forall asserts s (o : outcome unit), fine asserts o -> fineM asserts s o.
  Proof. intros asserts s [a|e| |u|] F; cbn in *; auto. Qed.
  Lemma pairs_any : forall b b' o, pairs b b' (Ok tt) -> pairs b b' o.
  Proof.
    intros b b' o (L & d & Hd & E & N). split; [assumption|]. exists d. repeat split; auto.
    intros H. discriminate (N H).
  Qed.
  Lemma safe_keep : forall asserts m, paired asserts m -> safe asserts (mkeep m).
  Proof.
    intros asserts m P s b Hb. destruct (P b Hb) as (W & A & Q & F). unfold mkeep. destruct (m b) as [b' o]. cbn [fst snd] in *.
    split; [exact W|]. split; [exact A|]. split; [apply pairs_any, Q|]. split; [apply fine_M, F|auto].
  Qed.
  Lemma safe_grow : forall asserts m, paired asserts m -> safe asserts (mgrow m).
  Proof.
    intros asserts m P s b Hb. pose proof (safe_keep asserts m P s b Hb) as S. unfold mkeep in S. unfold mgrow.
    destruct (m b) as [b' [a|e| |u|]]; try exact S. destruct S as (W & A & Q & F & N).
    destruct s as [[|n]|].
    - apply sound_stop; [assumption|]. right. split; [reflexivity|discriminate].
    - split; [exact W|]. split; [exact A|]. split; [exact Q|]. split; [exact F|discriminate].
    - split; [exact W|]. split; [exact A|]. split; [exact Q|]. split; [exact F|auto].
  Qed.
  Lemma paired_wpt : forall asserts i c, paired asserts (push_wpt i c).
  Proof.
    intros asserts i c b Hb. destruct (keeps_push_wpt asserts i c b Hb) as [W F]. split; [assumption|].
    split; [|split; [|assumption]].
    - unfold push_wpt, upd_at. destruct (_ <? _); cbn [fst]; [|apply adds_refl].
      erewrite upd_ext; [apply (grows_upd_wpt b i [c] [])|]. intros w. cbn. rewrite app_nil_r. reflexivity.
    - unfold push_wpt, upd_at. destruct (_ <? _); cbn [fst]; [|apply pairs_refl].
      split; [reflexivity|]. exists 0. unfold wlen. cbn. rewrite upd_length. repeat split; lia.
  Qed.
  Lemma paired_sgmt : forall asserts i c, paired asserts (push_sgmt i c).
  Proof.
    intros asserts i c b Hb. destruct (keeps_push_sgmt asserts i c b Hb) as [W F]. split; [assumption|].
    split; [|split; [|assumption]].
    - unfold push_sgmt, upd_at. destruct (_ <? _); cbn [fst]; [|apply adds_refl].
      erewrite upd_ext; [apply (grows_upd_wpt b i [] [c])|]. intros w. cbn. rewrite app_nil_r. reflexivity.
    - unfold push_sgmt, upd_at. destruct (_ <? _); cbn [fst]; [|apply pairs_refl].
      split; [reflexivity|]. exists 0. unfold wlen. cbn. rewrite upd_length. repeat split; lia.
  Qed.
  Lemma sound_add : forall asserts n i s b, winv b -> wlen b + n <= max63 ->
    sound asserts s b (mem_add_wpts n i s b).
  Proof.
    intros asserts. induction n as [|n IH]; intros i s b Hb L; [apply sound_stop; [assumption|exact I]|].
    cbn [mem_add_wpts]. unfold mbind.
    set (b1 := set_waypoints b (b_waypoints b ++ [mkWaypoint [] []])).
    set (b2 := set_guess b1 (b_guess b1 ++ [[zero_pose]])).
    assert (W1 : winv b1).
    { destruct Hb as [G _]. split; [exact G|]. unfold wlen in *. cbn. rewrite app_length. cbn. lia. }
    assert (A1 : adds b b1).
    { split; [unfold wlen; cbn; rewrite app_length; lia|]. intros j w E. exists [], []. rewrite !app_nil_r. cbn.
      rewrite nth_error_app1 by (apply nth_error_Some; congruence). rewrite E. destruct w; reflexivity. }
    assert (W2 : winv b2).
    { destruct W1 as [G B]. split; [|exact B]. cbn. apply Forall_app. split; [exact G|]. repeat constructor. discriminate. }
    assert (A2 : adds b b2) by (eapply adds_trans; [exact A1|apply adds_same; reflexivity]).
    assert (P2 : pairs b b2 (Ok tt)).
    { split; [cbn; rewrite app_length; lia|]. exists 0. unfold wlen. cbn. rewrite !app_length. cbn. repeat split; lia. }
    assert (L2 : wlen b2 + n <= max63) by (unfold wlen in *; cbn; rewrite app_length; cbn; lia).
    assert (Go : forall s2 b3, b_waypoints b3 = b_waypoints b2 -> b_guess b3 = b_guess b2 -> (s = None -> s2 = None) ->
      sound asserts s b (mem_add_wpts n (i + 1) s2 b3)).
    { intros s2 b3 Ew Eg Hs. assert (W3 : winv b3) by (unfold winv, wlen in *; rewrite Ew, Eg; exact W2).
      apply (sound_trans asserts s s2 b b3); auto.
      - eapply adds_trans; [exact A2|]. apply adds_same, Ew.
      - eapply pairs_trans; [exact P2|]. apply pairs_same; [exact Ew|rewrite Eg; reflexivity].
      - apply IH; [exact W3|]. unfold wlen in *. rewrite Ew. exact L2. }
    (* the first growth *)
    destruct s as [[|n1]|].
    { apply sound_stop; [assumption|]. right. split; [reflexivity|discriminate]. }
    2: { unfold mgrow, grow_waypoints, grow_guess, grow_counts, mkeep, bret. fold b1. fold b2.
         destruct (i =? 0)%Z; apply Go; reflexivity || auto. }
    unfold mgrow at 1, grow_waypoints. fold b1.
    (* the second *)
    destruct n1 as [|n2].
    { cbn. split; [apply W1|]. split; [exact A1|]. split; [|split; [right; split; [reflexivity|discriminate]|discriminate]].
      split; [apply le_n|]. exists 1. unfold wlen. cbn. rewrite app_length. cbn. repeat split; lia. }
    unfold mgrow at 1, grow_guess. fold b2.
    (* the third *)
    destruct (i =? 0)%Z.
    { apply Go; [reflexivity|reflexivity|discriminate]. }
    destruct n2 as [|n3].
    { cbn. split; [apply W2|]. split; [exact A2|]. split; [|split; [right; split; [reflexivity|discriminate]|discriminate]].
      apply pairs_any, P2. }
    apply Go; [reflexivity|reflexivity|discriminate].
  Qed.
  Lemma safe_new : forall asserts i, safe asserts (mem_NewWpts i).
  Proof.
    intros asserts i s b Hb. unfold mem_NewWpts. cbv zeta. change (length (b_waypoints b)) with (wlen b).
    rewrite greatest_index by apply Hb.
    pose proof (to_i64_range (Z.of_nat i)) as R. set (t := to_i64 (Z.of_nat i)) in *.
    destruct (Z.ltb_spec (Z.of_nat (wlen b) - 1) t); [|apply sound_stop; [assumption|exact I]].
    apply sound_add; [assumption|]. apply Nat2Z.inj_le. rewrite max63_Z. lia.
  Qed.
  Lemma safe_WptConstraint : forall asserts i c, safe asserts (mem_WptConstraint i c).
  Proof. intros. apply safe_bind; [apply safe_new|apply safe_grow, paired_wpt]. Qed.
  Lemma safe_SgmtConstraint : forall asserts f t c, safe asserts (mem_SgmtConstraint asserts f t c).
  Proof.
    intros. apply safe_bind.
    - destruct asserts, (f <? t); cbn [andb negb]; first [apply (safe_skip true AssertFail); reflexivity|apply (safe_skip _ (Ok tt)); exact I].
    - apply safe_bind; [apply safe_new|]. apply safe_bind; [apply safe_grow, paired_wpt|].
      apply safe_for. intros i. apply safe_bind; apply safe_grow; [apply paired_wpt|apply paired_sgmt].
  Qed.
  Lemma blank_winv : winv (set_waypoints new_builder [mkWaypoint [] []] : builder K).
  Proof.
    split; [constructor|]. unfold wlen. cbn. apply Nat2Z.inj_le. rewrite max63_Z. rewrite pow63_val. lia.
  Qed.
  Lemma safe_obstacle : forall asserts add o, (forall c, safe asserts (add c)) -> safe asserts (mem_obstacle asserts add o).
  Proof.
    intros asserts add o S s b Hb. unfold mem_obstacle.
    assert (F : fine asserts (snd (obstacle_calls asserts o (b_bumpers b)))).
    { pose proof (keeps_obstacle asserts (push_wpt 0) o (b_bumpers b) (keeps_push_wpt asserts 0) _ blank_winv) as [_ F].
      unfold obstacle_calls. destruct (obstacle_loop _ _ _ _ _). exact F. }
    destruct (obstacle_calls asserts o (b_bumpers b)) as [cs r].
    apply (safe_bind asserts (mfor cs add) (mkeep (blift r))); [apply safe_for, S|apply safe_skip, F|assumption].
  Qed.
  Lemma paired_guess : forall asserts i p, paired asserts (fun b =>
      match at_ (b_guess b) i with
      | Ok [] => (b, Undef EmptyAccess)
      | Ok _ => (set_guess b (upd (b_guess b) i (fun l => set_back l p)), Ok tt)
      | _ => (b, Throw OutOfRange)
      end).
  Proof.
    intros asserts i p b (F & L). unfold at_. destruct (nth_error (b_guess b) i) as [[|q l]|] eqn:E; cbn [fst snd].
    - apply nth_error_In in E. rewrite Forall_forall in F. destruct (F _ E eq_refl).
    - split; [split; [|assumption]|split; [apply adds_same; reflexivity|split; [apply pairs_same; [reflexivity|apply upd_length]|exact I]]].
      apply Forall_upd; [assumption|]. intros. apply set_back_nonempty.
    - split; [split; assumption|]. split; [apply adds_refl|]. split; [apply pairs_refl|reflexivity].
  Qed.
  Lemma paired_sgmt_guess : forall asserts i ps, paired asserts (fun b =>
      match upd_at (b_guess b) i (fun l => ps ++ l) with
      | Ok g => (set_guess b g, Ok tt)
      | _ => (b, Throw OutOfRange)
      end).
  Proof.
    intros asserts i ps b (F & L). unfold upd_at. destruct (_ <? _); cbn [fst snd].
    - split; [split; [|assumption]|split; [apply adds_same; reflexivity|split; [apply pairs_same; [reflexivity|apply upd_length]|exact I]]].
      apply Forall_upd; [assumption|]. intros l Hl E. destruct (app_eq_nil _ _ E). auto.
    - split; [split; assumption|]. split; [apply adds_refl|]. split; [apply pairs_refl|reflexivity].
  Qed.
  Lemma paired_other : forall asserts (m : bld K unit),
    (forall b, b_waypoints (fst (m b)) = b_waypoints b /\ b_guess (fst (m b)) = b_guess b /\ snd (m b) = Ok tt) ->
    paired asserts m.
  Proof.
    intros asserts m H b Hb. destruct (H b) as (Ew & Eg & Eo). split; [|split; [|split]].
    - unfold winv, wlen in *. rewrite Ew, Eg. exact Hb.
    - apply adds_same, Ew.
    - apply pairs_same; [exact Ew|rewrite Eg; reflexivity].
    - rewrite Eo. exact I.
  Qed.
  Lemma safe_op : forall asserts o, safe asserts (mem_op asserts o).
  Proof.
    intros asserts o. destruct o; cbn [mem_op].
    - apply safe_keep, paired_other. repeat split.
    - apply safe_bind; [apply safe_WptConstraint|]. apply safe_bind; [apply safe_new|apply safe_keep, paired_guess].
    - apply safe_bind; [apply safe_WptConstraint|]. apply safe_bind; [apply safe_new|apply safe_keep, paired_guess].
    - apply safe_bind; [apply safe_new|apply safe_keep, paired_guess].
    - apply safe_bind; [apply safe_new|apply safe_grow, paired_sgmt_guess].
    - apply safe_grow, paired_other. repeat split.
    - apply safe_obstacle. intros. apply safe_WptConstraint.
    - apply safe_obstacle. intros. apply safe_SgmtConstraint.
    - apply safe_WptConstraint.
    - apply safe_SgmtConstraint.
    - apply safe_keep, paired_other. repeat split.
    - apply safe_grow, paired_other. repeat split.
  Qed.
  Lemma winv_mems : forall asserts h b, winv b -> winv (run_mems asserts h b).
  Proof.
    intros asserts. induction h as [|c h IH]; intros b Hb; [exact Hb|]. cbn [run_mems fold_left]. apply IH.
    pose proof (safe_op asserts (fst c) (snd c) b Hb) as S. unfold run_mem.
    destruct (mem_op asserts (fst c) (snd c) b) as [s' [b' o]]. apply S.
  Qed.

  Lemma sound_run : forall asserts c b, winv b ->
    sound asserts (snd c) b (fst (mem_op asserts (fst c) (snd c) b), run_mem asserts c b).
  Proof.
    intros asserts c b Hb. pose proof (safe_op asserts (fst c) (snd c) b Hb) as S. unfold run_mem.
    destruct (mem_op asserts (fst c) (snd c) b) as [s' r]. exact S.
  Qed.

  Lemma C99_calls_proof : forall asserts h o s,
    let r := run_mem asserts (o, s) (run_mems asserts h (@new_builder K)) in
    match snd r with
    | Ok _ => True
    | Throw e => e = OutOfRange \/ (e = BadAlloc /\ s <> None)
    | AssertFail => asserts = true
    | Undef _ | OutOfFuel => False
    end.
  Proof.
    intros asserts h o s. pose proof (sound_run asserts (o, s) _ (winv_mems asserts h new_builder winv_new)) as S.
    cbv zeta. destruct (run_mem asserts (o, s) _) as [b' r]. cbn [fst snd] in *. destruct S as (_ & _ & _ & F & _). exact F.
  Qed.

  Lemma C99_kept_proof : forall asserts h c,
    let b := run_mems asserts h (@new_builder K) in let b' := fst (run_mem asserts c b) in
    waypoint_count b <= waypoint_count b' /\
    forall i, i < waypoint_count b ->
      (exists l, constraints_at b' i = constraints_at b i ++ l) /\
      (exists l, segment_constraints_to b' i = segment_constraints_to b i ++ l).
  Proof.
    intros asserts h c b b'. pose proof (sound_run asserts c b (winv_mems asserts h new_builder winv_new)) as S.
    unfold b'. destruct (run_mem asserts c b) as [b1 r]. cbn [fst]. destruct S as (_ & (L & A) & _).
    split; [exact L|]. intros i Hi. unfold constraints_at, segment_constraints_to.
    destruct (nth_error (b_waypoints b) i) as [w|] eqn:E.
    - destruct (A i w E) as (u & v & ->). split; eexists; reflexivity.
    - apply nth_error_None in E. unfold waypoint_count in Hi. lia.
  Qed.

  Lemma new_noop : forall i s b, winv b -> i < wlen b -> mem_NewWpts i s b = (s, (b, Ok tt)).
  Proof.
    intros i s b Hb Hi. unfold mem_NewWpts. cbv zeta. change (length (b_waypoints b)) with (wlen b).
    destruct Hb as [_ L]. rewrite greatest_index by exact L.
    rewrite to_i64_small.
    - destruct (Z.ltb_spec (Z.of_nat (wlen b) - 1) (Z.of_nat i)); [lia|reflexivity].
    - apply inj_le in L. rewrite max63_Z in L. lia.
  Qed.
  Lemma guess_no_alloc : forall i p s b, winv b -> i < wlen b ->
    snd (snd (mem_WptInitialGuessPoint i p s b)) <> Throw BadAlloc.
  Proof.
    intros i p s b Hb Hi. unfold mem_WptInitialGuessPoint, mbind. rewrite (new_noop i s b Hb Hi).
    unfold mkeep, at_. destruct (nth_error (b_guess b) i) as [[|q l]|]; discriminate.
  Qed.
  Lemma wpt_then_guess : forall i c p s b, winv b -> i < wlen b ->
    snd (snd ((mem_WptConstraint i c ;^ mem_WptInitialGuessPoint i p) s b)) = Throw BadAlloc ->
    fst (snd ((mem_WptConstraint i c ;^ mem_WptInitialGuessPoint i p) s b)) = b.
  Proof.
    intros i c p s b Hb Hi. unfold mbind, mem_WptConstraint, mbind. rewrite (new_noop i s b Hb Hi).
    unfold mgrow.
    pose proof (paired_wpt true i c b Hb) as (W & (L & _) & _ & _). revert W L.
    unfold push_wpt. rewrite upd_at_ok by exact Hi. cbn [fst].
    intros W L. destruct s as [[|n]|]; cbn [fst snd]; [reflexivity| |].
    - intros E. destruct (guess_no_alloc i p (Some n) _ W ltac:(lia) E).
    - intros E. destruct (guess_no_alloc i p None _ W ltac:(lia) E).
  Qed.
  Lemma grow_or_not : forall (m : bld K unit) s b, snd (m b) <> Throw BadAlloc ->
    snd (snd (mgrow m s b)) = Throw BadAlloc -> fst (snd (mgrow m s b)) = b.
  Proof.
    intros m s b N. unfold mgrow. destruct (m b) as [b' [a|e| |u|]], s as [[|n]|]; cbn [fst snd] in *;
      try discriminate; try reflexivity; intros E; destruct (N E).
  Qed.
  Lemma C99_all_or_nothing_proof : forall asserts h o s,
    let b := run_mems asserts h (@new_builder K) in small_call b o ->
    snd (run_mem asserts (o, s) b) = Throw BadAlloc -> fst (run_mem asserts (o, s) b) = b.
  Proof.
    intros asserts h o s b Hs. pose proof (winv_mems asserts h new_builder winv_new) as Hb. fold b in Hb.
    unfold run_mem. cbn [fst snd]. destruct o; cbn [small_call] in Hs; cbn [mem_op]; try contradiction; try discriminate.
    - apply wpt_then_guess; assumption.
    - apply wpt_then_guess; assumption.
    - intros E. destruct (guess_no_alloc _ _ _ _ Hb Hs E).
    - unfold mem_SgmtInitialGuessPoints, mbind. assert (E : succ64 fromIndex = S fromIndex).
      { apply succ64_small. destruct Hb as [_ L]. apply inj_le in L. rewrite max63_Z in L.
        unfold waypoint_count in Hs. unfold wlen in L. rewrite two64_val. rewrite pow63_val in L. lia. }
      rewrite E. rewrite (new_noop (S fromIndex) s b Hb Hs). apply grow_or_not.
      destruct (upd_at _ _ _); discriminate.
    - apply grow_or_not. discriminate.
    - unfold mem_WptConstraint, mbind. rewrite (new_noop index s b Hb Hs). apply grow_or_not.
      unfold push_wpt. destruct (upd_at _ _ _); discriminate.
    - apply grow_or_not. discriminate.
  Qed.

  (** ** Waypoints without a guess *)
  Lemma guess_le : forall asserts h (b : builder K), winv b -> length (b_guess b) <= wlen b ->
    let b' := run_mems asserts h b in length (b_guess b') <= wlen b' /\ lost b <= lost b'.
  Proof.
    intros asserts. induction h as [|c h IH]; intros b Hb L; [split; [exact L|apply le_n]|]. cbn [run_mems fold_left].
    pose proof (sound_run asserts c b Hb) as S. destruct (run_mem asserts c b) as [b1 r]. cbn [fst].
    destruct S as (W & _ & (G & d & Hd & E & _) & _). destruct (IH b1 W) as [I1 I2]; [lia|]. split; [exact I1|].
    unfold lost, waypoint_count, wlen in *. unfold run_mems in I2. lia.
  Qed.
  Lemma C99_lost_once_proof : forall asserts h c,
    let b := run_mems asserts h (@new_builder K) in let r := run_mem asserts c b in
    lost b <= lost (fst r) <= lost b + 1 /\ (snd r <> Throw BadAlloc -> lost (fst r) = lost b).
  Proof.
    intros asserts h c b r. pose proof (winv_mems asserts h new_builder winv_new) as Hb. fold b in Hb.
    destruct (guess_le asserts h new_builder winv_new (le_n _)) as [L _]. fold b in L.
    pose proof (sound_run asserts c b Hb) as S. fold r in S. destruct r as [b1 o]. cbn [fst snd].
    destruct S as (W & _ & (G & d & Hd & E & N) & _). unfold lost, waypoint_count, wlen in *. split; [lia|].
    intros X. assert (d = 0) by (destruct d; [reflexivity|destruct (X (N ltac:(lia)))]). lia.
  Qed.
  Lemma pose_throws : forall asserts i x y a b, winv b -> length (b_guess b) < wlen b -> length (b_guess b) <= i ->
    snd (run_op asserts (OPoseWpt i x y a) b) = Throw OutOfRange.
  Proof.
    intros asserts i x y a b Hb L Hi. cbn [run_op]. unfold PoseWpt, WptConstraint, WptInitialGuessPoint.
    unfold bbind at 1 2. cbn [newWpts].
    pose proof (keeps_newWpts asserts i b Hb) as [W1 _]. cbn [newWpts fst] in W1.
    assert (X : i < wlen (NewWpts i b) -> NewWpts i b = extend (S i) b).
    { intros X. apply NewWpts_small; [apply Hb|]. destruct W1 as [_ W1]. lia. }
    unfold push_wpt, upd_at. destruct (Nat.ltb_spec i (length (b_waypoints (NewWpts i b)))) as [B|B]; [|reflexivity].
    specialize (X B). set (w := upd _ _ _). cbn [bbind newWpts].
    set (b1 := set_waypoints (NewWpts i b) w).
    assert (E1 : wlen b1 = wlen (NewWpts i b)) by (unfold b1, w, wlen; cbn; apply upd_length).
    assert (N : NewWpts i b1 = b1).
    { rewrite NewWpts_small; [|rewrite E1; apply W1|destruct W1 as [_ W1]; unfold wlen in *; lia].
      unfold extend. rewrite E1. change (length (b_waypoints (NewWpts i b))) with (wlen (NewWpts i b)) in B.
      replace (S i - wlen (NewWpts i b)) with 0 by lia. replace (S i - 1 - (wlen (NewWpts i b) - 1)) with 0 by lia.
      cbn [repeat]. rewrite !app_nil_r. destruct b1; reflexivity. }
    unfold bbind, newWpts. rewrite N. unfold at_.
    assert (G : length (b_guess b1) <= i).
    { unfold b1. cbn [b_guess set_waypoints]. rewrite X. unfold extend. cbn [b_guess]. rewrite app_length, repeat_length. lia. }
    rewrite (proj2 (nth_error_None _ _) G). reflexivity.
  Qed.
  Lemma C99_never_repaired_proof : forall asserts h h' i x y a,
    let b := run_mems asserts h (@new_builder K) in let b' := run_mems asserts h' b in
    0 < lost b -> waypoint_count b' - lost b' <= i ->
    0 < lost b' /\ snd (run_op asserts (OPoseWpt i x y a) b') = Throw OutOfRange.
  Proof.
    intros asserts h h' i x y a b b' Hl Hi. pose proof (winv_mems asserts h new_builder winv_new) as Hb. fold b in Hb.
    destruct (guess_le asserts h new_builder winv_new (le_n _)) as [L _]. fold b in L.
    destruct (guess_le asserts h' b Hb L) as [L1 L2]. fold b' in L1, L2. split; [lia|].
    unfold lost, waypoint_count, wlen in *. apply pose_throws; [apply winv_mems, Hb|unfold wlen; lia|lia].
  Qed.
  Lemma pose_returns : forall asserts i x y a b, winv b -> i < length (b_guess b) -> length (b_guess b) <= wlen b ->
    snd (run_op asserts (OPoseWpt i x y a) b) = Ok tt.
  Proof.
    intros asserts i x y a b Hb Hi L. rewrite <- C99_unlimited_proof. unfold run_mem. cbn [fst snd mem_op].
    unfold mem_PoseWpt, mbind, mem_WptConstraint, mbind. rewrite new_noop by (try assumption; lia).
    rewrite plain_grow. pose proof (paired_wpt true i (mkPoseEquality x y a) b Hb) as (W & (A & _) & _).
    revert W A. unfold push_wpt. rewrite upd_at_ok by (unfold wlen in L; lia). cbn [fst]. intros W A.
    unfold mem_WptInitialGuessPoint, mbind. rewrite new_noop by (try assumption; lia). unfold mkeep.
    destruct W as [W _]. cbn [b_guess set_waypoints] in *. unfold at_.
    destruct (nth_error (b_guess b) i) as [[|q l]|] eqn:E; cbn [snd]; [|reflexivity|].
    - apply nth_error_In in E. rewrite Forall_forall in W. destruct (W _ E eq_refl).
    - apply nth_error_None in E. lia.
  Qed.
  Lemma C99_others_work_proof : forall asserts h i x y a,
    let b := run_mems asserts h (@new_builder K) in i < waypoint_count b - lost b ->
    snd (run_op asserts (OPoseWpt i x y a) b) = Ok tt.
  Proof.
    intros asserts h i x y a b Hi. pose proof (winv_mems asserts h new_builder winv_new) as Hb. fold b in Hb.
    destruct (guess_le asserts h new_builder winv_new (le_n _)) as [L _]. fold b in L.
    unfold lost, waypoint_count, wlen in *. apply pose_returns; [exact Hb|lia|exact L].
  Qed.

  Lemma C99_outcomes_proof : forall asserts h handle,
    let b := run_mems asserts h (@new_builder K) in
    (b_guess b = [] -> construct b handle = Undef EmptyAccess) /\
    (0 < length (b_guess b) <= length (b_counts b) -> construct b handle = Throw OutOfRange) /\
    (length (b_counts b) < length (b_guess b) -> b_drivetrain b = None -> construct b handle = Undef Uninitialized) /\
    (forall d, length (b_counts b) < length (b_guess b) -> b_drivetrain b = Some d ->
       exists g, construct b handle = Ok g /\ g_callbacks g = b_callbacks b /\ g_handle g = handle).
  Proof.
    intros asserts h handle b. pose proof (winv_mems asserts h new_builder winv_new) as Hb. fold b in Hb.
    destruct (guess_le asserts h new_builder winv_new (le_n _)) as [L _]. fold b in L.
    destruct (outcomes_winv b handle Hb) as (O1 & O2 & O3 & O4).
    split; [exact O1|]. split; [exact O2|]. split; [exact O3|]. intros d C D. apply (O4 d C D).
    unfold waypoint_count, wlen in *. lia.
  Qed.
End Any.

Lemma C99_problem_proof : forall asserts h handle d g,
  let b := run_mems asserts h (@new_builder R) in
  construct b handle = Ok g -> b_drivetrain b = Some d -> real_wheels d ->
  (forall n, In n (b_counts b) -> 1 <= n) ->
  (forall w, In w (b_waypoints b) -> Forall proper_constraint (waypointConstraints w ++ segmentConstraints w)) ->
  forall env sol, ConstructSwerveSolution g env = Ok sol ->
  (feasible env (g_problem g) <->
   obeys_physics turns_up_to_half d (b_counts b) sol /\
   meets_requests (b_counts b) sol (constraints_at b) (segment_constraints_to b)).
Proof. intros asserts h handle d g. exact (problem_winv _ handle d g (winv_mems asserts h new_builder winv_new)). Qed.

(** ** Cases *)
Open Scope R_scope.
(** A first waypoint whose guess cannot be stored. *)
Definition starved : list (op R * budget) := [(OSetDrivetrain cart, None); (OPoseWpt 0 0 0 0, Some 1%nat)].
(** A second waypoint whose guess cannot be stored, then a constraint on it. *)
Definition halved : list (op R * budget) :=
  [(OSetDrivetrain cart, None); (OPoseWpt 0 0 0 0, None); (OPoseWpt 1 1 0 1, Some 1%nat);
   (OWptConstraint 1 (LinearVelocityMaxMagnitude 0), None)].

Lemma starved_proof :
  let b0 := run_mems true [(OSetDrivetrain cart, None)] new_builder in let b := run_mems true starved new_builder in
  run_mem true (OPoseWpt 0 0 0 0, Some 1%nat) b0 = (b, Throw BadAlloc) /\ waypoint_count b = 1%nat /\
  snd (run_mem true (OPoseWpt 0 0 0 0, None) b) = Throw OutOfRange /\
  construct (fst (run_mem true (OPoseWpt 0 0 0 0, None) b)) 7 = Undef EmptyAccess.
Proof. repeat split. Qed.

Lemma halved_proof :
  let b := run_mems true halved new_builder in
  map (fun k => snd (run_mem true (nth k halved (OSetDrivetrain cart, None)) (run_mems true (firstn k halved) new_builder))) (seq 0 4) =
    [Ok tt; Ok tt; Throw BadAlloc; Ok tt] /\
  waypoint_count b = 2%nat /\ constraints_at b 1 = [LinearVelocityMaxMagnitude 0] /\
  construct b 7 = construct (run_mems true (firstn 2 halved) new_builder) 7 /\
  exists g, construct b 7 = Ok g.
Proof.
  split; [reflexivity|]. split; [reflexivity|]. split; [reflexivity|]. split.
  - rewrite used_construct. rewrite (used_construct (run_mems true (firstn 2 halved) new_builder)). reflexivity.
  - destruct (C99_outcomes_proof true halved 7) as (_ & _ & _ & O). cbv zeta in O.
    destruct (O cart) as (g & C & _); [|reflexivity|exists g; exact C].
    assert (E1 : length (b_guess (run_mems true halved new_builder)) = 1%nat) by (vm_compute; reflexivity).
    assert (E2 : length (b_counts (run_mems true halved new_builder)) = 0%nat) by (vm_compute; reflexivity).
    rewrite E1, E2. auto.
Qed.
Lemma halved_problem_proof : exists g, let b := run_mems true halved new_builder in
  construct b 7 = Ok g /\ b_drivetrain b = Some cart /\ real_wheels cart /\ b_counts b = [] /\
  (forall w, In w (b_waypoints b) -> Forall proper_constraint (waypointConstraints w ++ segmentConstraints w)).
Proof.
  destruct halved_proof as (_ & _ & _ & _ & g & C). exists g. cbv zeta. split; [exact C|].
  split; [reflexivity|]. split; [exact cart_wheels|]. split; [reflexivity|].
  assert (E : b_waypoints (run_mems true halved new_builder) =
    [mkWaypoint [mkPoseEquality 0 0 0] []; mkWaypoint [LinearVelocityMaxMagnitude 0] []]) by reflexivity.
  rewrite E. intros w [<-|[<-|[]]]; (constructor; [|constructor]); [apply unit_rot_angle|exact I].
Qed.

(** ** Bumpers survive edits of the path (C91) *)
Section Kept.
  Local Open Scope nat_scope.
  Context {K : Type} {HA : Arith K} {HD : Dbl K}.
  Implicit Types b : builder K.

  Lemma wpt_pushed : forall i c b, wlen b <= max63 -> i < max63 ->
    exists b', WptConstraint i c b = (b', Ok tt) /\ wlen b' <= max63 /\
      constraints_at b' i = constraints_at b i ++ [c].
  Proof.
    intros i c b Hb Hi. unfold WptConstraint, bbind, newWpts. rewrite NewWpts_small by assumption.
    destruct (push_wpt_ok i c (extend (S i) b)) as (b' & P & (L & C & _) & _); [rewrite wlen_extend; lia|].
    rewrite wlen_extend in L. exists b'. split; [exact P|]. split; [lia|]. rewrite C.
    unfold only. rewrite Nat.eqb_refl. f_equal.
    unfold constraints_at, extend. cbn [b_waypoints].
    destruct (Nat.lt_ge_cases i (wlen b)).
    - rewrite nth_error_app1 by assumption. reflexivity.
    - rewrite nth_error_app2 by assumption. rewrite nth_error_repeat.
      rewrite (proj2 (nth_error_None (b_waypoints b) i)) by assumption. destruct (_ <? _); reflexivity.
  Qed.
  Lemma wpts_pushed : forall i cs b, wlen b <= max63 -> i < max63 ->
    exists b', bfor cs (WptConstraint i) b = (b', Ok tt) /\ constraints_at b' i = constraints_at b i ++ cs.
  Proof.
    intros i cs. induction cs as [|c cs IH]; intros b Hb Hi.
    - exists b. rewrite app_nil_r. split; reflexivity.
    - destruct (wpt_pushed i c b Hb Hi) as (b1 & E1 & H1 & C1). destruct (IH b1 H1 Hi) as (b2 & E2 & C2).
      exists b2. cbn [bfor]. unfold bbind. rewrite E1, E2. split; [reflexivity|].
      rewrite C2, C1, <- app_assoc. reflexivity.
  Qed.

  Lemma C91_bumpers_kept_proof : forall asserts ss p i o, Forall small_edit (ss ++ [SEdit p]) ->
    (Z.of_nat i < 2 ^ 63)%Z ->
    let b := run_steps asserts ss (@new_builder K) in let b' := run_steps asserts (ss ++ [SEdit p]) new_builder in
    snd (run_op asserts (OWptObstacle i o) b') = snd (run_op asserts (OWptObstacle i o) b) /\
    exists cs, constraints_at (fst (run_op asserts (OWptObstacle i o) b)) i = constraints_at b i ++ cs /\
               constraints_at (fst (run_op asserts (OWptObstacle i o) b')) i = constraints_at b' i ++ cs.
  Proof.
    intros asserts ss p i o Small Hi b b'.
    assert (Hb : wlen b <= max63) by (apply (winv_steps asserts ss new_builder winv_new), (Forall_app _ ss [SEdit p]), Small).
    assert (Hb' : wlen b' <= max63) by (apply (winv_steps asserts _ new_builder winv_new), Small).
    assert (E : b_bumpers b' = b_bumpers b).
    { unfold b', run_steps. rewrite fold_left_app. reflexivity. }
    assert (I : i < max63) by (apply Nat2Z.inj_lt; rewrite max63_Z; exact Hi).
    cbn [run_op]. unfold WptObstacle. rewrite !obstacle_calls_eq, E. clearbody b b'. clear E.
    destruct (obstacle_calls asserts o (b_bumpers b)) as [cs r]. cbn [fst snd]. unfold replay, bbind.
    destruct (wpts_pushed i cs b Hb I) as (b1 & -> & C1). destruct (wpts_pushed i cs b' Hb' I) as (b2 & -> & C2).
    split; [reflexivity|]. exists cs. split; assumption.
  Qed.
End Kept.

(** A builder with one bumper whose path is then erased. *)
Definition bumped : list (step R) := [SCall (OAddBumpers (mkObstacle 1 [mkTr 0 0])); SCall (OPoseWpt 0 0 0 0)].
Definition erased : spath R := mkSpath [] None [].
Lemma bumped_proof : Forall small_edit (bumped ++ [SEdit erased]) /\
  length (constraints_at (fst (run_op false (OWptObstacle 0 (mkObstacle 1 [mkTr 3 0; mkTr 3 4]))
    (run_steps false (bumped ++ [SEdit erased]) new_builder))) 0) = 1%nat.
Proof.
  split; [repeat constructor; cbn; lia|]. vm_compute. reflexivity.
Qed.
