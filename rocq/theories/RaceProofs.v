(** Proofs about data races on the frame clock and about frame rates. *)
From Coq Require Import List Lia ZArith Bool Sorted.
Import ListNotations.
From Verif Require Import Outcome Num Geometry Expr Constraints Util Builder Guess Generator Runtime
  SpecBuilder SpecGenerator SpecRuntime RuntimeProofs.
Local Open Scope nat_scope.

Ltac step_cases S :=
  unfold step in S;
  repeat match type of S with
  | context [match ?x with _ => _ end] =>
      lazymatch x with
      | context [match _ with _ => _ end] => fail
      | _ => destruct x eqn:?; try discriminate S
      end
  end;
  injection S as <-.

(** Tables with one or two replaced entries. *)
Ltac at_cases :=
  repeat match goal with
  | |- context [set_at ?f ?t ?a ?u] =>
      destruct (set_at_cases f t u a) as [[? ?]|[? ?]]; subst;
      match goal with E : set_at f _ a _ = _ |- _ => rewrite E in * end
  end.

Section Race.
  Context {K : Type} {HA : Arith K} {HD : Dbl K}.
  Variable stop : Z.

  (** Nobody knows more of a thread than the thread itself. *)
  Definition known (s : rt K) : Prop :=
    (forall t v, r_clocks s v t <= r_clocks s t t) /\
    (forall t, r_flag_clock s t <= r_clocks s t t) /\
    (forall t, r_init_clock s t <= r_clocks s t t) /\
    (forall a, In a (r_accesses s) -> ac_epoch a <= r_clocks s (ac_thread a) (ac_thread a)).
  (** Nobody else knows of what [t] did from its local time [e] on. *)
  Definition unknown (s : rt K) (t e : nat) : Prop :=
    (forall v, v <> t -> r_clocks s v t < e) /\ r_flag_clock s t < e /\ r_init_clock s t < e.

  Lemma tick_same : forall t (c : vclock), vc_tick t c t = S (c t).
  Proof. intros. unfold vc_tick. rewrite Nat.eqb_refl. reflexivity. Qed.
  Lemma tick_other : forall t (c : vclock) u, u <> t -> vc_tick t c u = c u.
  Proof. intros t c u D. unfold vc_tick. apply Nat.eqb_neq in D. rewrite D. reflexivity. Qed.
  Lemma tick_le : forall t (c : vclock) u, c u <= vc_tick t c u.
  Proof. intros t c u. unfold vc_tick. destruct (Nat.eqb u t); lia. Qed.

  (** A thread's clock after its own event: ticked, maybe joined with
      something already known. *)
  Definition grown (s : rt K) (t : nat) (c : vclock) : Prop :=
    c t = S (r_clocks s t t) /\ (forall u, r_clocks s t u <= c u) /\
    (forall u, u <> t -> c u <= r_clocks s u u) /\
    (forall u e, u <> t -> unknown s u e -> c u < e).
  Lemma grown_tick : forall s t, known s -> grown s t (vc_tick t (r_clocks s t)).
  Proof.
    intros s t (K1 & _). split; [apply tick_same|]. split; [intros; apply tick_le|].
    split; [intros u D; rewrite tick_other by exact D; apply K1|].
    intros u e D (U & _). rewrite tick_other by exact D. apply U. congruence.
  Qed.
  Lemma grown_join : forall s t c, known s ->
    (forall u, c u <= r_clocks s u u) -> (forall u e, u <> t -> unknown s u e -> c u < e) ->
    grown s t (vc_join (vc_tick t (r_clocks s t)) c).
  Proof.
    intros s t c Kn L U. destruct (grown_tick s t Kn) as (G1 & G2 & G3 & G4). unfold vc_join.
    split; [rewrite G1; specialize (L t); lia|]. split; [intros u; specialize (G2 u); lia|].
    split; [intros u D; specialize (G3 u D); specialize (L u); lia|].
    intros u e D Un. specialize (G4 u e D Un). specialize (U u e D Un). lia.
  Qed.

  (** Every event of [t] but client synchronisation leaves [t]'s clock grown,
      the other clocks alone, and the released clocks old or equal to [t]'s. *)
  Lemma step_clocks : forall (s s' : rt K) e, known s -> step stop s e = Some s' ->
    (forall t u, e <> ESync t u) ->
    let t := thread_of e in
    exists c, grown s t c /\ r_clocks s' = set_at (r_clocks s) t c /\
      (r_flag_clock s' = r_flag_clock s \/ (r_flag_clock s' = c /\ publishes t e)) /\
      (r_init_clock s' = r_init_clock s \/ (r_init_clock s' = c /\ r_last s = None)) /\
      (r_accesses s' = r_accesses s \/ exists w, r_accesses s' = r_accesses s ++ [mkAccess t (c t) w]).
  Proof.
    intros s s' e Kn S NS. destruct e; cbn [thread_of]; try (exfalso; eapply NS; reflexivity).
    2: { unfold step in S. destruct (r_threads s t); try discriminate S. destruct (r_last s) eqn:L; injection S as <-;
         cbn [moved r_clocks r_flag_clock r_init_clock r_accesses].
         - exists (vc_join (vc_tick t (r_clocks s t)) (r_init_clock s)).
           split; [apply grown_join; [exact Kn|apply Kn|intros u e _ (_ & _ & U); exact U]|].
           split; [reflexivity|]. split; [left; reflexivity|]. split; [left; reflexivity|]. left; reflexivity.
         - exists (vc_tick t (r_clocks s t)). split; [apply grown_tick, Kn|].
           split; [reflexivity|]. split; [left; reflexivity|]. split; [right; split; reflexivity|]. left; reflexivity. }
    5: { unfold step in S. destruct (r_threads s t); try discriminate S. injection S as <-.
         cbn [moved r_clocks r_flag_clock r_init_clock r_accesses].
         exists (vc_join (vc_tick t (r_clocks s t)) (r_flag_clock s)).
         split; [apply grown_join; [exact Kn|apply Kn|intros u e _ (_ & U & _); exact U]|].
         split; [reflexivity|]. split; [left; reflexivity|]. split; [left; reflexivity|]. left; reflexivity. }
    all: exists (vc_tick t (r_clocks s t)); (split; [apply grown_tick, Kn|]); step_cases S;
      cbn [moved r_clocks r_flag_clock r_init_clock r_accesses]; (split; [reflexivity|]);
      (split; [first [left; reflexivity | right; split; reflexivity]|]); (split; [left; reflexivity|]);
      first [left; reflexivity | right; eexists; reflexivity].
  Qed.

  Lemma step_known : forall (s s' : rt K) e, known s -> step stop s e = Some s' -> known s'.
  Proof.
    intros s s' e Kn S.
    destruct e; try (destruct (step_clocks s s' _ Kn S ltac:(congruence)) as (c & (G1 & G2 & G3 & G4) & C & F & J & A);
      cbn [thread_of] in *).
    9: { unfold step in S. destruct (_ && _) eqn:B; [|discriminate S]. injection S as <-.
         apply andb_true_iff in B. destruct B as [_ B]. apply negb_true_iff, Nat.eqb_neq in B.
         destruct Kn as (K1 & K2 & K3 & K4). unfold known. cbn [r_clocks r_flag_clock r_init_clock r_accesses].
         assert (T : forall v w, set_at (set_at (r_clocks s) t (vc_tick t (r_clocks s t))) u
                      (vc_join (r_clocks s u) (vc_tick t (r_clocks s t))) v w <=
                    set_at (set_at (r_clocks s) t (vc_tick t (r_clocks s t))) u
                      (vc_join (r_clocks s u) (vc_tick t (r_clocks s t))) w w).
         { intros v w. unfold vc_join. pose proof (K1 w u). pose proof (K1 w t). pose proof (K1 w v).
           pose proof (tick_le t (r_clocks s t) w).
           at_cases; rewrite ?tick_same; rewrite ?tick_other by congruence; try lia.
           all: try (rewrite ?tick_other in * by congruence; lia).
           all: destruct (Nat.eq_dec w t) as [->|]; rewrite ?tick_same in *; rewrite ?tick_other in * by congruence; try lia; congruence. }
         assert (G : forall w, r_clocks s w w <= set_at (set_at (r_clocks s) t (vc_tick t (r_clocks s t))) u
                      (vc_join (r_clocks s u) (vc_tick t (r_clocks s t))) w w).
         { intros w. unfold vc_join. at_cases; try lia. apply tick_le. }
         split; [intros w v; apply T|]. split; [intros w; etransitivity; [apply K2|apply G]|].
         split; [intros w; etransitivity; [apply K3|apply G]|].
         intros a Ia. etransitivity; [apply (K4 a Ia)|apply G]. }
    all: destruct Kn as (K1 & K2 & K3 & K4); unfold known; rewrite C;
      assert (G : forall w, r_clocks s w w <= set_at (r_clocks s) t c w w) by (intros w; at_cases; [apply G2|lia]);
      assert (T : forall w, c w <= set_at (r_clocks s) t c w w) by (intros w; at_cases; [lia|apply G3; assumption]);
      (split; [intros w v; destruct (set_at_cases (r_clocks s) t v c) as [[-> E]|[D E]]; rewrite E;
               [apply T|etransitivity; [apply K1|apply G]]|]);
      (split; [intros w; destruct F as [->|[-> _]]; [etransitivity; [apply K2|apply G]|apply T]|]);
      (split; [intros w; destruct J as [->|[-> _]]; [etransitivity; [apply K3|apply G]|apply T]|]);
      (destruct A as [->|[w ->]]; intros a Ia; try (apply in_app_or in Ia; destruct Ia as [Ia|[<-|[]]]);
        try (etransitivity; [apply (K4 a Ia)|apply G]); cbn [ac_epoch ac_thread]; apply T).
  Qed.
  Lemma known_init : known rt_init.
  Proof. repeat split; intros; try (simpl; lia). destruct H. Qed.
  Lemma run_known : forall es s, run stop rt_init es = Some s -> known s.
  Proof.
    apply (run_ind stop (fun _ s => known s)); [exact known_init|].
    intros es e s s' _ Kn S. exact (step_known s s' e Kn S).
  Qed.

  Lemma step_unknown : forall (s s' : rt K) ev t e, known s -> step stop s ev = Some s' -> unknown s t e ->
    ~ publishes t ev -> r_last s <> None -> unknown s' t e.
  Proof.
    intros s s' ev t e Kn S U NP NL.
    destruct ev; try (destruct (step_clocks s s' _ Kn S ltac:(congruence)) as (c & (G1 & G2 & G3 & G4) & C & F & J & A);
      cbn [thread_of] in * ).
    9: { unfold step in S. destruct (_ && _) eqn:B; [|discriminate S]. injection S as <-.
         destruct U as (U1 & U2 & U3). split; [|split; assumption].
         intros v D. cbn [r_clocks]. simpl in NP.
         pose proof (U1 v D). pose proof (U1 t0 NP). unfold vc_join.
         at_cases; rewrite ?tick_other by congruence; try lia. }
    all: destruct U as (U1 & U2 & U3); unfold unknown; rewrite C; (split; [|split]).
    all: try (intros v D; destruct (set_at_cases (r_clocks s) t0 v c) as [[-> E]|[Dv E]]; rewrite E;
         [apply G4; [congruence|repeat split; assumption]|apply U1, D]).
    all: match goal with
      | |- r_flag_clock _ _ < _ => destruct F as [->|[-> P]]; [exact U2|];
          apply G4; [intros E; apply NP; rewrite E; exact P|repeat split; assumption]
      | _ => destruct J as [->|[-> P]]; [exact U3|contradiction]
      end.
  Qed.

  (** Right after an event of [t] that publishes nothing, nobody knows of it. *)
  Lemma fresh_unknown : forall (s s' : rt K) ev t, known s -> step stop s ev = Some s' -> thread_of ev = t ->
    ~ publishes t ev -> r_last s <> None -> unknown s' t (r_clocks s' t t).
  Proof.
    intros s s' ev t Kn S E NP NL.
    destruct ev; try (destruct (step_clocks s s' _ Kn S ltac:(congruence)) as (c & (G1 & G2 & G3 & G4) & C & F & J & A));
      cbn [thread_of] in *; subst; try (contradiction NP; reflexivity).
    all: destruct Kn as (K1 & K2 & K3 & K4); unfold unknown; rewrite C, set_at_same, G1; (split; [|split]).
    all: try (intros v D; rewrite set_at_other by exact D; pose proof (K1 t v); lia).
    all: try (destruct F as [->|[-> P]]; [specialize (K2 t); lia|contradiction]).
    all: destruct J as [->|[-> P]]; [specialize (K3 t); lia|contradiction].
  Qed.

  Lemma last_kept : forall (s s' : rt K) ev, step stop s ev = Some s' -> r_last s <> None -> r_last s' <> None.
  Proof.
    intros s s' ev S N. destruct ev; step_cases S; cbn [r_last moved]; try assumption; try congruence; discriminate.
  Qed.
  Lemma race_kept : forall (s s' : rt K) ev, step stop s ev = Some s' -> r_race s = true -> r_race s' = true.
  Proof.
    intros s s' ev S N. destruct ev; step_cases S; cbn [r_race moved]; try assumption; rewrite N; reflexivity.
  Qed.
  Lemma accesses_kept : forall (s s' : rt K) ev a, step stop s ev = Some s' -> In a (r_accesses s) -> In a (r_accesses s').
  Proof.
    intros s s' ev a S N. destruct ev; step_cases S; cbn [r_accesses moved]; try assumption; apply in_or_app; left; exact N.
  Qed.
  Lemma race_seen : forall l c t w a, In a l -> ac_thread a <> t -> (w || ac_write a) = true -> c (ac_thread a) < ac_epoch a ->
    existsb (races_with c t w) l = true.
  Proof.
    intros l c t w a I1 D W L. apply existsb_exists. exists a. split; [exact I1|]. unfold races_with.
    apply Nat.eqb_neq in D. rewrite D, W. simpl. apply Nat.ltb_lt. exact L.
  Qed.

  (** An unpublished write races with the next iteration of another thread. *)
  Theorem unavoidable_proof : forall es1 t es2 u now s,
    run stop rt_init (es1 ++ EWrite t :: es2 ++ [ECheck u now]) = Some s ->
    u <> t -> (forall e, In e es2 -> ~ publishes t e) -> r_race s = true.
  Proof.
    intros es1 t es2 u now s R D N.
    destruct (run_split _ _ _ _ _ R) as (s0 & R0 & R'). cbn [run] in R'.
    destruct (step stop s0 (EWrite t)) as [s1|] eqn:S1; [|discriminate].
    assert (Kn0 := run_known _ _ R0).
    assert (W : exists last, r_last s1 = Some last).
    { unfold step in S1. destruct (r_threads s0 t); try discriminate S1. destruct (ConstructSwerveSolution _ _); try discriminate S1.
      injection S1 as <-. eexists. reflexivity. }
    destruct (step_clocks s0 s1 _ Kn0 S1 ltac:(congruence)) as (c & (G1 & G2 & G3 & G4) & C & F & J & A).
    cbn [thread_of] in *.
    assert (U : unknown s1 t (c t)).
    { unfold unknown. rewrite C, G1. destruct Kn0 as (K1 & K2 & K3 & K4). split; [|split].
      - intros v Dv. rewrite set_at_other by exact Dv. specialize (K1 t v). lia.
      - destruct F as [->|[_ []]]. specialize (K2 t). lia.
      - unfold step in S1. destruct (r_threads s0 t); try discriminate S1. destruct (ConstructSwerveSolution _ _); try discriminate S1.
        injection S1 as <-. cbn [r_init_clock]. specialize (K3 t). lia. }
    assert (Ia : In (mkAccess t (c t) true) (r_accesses s1)).
    { rewrite G1. unfold step in S1. destruct (r_threads s0 t); try discriminate S1. destruct (ConstructSwerveSolution _ _); try discriminate S1.
      injection S1 as <-. cbn [r_accesses]. rewrite tick_same. apply in_or_app. right. left. reflexivity. }
    assert (Kn1 : known s1) by (exact (step_known s0 s1 _ Kn0 S1)).
    assert (L1 : r_last s1 <> None) by (destruct W as [? ->]; discriminate).
    clear R0 S1 Kn0 W G1 G2 G3 G4 C F J A s0 R. generalize dependent (c t). intros e U Ia. clear c.
    revert s1 R' U Ia Kn1 L1. induction es2 as [|ev es2 IH]; intros s1 R U Ia Kn L.
    - cbn [run app] in R. destruct (step stop s1 (ECheck u now)) as [s2|] eqn:S; [|discriminate]. injection R as <-.
      unfold step in S. destruct (r_threads s1 u); try discriminate S. destruct (r_last s1); [|discriminate S].
      injection S as <-. cbn [r_race]. apply orb_true_iff. right.
      apply (race_seen _ _ _ _ _ Ia); [simpl; congruence|reflexivity|]. cbn [ac_thread ac_epoch].
      rewrite tick_other by congruence. apply (proj1 U). exact D.
    - cbn [run app] in R. destruct (step stop s1 ev) as [s2|] eqn:S; [|discriminate].
      apply (IH (fun e' I' => N e' (or_intror I')) s2 R).
      + exact (step_unknown s1 s2 ev t e Kn S U (N ev (or_introl eq_refl)) L).
      + exact (accesses_kept s1 s2 ev _ S Ia).
      + exact (step_known s1 s2 ev Kn S).
      + exact (last_kept s1 s2 ev S L).
  Qed.

  (** * Frame rate *)
  Definition framing_inv (s : rt K) : Prop :=
    forall t g env now, r_threads s t = Framing g env now ->
      r_last s <> None /\ In (mkAccess t (r_clocks s t t) false) (r_accesses s) /\ unknown s t (r_clocks s t t).
  Definition frames_inv (s : rt K) : Prop :=
    (forall t g env now, r_threads s t = Framing g env now ->
       exists last, r_last s = Some last /\ frame_apart last now) /\
    StronglySorted (fun a b => frame_apart (snd a) (snd b)) (r_frames s) /\
    (forall f, In f (r_frames s) -> exists last, r_last s = Some last /\ (snd f = last \/ frame_apart (snd f) last)).
  Definition logged_inv (s : rt K) : Prop :=
    (forall t g now i cbs sol, r_threads s t = Calling g now i cbs sol -> In (t, now) (r_frames s)) /\
    (forall d, In d (r_log s) -> In (dl_thread d, dl_time d) (r_frames s)).

  Lemma sorted_snoc : forall {A} (R : A -> A -> Prop) l a, StronglySorted R l -> (forall x, In x l -> R x a) ->
    StronglySorted R (l ++ [a]).
  Proof.
    intros A R l a S. induction S as [|x l S IH F]; intros H; simpl; [repeat constructor|].
    constructor; [apply IH; intros y Iy; apply H; right; exact Iy|].
    apply Forall_app. split; [exact F|]. constructor; [apply H; left; reflexivity|constructor].
  Qed.

  Lemma framing_step : forall (s s' : rt K) e, known s -> framing_inv s -> step stop s e = Some s' -> framing_inv s'.
  Proof.
    intros s s' e Kn FI S t g env now P. destruct (Nat.eq_dec (thread_of e) t) as [E|E].
    - destruct e; cbn [thread_of] in E; subst.
      3: { pose proof S as S'. unfold step in S. destruct (r_threads s t); try discriminate S. destruct (r_last s) eqn:L; [|discriminate S].
           assert (NL : r_last s <> None) by congruence.
           assert (U := fresh_unknown s s' _ t Kn S' eq_refl (fun x => x) NL).
           injection S as <-. cbn [r_last]. split; [congruence|]. split; [|exact U].
           cbn [r_accesses r_clocks]. rewrite set_at_same. apply in_or_app. right. left. reflexivity. }
      all: exfalso; unfold step in S.
      + destruct (r_threads s t) eqn:Ht; try discriminate S; injection S as <-; cbn [r_threads] in P; rewrite set_at_same in P; discriminate P.
      + destruct (r_threads s t); try discriminate S. destruct (r_last s); injection S as <-; cbn [r_threads moved] in P; rewrite set_at_same in P; discriminate P.
      + destruct (r_threads s t); try discriminate S. destruct (ConstructSwerveSolution _ _); try discriminate S. injection S as <-.
        cbn [r_threads moved] in P. rewrite set_at_same in P. unfold calling in P. destruct (g_callbacks _); discriminate P.
      + destruct (r_threads s t); try discriminate S. destruct cbs; try discriminate S. injection S as <-.
        cbn [r_threads moved] in P. rewrite set_at_same in P. unfold calling in P. destruct cbs; discriminate P.
      + destruct (r_threads s t); try discriminate S. injection S as <-.
        cbn [r_threads moved] in P. rewrite set_at_same in P. destruct (_ =? _)%Z; discriminate P.
      + destruct (r_threads s t); try discriminate S; destruct (_ =? _)%Z; try discriminate S; injection S as <-;
        cbn [r_threads moved] in P; rewrite set_at_same in P; discriminate P.
      + destruct (in_client (r_threads s t)) eqn:B; [|discriminate S]. injection S as <-. cbn [r_threads] in P. rewrite P in B. discriminate B.
      + destruct (in_client (r_threads s t)) eqn:B; [|discriminate S]. destruct (true && _ && _); [|discriminate S].
        injection S as <-. cbn [r_threads] in P. rewrite P in B. discriminate B.
      + destruct (r_threads s t); try discriminate S. destruct cbs; try discriminate S. injection S as <-.
        cbn [r_threads] in P. rewrite set_at_same in P. discriminate P.
    - assert (P' := P). rewrite (proj1 (step_other stop s s' e t S E)) in P'.
      destruct (FI t g env now P') as (NL & Ia & U).
      assert (C : r_clocks s' t t = r_clocks s t t).
      { destruct e; cbn [thread_of] in E; try (destruct (step_clocks s s' _ Kn S ltac:(congruence)) as (c & _ & -> & _);
          rewrite set_at_other by (cbn [thread_of]; congruence); reflexivity).
        unfold step in S. destruct (_ && _) eqn:B; [|discriminate S]. injection S as <-. cbn [r_clocks].
        destruct (Nat.eq_dec u t) as [->|Du].
        - rewrite P' in B. simpl in B. rewrite andb_false_r in B. discriminate B.
        - rewrite !set_at_other by congruence. reflexivity. }
      rewrite C. split; [exact (last_kept s s' e S NL)|]. split; [exact (accesses_kept s s' e _ S Ia)|].
      apply (step_unknown s s' e t _ Kn S U); [|exact NL].
      destruct e; simpl in *; congruence.
  Qed.

  Lemma apart_trans : forall a b c, frame_apart a b -> frame_apart b c -> frame_apart a c.
  Proof. unfold frame_apart. intros. lia. Qed.

  Lemma frames_step : forall (s s' : rt K) e, known s -> framing_inv s -> frames_inv s -> step stop s e = Some s' ->
    r_race s' = false -> frames_inv s'.
  Proof.
    intros s s' e Kn FI (F1 & F2 & F3) S NR.
    (* events that change neither the static nor the frames *)
    assert (Same : (exists t u, thread_of e = t /\ u = t /\ (forall g env now, r_threads s' t <> Framing g env now)) ->
                   r_last s' = r_last s -> r_frames s' = r_frames s -> frames_inv s').
    { intros (t & u & Et & _ & NF) L F. unfold frames_inv. rewrite L, F. split; [|split; assumption].
      intros v g env now P. destruct (Nat.eq_dec (thread_of e) v) as [Ev|Ev].
      - exfalso. rewrite Et in Ev. subst. exact (NF _ _ _ P).
      - rewrite (proj1 (step_other stop s s' e v S Ev)) in P. exact (F1 v g env now P). }
    destruct e.
    - apply Same; [exists t, t; split; [reflexivity|split; [reflexivity|]]| |];
        step_cases S; cbn [r_threads r_last r_frames]; try reflexivity; intros; rewrite set_at_same; discriminate.
    - unfold step in S. destruct (r_threads s t) eqn:Ht; try discriminate S. destruct (r_last s) eqn:L.
      + apply Same; [exists t, t; split; [reflexivity|split; [reflexivity|]]| |];
        injection S as <-; cbn [r_threads r_last r_frames moved]; try reflexivity; try exact L; intros; rewrite set_at_same; discriminate.
      + injection S as <-. unfold frames_inv. cbn [r_last r_frames r_threads].
        assert (Fr : forall f, ~ In f (r_frames s)).
        { intros f Hf. destruct (F3 f Hf) as (last & E & _). discriminate E. }
        split; [|split; [exact F2|intros f Hf; destruct (Fr f Hf)]].
        intros v g0 env0 now P. destruct (set_at_cases (r_threads s) t v (Entered g env)) as [[-> E]|[D E]]; rewrite E in P; [discriminate P|].
        destruct (F1 v g0 env0 now P) as (last & E' & _). discriminate E'.
    - unfold step in S. destruct (r_threads s t) eqn:Ht; try discriminate S. destruct (r_last s) as [last|] eqn:L; [|discriminate S].
      injection S as <-. unfold frames_inv. cbn [r_last r_frames r_threads]. split; [|split; assumption].
      intros v g0 env0 now0 P. match type of P with set_at _ _ ?p _ = _ =>
        destruct (set_at_cases (r_threads s) t v p) as [[-> E]|[D E]] end; rewrite E in P.
      + destruct (throttled last now) eqn:T; [discriminate P|]. injection P as <- <- <-.
        exists last. split; [reflexivity|]. apply Z.ltb_ge in T. exact T.
      + exact (F1 v g0 env0 now0 P).
    - unfold step in S. destruct (r_threads s t) eqn:Ht; try discriminate S.
      destruct (ConstructSwerveSolution g env) as [sol| | | |] eqn:Cs; try discriminate S.
      destruct (F1 t g env now Ht) as (last & L & Ap).
      injection S as <-. cbn [r_race] in NR. apply orb_false_iff in NR. destruct NR as [_ NR].
      unfold frames_inv. cbn [r_last r_frames r_threads].
      assert (Ol : forall f, In f (r_frames s) -> frame_apart (snd f) now).
      { intros f Hf. destruct (F3 f Hf) as (last' & L' & [Q|Q]); rewrite L in L'; injection L' as <-.
        - rewrite Q. exact Ap.
        - exact (apart_trans _ _ _ Q Ap). }
      split; [|split].
      + intros v g0 env0 now0 P. match type of P with set_at _ _ ?p _ = _ =>
          destruct (set_at_cases (r_threads s) t v p) as [[-> E]|[D E]] end; rewrite E in P.
        * unfold calling in P. destruct (g_callbacks g); discriminate P.
        * exfalso. destruct (FI v g0 env0 now0 P) as (_ & Ia & U & _).
          rewrite (race_seen _ _ _ _ _ Ia) in NR; [discriminate NR|exact D|reflexivity|].
          cbn [ac_thread ac_epoch]. rewrite tick_other by exact D. apply U. congruence.
      + apply sorted_snoc; [exact F2|]. intros x Ix. exact (Ol x Ix).
      + intros f Hf. exists now. split; [reflexivity|]. apply in_app_or in Hf. destruct Hf as [Hf|[<-|[]]]; [right; exact (Ol f Hf)|left; reflexivity].
    - apply Same; [exists t, t; split; [reflexivity|split; [reflexivity|]]| |];
        step_cases S; cbn [r_threads r_last r_frames]; try reflexivity; intros; rewrite set_at_same.
      unfold calling. destruct l; discriminate.
    - apply Same; [exists t, t; split; [reflexivity|split; [reflexivity|]]| |];
        unfold step in S; destruct (r_threads s t); try discriminate S; injection S as <-;
        cbn [r_threads r_last r_frames moved]; try reflexivity; intros; rewrite set_at_same. destruct (_ =? _)%Z; discriminate.
    - apply Same; [exists t, t; split; [reflexivity|split; [reflexivity|]]| |];
        unfold step in S; destruct (r_threads s t); try discriminate S; destruct (_ =? _)%Z; try discriminate S; injection S as <-;
        cbn [r_threads r_last r_frames moved]; try reflexivity; intros; rewrite set_at_same; discriminate.
    - step_cases S. exact (conj F1 (conj F2 F3)).
    - step_cases S. exact (conj F1 (conj F2 F3)).
    - apply Same; [exists t, t; split; [reflexivity|split; [reflexivity|]]| |];
        step_cases S; cbn [r_threads r_last r_frames]; try reflexivity; intros; rewrite set_at_same; discriminate.
  Qed.

  Lemma logged_step : forall (s s' : rt K) e, logged_inv s -> step stop s e = Some s' -> logged_inv s'.
  Proof.
    intros s s' e (L1 & L2) S.
    assert (Fr : forall f, In f (r_frames s) -> In f (r_frames s')).
    { intros f Hf. destruct e; step_cases S; cbn [r_frames moved]; try exact Hf. apply in_or_app. left. exact Hf. }
    assert (L1' : forall v g now i cbs sol, v <> thread_of e -> r_threads s' v = Calling g now i cbs sol -> In (v, now) (r_frames s')).
    { intros v g now i cbs sol D P. rewrite (proj1 (step_other stop s s' e v S ltac:(congruence))) in P. apply Fr. eapply L1. exact P. }
    assert (Q : forall g now i cbs sol, r_threads s' (thread_of e) = Calling g now i cbs sol -> In (thread_of e, now) (r_frames s')).
    { intros g0 now0 i0 cbs0 sol0 P.
      destruct e; cbn [thread_of] in *.
      - step_cases S; cbn [r_threads] in P; rewrite set_at_same in P; discriminate P.
      - step_cases S; cbn [r_threads moved] in P; rewrite set_at_same in P; discriminate P.
      - step_cases S; cbn [r_threads moved] in P; rewrite set_at_same in P; discriminate P.
      - unfold step in S. destruct (r_threads s t); try discriminate S. destruct (ConstructSwerveSolution _ _); try discriminate S.
        injection S as <-. cbn [r_threads r_frames] in *. rewrite set_at_same in P. apply in_or_app. right. left.
        unfold calling in P. destruct (g_callbacks g); [discriminate P|]. congruence.
      - unfold step in S. destruct (r_threads s t) eqn:Ht; try discriminate S. destruct cbs; try discriminate S.
        injection S as <-. cbn [r_threads r_frames] in *. rewrite set_at_same in P.
        unfold calling in P. destruct cbs; [discriminate P|]. assert (now = now0) as <- by congruence. exact (L1 t _ _ _ _ _ Ht).
      - unfold step in S; destruct (r_threads s t); try discriminate S; injection S as <-; cbn [r_threads moved] in P; rewrite set_at_same in P.
        destruct (_ =? _)%Z; discriminate P.
      - unfold step in S; destruct (r_threads s t); try discriminate S; destruct (_ =? _)%Z; try discriminate S; injection S as <-;
        cbn [r_threads moved] in P; rewrite set_at_same in P; discriminate P.
      - step_cases S. exact (L1 t _ _ _ _ _ P).
      - step_cases S. exact (L1 t _ _ _ _ _ P).
      - step_cases S; cbn [r_threads] in P; rewrite set_at_same in P; discriminate P. }
    split.
    - intros v g now i cbs sol P. destruct (Nat.eq_dec v (thread_of e)) as [->|D]; [exact (Q _ _ _ _ _ P)|exact (L1' _ _ _ _ _ _ D P)].
    - intros d Hd.
      assert (O : In d (r_log s) \/ exists t, e = ECall t \/ e = EThrow t).
      { destruct e; try (left; step_cases S; exact Hd); right; eexists; [left|right]; reflexivity. }
      destruct O as [O|[t [-> | ->]]]; [apply Fr, L2, O| |];
        (unfold step in S; destruct (r_threads s t) eqn:Ht; try discriminate S; destruct cbs; try discriminate S;
         injection S as <-; cbn [r_log r_frames] in *; apply in_app_or in Hd; destruct Hd as [Hd|[<-|[]]]; [exact (L2 d Hd)|];
         cbn [dl_thread dl_time]; exact (L1 t _ _ _ _ _ Ht)).
  Qed.

  Lemma frame_facts : forall es s, run stop rt_init es = Some s ->
    framing_inv s /\ logged_inv s /\ (r_race s = false -> frames_inv s).
  Proof.
    apply (run_ind stop (fun _ s => framing_inv s /\ logged_inv s /\ (r_race s = false -> frames_inv s))).
    - split; [intros t g env now P; discriminate P|]. split; [split; [discriminate|intros d []]|]. intros _.
      split; [intros t g env now P; discriminate P|]. split; [constructor|intros f []].
    - intros es e s s' R (FI & LI & FR) S. assert (Kn := run_known _ _ R).
      split; [exact (framing_step s s' e Kn FI S)|]. split; [exact (logged_step s s' e LI S)|].
      intros NR. assert (NR0 : r_race s = false).
      { destruct (r_race s) eqn:B; [|reflexivity]. rewrite (race_kept s s' e S B) in NR. discriminate NR. }
      exact (frames_step s s' e Kn FI (FR NR0) S NR).
  Qed.
  Lemma sorted_pair : forall {A} (R : A -> A -> Prop) l, StronglySorted R l -> forall a b, In a l -> In b l ->
    a = b \/ R a b \/ R b a.
  Proof.
    intros A R l S. induction S as [|x l S IH F]; intros a b Ia Ib; [destruct Ia|].
    rewrite Forall_forall in F. destruct Ia as [<-|Ia], Ib as [<-|Ib]; auto.
  Qed.
  Theorem C47_rate_proof : forall es s, run stop rt_init es = Some s -> r_race s = false ->
    forall a b, In a (r_log s) -> In b (r_log s) ->
    (dl_thread a = dl_thread b /\ dl_time a = dl_time b) \/
    frame_apart (dl_time a) (dl_time b) \/ frame_apart (dl_time b) (dl_time a).
  Proof.
    intros es s R NR a b Ia Ib. destruct (frame_facts es s R) as (_ & (_ & L) & F).
    destruct (F NR) as (_ & S & _). destruct (sorted_pair _ _ S _ _ (L a Ia) (L b Ib)) as [E|[E|E]].
    - left. injection E as E1 E2. split; assumption.
    - right. left. exact E.
    - right. right. exact E.
  Qed.

  (** * Serialised generations do not race *)
  Definition knows_all (s : rt K) (v : nat) : Prop :=
    forall a, In a (r_accesses s) -> ac_epoch a <= r_clocks s v (ac_thread a).
  Definition serial_inv (busy : bool) (ok : nat -> bool) (s : rt K) : Prop :=
    r_race s = false /\
    if busy then exists t, knows_all s t /\ forall u, generating (r_threads s u) -> u = t
    else (forall u, ~ generating (r_threads s u)) /\ forall v, ok v = true -> knows_all s v.

  Lemma no_race : forall (s : rt K) t w, knows_all s t ->
    existsb (races_with (vc_tick t (r_clocks s t)) t w) (r_accesses s) = false.
  Proof.
    intros s t w KA. apply not_true_is_false. intros E. apply existsb_exists in E. destruct E as (a & Ia & Ra).
    unfold races_with in Ra. apply andb_true_iff in Ra. destruct Ra as [_ Ra]. apply Nat.ltb_lt in Ra.
    pose proof (KA a Ia). pose proof (tick_le t (r_clocks s t) (ac_thread a)). lia.
  Qed.

  Lemma serial_run : forall es (s s' : rt K) busy ok, known s -> serial_inv busy ok s -> serialised busy ok es ->
    run stop s es = Some s' -> r_race s' = false.
  Proof.
    induction es as [|e es IH]; intros s s' busy ok Kn (NR & SI) SE R; [injection R as <-; exact NR|].
    cbn [run] in R. destruct (step stop s e) as [m|] eqn:S; [|discriminate].
    assert (Kn' := step_known s m e Kn S).
    (* the other threads' phases are untouched *)
    assert (Oth : forall u, u <> thread_of e -> r_threads m u = r_threads s u).
    { intros u D. apply (step_other stop s m e u S). congruence. }
    (* events by the generating thread that touch no access *)
    assert (Mono : forall v, r_accesses m = r_accesses s -> knows_all s v -> (forall w, r_clocks s v w <= r_clocks m v w) -> knows_all m v).
    { intros v Ea KA L a Ia. rewrite Ea in Ia. etransitivity; [apply (KA a Ia)|apply L]. }
    assert (Gr : forall v w, r_clocks s v w <= r_clocks m v w).
    { intros v w. destruct e; try (destruct (step_clocks s m _ Kn S ltac:(congruence)) as (c & (_ & G2 & _) & -> & _);
        cbn [thread_of]; destruct (set_at_cases (r_clocks s) t v c) as [[-> E]|[D E]]; rewrite E; [apply G2|lia]).
      unfold step in S. destruct (_ && _); [|discriminate S]. injection S as <-. cbn [r_clocks]. unfold vc_join.
      at_cases; try lia. apply tick_le. }
    assert (Plain : generating (r_threads s (thread_of e)) -> r_accesses m = r_accesses s -> r_race m = r_race s ->
                    serialised busy ok es -> r_race s' = false).
    { intros G Ea Er SE'. apply (IH m s' busy ok Kn'); [|exact SE'|exact R]. split; [congruence|].
      destruct busy.
      - destruct SI as (t & KA & On). exists t. split; [exact (Mono t Ea KA (Gr t))|].
        intros u Gu. destruct (Nat.eq_dec u (thread_of e)) as [->|D]; [exact (On _ G)|]. apply On. rewrite <- Oth by exact D. exact Gu.
      - destruct SI as (NG & _). destruct (NG _ G). }
    destruct e; cbn [thread_of serialised] in *.
    - (* start *)
      destruct SE as (-> & Okt & SE). destruct SI as (NG & KA).
      assert (Ea : r_accesses m = r_accesses s) by (step_cases S; reflexivity).
      assert (Er : r_race m = r_race s) by (step_cases S; reflexivity).
      apply (IH m s' true ok Kn'); [|exact SE|exact R]. split; [congruence|]. exists t.
      split; [exact (Mono t Ea (KA t Okt) (Gr t))|]. intros u Gu. destruct (Nat.eq_dec u t) as [->|D]; [reflexivity|].
      exfalso. rewrite Oth in Gu by exact D. exact (NG u Gu).
    - apply Plain; try exact SE.
      + unfold step in S. destruct (r_threads s t); try discriminate S; exact I.
      + step_cases S; reflexivity.
      + step_cases S; reflexivity.
    - (* check *)
      assert (G : generating (r_threads s t)) by (unfold step in S; destruct (r_threads s t); try discriminate S; exact I).
      destruct busy; [|destruct SI as (NG & _); destruct (NG t G)].
      destruct SI as (t' & KA & On). assert (t = t') as <- by exact (On t G).
      assert (Q : r_accesses m = r_accesses s ++ [mkAccess t (r_clocks m t t) false] /\ r_race m = false).
      { unfold step in S. destruct (r_threads s t); try discriminate S. destruct (r_last s); [|discriminate S]. injection S as <-.
        cbn [r_accesses r_race r_clocks]. rewrite set_at_same. split; [reflexivity|]. rewrite NR, no_race by exact KA. reflexivity. }
      destruct Q as [Qa Qr]. apply (IH m s' true ok Kn'); [|exact SE|exact R]. split; [exact Qr|]. exists t. split.
      + intros a Ia. rewrite Qa in Ia. apply in_app_or in Ia. destruct Ia as [Ia|[<-|[]]]; [|apply le_n].
        etransitivity; [apply (KA a Ia)|apply Gr].
      + intros u Gu. destruct (Nat.eq_dec u t) as [->|D]; [reflexivity|]. apply On. rewrite <- Oth by exact D. exact Gu.
    - (* write *)
      assert (G : generating (r_threads s t)) by (unfold step in S; destruct (r_threads s t); try discriminate S; exact I).
      destruct busy; [|destruct SI as (NG & _); destruct (NG t G)].
      destruct SI as (t' & KA & On). assert (t = t') as <- by exact (On t G).
      assert (Q : r_accesses m = r_accesses s ++ [mkAccess t (r_clocks m t t) true] /\ r_race m = false).
      { unfold step in S. destruct (r_threads s t); try discriminate S. destruct (ConstructSwerveSolution _ _); try discriminate S. injection S as <-.
        cbn [r_accesses r_race r_clocks]. rewrite set_at_same. split; [reflexivity|]. rewrite NR, no_race by exact KA. reflexivity. }
      destruct Q as [Qa Qr]. apply (IH m s' true ok Kn'); [|exact SE|exact R]. split; [exact Qr|]. exists t. split.
      + intros a Ia. rewrite Qa in Ia. apply in_app_or in Ia. destruct Ia as [Ia|[<-|[]]]; [|apply le_n].
        etransitivity; [apply (KA a Ia)|apply Gr].
      + intros u Gu. destruct (Nat.eq_dec u t) as [->|D]; [reflexivity|]. apply On. rewrite <- Oth by exact D. exact Gu.
    - apply Plain; try exact SE.
      + unfold step in S. destruct (r_threads s t); try discriminate S; exact I.
      + step_cases S; reflexivity.
      + step_cases S; reflexivity.
    - apply Plain; try exact SE.
      + unfold step in S. destruct (r_threads s t); try discriminate S; exact I.
      + unfold step in S. destruct (r_threads s t); try discriminate S. injection S as <-. reflexivity.
      + unfold step in S. destruct (r_threads s t); try discriminate S. injection S as <-. reflexivity.
    - (* finish *)
      assert (G : generating (r_threads s t)) by (unfold step in S; destruct (r_threads s t); try discriminate S; exact I).
      destruct busy; [|destruct SI as (NG & _); destruct (NG t G)].
      destruct SI as (t' & KA & On). assert (t = t') as <- by exact (On t G).
      assert (Ea : r_accesses m = r_accesses s) by (step_cases S; reflexivity).
      assert (Er : r_race m = r_race s) by (step_cases S; reflexivity).
      apply (IH m s' false (Nat.eqb t) Kn'); [|exact SE|exact R]. split; [congruence|]. split.
      + intros u Gu. destruct (Nat.eq_dec u t) as [->|D].
        * unfold step in S. destruct (r_threads s t); try discriminate S; destruct (_ =? _)%Z; try discriminate S; injection S as <-;
          cbn [r_threads moved] in Gu; rewrite set_at_same in Gu; exact Gu.
        * apply D, On. rewrite <- Oth by exact D. exact Gu.
      + intros v Ev. apply Nat.eqb_eq in Ev. subst. exact (Mono v Ea KA (Gr v)).
    - (* cancel *)
      assert (Ea : r_accesses m = r_accesses s) by (step_cases S; reflexivity).
      assert (Er : r_race m = r_race s) by (step_cases S; reflexivity).
      assert (Et : r_threads m = r_threads s) by (step_cases S; reflexivity).
      apply (IH m s' busy ok Kn'); [|exact SE|exact R]. split; [congruence|]. rewrite Et. destruct busy.
      + destruct SI as (t' & KA & On). exists t'. split; [exact (Mono t' Ea KA (Gr t'))|exact On].
      + destruct SI as (NG & KA). split; [exact NG|]. intros v Ov. exact (Mono v Ea (KA v Ov) (Gr v)).
    - (* sync *)
      assert (Ea : r_accesses m = r_accesses s) by (step_cases S; reflexivity).
      assert (Er : r_race m = r_race s) by (step_cases S; reflexivity).
      assert (Et : r_threads m = r_threads s) by (step_cases S; reflexivity).
      apply (IH m s' busy (fun v => ok v || (negb busy && ok t && Nat.eqb v u)) Kn'); [|exact SE|exact R]. split; [congruence|]. rewrite Et. destruct busy.
      + destruct SI as (t' & KA & On). exists t'. split; [exact (Mono t' Ea KA (Gr t'))|exact On].
      + destruct SI as (NG & KA). split; [exact NG|]. intros v Ov. apply orb_true_iff in Ov. destruct Ov as [Ov|Ov].
        * exact (Mono v Ea (KA v Ov) (Gr v)).
        * simpl in Ov. apply andb_true_iff in Ov. destruct Ov as [Ot Ev]. apply Nat.eqb_eq in Ev. subst v.
          intros a Ia. rewrite Ea in Ia. etransitivity; [apply (KA t Ot a Ia)|].
          unfold step in S. match type of S with (if ?b then _ else _) = _ => destruct b; [|discriminate S] end. injection S as <-. cbn [r_clocks]. rewrite set_at_same.
          unfold vc_join. pose proof (tick_le t (r_clocks s t) (ac_thread a)). lia.
    - (* throw *)
      assert (G : generating (r_threads s t)) by (unfold step in S; destruct (r_threads s t); try discriminate S; exact I).
      destruct busy; [|destruct SI as (NG & _); destruct (NG t G)].
      destruct SI as (t' & KA & On). assert (t = t') as <- by exact (On t G).
      assert (Ea : r_accesses m = r_accesses s) by (step_cases S; reflexivity).
      assert (Er : r_race m = r_race s) by (step_cases S; reflexivity).
      apply (IH m s' false (Nat.eqb t) Kn'); [|exact SE|exact R]. split; [congruence|]. split.
      + intros u Gu. destruct (Nat.eq_dec u t) as [->|D].
        * step_cases S. cbn [r_threads] in Gu. rewrite set_at_same in Gu. exact Gu.
        * apply D, On. rewrite <- Oth by exact D. exact Gu.
      + intros v Ev. apply Nat.eqb_eq in Ev. subst. exact (Mono v Ea KA (Gr v)).
  Qed.

  (** Handing iterations on by client synchronisation orders all accesses. *)
  Lemma clocks_grow : forall (s m : rt K) e, known s -> step stop s e = Some m -> forall v w, r_clocks s v w <= r_clocks m v w.
  Proof.
    intros s m e Kn S v w. destruct e; try (destruct (step_clocks s m _ Kn S ltac:(congruence)) as (c & (_ & G2 & _) & -> & _);
      cbn [thread_of]; destruct (set_at_cases (r_clocks s) t v c) as [[-> E]|[D E]]; rewrite E; [apply G2|lia]).
    unfold step in S. destruct (_ && _); [|discriminate S]. injection S as <-. cbn [r_clocks]. unfold vc_join.
    at_cases; try lia. apply tick_le.
  Qed.
  Lemma handed_run : forall es (s s' : rt K) ok, known s -> r_race s = false -> (forall v, ok v = true -> knows_all s v) ->
    handed_on ok es -> run stop s es = Some s' -> r_race s' = false.
  Proof.
    induction es as [|e es IH]; intros s s' ok Kn NR KA HO R; [injection R as <-; exact NR|].
    cbn [run] in R. destruct (step stop s e) as [m|] eqn:S; [|discriminate].
    assert (Kn' := step_known s m e Kn S). assert (Gr := clocks_grow s m e Kn S).
    assert (Mono : forall v, r_accesses m = r_accesses s -> knows_all s v -> knows_all m v).
    { intros v Ea KA' a Ia. rewrite Ea in Ia. etransitivity; [apply (KA' a Ia)|apply Gr]. }
    assert (Plain : r_accesses m = r_accesses s -> r_race m = r_race s -> handed_on ok es -> r_race s' = false).
    { intros Ea Er HO'. apply (IH m s' ok Kn'); [congruence| |exact HO'|exact R]. intros v Ov. exact (Mono v Ea (KA v Ov)). }
    destruct e; cbn [handed_on] in HO.
    - apply Plain; [| |exact HO]; step_cases S; reflexivity.
    - apply Plain; [| |exact HO]; step_cases S; reflexivity.
    - destruct HO as [Ot HO].
      assert (Q : r_accesses m = r_accesses s ++ [mkAccess t (r_clocks m t t) false] /\ r_race m = false).
      { unfold step in S. destruct (r_threads s t); try discriminate S. destruct (r_last s); [|discriminate S]. injection S as <-.
        cbn [r_accesses r_race r_clocks]. rewrite set_at_same. split; [reflexivity|]. rewrite NR, no_race by exact (KA t Ot). reflexivity. }
      destruct Q as [Qa Qr]. apply (IH m s' (Nat.eqb t) Kn' Qr); [|exact HO|exact R].
      intros v Ev. apply Nat.eqb_eq in Ev. subst v. intros a Ia. rewrite Qa in Ia. apply in_app_or in Ia.
      destruct Ia as [Ia|[<-|[]]]; [|apply le_n]. etransitivity; [apply (KA t Ot a Ia)|apply Gr].
    - destruct HO as [Ot HO].
      assert (Q : r_accesses m = r_accesses s ++ [mkAccess t (r_clocks m t t) true] /\ r_race m = false).
      { unfold step in S. destruct (r_threads s t); try discriminate S. destruct (ConstructSwerveSolution _ _); try discriminate S. injection S as <-.
        cbn [r_accesses r_race r_clocks]. rewrite set_at_same. split; [reflexivity|]. rewrite NR, no_race by exact (KA t Ot). reflexivity. }
      destruct Q as [Qa Qr]. apply (IH m s' (Nat.eqb t) Kn' Qr); [|exact HO|exact R].
      intros v Ev. apply Nat.eqb_eq in Ev. subst v. intros a Ia. rewrite Qa in Ia. apply in_app_or in Ia.
      destruct Ia as [Ia|[<-|[]]]; [|apply le_n]. etransitivity; [apply (KA t Ot a Ia)|apply Gr].
    - apply Plain; [| |exact HO]; step_cases S; reflexivity.
    - apply Plain; [| |exact HO]; unfold step in S; destruct (r_threads s t); try discriminate S; injection S as <-; reflexivity.
    - apply Plain; [| |exact HO]; unfold step in S; destruct (r_threads s t); try discriminate S; destruct (_ =? _)%Z; try discriminate S;
        injection S as <-; reflexivity.
    - apply Plain; [| |exact HO]; step_cases S; reflexivity.
    - assert (Ea : r_accesses m = r_accesses s) by (step_cases S; reflexivity).
      assert (Er : r_race m = r_race s) by (step_cases S; reflexivity).
      apply (IH m s' (fun v => ok v || (ok t && Nat.eqb v u)) Kn'); [congruence| |exact HO|exact R].
      intros v Ov. apply orb_true_iff in Ov. destruct Ov as [Ov|Ov]; [exact (Mono v Ea (KA v Ov))|].
      apply andb_true_iff in Ov. destruct Ov as [Ot Ev]. apply Nat.eqb_eq in Ev. subst v.
      intros a Ia. rewrite Ea in Ia. etransitivity; [apply (KA t Ot a Ia)|].
      unfold step in S. match type of S with (if ?b then _ else _) = _ => destruct b; [|discriminate S] end. injection S as <-. cbn [r_clocks]. rewrite set_at_same.
      unfold vc_join. pose proof (tick_le t (r_clocks s t) (ac_thread a)). lia.
    - apply Plain; [| |exact HO]; step_cases S; reflexivity.
  Qed.
  Theorem handed_proof : forall es s, handed_on (fun _ => true) es -> run stop rt_init es = Some s -> r_race s = false.
  Proof.
    intros es s HO R. apply (handed_run es rt_init s (fun _ => true)); try assumption; [exact known_init|reflexivity|].
    intros v _ a [].
  Qed.
  Theorem serialised_proof : forall es s, serialised false (fun _ => true) es -> run stop rt_init es = Some s -> r_race s = false.
  Proof.
    intros es s SE R. apply (serial_run es rt_init s false (fun _ => true)); try assumption; [exact known_init|].
    split; [reflexivity|]. split; [intros u []|]. intros v _ a [].
  Qed.
End Race.
