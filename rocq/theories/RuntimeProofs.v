(** Proofs about concurrent runs of Generate. *)
From Coq Require Import List Lia ZArith Bool.
Import ListNotations.
From Verif Require Import Outcome Num Geometry Expr Constraints Util Builder Guess Generator Runtime
  SpecBuilder SpecGenerator SpecRuntime
  UtilFacts BuilderFacts GeneratorFacts SeedFacts FeasibleFacts GeneratorProofs HistoryFacts.
Local Open Scope nat_scope.

Lemma set_at_same : forall {A} (f : nat -> A) t a, set_at f t a t = a.
Proof. intros. unfold set_at. rewrite Nat.eqb_refl. reflexivity. Qed.
Lemma set_at_other : forall {A} (f : nat -> A) t u a, u <> t -> set_at f t a u = f u.
Proof. intros A f t u a E. unfold set_at. apply Nat.eqb_neq in E. rewrite E. reflexivity. Qed.
Lemma set_at_cases : forall {A} (f : nat -> A) t u a, (u = t /\ set_at f t a u = a) \/ (u <> t /\ set_at f t a u = f u).
Proof.
  intros A f t u a. destruct (Nat.eq_dec u t) as [->|E]; [left|right]; split; auto using set_at_same, set_at_other.
Qed.

Section Runs.
  Context {K : Type} {HA : Arith K} {HD : Dbl K}.
  Variable stop : Z.

  Lemma run_app : forall es1 es2 (s : rt K),
    run stop s (es1 ++ es2) = match run stop s es1 with Some s' => run stop s' es2 | None => None end.
  Proof.
    induction es1 as [|e es1 IH]; intros es2 s; [reflexivity|].
    simpl. destruct (step stop s e); [apply IH|reflexivity].
  Qed.
  Lemma run_split : forall es1 es2 (s s' : rt K), run stop s (es1 ++ es2) = Some s' ->
    exists m, run stop s es1 = Some m /\ run stop m es2 = Some s'.
  Proof.
    intros es1 es2 s s' R. rewrite run_app in R. destruct (run stop s es1) as [m|]; [|discriminate].
    exists m. split; [reflexivity|exact R].
  Qed.
  Lemma run_snoc : forall es e (s s' : rt K), run stop s (es ++ [e]) = Some s' ->
    exists m, run stop s es = Some m /\ step stop m e = Some s'.
  Proof.
    intros es e s s' R. destruct (run_split _ _ _ _ R) as (m & R1 & R2). exists m. split; [exact R1|].
    simpl in R2. destruct (step stop m e); [exact R2|discriminate].
  Qed.
  (** Induction over reachable states. *)
  Lemma run_ind : forall (P : list (event K) -> rt K -> Prop), P [] rt_init ->
    (forall es e s s', run stop rt_init es = Some s -> P es s -> step stop s e = Some s' -> P (es ++ [e]) s') ->
    forall es s, run stop rt_init es = Some s -> P es s.
  Proof.
    intros P P0 PS es. induction es as [|e es IH] using rev_ind; intros s R.
    - injection R as <-. exact P0.
    - destruct (run_snoc _ _ _ _ R) as (m & R1 & R2). exact (PS es e m s R1 (IH m R1) R2).
  Qed.

  Ltac step_cases S :=
    unfold step in S;
    repeat match type of S with
    | context [match ?x with _ => _ end] =>
        lazymatch x with
        | context [match _ with _ => _ end] => fail
        | _ => destruct x eqn:?; try discriminate S
        end
    end;
    injection S as <-.

  (** * Cancellation *)
  (** The events since thread [t] last started. *)
  Fixpoint since (t : nat) (es : list (event K)) : option (list (event K)) :=
    match es with
    | [] => None
    | e :: es' =>
        match since t es' with
        | Some l => Some l
        | None => match e with EStart u _ => if Nat.eqb u t then Some es' else None | _ => None end
        end
    end.
  Lemma since_snoc : forall t es e, since t (es ++ [e]) =
    match e with
    | EStart u _ => if Nat.eqb u t then Some [] else option_map (fun l => l ++ [e]) (since t es)
    | _ => option_map (fun l => l ++ [e]) (since t es)
    end.
  Proof.
    intros t es e. induction es as [|e0 es IH].
    - simpl. destruct e; try reflexivity.
    - cbn [since app]. rewrite IH.
      destruct e; destruct (since t es); cbn [option_map]; try reflexivity;
        try (destruct (Nat.eqb _ t); try reflexivity);
        destruct e0; try reflexivity; destruct (Nat.eqb _ t); reflexivity.
  Qed.
  Lemma since_split : forall t es l, since t es = Some l ->
    exists es1 g, es = es1 ++ EStart t g :: l /\ (forall e, In e l -> ~ is_start_of t e).
  Proof.
    intros t es. induction es as [|e es IH]; intros l E; [discriminate|]. cbn [since] in E.
    destruct (since t es) as [l'|] eqn:S.
    - injection E as <-. destruct (IH l' eq_refl) as (es1 & g & -> & N). exists (e :: es1), g. split; [reflexivity|exact N].
    - destruct e; try discriminate. destruct (Nat.eqb_spec t0 t) as [->|]; [|discriminate].
      injection E as <-. exists [], g. split; [reflexivity|]. clear IH. intros e I.
      induction es as [|e0 es IH]; [destruct I|]. cbn [since] in S.
      destruct (since t es) eqn:S'; [discriminate|]. destruct I as [<-|I]; [|apply IH; [reflexivity|exact I]].
      destruct e0; simpl; try tauto. destruct (Nat.eqb_spec t0 t); [discriminate|]. assumption.
  Qed.

  Definition cancelled_since (t : nat) (es : list (event K)) : Prop :=
    forall l, since t es = Some l -> Exists is_cancel l.
  Lemma cancelled_more : forall t es e, cancelled_since t es -> ~ is_start_of t e -> cancelled_since t (es ++ [e]).
  Proof.
    intros t es e C N l E. rewrite since_snoc in E.
    assert (E' : option_map (fun l => l ++ [e]) (since t es) = Some l).
    { destruct e; try exact E. simpl in N. destruct (Nat.eqb_spec t0 t); [contradiction|exact E]. }
    destruct (since t es) as [l'|] eqn:S; [|discriminate]. injection E' as <-.
    apply Exists_app. left. exact (C l' S).
  Qed.

  Lemma cancel_invariant : forall es s, run stop rt_init es = Some s ->
    (r_flag s <> 0%Z -> forall t, cancelled_since t es) /\
    (forall t, generating (r_threads s t) -> since t es <> None) /\
    (forall t g, r_threads s t = Stopping g -> cancelled_since t es) /\
    (forall t, r_threads s t = Returned (Ok (inr stop)) -> since t es <> None /\ cancelled_since t es).
  Proof.
    intros es s R.
    revert es s R. apply run_ind.
    - split; [intros F; contradiction F; reflexivity|]. split; [intros t []|].
      split; [intros t g E; discriminate E|intros t E; discriminate E].
    - intros es e s s' R (I1 & I2 & I3 & I4) S.
      assert (KeepS : forall t, since t es <> None -> since t (es ++ [e]) <> None).
      { intros t N. rewrite since_snoc. destruct (since t es); [|contradiction N; reflexivity].
        destruct e; try discriminate. destruct (Nat.eqb t0 t); discriminate. }
      assert (G : forall t0 p, (generating p -> since t0 (es ++ [e]) <> None) ->
                  forall t, generating (set_at (r_threads s) t0 p t) -> since t (es ++ [e]) <> None).
      { intros t0 p Hp t Gt. destruct (set_at_cases (r_threads s) t0 t p) as [[-> E]|[_ E]]; rewrite E in Gt.
        - exact (Hp Gt).
        - apply KeepS, I2, Gt. }
      assert (G3 : (forall t, ~ is_start_of t e) -> forall t0 p, (forall g, p = Stopping g -> cancelled_since t0 (es ++ [e])) ->
                  forall t g, set_at (r_threads s) t0 p t = Stopping g -> cancelled_since t (es ++ [e])).
      { intros N t0 p Hp t g Gt. destruct (set_at_cases (r_threads s) t0 t p) as [[-> E]|[_ E]]; rewrite E in Gt.
        - exact (Hp g Gt).
        - apply cancelled_more; [exact (I3 t g Gt)|apply N]. }
      assert (G4 : (forall t, ~ is_start_of t e) -> forall t0 p,
                  (p = Returned (Ok (inr stop)) -> since t0 (es ++ [e]) <> None /\ cancelled_since t0 (es ++ [e])) ->
                  forall t, set_at (r_threads s) t0 p t = Returned (Ok (inr stop)) ->
                  since t (es ++ [e]) <> None /\ cancelled_since t (es ++ [e])).
      { intros N t0 p Hp t Gt. destruct (set_at_cases (r_threads s) t0 t p) as [[-> E]|[_ E]]; rewrite E in Gt.
        - exact (Hp Gt).
        - destruct (I4 t Gt) as [A B]. split; [apply KeepS, A|apply cancelled_more; [exact B|apply N]]. }
      assert (G1 : (forall t, ~ is_start_of t e) -> r_flag s <> 0%Z -> forall t, cancelled_since t (es ++ [e])).
      { intros N F t. apply cancelled_more; [apply I1, F|apply N]. }
      destruct e.
      + (* start *)
        step_cases S; cbn [r_flag r_threads].
        all: split; [intros F; contradiction F; reflexivity|].
        all: split; [apply G; intros _; rewrite since_snoc, Nat.eqb_refl; discriminate|].
        all: split; [intros u g' E|intros u E];
          destruct (set_at_cases (r_threads s) t u (Solving g)) as [[-> E']|[D E']]; rewrite E' in E; try discriminate E.
        all: try (apply cancelled_more; [exact (I3 u g' E)|simpl; congruence]).
        all: destruct (I4 u E) as [A B]; split; [apply KeepS, A|apply cancelled_more; [exact B|simpl; congruence]].
      + (* iteration *)
        assert (N : forall u, ~ is_start_of u (EIter t t0 env)) by (intros u []).
        assert (P : since t (es ++ [_]) <> None)
          by (apply KeepS, I2; unfold step in S; destruct (r_threads s t); try discriminate S; exact I).
        step_cases S; cbn [r_flag r_threads moved].
        all: split; [exact (G1 N)|]; split; [apply G; intros _; exact P|]; split;
          [apply (G3 N); discriminate|apply (G4 N); discriminate].
      + (* check *)
        assert (N : forall u, ~ is_start_of u (ECheck t now : event K)) by (intros u []).
        assert (P : since t (es ++ [_]) <> None)
          by (apply KeepS, I2; unfold step in S; destruct (r_threads s t); try discriminate S; exact I).
        step_cases S; cbn [r_flag r_threads].
        all: split; [exact (G1 N)|]; split; [apply G; intros _; exact P|]; split;
          [apply (G3 N); discriminate|apply (G4 N); discriminate].
      + assert (N : forall u, ~ is_start_of u (EWrite t : event K)) by (intros u []).
        assert (P : since t (es ++ [_]) <> None)
          by (apply KeepS, I2; unfold step in S; destruct (r_threads s t); try discriminate S; exact I).
        step_cases S; cbn [r_flag r_threads].
        all: split; [exact (G1 N)|]; split; [apply G; intros _; exact P|]; split;
          [apply (G3 N); unfold calling; destruct (g_callbacks _); discriminate|
           apply (G4 N); unfold calling; destruct (g_callbacks _); discriminate].
      + assert (N : forall u, ~ is_start_of u (ECall t : event K)) by (intros u []).
        assert (P : since t (es ++ [_]) <> None)
          by (apply KeepS, I2; unfold step in S; destruct (r_threads s t); try discriminate S; exact I).
        step_cases S; cbn [r_flag r_threads].
        split; [exact (G1 N)|]; split; [apply G; intros _; exact P|]; split;
          [apply (G3 N); unfold calling; destruct l; discriminate|
           apply (G4 N); unfold calling; destruct l; discriminate].
      + assert (N : forall u, ~ is_start_of u (EPoll t : event K)) by (intros u []).
        assert (P : since t (es ++ [_]) <> None)
          by (apply KeepS, I2; unfold step in S; destruct (r_threads s t); try discriminate S; exact I).
        unfold step in S. destruct (r_threads s t) eqn:Ht; try discriminate S. injection S as <-.
        cbn [r_flag r_threads moved].
        split; [exact (G1 N)|]; split; [apply G; intros _; exact P|]; split.
        * apply (G3 N). intros g'. destruct (Z.eqb_spec (r_flag s) 0) as [|F]; [discriminate|]. intros _.
          apply G1; [exact N|exact F].
        * apply (G4 N). destruct (r_flag s =? 0)%Z; discriminate.
      + assert (N : forall u, ~ is_start_of u (EFinish t code env)) by (intros u []).
        unfold step in S. destruct (r_threads s t) eqn:Ht; try discriminate S;
          destruct (Z.eqb_spec code stop) as [Ec|Ec]; try discriminate S; injection S as <-; cbn [r_flag r_threads moved].
        * split; [exact (G1 N)|]; split; [apply G; intros []|]. split; [apply (G3 N); discriminate|].
          apply (G4 N). unfold generate_result. intros E. exfalso. revert E.
          destruct ((code <? 0) || (code =? stop))%Z; [congruence|].
          destruct (ConstructSwerveSolution g env); discriminate.
        * split; [exact (G1 N)|]; split; [apply G; intros []|]. split; [apply (G3 N); discriminate|].
          apply (G4 N). intros _. split; [apply KeepS, I2; rewrite Ht; exact I|].
          apply cancelled_more; [exact (I3 t g Ht)|intros []].
      + step_cases S; cbn [r_flag r_threads].
        assert (C : forall u, cancelled_since u (es ++ [ECancel t])).
        { intros u l E. rewrite since_snoc in E. destruct (since u es); [|discriminate]. injection E as <-.
          apply Exists_app. right. constructor. exact I. }
        split; [intros _; exact C|]. split; [intros u Gu; apply KeepS, I2, Gu|].
        split; [intros u g' _; apply C|]. intros u E. split; [apply KeepS; apply (I4 u E)|apply C].
      + step_cases S; cbn [r_flag r_threads].
        assert (N : forall u', ~ is_start_of u' (ESync t u : event K)) by (intros u' []).
        split; [exact (G1 N)|]. split; [intros v Gv; apply KeepS, I2, Gv|].
        split; [intros v g' E; apply cancelled_more; [exact (I3 v g' E)|apply N]|].
        intros v E. destruct (I4 v E) as [A B]. split; [apply KeepS, A|apply cancelled_more; [exact B|apply N]].
      + assert (N : forall u, ~ is_start_of u (EThrow t : event K)) by (intros u []).
        step_cases S; cbn [r_flag r_threads].
        split; [exact (G1 N)|]; split; [apply G; intros []|]; split; [apply (G3 N); discriminate|apply (G4 N); discriminate].
  Qed.

  Theorem C45_proof : forall es s t, run stop rt_init es = Some s ->
    (exists g, r_threads s t = Stopping g) \/ r_threads s t = Returned (Ok (inr stop)) ->
    exists es1 g es2, es = es1 ++ EStart t g :: es2 /\
      (forall e, In e es2 -> ~ is_start_of t e) /\ Exists is_cancel es2.
  Proof.
    intros es s t R P. destruct (cancel_invariant es s R) as (_ & I2 & I3 & I4).
    assert (C : since t es <> None /\ cancelled_since t es).
    { destruct P as [[g P]|P]; [|exact (I4 t P)]. split; [apply I2; rewrite P; exact I|exact (I3 t g P)]. }
    destruct C as [C1 C2]. destruct (since t es) as [l|] eqn:E; [|contradiction C1; reflexivity].
    destruct (since_split t es l E) as (es1 & g & -> & N). exists es1, g, l. split; [reflexivity|].
    split; [exact N|exact (C2 l E)].
  Qed.

  (** The flag stays up until the next start. *)
  Lemma flag_kept : forall es (s s' : rt K), run stop s es = Some s' -> (forall e, In e es -> ~ is_start e) ->
    r_flag s <> 0%Z -> r_flag s' <> 0%Z.
  Proof.
    induction es as [|e es IH]; intros s s' R N F; [injection R as <-; exact F|].
    simpl in R. destruct (step stop s e) as [m|] eqn:S; [|discriminate].
    apply (IH m s' R); [intros e' I'; apply N; right; exact I'|].
    assert (Ne := N e (or_introl eq_refl)). destruct e; try (contradiction Ne; exact I); step_cases S;
      cbn [r_flag moved]; try assumption; discriminate.
  Qed.
  (** A stopping thread does nothing but return. *)
  Lemma stopping_stays : forall es (s s' : rt K) t, run stop s es = Some s' ->
    (forall e, In e es -> ~ is_start_of t e) ->
    (exists g, r_threads s t = Stopping g) \/ r_threads s t = Returned (Ok (inr stop)) ->
    ((exists g, r_threads s' t = Stopping g) \/ r_threads s' t = Returned (Ok (inr stop))) /\
    (forall e, In e es -> thread_of e = t ->
       (exists env, e = EFinish t stop env) \/ e = ECancel t \/ exists u, e = ESync t u).
  Proof.
    induction es as [|e es IH]; intros s s' t R N P.
    - injection R as <-. split; [exact P|intros e []].
    - simpl in R. destruct (step stop s e) as [m|] eqn:S; [|discriminate].
      assert (Q : ((exists g, r_threads m t = Stopping g) \/ r_threads m t = Returned (Ok (inr stop))) /\
                  (thread_of e = t -> (exists env, e = EFinish t stop env) \/ e = ECancel t \/ exists u, e = ESync t u)).
      { assert (Ne := N e (or_introl eq_refl)).
        assert (Other : forall u c p, u <> t -> (exists g, set_at (r_threads s) u p t = Stopping g) \/
                    set_at (r_threads s) u p t = Returned (Ok (inr stop)) \/ c = true).
        { intros u c p D. rewrite set_at_other by congruence. destruct P as [P|P]; tauto. }
        destruct (Nat.eq_dec (thread_of e) t) as [Et|Et].
        - destruct e; cbn [thread_of] in Et; subst; unfold step in S;
            try (exfalso; apply Ne; reflexivity).
          1-5: destruct P as [[g' P]|P]; rewrite P in S; discriminate S.
          + destruct P as [[g' P]|P]; rewrite P in S; [|discriminate S].
            destruct (Z.eqb_spec code stop) as [->|]; [|discriminate S]. injection S as <-.
            cbn [r_threads moved]. rewrite set_at_same. split; [right|left; eexists; reflexivity].
            unfold generate_result. rewrite Z.eqb_refl, orb_true_r. reflexivity.
          + destruct (in_client (r_threads s t)); [|discriminate S]. injection S as <-. cbn [r_threads].
            split; [exact P|]. intros _. right. left. reflexivity.
          + destruct (in_client (r_threads s t) && in_client (r_threads s u) && negb (t =? u)); [|discriminate S].
            injection S as <-. cbn [r_threads]. split; [exact P|]. intros _. right. right. eexists. reflexivity.
          + destruct P as [[g' P]|P]; rewrite P in S; discriminate S.
        - split; [|intros E; contradiction].
          destruct e; cbn [thread_of] in Et; step_cases S; cbn [r_threads moved]; rewrite ?set_at_other by congruence; exact P. }
      destruct Q as [Q1 Q2]. destruct (IH m s' t R (fun e' I' => N e' (or_intror I')) Q1) as [J1 J2].
      split; [exact J1|]. intros e' [<-|I']; [exact Q2|exact (J2 e' I')].
  Qed.

  Theorem C44_partial_proof : forall es u es1 t es2 s,
    run stop rt_init (es ++ ECancel u :: es1 ++ EPoll t :: es2) = Some s ->
    (forall e, In e es1 -> ~ is_start e) -> (forall e, In e es2 -> ~ is_start_of t e) ->
    ((exists g, r_threads s t = Stopping g) \/ r_threads s t = Returned (Ok (inr stop))) /\
    (forall e, In e es2 -> thread_of e = t ->
       (exists env, e = EFinish t stop env) \/ e = ECancel t \/ exists u, e = ESync t u).
  Proof.
    intros es u es1 t es2 s R N1 N2.
    destruct (run_split _ _ _ _ R) as (s0 & R0 & R'). cbn [run] in R'.
    destruct (step stop s0 (ECancel u)) as [s1|] eqn:S1; [|discriminate].
    destruct (run_split _ _ _ _ R') as (s2 & R2 & R''). cbn [run] in R''.
    destruct (step stop s2 (EPoll t)) as [s3|] eqn:S3; [|discriminate].
    assert (F : r_flag s2 <> 0%Z).
    { apply (flag_kept es1 s1 s2 R2 N1). step_cases S1. discriminate. }
    apply (stopping_stays es2 s3 s t R'' N2). left.
    unfold step in S3. destruct (r_threads s2 t); try discriminate S3. injection S3 as <-.
    apply Z.eqb_neq in F. rewrite F. exists g. cbn [r_threads moved]. apply set_at_same.
  Qed.

  (** * What a generation returns *)
  Lemma values_map : forall env (vs : list (expr K)), Forall (fun v => exists n, v = EVar n) vs ->
    values env vs (RowSolutionValue env vs).
  Proof.
    intros env vs F. induction F as [|v vs [n ->] F IH]; constructor; [exists n; split; reflexivity|exact IH].
  Qed.
  Lemma values_seq : forall (env : nat -> K) (f : nat -> nat) (n : nat),
    values env (map (fun i => EVar (f i)) (seq 0 n)) (map (fun i => env (f i)) (seq 0 n)).
  Proof.
    intros env f n. unfold values. induction (seq 0 n) as [|i l IH]; constructor; [|exact IH].
    eexists. split; reflexivity.
  Qed.
  Lemma combine_seq : forall (N : list nat) (f : nat -> K) k,
    flat_map (fun s => repeat (f s) (nth (s - k) N 0)) (seq k (length N)) =
    flat_map (fun nk => repeat (snd nk) (fst nk)) (combine N (map f (seq k (length N)))).
  Proof.
    induction N as [|n N IH]; intros f k; [reflexivity|].
    cbn [length seq map combine flat_map fst snd]. rewrite Nat.sub_diag. cbn [nth]. f_equal.
    rewrite <- (IH f (S k)). rewrite !flat_map_concat_map. f_equal. apply map_ext_in.
    intros s Hs. apply in_seq in Hs. replace (s - k) with (S (s - S k)) by lia. reflexivity.
  Qed.
  Lemma real_solution : forall (g : gen K) env, real_generator g ->
    exists sol, ConstructSwerveSolution g env = Ok sol /\ holds_values env g sol.
  Proof.
    intros g env (asserts & h & handle & d & G & _).
    destruct (construct_inversion _ _ _ (path_inv asserts h) G) as (_ & d' & p & _ & -> & _).
    rewrite read_ok. eexists. split; [reflexivity|].
    unfold holds_values, read_solution, layout, row, force_matrix, force_rows.
    cbn [g_vars g_N v_x v_y v_cos v_sin v_vx v_vy v_omega v_ax v_ay v_alpha v_Fx v_Fy v_dt
         s_x s_y s_thetacos s_thetasin s_vx s_vy s_omega s_ax s_ay s_alpha s_moduleFX s_moduleFY s_dt].
    do 10 (split; [apply (values_seq env (fun i => i * _ + _))|]).
    split; [|split].
    - induction (seq 0 (1 + _)) as [|i l IH]; constructor; [|exact IH].
      apply (values_seq env (fun j => i * _ + (10 + 2 * j))).
    - induction (seq 0 (1 + _)) as [|i l IH]; constructor; [|exact IH].
      apply (values_seq env (fun j => i * _ + (11 + 2 * j))).
    - eexists. split; [apply (values_seq env (fun s => (1 + _) * _ + s))|].
      split; [rewrite map_length, seq_length; reflexivity|].
      rewrite <- combine_seq. rewrite !flat_map_concat_map. f_equal. apply map_ext.
      intros s. rewrite Nat.sub_0_r. reflexivity.
  Qed.

  Lemma step_other : forall (s s' : rt K) e t, step stop s e = Some s' -> thread_of e <> t ->
    r_threads s' t = r_threads s t /\ log_of t s' = log_of t s.
  Proof.
    intros s s' e t S D. unfold log_of.
    destruct e; cbn [thread_of] in D; step_cases S; cbn [r_threads r_log moved];
      rewrite ?set_at_other by congruence; split; try reflexivity.
    all: rewrite filter_app; cbn [filter dl_thread]; apply Nat.eqb_neq in D; rewrite D; apply app_nil_r.
  Qed.

  (** The generator a phase works on. *)
  Definition phase_gen (p : phase K) : option (gen K) :=
    match p with
    | Idle | Returned _ => None
    | Solving g | Entered g _ | Framing g _ _ | Calling g _ _ _ _ | Polling g | Stopping g => Some g
    end.
  Lemma step_gen : forall (s s' : rt K) e t g, step stop s e = Some s' ->
    phase_gen (r_threads s' t) = Some g -> e = EStart t g \/ (phase_gen (r_threads s t) = Some g /\ ~ is_start_of t e).
  Proof.
    intros s s' e t g S P. destruct (Nat.eq_dec (thread_of e) t) as [E|E].
    - destruct e; cbn [thread_of] in E; subst; unfold step in S.
      + destruct (r_threads s t); try discriminate S; injection S as <-; cbn [r_threads] in P;
          rewrite set_at_same in P; injection P as <-; left; reflexivity.
      + right. split; [|intros []]. destruct (r_threads s t); try discriminate S. destruct (r_last s); injection S as <-;
          cbn [r_threads moved] in P; rewrite set_at_same in P; exact P.
      + right. split; [|intros []]. destruct (r_threads s t); try discriminate S. destruct (r_last s); [|discriminate S].
        injection S as <-. cbn [r_threads moved] in P. rewrite set_at_same in P. destruct (throttled _ _); exact P.
      + right. split; [|intros []]. destruct (r_threads s t); try discriminate S.
        destruct (ConstructSwerveSolution _ _); try discriminate S.
        injection S as <-. cbn [r_threads moved] in P. rewrite set_at_same in P.
        unfold calling in P. destruct (g_callbacks _); exact P.
      + right. split; [|intros []]. destruct (r_threads s t); try discriminate S. destruct cbs; try discriminate S.
        injection S as <-. cbn [r_threads moved] in P. rewrite set_at_same in P.
        unfold calling in P. destruct cbs; exact P.
      + right. split; [|intros []]. destruct (r_threads s t); try discriminate S.
        injection S as <-. cbn [r_threads moved] in P. rewrite set_at_same in P. destruct (_ =? _)%Z; exact P.
      + exfalso. destruct (r_threads s t); try discriminate S; destruct (_ =? _)%Z; try discriminate S;
        injection S as <-; cbn [r_threads moved] in P; rewrite set_at_same in P; discriminate P.
      + right. split; [|intros []]. destruct (in_client _); [|discriminate S]. injection S as <-. exact P.
      + right. split; [|intros []]. destruct (_ && _); [|discriminate S]. injection S as <-. exact P.
      + exfalso. destruct (r_threads s t); try discriminate S. destruct cbs; try discriminate S.
        injection S as <-. cbn [r_threads] in P. rewrite set_at_same in P. discriminate P.
    - right. rewrite <- (proj1 (step_other s s' e t S E)). split; [exact P|].
      destruct e; simpl in *; auto.
  Qed.
  Lemma gen_from_start : forall es s, run stop rt_init es = Some s -> forall t g, phase_gen (r_threads s t) = Some g ->
    exists es1 es2, es = es1 ++ EStart t g :: es2 /\ (forall e, In e es2 -> ~ is_start_of t e).
  Proof.
    apply (run_ind (fun es s => forall t g, phase_gen (r_threads s t) = Some g ->
      exists es1 es2, es = es1 ++ EStart t g :: es2 /\ (forall e, In e es2 -> ~ is_start_of t e))).
    - discriminate.
    - intros es e s s' R IH S t g P. destruct (step_gen s s' e t g S P) as [->|[P' N]].
      + exists es, []. split; [reflexivity|intros e []].
      + destruct (IH t g P') as (es1 & es2 & -> & N2). exists es1, (es2 ++ [e]). split.
        * rewrite <- app_assoc. reflexivity.
        * intros e' I'. apply in_app_or in I'. destruct I' as [I'|[<-|[]]]; [exact (N2 e' I')|exact N].
  Qed.

  Theorem C43_proof : forall es s t code env s', Forall real_start es ->
    run stop rt_init es = Some s -> step stop s (EFinish t code env) = Some s' ->
    exists es1 g es2 r, es = es1 ++ EStart t g :: es2 /\ (forall e, In e es2 -> ~ is_start_of t e) /\
      r_threads s' t = Returned r /\
      ((0 <= code)%Z /\ code <> stop -> exists sol, r = Ok (inl sol) /\ holds_values env g sol) /\
      ((code < 0)%Z \/ code = stop -> r = Ok (inr code)).
  Proof.
    intros es s t code env s' F R S.
    assert (P : exists g, phase_gen (r_threads s t) = Some g /\ r_threads s' t = Returned (generate_result stop g code env)).
    { unfold step in S. destruct (r_threads s t); try discriminate S; destruct (_ =? _)%Z; try discriminate S;
      injection S as <-; exists g; (split; [reflexivity|]); cbn [r_threads moved]; apply set_at_same. }
    destruct P as (g & P & Q). destruct (gen_from_start es s R t g P) as (es1 & es2 & -> & N).
    exists es1, g, es2, (generate_result stop g code env). repeat (split; [assumption||reflexivity|]).
    assert (RG : real_generator g). { rewrite Forall_forall in F. apply (F (EStart t g)), in_elt. }
    destruct (real_solution g env RG) as (sol & C & H). unfold generate_result. rewrite C. cbn [obind]. split.
    - intros [Z1 Z2]. exists sol. split; [|exact H].
      replace (code <? 0)%Z with false by (symmetry; apply Z.ltb_ge; exact Z1).
      apply Z.eqb_neq in Z2. rewrite Z2. reflexivity.
    - intros [Z|Z].
      + apply Z.ltb_lt in Z. rewrite Z. reflexivity.
      + apply Z.eqb_eq in Z. rewrite Z, orb_true_r. reflexivity.
  Qed.

  (** * Progress frames *)
  (** The callback invocations a phase has still to make before it polls. *)
  Definition pending (t : nat) (p : phase K) : option (list (delivery K)) :=
    match p with
    | Framing g env now =>
        match ConstructSwerveSolution g env with
        | Ok sol => Some (calls_from t 0 (g_callbacks g) sol (g_handle g) now)
        | _ => None
        end
    | Calling g now i cbs sol => Some (calls_from t i cbs sol (g_handle g) now)
    | Polling g => Some []
    | _ => None
    end.
  Lemma pending_calling : forall t (g : gen K) now i cbs sol,
    pending t (calling g now i cbs sol) = Some (calls_from t i cbs sol (g_handle g) now).
  Proof. intros. destruct cbs; reflexivity. Qed.
  Lemma pending_made : forall t es (m s' : rt K) l, run stop m (es ++ [EPoll t]) = Some s' ->
    (forall e, In e es -> ~ is_poll_of t e /\ ~ is_throw_of t e) -> pending t (r_threads m t) = Some l ->
    log_of t s' = log_of t m ++ l.
  Proof.
    intros t es. induction es as [|e es IH]; intros m s' l R N P.
    - simpl in R. destruct (r_threads m t) as [| | | | |g| |] eqn:E; try discriminate R. injection R as <-. injection P as <-.
      rewrite app_nil_r. reflexivity.
    - simpl in R. destruct (step stop m e) as [m1|] eqn:S; [|discriminate].
      assert (N' : forall e, In e es -> ~ is_poll_of t e /\ ~ is_throw_of t e) by (intros e' I'; apply N; right; exact I').
      destruct (N e (or_introl eq_refl)) as [Ne Ne'].
      destruct (Nat.eq_dec (thread_of e) t) as [E|E].
      + destruct e; cbn [thread_of] in E; subst; unfold step in S; try (contradiction Ne; reflexivity); try (contradiction Ne'; reflexivity).
        1-3, 6: destruct (r_threads m t); try discriminate S; discriminate P.
        * destruct (r_threads m t); try discriminate S. cbn [pending] in P.
          destruct (ConstructSwerveSolution g env) as [sol| | | |]; try discriminate S.
          injection S as <-. injection P as <-. apply (IH _ s' _ R N'). cbn [r_threads]. rewrite set_at_same.
          apply pending_calling.
        * destruct (r_threads m t); try discriminate S. destruct cbs as [|cb cbs]; try discriminate S.
          injection S as <-. injection P as <-. cbn [calls_from].
          rewrite (IH _ s' _ R N' (eq_trans (f_equal (pending t) (set_at_same _ _ _)) (pending_calling _ _ _ _ _ _))).
          unfold log_of. cbn [r_log]. rewrite filter_app. cbn [filter dl_thread]. rewrite Nat.eqb_refl.
          rewrite <- app_assoc. reflexivity.
        * destruct (in_client _); [|discriminate S]. injection S as <-. exact (IH _ s' _ R N' P).
        * destruct (_ && _); [|discriminate S]. injection S as <-. exact (IH _ s' _ R N' P).
      + destruct (step_other m m1 e t S E) as [T L]. rewrite <- L. apply (IH m1 s' l R N'). rewrite T. exact P.
  Qed.
  (** A callback that throws is the last one called. *)
  Lemma pending_thrown : forall t es (m s' : rt K) l, run stop m (es ++ [EThrow t]) = Some s' ->
    (forall e, In e es -> ~ is_poll_of t e /\ ~ is_throw_of t e) -> pending t (r_threads m t) = Some l ->
    exists k, k < length l /\ log_of t s' = log_of t m ++ firstn (S k) l.
  Proof.
    intros t es. induction es as [|e es IH]; intros m s' l R N P.
    - simpl in R. destruct (r_threads m t) as [| | | |g now i cbs sol| | |] eqn:E; try discriminate R.
      destruct cbs as [|cb cbs]; [discriminate R|]. injection R as <-. injection P as <-.
      exists 0. split; [cbn [calls_from length]; lia|]. unfold log_of. cbn [r_log calls_from firstn].
      rewrite filter_app. cbn [filter dl_thread]. rewrite Nat.eqb_refl. reflexivity.
    - simpl in R. destruct (step stop m e) as [m1|] eqn:S; [|discriminate].
      assert (N' : forall e, In e es -> ~ is_poll_of t e /\ ~ is_throw_of t e) by (intros e' I'; apply N; right; exact I').
      destruct (N e (or_introl eq_refl)) as [Ne Ne'].
      destruct (Nat.eq_dec (thread_of e) t) as [E|E].
      + destruct e; cbn [thread_of] in E; subst; unfold step in S; try (contradiction Ne; reflexivity); try (contradiction Ne'; reflexivity).
        1-3, 6: destruct (r_threads m t); try discriminate S; discriminate P.
        * destruct (r_threads m t); try discriminate S. cbn [pending] in P.
          destruct (ConstructSwerveSolution g env) as [sol| | | |]; try discriminate S.
          injection S as <-. injection P as <-. apply (IH _ s' _ R N'). cbn [r_threads]. rewrite set_at_same.
          apply pending_calling.
        * destruct (r_threads m t); try discriminate S. destruct cbs as [|cb cbs]; try discriminate S.
          injection S as <-. injection P as <-. cbn [calls_from length].
          destruct (IH _ s' _ R N' (eq_trans (f_equal (pending t) (set_at_same _ _ _)) (pending_calling _ _ _ _ _ _))) as (k & Lk & ->).
          exists (Datatypes.S k). split; [lia|].
          unfold log_of. cbn [r_log]. rewrite filter_app. cbn [filter dl_thread]. rewrite Nat.eqb_refl.
          rewrite <- app_assoc. reflexivity.
        * destruct (in_client _); [|discriminate S]. injection S as <-. exact (IH _ s' _ R N' P).
        * destruct (_ && _); [|discriminate S]. injection S as <-. exact (IH _ s' _ R N' P).
      + destruct (step_other m m1 e t S E) as [T L]. rewrite <- L. apply (IH m1 s' l R N'). rewrite T. exact P.
  Qed.
  Lemma calls_length : forall t cbs i (sol : solution K) h now, length (calls_from t i cbs sol h now) = length cbs.
  Proof. intros t cbs. induction cbs as [|cb cbs IH]; intros; simpl; [reflexivity|]. rewrite IH. reflexivity. Qed.
  Lemma quiet : forall t es (m s' : rt K), run stop m es = Some s' -> (forall e, In e es -> thread_of e <> t) ->
    r_threads s' t = r_threads m t /\ log_of t s' = log_of t m.
  Proof.
    intros t es. induction es as [|e es IH]; intros m s' R N; [injection R as <-; split; reflexivity|].
    simpl in R. destruct (step stop m e) as [m1|] eqn:S; [|discriminate].
    destruct (step_other m m1 e t S (N e (or_introl eq_refl))) as [T L].
    destruct (IH m1 s' R (fun e' I' => N e' (or_intror I'))) as [T' L']. split; congruence.
  Qed.
  Theorem C47_iteration_proof : forall es s t t0 env es1 s1 last now es2 s2, Forall real_start es ->
    run stop rt_init es = Some s ->
    run stop s (EIter t t0 env :: es1) = Some s1 -> (forall e, In e es1 -> thread_of e <> t) -> r_last s1 = Some last ->
    run stop s1 (ECheck t now :: es2 ++ [EPoll t]) = Some s2 -> (forall e, In e es2 -> ~ is_poll_of t e /\ ~ is_throw_of t e) ->
    exists esa g esb sol, es = esa ++ EStart t g :: esb /\ (forall e, In e esb -> ~ is_start_of t e) /\
      holds_values env g sol /\
      (frame_apart last now -> log_of t s2 = log_of t s ++ calls_from t 0 (g_callbacks g) sol (g_handle g) now) /\
      (~ frame_apart last now -> log_of t s2 = log_of t s).
  Proof.
    intros es s t t0 env es1 s1 last now es2 s2 F R R1 N1 L R2 N2.
    cbn [run] in R1. destruct (step stop s (EIter t t0 env)) as [m|] eqn:S; [|discriminate].
    assert (P : exists g, r_threads s t = Solving g /\ r_threads m t = Entered g env /\ log_of t m = log_of t s).
    { unfold step in S. destruct (r_threads s t); try discriminate S. exists g. split; [reflexivity|].
      destruct (r_last s); injection S as <-; (split; [cbn [r_threads moved]; apply set_at_same|reflexivity]). }
    destruct P as (g & P1 & P2 & P3).
    destruct (gen_from_start es s R t g ltac:(rewrite P1; reflexivity)) as (esa & esb & -> & N).
    assert (RG : real_generator g). { rewrite Forall_forall in F. apply (F (EStart t g)), in_elt. }
    destruct (real_solution g env RG) as (sol & C & H).
    destruct (quiet t es1 m s1 R1 N1) as [T1 L1].
    exists esa, g, esb, sol. repeat (split; [assumption||reflexivity|]).
    cbn [run] in R2. destruct (step stop s1 (ECheck t now)) as [m2|] eqn:S2; [|discriminate].
    unfold step in S2. rewrite T1, P2, L in S2. injection S2 as <-.
    rewrite <- P3, <- L1. unfold frame_apart. split; intros Z; (eapply eq_trans; [eapply (pending_made t es2 _ s2 _ R2 N2);
      cbn [r_threads]; rewrite set_at_same|]).
    - replace (throttled last now) with false by (symmetry; apply Z.ltb_ge; exact Z). cbn [pending]. rewrite C. reflexivity.
    - reflexivity.
    - replace (throttled last now) with true by (symmetry; apply Z.ltb_lt; lia). reflexivity.
    - apply app_nil_r.
  Qed.
  Theorem C95_proof : forall es s t t0 env es1 s1 last now es2 s2, Forall real_start es ->
    run stop rt_init es = Some s ->
    run stop s (EIter t t0 env :: es1) = Some s1 -> (forall e, In e es1 -> thread_of e <> t) -> r_last s1 = Some last ->
    run stop s1 (ECheck t now :: es2 ++ [EThrow t]) = Some s2 -> (forall e, In e es2 -> ~ is_poll_of t e /\ ~ is_throw_of t e) ->
    exists esa g esb sol k, es = esa ++ EStart t g :: esb /\ (forall e, In e esb -> ~ is_start_of t e) /\
      holds_values env g sol /\ frame_apart last now /\ k < length (g_callbacks g) /\
      log_of t s2 = log_of t s ++ firstn (S k) (calls_from t 0 (g_callbacks g) sol (g_handle g) now) /\
      r_threads s2 t = Returned (Throw CallbackException).
  Proof.
    intros es s t t0 env es1 s1 last now es2 s2 F R R1 N1 L R2 N2.
    cbn [run] in R1. destruct (step stop s (EIter t t0 env)) as [m|] eqn:S; [|discriminate].
    assert (P : exists g, r_threads s t = Solving g /\ r_threads m t = Entered g env /\ log_of t m = log_of t s).
    { unfold step in S. destruct (r_threads s t); try discriminate S. exists g. split; [reflexivity|].
      destruct (r_last s); injection S as <-; (split; [cbn [r_threads moved]; apply set_at_same|reflexivity]). }
    destruct P as (g & P1 & P2 & P3).
    destruct (gen_from_start es s R t g ltac:(rewrite P1; reflexivity)) as (esa & esb & -> & N).
    assert (RG : real_generator g). { rewrite Forall_forall in F. apply (F (EStart t g)), in_elt. }
    destruct (real_solution g env RG) as (sol & C & H).
    destruct (quiet t es1 m s1 R1 N1) as [T1 L1].
    cbn [run] in R2. destruct (step stop s1 (ECheck t now)) as [m2|] eqn:S2; [|discriminate].
    unfold step in S2. rewrite T1, P2, L in S2. injection S2 as <-.
    assert (T2 : r_threads s2 t = Returned (Throw CallbackException)).
    { destruct (run_snoc _ _ _ _ R2) as (m3 & _ & S3). unfold step in S3. destruct (r_threads m3 t); try discriminate S3.
      destruct cbs; [discriminate S3|]. injection S3 as <-. cbn [r_threads]. apply set_at_same. }
    assert (Q : exists l, pending t (if throttled last now then Polling g else Framing g env now) = Some l /\
      (throttled last now = false -> l = calls_from t 0 (g_callbacks g) sol (g_handle g) now) /\ (throttled last now = true -> l = [])).
    { destruct (throttled last now); cbn [pending]; [|rewrite C]; eexists; (split; [reflexivity|]); split; congruence. }
    destruct Q as (l & Q1 & Q2 & Q3).
    destruct (pending_thrown t es2 _ s2 l R2 N2) as (k & Lk & E).
    { cbn [r_threads]. rewrite set_at_same. exact Q1. }
    destruct (throttled last now) eqn:Th; [rewrite (Q3 eq_refl) in Lk; cbn [length] in Lk; lia|].
    rewrite (Q2 eq_refl) in E, Lk. rewrite calls_length in Lk.
    exists esa, g, esb, sol, k. repeat (split; [assumption||reflexivity|]).
    split; [apply Z.ltb_ge; exact Th|]. split; [exact Lk|]. split; [|exact T2].
    rewrite E. unfold log_of. cbn [r_log]. fold (log_of t s1). rewrite L1, P3. reflexivity.
  Qed.
End Runs.
