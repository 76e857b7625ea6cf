(** Copies, moves and destruction of generators: C86, C87. *)
From Coq Require Import List ZArith Lia.
Import ListNotations.
From Verif Require Import Outcome Num Builder Generator Runtime Lifetime SpecBuilder SpecGenerator SpecLifetime
  BuilderFacts GeneratorFacts GeneratorProofs GeneratorMore SessionProofs.
Local Open Scope nat_scope.

Section Any.
  Context {K : Type} {HA : Arith K} {HD : Dbl K}.
  Variable stop : Z.

  Lemma upd_len {A} (l : list A) i f : length (upd l i f) = length l.
  Proof. apply upd_length. Qed.
  Lemma upd_same {A} (l : list A) i f a : nth_error l i = Some a -> nth_error (upd l i f) i = Some (f a).
  Proof. intros E. rewrite BuilderFacts.upd_nth, E, Nat.eqb_refl. reflexivity. Qed.
  Lemma upd_other {A} (l : list A) i j f : i <> j -> nth_error (upd l i f) j = nth_error l j.
  Proof.
    intros E. rewrite BuilderFacts.upd_nth. destruct (Nat.eqb_spec j i) as [->|_]; [congruence|].
    destruct (nth_error l j); reflexivity.
  Qed.
  Lemma upd_at {A} (l : list A) i a d : i < length l -> nth i (upd l i (fun _ => a)) d = a.
  Proof.
    intros L. apply nth_error_nth. destruct (nth_error l i) eqn:E; [exact (upd_same l i (fun _ => a) _ E)|].
    apply nth_error_None in E. lia.
  Qed.

  Lemma upd_apart {A} (l : list A) i j f d : i <> j -> nth j (upd l i f) d = nth j l d.
  Proof.
    intros N. pose proof (upd_other l i j f N) as E. destruct (nth_error l j) eqn:Ej.
    - rewrite (nth_error_nth _ _ d E), (nth_error_nth _ _ d Ej). reflexivity.
    - apply nth_error_None in Ej. rewrite !nth_overflow; rewrite ?upd_len; auto.
  Qed.

  Lemma object_lt (w : world K) i o : object w i = Some o -> i < length (w_objs w).
  Proof. unfold object. destruct (nth_error (w_objs w) i) eqn:E; [|discriminate]. intros _. apply nth_error_Some. congruence. Qed.

  (** A step that does not touch object [k] leaves it as it is. *)
  Lemma step_keeps w l k : k < length (w_objs w) -> ~ touches k l ->
    object (fst (lstep stop w l)) k = object w k /\ k < length (w_objs (fst (lstep stop w l))).
  Proof.
    intros L T.
    assert (P : forall (w : world K) j o, j <> k -> object (put w j o) k = object w k).
    { intros w0 j o J. unfold object, put; simpl. rewrite upd_other by assumption. reflexivity. }
    assert (A : forall (w : world K) o, k < length (w_objs w) -> object (fst (add w o)) k = object w k /\ k < length (w_objs (fst (add w o)))).
    { intros w0 o L0. unfold object, add; simpl. rewrite nth_error_app1, app_length by assumption. split; [reflexivity|lia]. }
    destruct l as [b h|j|j|i j|i j|i|i its code env]; simpl in *.
    - destruct (construct b h); simpl; auto. apply (A (mkWorld _ _)). exact L.
    - destruct (object w j); [apply A|]; auto.
    - destruct (object w j); [|auto]. destruct (A (put w j (Some (emptied g))) g) as (A1 & A2); [cbn; rewrite upd_len; exact L|].
      split; [etransitivity; [exact A1|apply P; congruence]|exact A2].
    - destruct (object w i), (object w j); auto. destruct (i =? j); simpl; auto. rewrite upd_len. split; [apply P|]; auto.
    - destruct (object w i), (object w j); auto. destruct (i =? j); simpl; auto. rewrite !upd_len. split; [|exact L].
      etransitivity; apply P; intros ->; apply T; auto.
    - destruct (object w i); simpl; auto. rewrite upd_len. split; [apply P|]; auto.
    - destruct (object w i) as [o|]; auto. destruct (o_moved o); auto.
  Qed.
  Lemma run_keeps ls : forall w k, k < length (w_objs w) -> (forall l, In l ls -> ~ touches k l) ->
    object (lrun stop ls w) k = object w k /\ k < length (w_objs (lrun stop ls w)).
  Proof.
    induction ls as [|l ls IH]; intros w k L T; [simpl; auto|].
    destruct (step_keeps w l k L (T l (or_introl eq_refl))) as (E & L').
    destruct (IH (fst (lstep stop w l)) k L' (fun m Hm => T m (or_intror Hm))) as (E2 & L2).
    unfold lrun in *; simpl. rewrite E2. auto.
  Qed.

  (** Every object refers to variables that exist. *)
  Definition stores_ok (w : world K) : Prop := forall i o, object w i = Some o -> o_store o < length (w_values w).
  Lemma object_put w j (o : option (gobj K)) i : object (put w j o) i = object w i \/
    (i = j /\ object (put w j o) i = o).
  Proof.
    destruct (Nat.eq_dec j i) as [->|N].
    - unfold object, put; simpl. destruct (nth_error (w_objs w) i) eqn:E.
      + right. rewrite (upd_same _ _ _ _ E). auto.
      + left. assert (nth_error (upd (w_objs w) i (fun _ => o)) i = None) as ->; [|reflexivity].
        apply nth_error_None. rewrite upd_len. apply nth_error_None. exact E.
    - left. unfold object, put; simpl. rewrite upd_other by assumption. reflexivity.
  Qed.
  Lemma step_stores w l : stores_ok w -> stores_ok (fst (lstep stop w l)) /\
    length (w_values w) <= length (w_values (fst (lstep stop w l))).
  Proof.
    intros S.
    assert (A : forall (w0 : world K) o, stores_ok w0 -> o_store o < length (w_values w0) -> stores_ok (fst (add w0 o))).
    { intros w0 o S0 O i o'. unfold object, add; simpl. destruct (Nat.lt_ge_cases i (length (w_objs w0))) as [L|L].
      - rewrite nth_error_app1 by exact L. apply S0.
      - rewrite nth_error_app2 by exact L. destruct (i - length (w_objs w0)) as [|n]; simpl; [|destruct n; discriminate].
        intros [= <-]. exact O. }
    assert (P : forall (w0 : world K) j o, stores_ok w0 -> (forall o', o = Some o' -> o_store o' < length (w_values w0)) -> stores_ok (put w0 j o)).
    { intros w0 j o S0 O i o' E. destruct (object_put w0 j o i) as [E1|(_ & E1)]; rewrite E1 in E; [eapply S0; eauto|]. apply O, E. }
    destruct l as [b h|j|j|i j|i j|i|i its code env]; simpl.
    - destruct (construct b h); simpl; auto. split; [|rewrite app_length; lia]. apply (A (mkWorld _ _)); simpl; rewrite ?app_length; simpl; [|lia].
      intros i o E. simpl. rewrite app_length. apply Nat.lt_lt_add_r. exact (S i o E).
    - destruct (object w j) eqn:E; simpl; auto. split; [|auto]. apply (A w); [exact S|]. eapply S; eauto.
    - destruct (object w j) eqn:E; simpl; auto. split; [|auto]. apply (A (put w j (Some (emptied g)))); [|eapply S; eauto]. apply P; [exact S|].
      intros o' [= <-]. simpl. eapply S; eauto.
    - destruct (object w i) eqn:Ei, (object w j) eqn:Ej; simpl; auto. destruct (i =? j); simpl; auto. split; [|auto].
      apply P; [exact S|]. intros o' [= <-]. eapply S; eauto.
    - destruct (object w i) eqn:Ei, (object w j) eqn:Ej; simpl; auto. destruct (i =? j); simpl; auto. split; [|auto].
      apply P; [apply P; [exact S|]|]; intros o' [= <-]; simpl; eapply S; eauto.
    - destruct (object w i) eqn:Ei; simpl; auto. split; [|auto]. apply P; [exact S|discriminate].
    - destruct (object w i) as [o|] eqn:Ei; simpl; auto. destruct (o_moved o); simpl; auto. rewrite upd_len. split; [|auto].
      intros k p E. simpl. rewrite upd_len. exact (S k p E).
  Qed.
  Lemma run_stores ls : forall w, stores_ok w -> stores_ok (lrun stop ls w).
  Proof. induction ls; intros w S; [exact S|]. apply IHls. apply step_stores, S. Qed.
  Lemma new_stores : stores_ok world_new.
  Proof. intros i o. unfold object; simpl. destruct i; discriminate. Qed.

  (** ** Runs *)
  Lemma call_all_spec (cbs : list (callback K)) : forall i sol h, call_all i cbs sol h =
    map (fun k => (i + k, passed_on cbs h sol k, h)) (seq 0 (length cbs)).
  Proof.
    induction cbs as [|cb cbs IH]; intros i sol h; [reflexivity|]. simpl. rewrite Nat.add_0_r. f_equal.
    rewrite IH, <- seq_shift, map_map. apply map_ext. intros k. rewrite <- plus_n_Sm. reflexivity.
  Qed.

  (** The lambda of [o] works on an object like [o] itself. *)
  Definition tied (w : world K) (g : gen K) (o : gobj K) : Prop :=
    o_gen o = g /\ o_moved o = false /\ o_store o < length (w_values w) /\
    exists c p, o_lambda o = Some (c, g_handle g) /\ object w c = Some p /\ o_gen p = g /\ o_store p = o_store o.
  Lemma tied_set w g o s env : tied w g o -> tied (set_values w s env) g o.
  Proof. intros (A & M & B & c & p & C). split; [exact A|]. split; [exact M|]. split; [simpl; rewrite upd_len; exact B|]. exists c, p. exact C. Qed.

  Lemma iterate_tied g o (Hg : forall env, exists sol, ConstructSwerveSolution g env = Ok sol) its : forall w, tied w g o ->
    exists rs, iterate w o its = Ok rs /\ proper_progress g its rs.
  Proof.
    induction its as [|(due, env) its IH]; intros w T.
    - exists []. split; [reflexivity|]. exists []. split; [reflexivity|constructor].
    - pose proof (tied_set w g o (o_store o) env T) as T'. destruct (IH _ T') as (rs & E & fr & -> & F).
      cbn [iterate]. destruct due.
      + assert (exists r, frame (set_values w (o_store o) env) o = Ok r /\ proper_frame g env r) as (r & Er & Pr).
        { destruct T' as (_ & _ & L & c & p & EL & EO & EG & ES). unfold frame. rewrite EL, EO, EG.
          unfold values. rewrite ES. simpl in L. rewrite upd_len in L.
          cbn [set_values w_values]. rewrite upd_at by exact L. destruct (Hg env) as (sol & C). rewrite C. cbn [obind].
          eexists. split; [reflexivity|]. exists sol. split; [exact C|]. apply call_all_spec. }
        rewrite Er. cbn [obind]. rewrite E. cbn [obind]. eexists. split; [reflexivity|]. exists (r :: fr). split; [reflexivity|]. constructor; assumption.
      + cbn [obind]. rewrite E. cbn [obind]. eexists. split; [reflexivity|]. exists ([] :: fr). split; [reflexivity|]. constructor; [reflexivity|assumption].
  Qed.
  Lemma generate_tied g o (Hg : forall env, exists sol, ConstructSwerveSolution g env = Ok sol) its code env w : tied w g o ->
    exists rs r, generate stop w o its code env = Ok (rs, r) /\ proper_progress g its rs /\ proper_result stop g code env r.
  Proof.
    intros T. destruct (iterate_tied g o Hg its w T) as (rs & E & P). unfold generate. rewrite E. cbn [obind].
    destruct T as (-> & _). unfold generate_result, proper_result. destruct ((code <? 0) || (code =? stop))%Z.
    - eexists rs, _. split; [reflexivity|]. auto.
    - destruct (Hg env) as (sol & C). rewrite C. cbn [obind]. eexists rs, _. split; [reflexivity|]. split; [exact P|]. exists sol. auto.
  Qed.

  Lemma built asserts (h : list (op K)) handle d g : generator asserts h handle d g -> g_handle g = handle /\
    forall env, exists sol, ConstructSwerveSolution g env = Ok sol.
  Proof.
    intros G. split.
    - destruct G as (C & _). pose proof (C54_twice_proof _ _ handle _ C) as E. rewrite C in E. injection E as E. rewrite E. reflexivity.
    - destruct (seeds_read _ _ _ _ _ G) as (_ & _ & _ & _ & _ & _ & _ & _ & _ & R & _). intros env. eexists. apply R.
  Qed.
  Lemma lrun_app ls ls' w : lrun stop (ls ++ ls') w = lrun stop ls' (lrun stop ls w).
  Proof. apply fold_left_app. Qed.
  Lemma new_object asserts h handle d g w : generator asserts h handle d g -> stores_ok w ->
    let k := length (w_objs w) in
    lstep stop w (LNew (path asserts h) handle) =
      (mkWorld (w_objs w ++ [Some (mkGobj g (length (w_values w)) (Some (k, handle)) false)]) (w_values w ++ [pr_vals (g_problem g)]), LMade k).
  Proof. intros (C & _) S k. cbn [lstep]. rewrite C. reflexivity. Qed.

  (** Object [k] is what the constructor made it and has not been touched. *)
  Lemma own_object asserts h handle d g ls ls' : generator asserts h handle d g ->
    let w0 := lrun stop ls world_new in
    let k := length (w_objs w0) in
    (forall l, In l ls' -> ~ touches k l) ->
    let w := lrun stop (ls ++ LNew (path asserts h) handle :: ls') world_new in
    object w k = Some (mkGobj g (length (w_values w0)) (Some (k, handle)) false) /\ stores_ok w /\ k < length (w_objs w).
  Proof.
    intros G w0 k T w. unfold w. rewrite lrun_app. fold w0. change (LNew (path asserts h) handle :: ls') with ([LNew (path asserts h) handle] ++ ls').
    rewrite lrun_app. assert (S0 : stores_ok w0) by (apply run_stores, new_stores).
    set (w1 := lrun stop [LNew (path asserts h) handle] w0).
    assert (S1 : stores_ok w1) by (apply run_stores, S0).
    assert (E1 : object w1 k = Some (mkGobj g (length (w_values w0)) (Some (k, handle)) false) /\ k < length (w_objs w1)).
    { unfold w1, lrun. cbn [fold_left]. rewrite (new_object _ _ _ _ _ _ G S0). unfold object. cbn [fst w_objs].
      rewrite nth_error_app2, Nat.sub_diag, app_length by reflexivity. split; [reflexivity|]. simpl. fold k. lia. }
    destruct E1 as (E1 & L1). destruct (run_keeps ls' w1 k L1 T) as (E & L). split; [rewrite E; exact E1|]. split; [apply run_stores, S1|exact L].
  Qed.

  (** C86, a generator that was neither moved nor assigned to. *)
  Theorem C86_own_proof : forall asserts h handle d g ls ls', generator asserts h handle d g ->
    let k := length (w_objs (lrun stop ls world_new)) in
    (forall l, In l ls' -> ~ touches k l) ->
    forall its code env, exists rs r,
      snd (lstep stop (lrun stop (ls ++ LNew (path asserts h) handle :: ls') world_new) (LGenerate k its code env)) =
        LGenerated (Ok (rs, r)) /\ proper_progress g its rs /\ proper_result stop g code env r.
  Proof.
    intros asserts h handle d g ls ls' G k T its code env.
    destruct (built _ _ _ _ _ G) as (EH & Hg).
    destruct (own_object asserts h handle d g ls ls' G T) as (E & S & L). fold k in E.
    set (w := lrun stop (ls ++ LNew (path asserts h) handle :: ls') world_new) in *.
    cbn [lstep]. rewrite E. cbn [o_moved snd].
    match goal with |- context [generate stop w ?o _ _ _] => destruct (generate_tied g o Hg its code env w) as (rs & r & Q) end.
    - split; [reflexivity|]. split; [reflexivity|]. split; [exact (S _ _ E)|]. exists k. eexists. rewrite EH. split; [reflexivity|].
      split; [exact E|]. auto.
    - exists rs, r. destruct Q as (-> & Q). auto.
  Qed.

  (** C86, a copy of such a generator. *)
  Theorem copy_proof : forall asserts h handle d g ls ls1 ls2, generator asserts h handle d g ->
    let k := length (w_objs (lrun stop ls world_new)) in
    (forall l, In l (ls1 ++ ls2) -> ~ touches k l) ->
    let w1 := lrun stop (ls ++ LNew (path asserts h) handle :: ls1) world_new in
    let j := length (w_objs w1) in
    (forall l, In l ls2 -> ~ touches j l) ->
    let w := lrun stop (LCopy k :: ls2) w1 in
    snd (lstep stop w1 (LCopy k)) = LMade j /\
    (forall its code env, exists rs r,
      snd (lstep stop w (LGenerate j its code env)) = LGenerated (Ok (rs, r)) /\
      proper_progress g its rs /\ proper_result stop g code env r) /\
    (forall its code env o, object w k = Some o ->
      values (fst (lstep stop w (LGenerate j its code env))) o = env).
  Proof.
    intros asserts h handle d g ls ls1 ls2 G k T w1 j T2 w.
    destruct (built _ _ _ _ _ G) as (EH & Hg).
    destruct (own_object asserts h handle d g ls ls1 G) as (E1 & S1 & L1); [intros l Hl; apply T, in_or_app; auto|]. fold k w1 in E1, S1, L1.
    set (o := mkGobj g (length (w_values (lrun stop ls world_new))) (Some (k, handle)) false) in *.
    assert (C : lstep stop w1 (LCopy k) = add w1 o) by (cbn [lstep]; rewrite E1; reflexivity).
    set (w2 := fst (add w1 o)).
    assert (W : w = lrun stop ls2 w2) by (unfold w, lrun; cbn [fold_left]; rewrite C; reflexivity).
    assert (S2 : stores_ok w2) by (unfold w2; rewrite <- C; apply step_stores, S1).
    assert (Ek : object w2 k = Some o /\ k < length (w_objs w2)).
    { unfold w2, object, add. cbn [fst w_objs]. rewrite nth_error_app1, app_length by exact L1. split; [exact E1|lia]. }
    assert (Ej : object w2 j = Some o /\ j < length (w_objs w2)).
    { unfold w2, object, add. cbn [fst w_objs]. rewrite nth_error_app2, app_length by apply le_n. fold j. rewrite Nat.sub_diag. split; [reflexivity|simpl; fold j; lia]. }
    destruct (run_keeps ls2 w2 k (proj2 Ek)) as (Fk & _); [intros l Hl; apply T, in_or_app; auto|].
    destruct (run_keeps ls2 w2 j (proj2 Ej) T2) as (Fj & _). rewrite <- W in Fk, Fj. rewrite (proj1 Ek) in Fk. rewrite (proj1 Ej) in Fj.
    assert (S : stores_ok w) by (rewrite W; apply run_stores, S2).
    split; [rewrite C; reflexivity|]. split.
    - intros its code env. cbn [lstep]. rewrite Fj. unfold o at 1. cbn [o_moved snd].
      destruct (generate_tied g o Hg its code env w) as (rs & r & Q).
      + split; [reflexivity|]. split; [reflexivity|]. split; [exact (S _ _ Fj)|]. exists k, o. rewrite EH. split; [reflexivity|]. split; [exact Fk|]. auto.
      + exists rs, r. destruct Q as (-> & Q). auto.
    - intros its code env o' E'. rewrite Fk in E'. injection E' as <-. cbn [lstep]. rewrite Fj. unfold o at 1. cbn [o_moved fst].
      unfold values. cbn [set_values w_values]. apply upd_at. exact (S _ _ Fk).
  Qed.

  Theorem C86_copy_proof : forall asserts h handle d g ls ls1 ls2, generator asserts h handle d g ->
    let k := length (w_objs (lrun stop ls world_new)) in
    (forall l, In l (ls1 ++ ls2) -> ~ touches k l) ->
    let w1 := lrun stop (ls ++ LNew (path asserts h) handle :: ls1) world_new in
    let j := length (w_objs w1) in
    (forall l, In l ls2 -> ~ touches j l) ->
    let w := lrun stop (LCopy k :: ls2) w1 in
    snd (lstep stop w1 (LCopy k)) = LMade j /\
    forall its code env, exists rs r,
      snd (lstep stop w (LGenerate j its code env)) = LGenerated (Ok (rs, r)) /\
      proper_progress g its rs /\ proper_result stop g code env r.
  Proof.
    intros asserts h handle d g ls ls1 ls2 G k T w1 j T2 w.
    destruct (copy_proof asserts h handle d g ls ls1 ls2 G T T2) as (A & B & _). split; assumption.
  Qed.
  Theorem C87_copy_proof : forall asserts h handle d g ls ls1 ls2, generator asserts h handle d g ->
    let k := length (w_objs (lrun stop ls world_new)) in
    (forall l, In l (ls1 ++ ls2) -> ~ touches k l) ->
    let w1 := lrun stop (ls ++ LNew (path asserts h) handle :: ls1) world_new in
    let j := length (w_objs w1) in
    (forall l, In l ls2 -> ~ touches j l) ->
    let w := lrun stop (LCopy k :: ls2) w1 in
    forall its code env o, object w k = Some o ->
      values (fst (lstep stop w (LGenerate j its code env))) o = env.
  Proof.
    intros asserts h handle d g ls ls1 ls2 G k T w1 j T2 w.
    destruct (copy_proof asserts h handle d g ls ls1 ls2 G T T2) as (_ & _ & C). exact C.
  Qed.

  (** The original destroyed. *)
  Theorem dangling_proof : forall asserts h handle d g env0 its code env, generator asserts h handle d g ->
    let w := lrun stop [LNew (path asserts h) handle; LCopy 0; LDestroy 0] world_new in
    snd (lstep stop w (LGenerate 1 ((true, env0) :: its) code env)) = LGenerated (Undef Dangling).
  Proof.
    intros asserts h handle d g env0 its code env (C & _) w. unfold w, lrun. cbn [fold_left].
    cbn [lstep]. rewrite C. reflexivity.
  Qed.
  (** Moved. *)
  Theorem moved_proof : forall asserts h handle d g its code env, generator asserts h handle d g ->
    let w := lrun stop [LNew (path asserts h) handle; LMove 0] world_new in
    exists r, snd (lstep stop w (LGenerate 1 its code env)) = LGenerated (Ok ([], r)) /\ proper_result stop g code env r.
  Proof.
    intros asserts h handle d g its code env G w. destruct (built _ _ _ _ _ G) as (_ & Hg). destruct G as (C & _).
    assert (I : forall its (w : world K) o p c, o_lambda o = Some (0, c) -> object w 0 = Some (emptied p) -> iterate w o its = Ok []).
    { clear. induction its as [|(due, env) its IH]; intros w o p c L O; [reflexivity|]. cbn [iterate].
      rewrite (IH (set_values w (o_store o) env) o p c L O).
      destruct due; [|reflexivity]. unfold frame. rewrite L. change (object (set_values w (o_store o) env) 0) with (object w 0). rewrite O. reflexivity. }
    unfold w, lrun. cbn [fold_left]. cbn [lstep fst]. rewrite C. cbn. unfold generate.
    erewrite I; [|reflexivity|reflexivity]. cbn [obind o_gen]. unfold generate_result, proper_result.
    destruct ((code <? 0) || (code =? stop))%Z; cbn [obind]; [eauto|]. destruct (Hg env) as (sol & ->). cbn [obind]. eauto 6.
  Qed.
  Lemma nothing_improper (g : gen K) env its : g_callbacks g <> [] -> ~ proper_progress g ((true, env) :: its) [].
  Proof.
    intros N (fr & E & F). inversion F as [|? r ? fr' P _]; subst. cbn in P. destruct P as (sol & _ & ->).
    apply N. destruct (g_callbacks g); [reflexivity|]. discriminate E.
  Qed.
  (** ** Whose variables a run moves *)
  Definition alone (w : world K) (k s : nat) : Prop := forall i o, object w i = Some o -> o_store o = s -> i = k.
  Lemma step_alone w l k s : stores_ok w -> s < length (w_values w) -> alone w k s -> k < length (w_objs w) ->
    (exists o, object w k = Some o /\ o_store o = s) ->
    ~ touches k l -> ~ shares k l -> ~ runs k l ->
    alone (fst (lstep stop w l)) k s /\ nth s (w_values (fst (lstep stop w l))) (fun _ => nlit 0) = nth s (w_values w) (fun _ => nlit 0).
  Proof.
    intros S Hs U L (ok & Ek & Sk) T Sh G.
    assert (A : forall w0 o, alone w0 k s -> o_store o <> s -> alone (fst (add w0 o)) k s).
    { intros w0 o S0 O i o'. unfold object, add; simpl. destruct (Nat.lt_ge_cases i (length (w_objs w0))) as [Li|Li].
      - rewrite nth_error_app1 by exact Li. apply S0.
      - rewrite nth_error_app2 by exact Li. destruct (i - length (w_objs w0)) as [|n]; simpl; [|destruct n; discriminate].
        intros [= <-]. congruence. }
    assert (P : forall w0 j o, alone w0 k s -> (forall o', o = Some o' -> o_store o' <> s) -> alone (put w0 j o) k s).
    { intros w0 j o S0 O i o' E. destruct (object_put w0 j o i) as [E1|(_ & E1)]; rewrite E1 in E; [eapply S0; eauto|].
      intros Q. destruct (O _ E Q). }
    assert (D : forall j o, object w j = Some o -> j <> k -> o_store o <> s) by (intros j o E N Q; apply N; eapply U; eauto).
    destruct l as [b h|j|j|i j|i j|i|i its code env]; simpl in *.
    - destruct (construct b h); simpl; auto. split; [|rewrite app_nth1 by exact Hs; reflexivity].
      apply (A (mkWorld (w_objs w) _)); simpl; [exact U|lia].
    - destruct (object w j) eqn:E; simpl; auto. split; [|auto]. apply (A w); [exact U|]. eapply D; eauto.
    - destruct (object w j) eqn:E; simpl; auto. split; [|auto]. apply (A (put w j (Some (emptied g)))); [|eapply D; eauto].
      apply P; [exact U|]. intros o' [= <-]. simpl. eapply D; eauto.
    - destruct (object w i) eqn:Ei, (object w j) eqn:Ej; simpl; auto. destruct (i =? j); simpl; auto. split; [|auto].
      apply P; [exact U|]. intros o' [= <-]. eapply D; eauto.
    - destruct (object w i) eqn:Ei, (object w j) eqn:Ej; simpl; auto. destruct (i =? j); simpl; auto. split; [|auto].
      apply P; [apply P; [exact U|]|]; intros o' [= <-]; simpl; eapply D; eauto.
    - destruct (object w i) eqn:Ei; simpl; auto. split; [|auto]. apply P; [exact U|discriminate].
    - destruct (object w i) as [o|] eqn:Ei; simpl; auto. destruct (o_moved o); simpl; auto. split; [exact U|].
      pose proof (D i o Ei G) as N. apply upd_apart, N.
  Qed.
  Theorem C87_alone_proof : forall asserts h handle d g ls ls', generator asserts h handle d g ->
    let k := length (w_objs (lrun stop ls world_new)) in
    (forall l, In l ls' -> ~ touches k l /\ ~ shares k l /\ ~ runs k l) ->
    let w := lrun stop (ls ++ LNew (path asserts h) handle :: ls') world_new in
    exists o, object w k = Some o /\ values w o = pr_vals (g_problem g).
  Proof.
    intros asserts h handle d g ls ls' G k T w.
    set (w0 := lrun stop ls world_new) in *.
    assert (S0 : stores_ok w0) by (apply run_stores, new_stores).
    set (s := length (w_values w0)). set (w1 := fst (lstep stop w0 (LNew (path asserts h) handle))).
    assert (W : w = lrun stop ls' w1) by (unfold w; rewrite lrun_app; reflexivity).
    assert (S1 : stores_ok w1) by (apply step_stores, S0).
    assert (Q : s < length (w_values w1) /\ alone w1 k s /\ k < length (w_objs w1) /\
      (exists o, object w1 k = Some o /\ o_store o = s) /\ nth s (w_values w1) (fun _ => nlit 0) = pr_vals (g_problem g)).
    { unfold w1. rewrite (new_object _ _ _ _ _ _ G S0). cbn [fst w_values w_objs]. rewrite !app_length. cbn [length].
      split; [fold s; lia|]. split.
      - intros i o E O. unfold object in E. cbn [w_objs] in E. destruct (Nat.lt_ge_cases i (length (w_objs w0))) as [Li|Li].
        + rewrite nth_error_app1 in E by exact Li. pose proof (S0 i o E). fold s in H. lia.
        + rewrite nth_error_app2 in E by exact Li. destruct (i - length (w_objs w0)) as [|n] eqn:Ei; [fold k in Li, Ei; lia|]. destruct n; discriminate.
      - split; [fold k; lia|]. split.
        + eexists. unfold object. cbn [w_objs]. rewrite nth_error_app2, Nat.sub_diag by reflexivity. split; [reflexivity|]. reflexivity.
        + unfold s. rewrite app_nth2, Nat.sub_diag by apply le_n. reflexivity. }
    rewrite W. clear W w. clearbody w1. clear S0. revert w1 S1 Q. induction ls' as [|l ls' IH]; intros w1 S1 (Q1 & Q2 & Q3 & (o & Eo & So) & Q5).
    - exists o. split; [exact Eo|]. unfold values. rewrite So. exact Q5.
    - destruct (T l (or_introl eq_refl)) as (T1 & T2 & T3).
      destruct (step_alone w1 l k s S1 Q1 Q2 Q3 (ex_intro _ o (conj Eo So)) T1 T2 T3) as (U & V).
      destruct (step_stores w1 l S1) as (S2 & Len). destruct (step_keeps w1 l k Q3 T1) as (E & L).
      apply (IH (fun m Hm => T m (or_intror Hm)) (fst (lstep stop w1 l)) S2). split; [lia|]. split; [exact U|]. split; [exact L|].
      split; [exists o; rewrite E; auto|]. rewrite V. exact Q5.
  Qed.
End Any.

From Coq Require Import Reals.
From Verif Require Import NumR GeneratorCases RuntimeCases.
Theorem C86_copy_refuted_proof : forall stop, ~ (forall asserts (h : list (op R)) handle d g its code env, generator asserts h handle d g ->
  let w := lrun stop [LNew (path asserts h) handle; LCopy 0; LDestroy 0] world_new in
  exists rs r, snd (lstep stop w (LGenerate 1 its code env)) = LGenerated (Ok (rs, r)) /\
    proper_progress g its rs /\ proper_result stop g code env r).
Proof.
  intros stop H. destruct (watched_generator true 7) as (g & G & _).
  destruct (H true watched 7%Z cart g [(true, at_zero)] 0%Z at_zero G) as (rs & r & E & _).
  rewrite (dangling_proof stop _ _ _ _ _ _ [] _ _ G) in E. discriminate E.
Qed.
Theorem C86_move_refuted_proof : forall stop, ~ (forall asserts (h : list (op R)) handle d g its code env, generator asserts h handle d g ->
  let w := lrun stop [LNew (path asserts h) handle; LMove 0] world_new in
  exists rs r, snd (lstep stop w (LGenerate 1 its code env)) = LGenerated (Ok (rs, r)) /\
    proper_progress g its rs /\ proper_result stop g code env r).
Proof.
  intros stop H. destruct (watched_generator true 7) as (g & G & C & _).
  destruct (H true watched 7%Z cart g [(true, at_zero)] 0%Z at_zero G) as (rs & r & E & P & _).
  destruct (moved_proof stop _ _ _ _ _ [(true, at_zero)] 0%Z at_zero G) as (r' & E' & _). rewrite E' in E. injection E as <- <-.
  apply (nothing_improper g at_zero []) in P; [exact P|]. rewrite C. discriminate.
Qed.
