(** The ledger describes the generator objects (C111). *)
From Coq Require Import List ZArith Lia.
Import ListNotations.
From Verif Require Import Outcome Num Builder Generator Runtime Lifetime SpecBuilder SpecGenerator SpecLifetime SpecOwners
  BuilderFacts GeneratorFacts GeneratorProofs GeneratorMore SessionProofs LifetimeProofs SeedFacts FeasibleFacts HistoryFacts.
Local Open Scope nat_scope.

Section Any.
  Context {K : Type} {HA : Arith K} {HD : Dbl K}.
  Variable stop : Z.

  Lemma replaced_upd {A} (l : list A) : forall i a, replaced i a l = upd l i (fun _ => a).
  Proof. induction l as [|x l IH]; intros [|i] a; simpl; try reflexivity; try (rewrite IH; reflexivity). Qed.
  Lemma Forall2_upd {A B} (P : A -> B -> Prop) : forall l m i a b, Forall2 P l m -> P a b ->
    Forall2 P (upd l i (fun _ => a)) (upd m i (fun _ => b)).
  Proof.
    intros l m i a b F Q. revert i. induction F as [|x y l m X F IH]; intros i; [destruct i; constructor|].
    destruct i; simpl; constructor; auto.
  Qed.
  Lemma Forall2_get {A B} (P : A -> B -> Prop) : forall l m, Forall2 P l m -> forall i x, nth_error l i = Some x ->
    exists y, nth_error m i = Some y /\ P x y.
  Proof.
    intros l m F. induction F as [|a b l m X F IH]; intros [|i] x E; try discriminate.
    - injection E as <-. exists b. split; [reflexivity|exact X].
    - apply IH, E.
  Qed.
  Lemma Forall2_len {A B} (P : A -> B -> Prop) l m : Forall2 P l m -> length l = length m.
  Proof. induction 1; simpl; congruence. Qed.

  (** How an object of the model and a line of the ledger agree. *)
  Definition same_object (made : list (entry K)) (x : option content) (o : option (gobj K)) : Prop :=
    match x with
    | None => o = None
    | Some Emptied => exists p, o = Some (emptied p)
    | Some (Holds c) => exists e, nth_error made c = Some e /\
        o = Some (mkGobj (e_gen e) c (Some (e_home e, g_handle (e_gen e))) false)
    end.
  Definition same_values (e : entry K) (v : nat -> K) : Prop :=
    e_values e = v /\ forall env, exists sol, ConstructSwerveSolution (e_gen e) env = Ok sol.
  Definition agree (d : ledger K) (w : world K) : Prop :=
    Forall2 (same_object (d_made d)) (d_objs d) (w_objs w) /\ Forall2 same_values (d_made d) (w_values w).

  Lemma held_object d w i : agree d w -> same_object (d_made d) (held d i) (object w i).
  Proof.
    intros (F & _). unfold held, object. revert i. induction F as [|x o l m X F IH]; intros [|i]; simpl; auto.
  Qed.
  Lemma same_grow made e x o : same_object made x o -> same_object (made ++ [e]) x o.
  Proof.
    destruct x as [[c|]|]; simpl; auto. intros (e0 & E & ->). exists e0. split; [|reflexivity].
    rewrite nth_error_app1; [exact E|]. apply nth_error_Some. congruence.
  Qed.
  Lemma same_update made c e env x o : nth_error made c = Some e -> same_object made x o ->
    same_object (upd made c (fun _ => mkEntry (e_gen e) (e_home e) env)) x o.
  Proof.
    intros E. destruct x as [[c'|]|]; simpl; auto. intros (e0 & E0 & ->). destruct (Nat.eq_dec c c') as [<-|N].
    - rewrite E in E0. injection E0 as <-. eexists. split; [apply (upd_same _ _ _ _ E)|]. reflexivity.
    - exists e0. split; [rewrite upd_other; assumption|reflexivity].
  Qed.
  Lemma Forall2_map {A B} (P Q : A -> B -> Prop) l m : (forall a b, P a b -> Q a b) -> Forall2 P l m -> Forall2 Q l m.
  Proof. intros I F. induction F; constructor; auto. Qed.

  Lemma built_from asserts h handle g : construct (path asserts h) handle = Ok g -> g_handle g = handle /\
    forall env, exists sol, ConstructSwerveSolution g env = Ok sol.
  Proof.
    intros C. destruct (construct_inversion _ handle g (path_inv asserts h) C) as (_ & d & p & D & _).
    apply (built asserts h handle d g). split; assumption.
  Qed.

  Lemma agree_step d w l : from_builders [l] -> agree d w -> agree (enter d l) (fst (lstep stop w l)).
  Proof.
    intros FB A. pose proof (held_object d w) as H. destruct A as (F & V).
    destruct l as [b h|j|j|i j|i j|i|i its code env]; cbn [enter lstep].
    - destruct (construct b h) as [g| | | |] eqn:C; cbn [fst]; try (split; assumption).
      destruct (FB b h (or_introl eq_refl)) as (asserts & hist & ->). destruct (built_from _ _ _ _ C) as (EH & Hg).
      split; cbn [d_objs d_made add fst w_objs w_values].
      + apply Forall2_app; [apply (Forall2_map _ _ _ _ (fun x o => same_grow (d_made d) _ x o) F)|].
        constructor; [|constructor]. exists (mkEntry g (length (d_objs d)) (pr_vals (g_problem g))). split.
        * rewrite nth_error_app2, Nat.sub_diag by apply le_n. reflexivity.
        * cbn [e_gen e_home]. rewrite EH, (Forall2_len _ _ _ F), (Forall2_len _ _ _ V). reflexivity.
      + apply Forall2_app; [exact V|]. constructor; [|constructor]. split; [reflexivity|exact Hg].
    - specialize (H j (conj F V)). destruct (held d j) as [x|] eqn:E.
      + assert (exists o, object w j = Some o /\ same_object (d_made d) (Some x) (Some o)) as (o & -> & S).
        { destruct x as [c|]; [destruct H as (e & H1 & H2)|destruct H as (p & H2)]; rewrite H2; eexists; (split; [reflexivity|]); cbn; eauto. }
        split; cbn; [|exact V]. apply Forall2_app; [exact F|]. constructor; [exact S|constructor].
      + cbn in H. rewrite H. split; assumption.
    - specialize (H j (conj F V)). destruct (held d j) as [x|] eqn:E.
      + assert (exists o, object w j = Some o /\ same_object (d_made d) (Some x) (Some o)) as (o & -> & S).
        { destruct x as [c|]; [destruct H as (e & H1 & H2)|destruct H as (p & H2)]; rewrite H2; eexists; (split; [reflexivity|]); cbn; eauto. }
        split; cbn; [|exact V]. apply Forall2_app; [|constructor; [exact S|constructor]]. rewrite replaced_upd. apply Forall2_upd; [exact F|].
        cbn. eauto.
      + cbn in H. rewrite H. split; assumption.
    - pose proof (H i (conj F V)) as Hi. pose proof (H j (conj F V)) as Hj. destruct (held d i) as [xi|] eqn:Ei.
      + assert (exists o, object w i = Some o) as (oi & ->)
          by (destruct xi as [c|]; [destruct Hi as (e & H1 & H2)|destruct Hi as (p & H2)]; rewrite H2; eauto).
        destruct (held d j) as [x|] eqn:Ej.
        * assert (exists o, object w j = Some o /\ same_object (d_made d) (Some x) (Some o)) as (o & Eo & S).
          { destruct x as [c|]; [destruct Hj as (e & H1 & H2)|destruct Hj as (p & H2)]; rewrite H2; eexists; (split; [reflexivity|]); cbn; eauto. }
          rewrite Eo. destruct (Nat.eqb_spec i j) as [->|N]; cbn [fst].
          -- split; [|exact V]. cbn. rewrite replaced_upd.
             replace (w_objs w) with (upd (w_objs w) j (fun _ => Some o)); [apply Forall2_upd; assumption|].
             unfold object in Eo. destruct (nth_error (w_objs w) j) as [q|] eqn:Q; [|discriminate]. subst q.
             clear - Q. revert j Q. induction (w_objs w) as [|y l IH]; intros [|j] Q; try discriminate; cbn.
             ++ injection Q as ->. reflexivity.
             ++ rewrite IH by exact Q. reflexivity.
          -- split; cbn; [|exact V]. rewrite replaced_upd. apply Forall2_upd; assumption.
        * cbn in Hj. rewrite Hj. split; assumption.
      + cbn in Hi. rewrite Hi. destruct (object w j); split; assumption.
    - pose proof (H i (conj F V)) as Hi. pose proof (H j (conj F V)) as Hj. destruct (held d i) as [xi|] eqn:Ei.
      + assert (exists o, object w i = Some o) as (oi & ->)
          by (destruct xi as [c|]; [destruct Hi as (e & H1 & H2)|destruct Hi as (p & H2)]; rewrite H2; eauto).
        destruct (held d j) as [x|] eqn:Ej.
        * assert (exists o, object w j = Some o /\ same_object (d_made d) (Some x) (Some o)) as (o & Eo & S).
          { destruct x as [c|]; [destruct Hj as (e & H1 & H2)|destruct Hj as (p & H2)]; rewrite H2; eexists; (split; [reflexivity|]); cbn; eauto. }
          rewrite Eo. destruct (Nat.eqb_spec i j) as [->|N]; cbn [fst]; [split; assumption|].
          split; cbn; [|exact V]. rewrite !replaced_upd. apply Forall2_upd; [|exact S]. apply Forall2_upd; [exact F|]. cbn. eauto.
        * cbn in Hj. rewrite Hj. split; assumption.
      + cbn in Hi. rewrite Hi. destruct (object w j); split; assumption.
    - specialize (H i (conj F V)). rewrite replaced_upd. destruct (held d i) as [x|] eqn:E.
      + assert (exists o, object w i = Some o) as (oi & ->)
          by (destruct x as [c|]; [destruct H as (e & H1 & H2)|destruct H as (p & H2)]; rewrite H2; eauto).
        split; cbn; [|exact V]. apply Forall2_upd; [exact F|reflexivity].
      + cbn in H. rewrite H. split; [|exact V]. cbn [fst d_objs d_made].
        replace (w_objs w) with (upd (w_objs w) i (fun _ => None)); [apply Forall2_upd; [exact F|reflexivity]|].
        unfold object in H. clear - H. revert i H. induction (w_objs w) as [|y l IH]; intros [|i] Q; cbn in *; try reflexivity.
        * rewrite Q. reflexivity.
        * rewrite IH by exact Q. reflexivity.
    - specialize (H i (conj F V)). destruct (held d i) as [[c|]|] eqn:E.
      + destruct H as (e & Ec & ->). cbn [o_moved fst]. rewrite Ec. split; cbn; rewrite replaced_upd.
        * apply (Forall2_map _ _ _ _ (fun x o => same_update (d_made d) c e env x o Ec) F).
        * apply Forall2_upd; [exact V|]. split; [reflexivity|]. cbn [e_gen].
          destruct (Forall2_get _ _ _ V c e Ec) as (v & _ & _ & Hg). exact Hg.
      + destruct H as (p & ->). split; assumption.
      + cbn in H. rewrite H. split; assumption.
  Qed.
  Lemma agree_run ls : forall d w, from_builders ls -> agree d w -> agree (fold_left enter ls d) (lrun stop ls w).
  Proof.
    induction ls as [|l ls IH]; intros d w FB A; [exact A|]. cbn [fold_left]. unfold lrun. cbn [fold_left]. apply IH.
    - intros b h I. apply (FB b h). right. exact I.
    - apply agree_step; [|exact A]. intros b h [->|[]]. apply (FB b h). left. reflexivity.
  Qed.
  Lemma agree_all ls : from_builders ls -> agree (ledger_of ls) (lrun stop ls world_new).
  Proof. intros FB. apply agree_run; [exact FB|]. split; constructor. Qed.

  (** ** Runs *)
  Lemma result_proper (g : gen K) code env : (forall env, exists sol, ConstructSwerveSolution g env = Ok sol) ->
    exists r, generate_result stop g code env = Ok r /\ proper_result stop g code env r.
  Proof.
    intros Hg. unfold generate_result, proper_result. destruct ((code <? 0) || (code =? stop))%Z; [eauto|].
    destruct (Hg env) as (sol & C). rewrite C. cbn. eauto 6.
  Qed.
  Lemma iterate_gone its : forall (w : world K) o this handle, o_lambda o = Some (this, handle) -> object w this = None ->
    (In true (map fst its) -> iterate w o its = Undef Dangling) /\ (~ In true (map fst its) -> iterate w o its = Ok []).
  Proof.
    induction its as [|(due, env) its IH]; intros w o this handle L O; [split; [intros []|reflexivity]|]. cbn [iterate map fst].
    destruct (IH (set_values w (o_store o) env) o this handle L O) as (A & B). destruct due.
    - unfold frame. rewrite L. change (object (set_values w (o_store o) env) this) with (object w this). rewrite O. split; [reflexivity|].
      intros N. destruct N. left. reflexivity.
    - cbn [obind]. split.
      + intros [N|I]; [discriminate|]. rewrite (A I). reflexivity.
      + intros N. rewrite B; [reflexivity|]. intros I. apply N. right. exact I.
  Qed.
  Lemma iterate_emptied its : forall (w : world K) o this handle p, o_lambda o = Some (this, handle) -> object w this = Some (emptied p) ->
    iterate w o its = Ok [].
  Proof.
    induction its as [|(due, env) its IH]; intros w o this handle p L O; [reflexivity|]. cbn [iterate].
    rewrite (IH (set_values w (o_store o) env) o this handle p L O). destruct due; [|reflexivity].
    unfold frame. rewrite L. change (object (set_values w (o_store o) env) this) with (object w this). rewrite O. reflexivity.
  Qed.
  Lemma iterate_other its : forall (w : world K) o this handle q, o_lambda o = Some (this, handle) -> object w this = Some q ->
    (forall env, exists sol, ConstructSwerveSolution (o_gen q) env = Ok sol) -> o_store o < length (w_values w) ->
    exists rs, iterate w o its = Ok rs /\
      shown (o_gen q) handle (fun now => if o_store q =? o_store o then now else values w q) its rs.
  Proof.
    induction its as [|(due, env) its IH]; intros w o this handle q L O Hg S.
    - exists []. split; [reflexivity|]. exists []. split; [reflexivity|constructor].
    - set (w' := set_values w (o_store o) env).
      destruct (IH w' o this handle q L O Hg) as (rs & E & fr & -> & F); [cbn; rewrite upd_length; exact S|].
      assert (Vw : values w' q = if o_store q =? o_store o then env else values w q).
      { unfold values, w'. cbn [set_values w_values]. destruct (Nat.eqb_spec (o_store q) (o_store o)) as [->|N].
        - apply upd_at, S.
        - apply upd_apart. congruence. }
      assert (F' : Forall2 (fun it fr => if fst it : bool then frame_of (o_gen q) handle
        ((fun now => if o_store q =? o_store o then now else values w q) (snd it)) fr else fr = []) its fr).
      { eapply Forall2_map; [|exact F]. intros (b & v) f. cbn [fst snd]. rewrite Vw.
        destruct (o_store q =? o_store o); exact (fun x => x). }
      cbn [iterate]. fold w'. destruct due.
      + unfold frame. rewrite L. change (object w' this) with (object w this). rewrite O, Vw.
        destruct (Hg (if o_store q =? o_store o then env else values w q)) as (sol & C). rewrite C. cbn [obind]. rewrite E. cbn [obind].
        eexists. split; [reflexivity|]. eexists (_ :: fr). split; [reflexivity|]. constructor; [|exact F'].
        exists sol. split; [exact C|]. apply call_all_spec.
      + cbn [obind]. rewrite E. cbn [obind]. eexists. split; [reflexivity|]. exists ([] :: fr). split; [reflexivity|].
        constructor; [reflexivity|exact F'].
  Qed.

  Lemma C111_proof : forall ls l, from_builders (ls ++ [l]) ->
    answers stop (ledger_of ls) l (snd (lstep stop (lrun stop ls world_new) l)).
  Proof.
    intros ls l FB. assert (A : agree (ledger_of ls) (lrun stop ls world_new)).
    { apply agree_all. intros b h I. apply (FB b h), in_or_app. left. exact I. }
    set (d := ledger_of ls) in *. set (w := lrun stop ls world_new) in *. clearbody d w.
    pose proof (fun i => held_object d w i A) as H. destruct A as (F & V). pose proof (Forall2_len _ _ _ F) as Len.
    assert (G : forall i, match held d i with Some x => exists o, object w i = Some o | None => object w i = None end).
    { intros i. specialize (H i). destruct (held d i) as [[c|]|]; [destruct H as (e & _ & ->)|destruct H as (p & ->)|exact H]; eauto. }
    destruct l as [b h|j|j|i j|i j|i|i its code env]; cbn [answers lstep].
    - intros g C. rewrite C. cbn. rewrite Len. reflexivity.
    - specialize (G j). destruct (held d j); [destruct G as (o & ->)|rewrite G]; cbn; rewrite ?Len; reflexivity.
    - specialize (G j). destruct (held d j); [destruct G as (o & ->)|rewrite G]; cbn; rewrite ?upd_length, ?Len; reflexivity.
    - pose proof (G i) as Gi. specialize (G j). destruct (held d i); [destruct Gi as (oi & ->)|rewrite Gi];
        (destruct (held d j); [destruct G as (oj & G)|]); rewrite ?G; try reflexivity; destruct (i =? j); reflexivity.
    - pose proof (G i) as Gi. specialize (G j). destruct (held d i); [destruct Gi as (oi & ->)|rewrite Gi];
        (destruct (held d j); [destruct G as (oj & G)|]); rewrite ?G; try reflexivity; destruct (i =? j); reflexivity.
    - specialize (G i). destruct (held d i); [destruct G as (o & ->)|rewrite G]; reflexivity.
    - pose proof (H i) as Hi. destruct (held d i) as [[c|]|] eqn:E.
      + destruct Hi as (e & Ec & ->). exists e. split; [exact Ec|]. cbn [o_moved snd].
        destruct (Forall2_get _ _ _ V c e Ec) as (v & Ev & _ & Hg).
        destruct (result_proper (e_gen e) code env Hg) as (r & Er & Pr).
        unfold run_answers. pose proof (H (e_home e)) as Hh. unfold generate. cbn [o_gen].
        destruct (held d (e_home e)) as [[c'|]|] eqn:Eh.
        * destruct Hh as (e' & Ec' & Eo). destruct (Forall2_get _ _ _ V c' e' Ec') as (v' & Ev' & EV & Hg').
          match type of Eo with _ = Some ?q => match goal with |- context [iterate w ?o its] =>
            destruct (iterate_other its w o (e_home e) (g_handle (e_gen e)) q eq_refl Eo Hg') as (rs & Ers & Sh) end end.
          { cbn. apply nth_error_Some. congruence. }
          exists e', rs, r. split; [exact Ec'|]. rewrite Ers, Er. cbn [obind]. split; [reflexivity|]. split; [|exact Pr].
          cbn [o_store o_gen] in Sh. unfold values in Sh. cbn [o_store] in Sh.
          rewrite (nth_error_nth _ _ (fun _ => nlit 0) Ev'), <- EV in Sh. exact Sh.
        * destruct Hh as (p & Eo). match goal with |- context [iterate w ?o its] =>
            rewrite (iterate_emptied its w o (e_home e) _ p eq_refl Eo), Er end. cbn [obind]. eauto.
        * cbn in Hh. match goal with |- context [iterate w ?o its] =>
            destruct (iterate_gone its w o (e_home e) _ eq_refl Hh) as (B1 & B2) end.
          split; intros I; [rewrite (B1 I)|rewrite (B2 I), Er]; cbn [obind]; eauto.
      + destruct Hi as (p & ->). reflexivity.
      + cbn in Hi. rewrite Hi. reflexivity.
  Qed.
End Any.
