(** Claims about generators that are copied, moved, assigned and destroyed: C86, C87, C111.
    Objects are numbered in order of creation. *)
From Coq Require Import List ZArith Reals Lia.
Import ListNotations.
From Verif Require Import Outcome Num NumR Builder Generator Lifetime SpecBuilder SpecGenerator SpecLifetime SpecOwners GeneratorCases RuntimeCases LifetimeProofs OwnerProofs.
Local Open Scope nat_scope.

(** C86 holds for a generator that is not destroyed, moved from or assigned to,
    whatever is done to others, *)
Theorem C86_untouched_partial : forall {K} {HA : Arith K} {HD : Dbl K} stop asserts (h : list (op K)) handle d g ls ls',
  generator asserts h handle d g ->
  let k := length (w_objs (lrun stop ls world_new)) in
  (forall l, In l ls' -> ~ touches k l) ->
  forall its code env, exists rs r,
    snd (lstep stop (lrun stop (ls ++ LNew (path asserts h) handle :: ls') world_new) (LGenerate k its code env)) =
      LGenerated (Ok (rs, r)) /\ proper_progress g its rs /\ proper_result stop g code env r.
Proof. exact @C86_own_proof. Qed.
Print Assumptions C86_untouched_partial.
(** and for a copy as long as the original is left alone. *)
Theorem C86_copy_partial : forall {K} {HA : Arith K} {HD : Dbl K} stop asserts (h : list (op K)) handle d g ls ls1 ls2,
  generator asserts h handle d g ->
  let k := length (w_objs (lrun stop ls world_new)) in
  (forall l, In l (ls1 ++ ls2) -> ~ touches k l) ->
  let w1 := lrun stop (ls ++ LNew (path asserts h) handle :: ls1) world_new in
  let j := length (w_objs w1) in
  (forall l, In l ls2 -> ~ touches j l) ->
  let w := lrun stop (LCopy k :: ls2) w1 in
  snd (lstep stop w1 (LCopy k)) = LMade j /\
  forall its code env, exists rs r,
    snd (lstep stop w (LGenerate j its code env)) = LGenerated (Ok (rs, r)) /\
    proper_progress g its rs /\ proper_result stop g code env r.
Proof. exact @C86_copy_proof. Qed.
Print Assumptions C86_copy_partial.
(** It is false for a copy that outlives the original: the first due frame uses
    the destroyed object; *)
Theorem C86_copy_refuted : forall stop, ~ (forall asserts (h : list (op R)) handle d g its code env,
  generator asserts h handle d g ->
  let w := lrun stop [LNew (path asserts h) handle; LCopy 0; LDestroy 0] world_new in
  exists rs r, snd (lstep stop w (LGenerate 1 its code env)) = LGenerated (Ok (rs, r)) /\
    proper_progress g its rs /\ proper_result stop g code env r).
Proof. exact C86_copy_refuted_proof. Qed.
Print Assumptions C86_copy_refuted.
Theorem C86_copy_dangles : forall {K} {HA : Arith K} {HD : Dbl K} stop asserts (h : list (op K)) handle d g env0 its code env,
  generator asserts h handle d g ->
  let w := lrun stop [LNew (path asserts h) handle; LCopy 0; LDestroy 0] world_new in
  snd (lstep stop w (LGenerate 1 ((true, env0) :: its) code env)) = LGenerated (Undef Dangling).
Proof. exact @dangling_proof. Qed.
Print Assumptions C86_copy_dangles.
(** and for a moved generator while the object it was moved from exists: no
    callback is called. *)
Theorem C86_move_refuted : forall stop, ~ (forall asserts (h : list (op R)) handle d g its code env,
  generator asserts h handle d g ->
  let w := lrun stop [LNew (path asserts h) handle; LMove 0] world_new in
  exists rs r, snd (lstep stop w (LGenerate 1 its code env)) = LGenerated (Ok (rs, r)) /\
    proper_progress g its rs /\ proper_result stop g code env r).
Proof. exact C86_move_refuted_proof. Qed.
Print Assumptions C86_move_refuted.
Theorem C86_move_is_silent : forall {K} {HA : Arith K} {HD : Dbl K} stop asserts (h : list (op K)) handle d g its code env,
  generator asserts h handle d g ->
  let w := lrun stop [LNew (path asserts h) handle; LMove 0] world_new in
  exists r, snd (lstep stop w (LGenerate 1 its code env)) = LGenerated (Ok ([], r)) /\ proper_result stop g code env r.
Proof. exact @moved_proof. Qed.
Print Assumptions C86_move_is_silent.
(** Two callbacks; a copy of a copy is made and destroyed again. *)
Example C86_case : forall stop, exists g, generator true watched 7 cart g /\ g_callbacks g = [look; wipe] /\
  (forall l, In l ([LCopy 0; LCopy 1; LDestroy 2] ++ [LNew (path true ride) 3; LDestroy 4]) -> ~ touches (K := R) 0 l) /\
  length (w_objs (lrun stop [LNew (path true watched) 7; LCopy 0; LCopy 1; LDestroy 2] world_new)) = 3 /\
  (forall l, In l [LNew (path true ride) 3; LDestroy 4] -> ~ touches (K := R) 3 l).
Proof.
  intros stop. destruct (watched_generator true 7) as (g & G & C & _). exists g. split; [exact G|]. split; [exact C|].
  destruct G as (G & _). split; [|split].
  - intros l [<-|[<-|[<-|[<-|[<-|[]]]]]]; cbn; lia.
  - unfold lrun. cbn [fold_left]. cbn [lstep]. rewrite G. reflexivity.
  - intros l [<-|[<-|[]]]; cbn; lia.
Qed.

(** C87. Until the solver runs on it, a generator that was not copied keeps the
    values the constructor gave its decision variables, whatever runs on others; *)
Theorem C87_separate_variables : forall {K} {HA : Arith K} {HD : Dbl K} stop asserts (h : list (op K)) handle d g ls ls',
  generator asserts h handle d g ->
  let k := length (w_objs (lrun stop ls world_new)) in
  (forall l, In l ls' -> ~ touches k l /\ ~ shares k l /\ ~ runs k l) ->
  let w := lrun stop (ls ++ LNew (path asserts h) handle :: ls') world_new in
  exists o, object w k = Some o /\ values w o = pr_vals (g_problem g).
Proof. exact @C87_alone_proof. Qed.
Print Assumptions C87_separate_variables.
(** a run on a copy leaves the original at the values the copy's run ended with. *)
Theorem C87_copy_shares_variables : forall {K} {HA : Arith K} {HD : Dbl K} stop asserts (h : list (op K)) handle d g ls ls1 ls2,
  generator asserts h handle d g ->
  let k := length (w_objs (lrun stop ls world_new)) in
  (forall l, In l (ls1 ++ ls2) -> ~ touches k l) ->
  let w1 := lrun stop (ls ++ LNew (path asserts h) handle :: ls1) world_new in
  let j := length (w_objs w1) in
  (forall l, In l ls2 -> ~ touches j l) ->
  let w := lrun stop (LCopy k :: ls2) w1 in
  forall its code env o, object w k = Some o ->
    values (fst (lstep stop w (LGenerate j its code env))) o = env.
Proof. exact @C87_copy_proof. Qed.
Print Assumptions C87_copy_shares_variables.
(** A second generator is made, copied and run. *)
Example C87_case : (exists g, generator true watched 7 cart g) /\
  (forall l, In l [LNew (path true ride) 3; LCopy 1; LGenerate 2 [(true, at_zero)] 0 at_zero] ->
     ~ touches (K := R) 0 l /\ ~ shares (K := R) 0 l /\ ~ runs (K := R) 0 l).
Proof.
  split; [destruct (watched_generator true 7) as (g & G & _); exists g; exact G|].
  intros l [<-|[<-|[<-|[]]]]; cbn; lia.
Qed.

(** C111. Whatever is done with generator objects, the ledger says what each
    holds and what the next step does: which steps are possible, what a run
    returns and whose callbacks it calls with which values. *)
Theorem C111_ledger : forall {K} {HA : Arith K} {HD : Dbl K} stop (ls : list (lop K)) l, from_builders (ls ++ [l]) ->
  answers stop (ledger_of ls) l (snd (lstep stop (lrun stop ls world_new) l)).
Proof. exact @C111_proof. Qed.
Print Assumptions C111_ledger.
(** The first generator is moved and the second assigned to where it was: a run
    of the first then calls the second's callbacks with the second's old values. *)
Example C111_case : exists g1 g2,
  let ls := [LNew (path true watched) 7; LNew (path true watched) 8; LMove 0; LCopyAssign 0 1] : list (lop R) in
  from_builders (ls ++ [LGenerate 2 [(true, at_zero)] 0 at_zero]) /\
  d_objs (ledger_of ls) = [Some (Holds 1); Some (Holds 1); Some (Holds 0)] /\
  d_made (ledger_of ls) = [mkEntry g1 0 (pr_vals (g_problem g1)); mkEntry g2 1 (pr_vals (g_problem g2))] /\
  exists sol r, snd (lstep 5 (lrun 5 ls world_new) (LGenerate 2 [(true, at_zero)] 0 at_zero)) =
      LGenerated (Ok ([(0, sol, 7%Z); (1, look sol 7%Z, 7%Z)], r)) /\
    ConstructSwerveSolution g2 (pr_vals (g_problem g2)) = Ok sol /\ proper_result 5 g1 0 at_zero r.
Proof.
  destruct (watched_generator true 7) as (g1 & (G1 & D1) & _ & H1 & _).
  destruct (watched_generator true 8) as (g2 & (G2 & D2) & C2 & H2 & _).
  exists g1, g2. cbv zeta. set (ls := [_; _; _; _]). set (l := LGenerate _ _ _ _).
  assert (FB : from_builders (ls ++ [l])).
  { intros b h I. simpl in I. destruct I as [E|[E|[E|[E|[E|[]]]]]]; try discriminate E; injection E as <- _; eauto. }
  assert (L : ledger_of ls = mkLedger [Some (Holds 1); Some (Holds 1); Some (Holds 0)]
    [mkEntry g1 0 (pr_vals (g_problem g1)); mkEntry g2 1 (pr_vals (g_problem g2))]).
  { unfold ledger_of, ls. cbn [fold_left]. unfold enter at 4. rewrite G1. unfold enter at 3. rewrite G2. reflexivity. }
  split; [exact FB|]. rewrite L. split; [reflexivity|]. split; [reflexivity|].
  pose proof (C111_ledger 5 ls l FB) as A. rewrite L in A. unfold l in A at 1. cbn [answers held nth d_objs] in A.
  destruct A as (e & Ee & A). injection Ee as <-. unfold run_answers in A. cbn [held nth d_objs e_home e_gen] in A.
  destruct A as (e' & rs & r & Ee' & A & (fr & -> & F) & P). injection Ee' as <-.
  inversion F as [|? f ? fr' Q F']; subst. inversion F'; subst. cbn [fst snd] in Q. destruct Q as (sol & Q1 & Q2). cbn in Q1, Q2.
  exists sol, r. rewrite A. cbn [concat]. rewrite Q2, C2, H1. split; [reflexivity|]. split; [exact Q1|exact P].
Qed.
