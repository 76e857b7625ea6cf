(** Proofs for C107: which statements let an exception through and which end the process. *)
From Coq Require Import List Bool Arith Lia.
Import ListNotations.
From Verif Require Import Expected SpecExpected ExpectedFacts ExpectedProofs.

Section Ends.
  Context {T E : Type}.
  Lemma ends_only : forall (t : element T) (e : element E) dflt asserts o s n f,
    meant t e dflt o s <> None -> compiles t e o = true ->
    match run t e dflt asserts o (world_of s n f) with
    | (Raised MemberThrew, _) => can_throw t e o s = true
    | (Terminated, _) => can_terminate t e o s = true
    | _ => True
    end.
  Proof.
    intros t e dflt asserts o s n f H0 C. destruct (meant t e dflt o s) as [[r s']|] eqn:H; [clear H0|contradiction].
    change (world_of s n f) with (mkWorld (image s) n f).
    pose proof (image_at s) as HL.
    destruct o; cases H; cbn [compiles] in C; find_objects HL; cbn [gone] in *; clear HL; apart;
    try (apply orb_true_iff in C; destruct C as [C|C]).
    all: cbn [can_throw can_terminate is_value is_error]; unfold by_kind, constructs_quietly, assigns_quietly; cbn [temporary];
         repeat match goal with Q : held _ _ = _ |- _ => rewrite ?Q; clear Q end; cbv beta iota zeta delta [is_value is_error].
    all: repeat match goal with |- context [nothrow_move ?x] => destruct (nothrow_move x) eqn:?; try discriminate C
                           | |- context [nothrow_copy ?x] => destruct (nothrow_copy x) eqn:?; try discriminate C end.
    all: open; repeat match goal with Q : nothrow_move _ = _ |- _ => rewrite Q; clear Q | Q : nothrow_copy _ = _ |- _ => rewrite Q; clear Q end.
    all: run_statements.
    all: try exact I.
    all: try reflexivity.
    all: repeat match goal with Q : nothrow_move_assign _ = _ |- _ => rewrite Q; clear Q | Q : nothrow_copy_assign _ = _ |- _ => rewrite Q; clear Q end;
         try reflexivity.
  Qed.

  Ltac spec_in V := cbn [can_throw can_terminate is_value is_error] in V; unfold by_kind, constructs_quietly, assigns_quietly in V;
    cbn [temporary] in V; repeat match goal with Q : held _ _ = _ |- _ => rewrite ?Q in V; clear Q end;
    cbv beta iota zeta delta [is_value is_error] in V.
  Ltac traits_in V := repeat match goal with
    | b : bool |- _ => destruct b; try discriminate V
    | _ => match type of V with
           | context [nothrow_move ?x] => destruct (nothrow_move x) eqn:?; try discriminate V
           | context [nothrow_copy ?x] => destruct (nothrow_copy x) eqn:?; try discriminate V
           | context [nothrow_move_assign ?x] => destruct (nothrow_move_assign x) eqn:?; try discriminate V
           | context [nothrow_copy_assign ?x] => destruct (nothrow_copy_assign x) eqn:?; try discriminate V end
    end.
  Ltac use_traits := repeat match goal with
    | Q : nothrow_move _ = _ |- _ => rewrite Q | Q : nothrow_copy _ = _ |- _ => rewrite Q
    | Q : nothrow_move_assign _ = _ |- _ => rewrite Q | Q : nothrow_copy_assign _ = _ |- _ => rewrite Q end.
  Ltac happens s n := let go f := (exists f; change (world_of s n f) with (mkWorld (image s) n f); open; use_traits; run_statements; reflexivity) in
    first [ go [true] | go [false; true] ].

  Lemma can_throw_does : forall (t : element T) (e : element E) dflt asserts o s n,
    meant t e dflt o s <> None -> compiles t e o = true -> can_throw t e o s = true ->
    exists f, fst (run t e dflt asserts o (world_of s n f)) = Raised MemberThrew.
  Proof.
    intros t e dflt asserts o s n H0 C V. destruct (meant t e dflt o s) as [[r s']|] eqn:H; [clear H0|contradiction].
    pose proof (image_at s) as HL.
    destruct o; try discriminate V; cases H; cbn [compiles] in C; find_objects HL; cbn [gone] in *; clear HL; apart;
    spec_in V; try discriminate V.
    all: try destruct asserts; traits_in V; try destruct (nothrow_move e) eqn:?; try discriminate.
    all: match goal with |- exists _, fst (run _ _ _ _ _ (world_of ?s ?n _)) = _ => happens s n end.
  Qed.
  Lemma can_terminate_does : forall (t : element T) (e : element E) dflt asserts o s n,
    meant t e dflt o s <> None -> compiles t e o = true -> can_terminate t e o s = true ->
    exists f, fst (run t e dflt asserts o (world_of s n f)) = Terminated.
  Proof.
    intros t e dflt asserts o s n H0 C V. destruct (meant t e dflt o s) as [[r s']|] eqn:H; [clear H0|contradiction].
    pose proof (image_at s) as HL.
    destruct o; try discriminate V; cases H; cbn [compiles] in C; find_objects HL; cbn [gone] in *; clear HL; apart;
    spec_in V; try discriminate V.
    all: traits_in V.
    all: try destruct (nothrow_move e) eqn:?; try discriminate; try destruct (nothrow_move t) eqn:?; try discriminate.
    all: match goal with |- exists _, fst (run _ _ _ _ _ (world_of ?s ?n _)) = _ => happens s n end.
  Qed.

  Lemma C107_throws_proof : forall (t : element T) (e : element E) dflt asserts o s n,
    meant t e dflt o s <> None -> compiles t e o = true ->
    ((exists f, fst (run t e dflt asserts o (world_of s n f)) = Raised MemberThrew) <-> can_throw t e o s = true) /\
    ((exists f, fst (run t e dflt asserts o (world_of s n f)) = Terminated) <-> can_terminate t e o s = true).
  Proof.
    intros t e dflt asserts o s n H C. split; split.
    - intros [f F]. pose proof (ends_only t e dflt asserts o s n f H C) as X.
      destruct (run t e dflt asserts o (world_of s n f)) as [x w]. cbn [fst] in F. subst x. exact X.
    - apply can_throw_does; assumption.
    - intros [f F]. pose proof (ends_only t e dflt asserts o s n f H C) as X.
      destruct (run t e dflt asserts o (world_of s n f)) as [x w]. cbn [fst] in F. subst x. exact X.
    - apply can_terminate_does; assumption.
  Qed.
  Lemma C107_refused_proof : forall (t : element T) (e : element E) o, compiles t e o = false <-> refused t e o.
  Proof.
    intros t e o. unfold refused. split.
    - destruct o; cbn [compiles]; intros H; try discriminate H.
      + left. eauto.
      + right; left. eauto.
      + right; right; left. eauto.
      + right; right; right. apply orb_false_iff in H. destruct H. eauto.
    - intros [(i & a & -> & H)|[(i & y & -> & H)|[(i & y & -> & H)|(i & j & -> & H & H')]]]; cbn [compiles]; rewrite H, ?H'; reflexivity.
  Qed.
End Ends.
