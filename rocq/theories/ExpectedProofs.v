(** Proofs about [expected]. *)
From Coq Require Import List Bool Arith Lia.
Import ListNotations.
From Verif Require Import Expected SpecExpected ExpectedFacts.

Section Theorems.
  Context {T E : Type}.
  Lemma image_at : forall (s : @store T E) i c, held s i = Some c -> nth_error (image s) i = Some (Some (kept c)).
  Proof. intros s i c Hc. apply img_nth. apply held_some. exact Hc. Qed.

  Definition good (o : @op T E) (s : @store T E) n (r : (@answer T E + E)%type) (s' : @store T E)
      (x : result E (@answer T E) * @world T E) : Prop :=
    match x with
    | (Terminated, _) => marked o = true
    | (Raised MemberThrew, w) => exists s2 f2, w = world_of s2 n f2 /\ same_but (targets o) s s2
    | (Asserted, _) | (Undefined, _) => False
    | (x', w) => x' = result_of r /\ exists f2, w = world_of s' (leak o + n) f2
    end.
  Lemma general : forall (t : element T) (e : element E) dflt asserts o s r s' n f,
    meant t e dflt o s = Some (r, s') -> compiles t e o = true -> fragile t e o s = false ->
    good o s n r s' (run t e dflt asserts o (world_of s n f)).
  Proof.
    intros t e dflt asserts o s r s' n f H C F. change (world_of s n f) with (mkWorld (image s) n f).
    pose proof (image_at s) as HL.
    destruct o; cases H; cbn [fragile compiles constructs_quietly temporary] in F, C;
    repeat match goal with Q : held s ?i = Some ?c |- _ => try rewrite Q in F;
      lazymatch goal with _ : nth_error (image s) i = _ |- _ => fail | _ => pose proof (HL i c Q) end end;
    cbn [is_error xorb andb negb kept gone] in *; clear HL; apart.
    all: try apply negb_false_iff in F.
    all: try (apply andb_true_iff in F; destruct F).
    all: try match goal with Q : ?b = true |- _ => is_var b; subst b end.
    all: repeat match goal with
      | Q : nothrow_move ?x = true |- _ => progress (repeat (open; rewrite Q))
      | Q : nothrow_copy ?x = true |- _ => progress (repeat (open; rewrite Q)) end.
    all: run_statements.
    all: cbv beta iota delta [good marked targets leak Nat.add].
    all: write_back.
    all: try reflexivity.
    all: try (split; [reflexivity|eexists; reflexivity]).
    all: try (eexists _, _; split; [reflexivity|apply same_refl]).
    all: try (eexists _, _; split; [reflexivity|]; eapply same_put; [apply same_refl|eassumption|left; reflexivity|reflexivity]).
    all: try (split; [reflexivity|eexists; rewrite put_comm by auto; reflexivity]).
    all: try (eexists _, _; split; [reflexivity|]; eapply same_put2; [eassumption|eassumption|auto| | | |]; cbn; auto).
  Qed.

  Lemma meaning : forall (t : element T) (e : element E) dflt asserts o s r s' n,
    meant t e dflt o s = Some (r, s') ->
    run t e dflt asserts o (world_of s n []) = (result_of r, world_of s' (leak o + n) []).
  Proof.
    intros t e dflt asserts o s r s' n H. change (world_of s n []) with (mkWorld (image s) n []).
    pose proof (image_at s) as HL.
    destruct o; cases H; find_objects HL; cbn [gone] in *; clear HL; apart.
    all: run_statements.
    all: cbv beta iota delta [leak Nat.add].
    all: write_back.
    all: try reflexivity.
    all: rewrite put_comm by auto; reflexivity.
  Qed.

  (** Moves that do not throw, under any failures. *)
  Lemma quiet_moves : forall (t : element T) (e : element E) dflt asserts o s r s' n f,
    moves_quietly t -> moves_quietly e -> copies_nothing o = true ->
    meant t e dflt o s = Some (r, s') ->
    run t e dflt asserts o (world_of s n f) = (result_of r, world_of s' (leak o + n) f).
  Proof.
    intros t e dflt asserts o s r s' n f [M1 M2] [M3 M4] C H. change (world_of s n f) with (mkWorld (image s) n f).
    pose proof (image_at s) as HL.
    destruct o; cbn [copies_nothing] in C; try discriminate C; cases H; cbn [temporary] in C; try discriminate C;
    find_objects HL; cbn [gone] in *; clear HL; apart.
    all: open; rewrite ?M1, ?M2, ?M3, ?M4; run_statements.
    all: cbv beta iota delta [leak Nat.add].
    all: write_back.
    all: try reflexivity.
    all: rewrite put_comm by auto; reflexivity.
  Qed.
  Lemma image_dead : forall (s : @store T E) i, held s i = None -> nth_error (image s) i = None \/ nth_error (image s) i = Some None.
  Proof. exact img_none. Qed.

  Lemma misuse : forall (t : element T) (e : element E) dflt asserts o s n,
    meant t e dflt o s = None ->
    exists w, run t e dflt asserts o (world_of s n []) = (Undefined, w) \/
              (checked o = true /\ asserts = true /\ run t e dflt asserts o (world_of s n []) = (Asserted, w)).
  Proof.
    intros t e dflt asserts o s n H. change (world_of s n []) with (mkWorld (image s) n []).
    pose proof (image_at s) as HL. pose proof (image_dead s) as HD.
    destruct o; cases H; find_objects HL;
    repeat match goal with Q : held s ?i = None |- _ => apply HD in Q; destruct Q as [Q|Q] end;
    clear HL HD.
    all: try match goal with Q : (?i =? ?j) = true |- _ => apply Nat.eqb_eq in Q; subst i end.
    all: try match goal with Q1 : nth_error ?L ?i = _, Q2 : nth_error ?L ?j = _ |- _ =>
     tryif constr_eq i j then fail else
      destruct (Nat.eq_dec i j) as [->|]; [try congruence|] end.
    all: run_statements.
    all: try (eexists; left; reflexivity).
    all: try (eexists; right; split; [reflexivity|split; reflexivity]).
  Qed.

End Theorems.
