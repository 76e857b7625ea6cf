(** Proofs for C106 to C108: programs, failing copies, and the functions that
    call back or compare. *)
From Coq Require Import List Bool Arith Lia.
Import ListNotations.
From Verif Require Import Expected ExpectedCalls SpecExpected SpecExpectedCalls ExpectedFacts ExpectedProofs.

Section Theorems.
  Context {T E : Type}.
  (** Programs. *)
  Lemma leaks_cons : forall (o : @op T E) l, leaks (o :: l) = leak o + leaks l.
  Proof. reflexivity. Qed.
  Lemma programs : forall (t : element T) (e : element E) dflt asserts l s rs s' n,
    meant_all t e dflt l s = Some (rs, s') ->
    run_all t e dflt asserts l (world_of s n []) = (map result_of rs, world_of s' (leaks l + n) []).
  Proof.
    intros t e dflt asserts l. induction l as [|o l IH]; intros s rs s' n H; cbn [meant_all] in H.
    - injection H as <- <-. reflexivity.
    - destruct (meant t e dflt o s) as [[r s1]|] eqn:M; [|discriminate H].
      destruct (meant_all t e dflt l s1) as [[rs1 s2]|] eqn:A; [|discriminate H]. injection H as <- <-.
      cbn [run_all]. rewrite (meaning t e dflt asserts o s r s1 n M).
      destruct r as [a|y]; cbn [result_of]; rewrite (IH s1 rs1 s2 _ A);
        replace (leaks l + (leak o + n)) with (leaks (o :: l) + n) by (rewrite leaks_cons; lia);
        reflexivity.
  Qed.
  Lemma quiet_programs : forall (t : element T) (e : element E) dflt asserts l s rs s' n f,
    moves_quietly t -> moves_quietly e -> forallb copies_nothing l = true ->
    meant_all t e dflt l s = Some (rs, s') ->
    run_all t e dflt asserts l (world_of s n f) = (map result_of rs, world_of s' (leaks l + n) f).
  Proof.
    intros t e dflt asserts l. induction l as [|o l IH]; intros s rs s' n f Mt Me C H; cbn [meant_all] in H.
    - injection H as <- <-. reflexivity.
    - cbn [forallb] in C. apply andb_true_iff in C. destruct C as [C C'].
      destruct (meant t e dflt o s) as [[r s1]|] eqn:M; [|discriminate H].
      destruct (meant_all t e dflt l s1) as [[rs1 s2]|] eqn:A; [|discriminate H]. injection H as <- <-.
      cbn [run_all]. rewrite (quiet_moves t e dflt asserts o s r s1 n f Mt Me C M).
      destruct r as [a|y]; cbn [result_of]; rewrite (IH s1 rs1 s2 _ f Mt Me C' A);
        replace (leaks l + (leak o + n)) with (leaks (o :: l) + n) by (rewrite leaks_cons; lia);
        reflexivity.
  Qed.

  Lemma returned_read : forall (t : element T) (e : element E) asserts (c : T + E) s n f,
    moves_quietly t -> moves_quietly e ->
    return_and_read t e asserts c (world_of s n f) =
    (Done (match c with inl v => GotValue v | inr y => GotError y end), world_of (s ++ [None]) n f).
  Proof.
    intros t e asserts c s n f [M1 M2] [M3 M4]. change (world_of s n f) with (mkWorld (image s) n f).
    assert (L : image (s ++ [None]) = image s ++ [None]) by (unfold image; rewrite map_app; reflexivity).
    change (world_of (s ++ [None]) n f) with (mkWorld (image (s ++ [None])) n f). rewrite L.
    unfold return_and_read. cbn [objects]. destruct c as [v|y]; open; rewrite ?M1, ?M2, ?M3, ?M4; run_statements;
      rewrite ?rep_last; reflexivity.
  Qed.

  Lemma C107_failures_proof : forall (t : element T) (e : element E) dflt asserts o s n f,
    meant t e dflt o s <> None -> compiles t e o = true -> fragile t e o s = false ->
    ends_well t e dflt o s n (run t e dflt asserts o (world_of s n f)).
  Proof.
    intros t e dflt asserts o s n f H C F. destruct (meant t e dflt o s) as [[r s']|] eqn:M; [|contradiction].
    pose proof (general t e dflt asserts o s r s' n f M C F) as Gd. unfold good in Gd. unfold ends_well.
    destruct (run t e dflt asserts o (world_of s n f)) as [[a|[|y]| | |] w]; try exact Gd.
    - destruct Gd as [A [f2 B]]. exists r, s', f2. auto.
    - destruct Gd as [A [f2 B]]. exists r, s', f2. auto.
  Qed.

  (** Copies that fail end the process. *)
  Lemma copying : forall (t : element T) (e : element E) dflt asserts o s r s' n f,
    moves_quietly t -> moves_quietly e -> copying_may_throw t -> copying_may_throw e ->
    (exists j, o = NewCopy j) \/ (exists c, o = NewConvert c) \/ (exists i j, o = AssignCopy i j) ->
    meant t e dflt o s = Some (r, s') ->
    fst (run t e dflt asserts o (world_of s n (true :: f))) = Terminated.
  Proof.
    intros t e dflt asserts o s r s' n f [M1 M2] [M3 M4] [M5 M6] [M7 M8] O H.
    change (world_of s n (true :: f)) with (mkWorld (image s) n (true :: f)).
    pose proof (image_at s) as HL.
    destruct O as [[j ->]|[[c ->]|[i [j ->]]]]; cases H; find_objects HL; clear HL; apart.
    all: open; rewrite ?M1, ?M2, ?M3, ?M4, ?M5, ?M6, ?M7, ?M8; run_statements; rewrite ?M7, ?M8; run_statements; reflexivity.
  Qed.

  (** Fragile statements do go wrong. *)
  Lemma not_sound : forall (L : list (option (@expected T E))) i b s n m f g, nth_error L i = Some (Some (mkExpected Raw b)) ->
    mkWorld L n f <> world_of s m g.
  Proof.
    intros L i b s n m f g H X. injection X as X _ _. subst L. rewrite nth_error_map in H.
    destruct (nth_error s i) as [[[v|y]|]|]; discriminate H.
  Qed.
  Lemma fragile_breaks : forall (t : element T) (e : element E) dflt asserts o s r s' n,
    meant t e dflt o s = Some (r, s') -> compiles t e o = true -> fragile t e o s = true ->
    exists f x w, run t e dflt asserts o (world_of s n f) = (x, w) /\
      (x = Undefined \/ (x = Raised MemberThrew /\ forall s2 m g, w <> world_of s2 m g)).
  Proof.
    intros t e dflt asserts o s r s' n H C F.
    pose proof (image_at s) as HL.
    destruct o; try discriminate F; cases H; cbn [fragile compiles constructs_quietly temporary] in F, C;
    repeat match goal with Q : held s ?i = Some ?c |- _ => try rewrite Q in F;
      lazymatch goal with _ : nth_error (image s) i = _ |- _ => fail | _ => pose proof (HL i c Q) end end;
    cbn [is_error xorb andb negb kept gone] in *; clear HL; apart; try discriminate F.
    all: try apply negb_true_iff in F.
    all: try match goal with Q : ?b = false |- _ => is_var b; subst b end.
    all: destruct (nothrow_move e) eqn:NE; try discriminate C.
    all: try (destruct (nothrow_move t) eqn:NT; try discriminate F).
    all: let go := (change (world_of s n ?f) with (mkWorld (image s) n f); open;
        repeat match goal with Q : nothrow_move _ = _ |- _ => rewrite Q | Q : nothrow_copy _ = _ |- _ => rewrite Q end;
        run_statements) in
      first [ exists [true]; do 2 eexists; split; [go; reflexivity|left; reflexivity]
            | exists [false; true]; do 2 eexists; split; [go; reflexivity|left; reflexivity]
            | exists [true]; do 2 eexists; split; [go; reflexivity|right; split; [reflexivity|]];
              intros s2 m g; eapply not_sound; eapply rep_here; eassumption ].
  Qed.
End Theorems.

Section CallProofs.
  Context {T U E G F : Type}.
  Context (t : element T) (e : element E).
  Lemma C108_calls_proof : forall k (c : T + E) (h : T -> T) (hE : E -> E),
    (forall g : T -> U, map_value e k (returns g h) (kept c) = (Done (kept (fmap g c)), kept (called_on_value e k h c))) /\
    (forall g : T -> U + E, and_then e k (returns (fun v => kept (g v)) h) (kept c) =
       (Done (kept (then_ g c)), kept (called_on_value e k h c))) /\
    (forall g : E -> G, map_error t k (returns g hE) (kept c) = (Done (kept (fmap_error g c)), kept (called_on_error t k hE c))) /\
    (forall g : E -> T + E, or_else t k (returns (fun y => kept (g y)) hE) (kept c) =
       (Done (kept (else_ g c)), kept (called_on_error t k hE c))).
  Proof. intros k c h hE. destruct c, k; repeat split. Qed.
  Lemma C108_throws_proof : forall k (c : T + E) (h : T -> T) (hE : E -> E),
    (forall v, c = inl v -> map_value (U := U) e k (throws h) (kept c) = (Raised MemberThrew, kept (called_on_value e k h c)) /\
                        and_then (U := U) e k (throws h) (kept c) = (Raised MemberThrew, kept (called_on_value e k h c))) /\
    (forall y, c = inr y -> map_error (G := G) t k (throws hE) (kept c) = (Raised MemberThrew, kept (called_on_error t k hE c)) /\
                        or_else t k (throws hE) (kept c) = (Raised MemberThrew, kept (called_on_error t k hE c)) /\
                        or_else_void t e k (throws hE) (kept c) = (Raised MemberThrew, kept (called_on_error t k hE c))).
  Proof. intros k c h hE. destruct c, k; split; intros ? X; try discriminate X; repeat split. Qed.
  Lemma C108_or_else_void_proof : forall k (c : T + E) (h : E -> E),
    (k <> Rvalue -> (forall y, h y = y) -> or_else_void t e k (returns (fun _ => tt) h) (kept c) = (Done (kept c), kept c)) /\
    (forall y, c = inr y -> fst (or_else_void t e Rvalue (returns (fun _ => tt) h) (kept c)) = Done (kept (inr (h y)))) /\
    (forall y, c = inr y -> fst (or_else_void t e Const (returns (fun _ => tt) h) (kept c)) = Done (kept (inr y))).
  Proof.
    intros k c h. split; [|split].
    - intros K H. destruct c as [v|y], k; try (exfalso; apply K; reflexivity); cbn; rewrite ?H; reflexivity.
    - intros y ->. reflexivity.
    - intros y ->. reflexivity.
  Qed.

  Lemma C108_laws_proof : forall k k' (c : T + E) (h : T -> T) (h' : U -> U),
    (forall (f : T -> U) (g : U -> G), exists m, fst (map_value e k (returns f h) (kept c)) = Done m /\
       fst (map_value e k' (returns g h') m) = fst (map_value e k (returns (fun v => g (f v)) h) (kept c))) /\
    (forall (f : T -> U + E) (g : U -> G + E), exists m, fst (and_then e k (returns (fun v => kept (f v)) h) (kept c)) = Done m /\
       fst (and_then e k' (returns (fun w => kept (g w)) h') m) =
       fst (and_then e k (returns (fun v => kept (then_ g (f v))) h) (kept c))) /\
    (forall f : T -> U, fst (map_value e k (returns f h) (kept c)) =
       fst (and_then e k (returns (fun v => kept (inl (f v))) h) (kept c))).
  Proof.
    intros k k' c h h'. split; [|split].
    - intros f g. exists (kept (fmap f c)). destruct c; split; reflexivity.
    - intros f g. exists (kept (then_ f c)). destruct c as [v|y]; split; try reflexivity. cbn. destruct (f v); reflexivity.
    - intros f. destruct c; reflexivity.
  Qed.

  Context (eqT neT : T -> U -> bool) (eqE neE : E -> F -> bool).
  Lemma C108_equal_proof : forall (c : T + E) (d : U + F),
    equal eqT eqE (kept c) (kept d) = Done (same_content eqT eqE c d) /\
    (forall w, equal_value eqT (kept c) w = Done (same_content eqT eqE c (inl w))) /\
    (forall z, equal_error eqE (kept c) z = Done (same_content eqT eqE c (inr z))).
  Proof. intros [v|y] [w|z]; repeat split. Qed.
  Lemma C108_unequal_proof : (forall v w, neT v w = negb (eqT v w)) -> (forall y z, neE y z = negb (eqE y z)) ->
    forall (c : T + E) (d : U + F),
    unequal neT neE (kept c) (kept d) = Done (negb (same_content eqT eqE c d)) /\
    (forall w, unequal_value neT (kept c) w = Done (negb (same_content eqT eqE c (inl w)))) /\
    (forall z, unequal_error neE (kept c) z = Done (negb (same_content eqT eqE c (inr z)))).
  Proof.
    intros HT HE [v|y] [w|z]; repeat split; intros; cbn; unfold unequal, unequal_value, unequal_error, on_value, on_error;
      cbn; rewrite ?HT, ?HE; reflexivity.
  Qed.
  Lemma C108_void_proof : forall (c : unit + E) (d : unit + F),
    equal_void eqE (kept c) (kept d) = Done (same_content (fun _ _ => true) eqE c d) /\
    unequal_void eqE (kept c) (kept d) =
      Done (if is_error (Some c) && is_error (Some d) then same_content (fun _ _ => true) eqE c d
            else negb (same_content (fun _ _ => true) eqE c d)).
  Proof. intros [[]|y] [[]|z]; repeat split. Qed.
End CallProofs.

(** The refutations. *)
Lemma C109_leak_proof :
  ~ (forall T E (t : element T) (e : element E) dflt asserts l rs s,
     meant_all t e dflt l [] = Some (rs, s) -> (forall c, In c s -> c = None) ->
     lost (snd (run_all t e dflt asserts l (world_of [] 0 []))) = 0).
Proof.
  intros H. specialize (H (list nat) (list nat) container container [] true [NewConvert (inl [1]); Destroy 0] _ _ eq_refl).
  cbv in H. assert (X : 1 = 0) by (apply H; intros c [C|C]; [symmetry; exact C|contradiction]). discriminate X.
Qed.
Lemma C107_strong_proof :
  ~ (forall T E (t : element T) (e : element E) dflt asserts i j s r s' n f,
     meant t e dflt (AssignCopy i j) s = Some (r, s') ->
     exists f', run t e dflt asserts (AssignCopy i j) (world_of s n f) = (Done Nothing, world_of s' n f') \/
                run t e dflt asserts (AssignCopy i j) (world_of s n f) = (Raised MemberThrew, world_of s n f')).
Proof.
  intros H. destruct (H (list nat) (list nat) container container [] true 0 1 [Some (inr [3]); Some (inl [1])] _ _ 0 [true] eq_refl)
    as [f [X|X]]; vm_compute in X; discriminate X.
Qed.
Lemma C107_failures_refuted_proof :
  ~ (forall T E (t : element T) (e : element E) dflt asserts o s n f,
     meant t e dflt o s <> None -> compiles t e o = true ->
     ends_well t e dflt o s n (run t e dflt asserts o (world_of s n f))).
Proof.
  intros H. apply (H (list nat) (list nat) container container [] true (AssignValue 0 (Named [1])) [Some (inr [3])] 0 [true]);
    [discriminate|reflexivity].
Qed.
Lemma C108_or_else_refuted_proof :
  ~ (forall T E (t : element T) (e : element E) k (y : E) (h : E -> E),
     fst (or_else_void t e k (returns (fun _ => tt) h) (kept (inr y))) = Done (kept (inr y))).
Proof. intros H. specialize (H nat (list nat) plain container Rvalue [1] (fun _ => [])). discriminate H. Qed.
Lemma C108_void_refuted_proof :
  ~ (forall E F (eqE : E -> F -> bool) (c : unit + E) (d : unit + F),
     unequal_void eqE (kept c) (kept d) = Done (negb (same_content (fun _ _ => true) eqE c d))).
Proof. intros H. specialize (H nat nat Nat.eqb (inr 1) (inr 1)). discriminate H. Qed.
Lemma C109_partial_proof : forall T E (t : element T) (e : element E) dflt asserts l rs s n,
  meant_all t e dflt l [] = Some (rs, s) ->
  lost (snd (run_all t e dflt asserts l (world_of [] n []))) =
  length (filter (fun o => match o with NewConvert _ => true | _ => false end) l) + n.
Proof.
  intros T E t e dflt asserts l rs s n H. rewrite (programs t e dflt asserts l [] rs s n H). cbn [snd world_of lost].
  f_equal. clear H. induction l as [|o l IH]; [reflexivity|]. rewrite leaks_cons, IH. destruct o; reflexivity.
Qed.
Lemma C109_twice_proof : forall T E (t : element T) (e : element E) dflt asserts i s n f, held s i = None ->
  fst (run t e dflt asserts (@Destroy T E i) (world_of s n f)) = Undefined /\ meant t e dflt (@Destroy T E i) s = None.
Proof.
  intros T E t e dflt asserts i s n f H. split; [|cbn; rewrite H; reflexivity].
  change (world_of s n f) with (mkWorld (image s) n f). destruct (img_none s i H) as [X|X]; run_statements; reflexivity.
Qed.
