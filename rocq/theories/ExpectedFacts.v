(** Facts about single statements of expected, and the tactics that run them. *)
From Coq Require Import List Bool Arith Lia.
Import ListNotations.
From Verif Require Import Expected SpecExpected.

Section Proofs.
  Context {T E : Type}.
  Context (t : element T) (e : element E) (dflt : T).

  Lemma put_length : forall (s : @store T E) i c, length (put s i c) = length s.
  Proof. induction s as [|a s IH]; intros [|i] c; simpl; auto. Qed.
  Lemma put_same : forall (s : @store T E) i c, i < length s -> nth_error (put s i c) i = Some c.
  Proof. induction s as [|a s IH]; intros [|i] c L; simpl in *; try lia; auto. apply IH. lia. Qed.
  Lemma put_other : forall (s : @store T E) i k c, i <> k -> nth_error (put s i c) k = nth_error s k.
  Proof. induction s as [|a s IH]; intros [|i] [|k] c N; simpl; auto; try lia. Qed.
  Lemma put_put : forall (s : @store T E) i c d, put (put s i c) i d = put s i d.
  Proof. induction s as [|a s IH]; intros [|i] c d; simpl; auto. now rewrite IH. Qed.
  Lemma put_comm : forall (s : @store T E) i j c d, i <> j -> put (put s i c) j d = put (put s j d) i c.
  Proof. induction s as [|a s IH]; intros [|i] [|j] c d N; simpl; auto; try lia. now rewrite IH by lia. Qed.
  Lemma put_held : forall (s : @store T E) i c, nth_error s i = Some c -> put s i c = s.
  Proof. induction s as [|a s IH]; intros [|i] c H; simpl in *; try discriminate; [now injection H as ->|now rewrite IH]. Qed.
  Lemma put_app : forall (s : @store T E) i c x, i < length s -> put (s ++ [x]) i c = put s i c ++ [x].
  Proof. induction s as [|a s IH]; intros [|i] c x L; simpl in *; try lia; auto. rewrite IH by lia. reflexivity. Qed.

  Definition image (s : @store T E) : list (option expected) := map (option_map kept) s.
  Lemma img_put : forall (s : @store T E) i c, replace (image s) i (option_map kept c) = image (put s i c).
  Proof. unfold image. induction s as [|a s IH]; intros [|i] c; simpl; auto. now rewrite IH. Qed.

  (** Objects under construction: some may hold no member. *)
  Lemma rep_same : forall A (l : list A) i a, i < length l -> nth_error (replace l i a) i = Some a.
  Proof. induction l as [|b l IH]; intros [|i] a L; simpl in *; try lia; auto. apply IH. lia. Qed.
  Lemma rep_other : forall A (l : list A) i k a, i <> k -> nth_error (replace l i a) k = nth_error l k.
  Proof. induction l as [|b l IH]; intros [|i] [|k] a N; simpl; auto; try lia. Qed.
  Lemma rep_rep : forall A (l : list A) i a b, replace (replace l i a) i b = replace l i b.
  Proof. induction l as [|c l IH]; intros [|i] a b; simpl; auto. now rewrite IH. Qed.
  Lemma rep_comm : forall A (l : list A) i j a b, i <> j -> replace (replace l i a) j b = replace (replace l j b) i a.
  Proof. induction l as [|c l IH]; intros [|i] [|j] a b N; simpl; auto; try lia. now rewrite IH by lia. Qed.
  Lemma rep_length : forall A (l : list A) i a, length (replace l i a) = length l.
  Proof. induction l as [|c l IH]; intros [|i] a; simpl; auto. Qed.
  Lemma rep_held : forall A (l : list A) i a, nth_error l i = Some a -> replace l i a = l.
  Proof. induction l as [|b l IH]; intros [|i] a H; simpl in *; try discriminate; [now injection H as ->|now rewrite IH]. Qed.
  Lemma rep_app : forall A (l : list A) i a x, i < length l -> replace (l ++ [x]) i a = replace l i a ++ [x].
  Proof. induction l as [|b l IH]; intros [|i] a x L; simpl in *; try lia; auto. rewrite IH by lia. reflexivity. Qed.
  Lemma rep_last : forall A (l : list A) a x, replace (l ++ [x]) (length l) a = l ++ [a].
  Proof. induction l as [|b l IH]; intros a x; simpl; auto. now rewrite IH. Qed.

  Lemma held_some : forall (s : @store T E) i c, held s i = Some c -> nth_error s i = Some (Some c) /\ i < length s.
  Proof.
    intros s i c H. unfold held in H. destruct (nth_error s i) as [o|] eqn:N; [|discriminate]. subst o.
    split; [reflexivity|]. apply nth_error_Some. congruence.
  Qed.
  Lemma img_nth : forall (s : @store T E) i c, nth_error s i = Some (Some c) -> nth_error (image s) i = Some (Some (kept c)).
  Proof. intros s i c H. unfold image. rewrite nth_error_map, H. reflexivity. Qed.
  Lemma img_none : forall (s : @store T E) i, held s i = None -> nth_error (image s) i = None \/ nth_error (image s) i = Some None.
  Proof.
    intros s i H. unfold held in H. unfold image. rewrite nth_error_map. destruct (nth_error s i) as [[c|]|]; simpl; auto. discriminate.
  Qed.

  Lemma img_val : forall (s : @store T E) i v, replace (image s) i (Some (mkExpected (Val v) true)) = image (put s i (Some (inl v))).
  Proof. intros s i v. apply (img_put s i (Some (inl v))). Qed.
  Lemma img_err : forall (s : @store T E) i y, replace (image s) i (Some (mkExpected (Err y) false)) = image (put s i (Some (inr y))).
  Proof. intros s i y. apply (img_put s i (Some (inr y))). Qed.
  Lemma img_end : forall (s : @store T E) i, replace (image s) i None = image (put s i None).
  Proof. intros s i. apply (img_put s i None). Qed.
  Lemma img_app_val : forall (s : @store T E) v, image s ++ [Some (mkExpected (Val v) true)] = image (s ++ [Some (inl v)]).
  Proof. intros s v. unfold image. rewrite map_app. reflexivity. Qed.
  Lemma img_app_err : forall (s : @store T E) y, image s ++ [Some (mkExpected (Err y) false)] = image (s ++ [Some (inr y)]).
  Proof. intros s y. unfold image. rewrite map_app. reflexivity. Qed.

  Lemma same_refl : forall l (s : @store T E), same_but l s s.
  Proof. intros l s. repeat split. Qed.
  Lemma held_put : forall (s : @store T E) i k c d, held s i = Some d ->
    held (put s i (Some c)) k = if Nat.eqb i k then Some c else held s k.
  Proof.
    intros s i k c d H. apply held_some in H. destruct H as [H L]. unfold held. destruct (Nat.eqb_spec i k) as [->|N].
    - rewrite put_same by exact L. reflexivity.
    - rewrite put_other by exact N. reflexivity.
  Qed.
  Lemma same_put : forall l (s0 s : @store T E) i c d, same_but l s0 s -> held s i = Some d -> In i l ->
    is_value (Some c) = is_value (Some d) -> same_but l s0 (put s i (Some c)).
  Proof.
    intros l s0 s i c d (A & B & C) H I V. split; [rewrite put_length; exact A|]. split.
    - intros k N. rewrite put_other; [apply B; exact N|]. intros ->. contradiction.
    - intros k. rewrite (held_put s i k c d H). destruct (Nat.eqb_spec i k) as [<-|N]; [|apply C].
      rewrite <- (proj1 (C i)), <- (proj2 (C i)), H. destruct c, d; simpl in *; auto; discriminate.
  Qed.

  Lemma same_put2 : forall l (s : @store T E) i j c c' d d', held s i = Some d -> held s j = Some d' -> i <> j ->
    In i l -> In j l -> is_value (Some c) = is_value (Some d) -> is_value (Some c') = is_value (Some d') ->
    same_but l s (put (put s i (Some c)) j (Some c')).
  Proof.
    intros l s i j c c' d d' Hi Hj N I J V V'. eapply same_put; [eapply same_put; [apply same_refl|exact Hi|exact I|exact V]| |exact J|exact V'].
    rewrite (held_put s i j c d Hi). rewrite (proj2 (Nat.eqb_neq i j) N). exact Hj.
  Qed.
  Lemma app_last : forall A (l : list A) x, nth_error (l ++ [x]) (length l) = Some x.
  Proof. intros A l x. rewrite nth_error_app2, Nat.sub_diag by lia. reflexivity. Qed.
  Lemma app_last' : forall A (l : list A) j y x, nth_error (replace l j y ++ [x]) (length l) = Some x.
  Proof. intros A l j y x. rewrite <- (rep_length A l j y). apply app_last. Qed.
  Lemma app_old : forall A (l : list A) i x b, nth_error l i = Some b -> nth_error (l ++ [x]) i = Some b.
  Proof. intros A l i x b H. rewrite nth_error_app1; [exact H|]. apply nth_error_Some. congruence. Qed.
  Lemma rep_here : forall A (l : list A) i a b, nth_error l i = Some b -> nth_error (replace l i a) i = Some a.
  Proof. intros A l i a b H. apply rep_same. apply nth_error_Some. congruence. Qed.
  Lemma rep_there : forall A (l : list A) i k a b, i <> k -> nth_error l k = Some b -> nth_error (replace l i a) k = Some b.
  Proof. intros A l i k a b N H. rewrite rep_other by exact N. exact H. Qed.
  Lemma rep_there' : forall A (l : list A) i k a b, i <> k -> nth_error l k = b -> nth_error (replace l i a) k = b.
  Proof. intros A l i k a b N H. rewrite rep_other by exact N. exact H. Qed.
  Lemma rep_app' : forall A (l : list A) i a x b, nth_error l i = Some b -> replace (l ++ [x]) i a = replace l i a ++ [x].
  Proof. intros A l i a x b H. apply rep_app. apply nth_error_Some. congruence. Qed.
  Lemma rep_last' : forall A (l : list A) j y a x, replace (replace l j y ++ [x]) (length l) a = replace l j y ++ [a].
  Proof. intros A l j y a x. rewrite <- (rep_length A l j y). apply rep_last. Qed.

  Notation W := (@mkWorld T E).
  Notation X := (@mkExpected T E).
  Lemma bind_done : forall A B (m : @act T E A) (f : A -> @act T E B) w a w', m w = (Done a, w') -> bind m f w = f a w'.
  Proof. intros A B m f w a w' H. unfold bind. rewrite H. reflexivity. Qed.
  Lemma bind_raise : forall A B (m : @act T E A) (f : A -> @act T E B) w x w', m w = (Raised x, w') -> bind m f w = (Raised x, w').
  Proof. intros A B m f w a w' H. unfold bind. rewrite H. reflexivity. Qed.
  Lemma bind_bad : forall A B (m : @act T E A) (f : A -> @act T E B) w w', m w = (Undefined, w') -> bind m f w = (Undefined, w').
  Proof. intros A B m f w w' H. unfold bind. rewrite H. reflexivity. Qed.
  Lemma bind_open : forall A B (m : @act T E A) (f : A -> @act T E B) w, bind m f w =
    match m w with
    | (Done a, w') => f a w' | (Raised x, w') => (Raised x, w') | (Terminated, w') => (Terminated, w')
    | (Asserted, w') => (Asserted, w') | (Undefined, w') => (Undefined, w')
    end.
  Proof. reflexivity. Qed.
  Lemma bind_assoc : forall A B C (m : @act T E A) (f : A -> @act T E B) (g : B -> @act T E C) w,
    bind (bind m f) g w = bind m (fun a => bind (f a) g) w.
  Proof. intros A B C m f g w. unfold bind. destruct (m w) as [[]]; reflexivity. Qed.

  Lemma object_at : forall L n l i x, nth_error L i = Some (Some x) -> object i (W L n l) = (Done x, W L n l).
  Proof. intros L n l i x H. unfold object. cbn [objects]. rewrite H. reflexivity. Qed.
  Lemma has_at : forall L n l i c h, nth_error L i = Some (Some (X c h)) -> has i (W L n l) = (Done h, W L n l).
  Proof. intros L n l i c h H. unfold has. erewrite bind_done by (apply object_at, H). reflexivity. Qed.
  Lemma val_at : forall L n l i v h, nth_error L i = Some (Some (X (Val v) h)) -> val i (W L n l) = (Done v, W L n l).
  Proof. intros L n l i v h H. unfold val. erewrite bind_done by (apply object_at, H). reflexivity. Qed.
  Lemma err_at : forall L n l i y h, nth_error L i = Some (Some (X (Err y) h)) -> err i (W L n l) = (Done y, W L n l).
  Proof. intros L n l i y h H. unfold err. erewrite bind_done by (apply object_at, H). reflexivity. Qed.
  Lemma set_has_at : forall L n l i c h b, nth_error L i = Some (Some (X c h)) ->
    set_has i b (W L n l) = (Done tt, W (replace L i (Some (X c b))) n l).
  Proof. intros L n l i c h b H. unfold set_has. erewrite bind_done by (apply object_at, H). reflexivity. Qed.
  Lemma set_cell_at : forall L n l i c h d, nth_error L i = Some (Some (X c h)) ->
    set_cell i d (W L n l) = (Done tt, W (replace L i (Some (X d h))) n l).
  Proof. intros L n l i c h d H. unfold set_cell. erewrite bind_done by (apply object_at, H). reflexivity. Qed.
  Lemma kill_val_at : forall L n l i v h, nth_error L i = Some (Some (X (Val v) h)) ->
    kill_val i (W L n l) = (Done tt, W (replace L i (Some (X Raw h))) n l).
  Proof. intros L n l i v h H. unfold kill_val. erewrite bind_done by (eapply val_at, H). eapply set_cell_at, H. Qed.
  Lemma kill_err_at : forall L n l i y h, nth_error L i = Some (Some (X (Err y) h)) ->
    kill_err i (W L n l) = (Done tt, W (replace L i (Some (X Raw h))) n l).
  Proof. intros L n l i v h H. unfold kill_err. erewrite bind_done by (eapply err_at, H). eapply set_cell_at, H. Qed.
  Lemma place_at : forall L n l i h c, nth_error L i = Some (Some (X Raw h)) ->
    place i c (W L n l) = (Done tt, W (replace L i (Some (X c h))) n l).
  Proof.
    intros L n l i h c H. unfold place. erewrite bind_done by (apply object_at, H). cbn [x_cell].
    erewrite bind_done by reflexivity. eapply set_cell_at, H.
  Qed.
  Lemma place_over : forall L n l i v h c, nth_error L i = Some (Some (X (Val v) h)) ->
    place i c (W L n l) = (Done tt, W (replace L i (Some (X c h))) (S n) l).
  Proof.
    intros L n l i v h c H. unfold place. erewrite bind_done by (apply object_at, H). cbn [x_cell].
    erewrite bind_done by reflexivity. eapply set_cell_at, H.
  Qed.
  (** A member that is not there. *)
  Lemma val_raw : forall L n l i h, nth_error L i = Some (Some (X Raw h)) -> val i (W L n l) = (Undefined, W L n l).
  Proof. intros L n l i h H. unfold val. erewrite bind_done by (apply object_at, H). reflexivity. Qed.
  Lemma val_err : forall L n l i y h, nth_error L i = Some (Some (X (Err y) h)) -> val i (W L n l) = (Undefined, W L n l).
  Proof. intros L n l i y h H. unfold val. erewrite bind_done by (apply object_at, H). reflexivity. Qed.
  Lemma err_raw : forall L n l i h, nth_error L i = Some (Some (X Raw h)) -> err i (W L n l) = (Undefined, W L n l).
  Proof. intros L n l i h H. unfold err. erewrite bind_done by (apply object_at, H). reflexivity. Qed.
  Lemma err_val : forall L n l i v h, nth_error L i = Some (Some (X (Val v) h)) -> err i (W L n l) = (Undefined, W L n l).
  Proof. intros L n l i y h H. unfold err. erewrite bind_done by (apply object_at, H). reflexivity. Qed.
  Lemma object_none : forall L n l i, nth_error L i = None -> object i (W L n l) = (Undefined, W L n l).
  Proof. intros L n l i H. unfold object. cbn [objects]. rewrite H. reflexivity. Qed.
  Lemma object_dead : forall L n l i, nth_error L i = Some None -> object i (W L n l) = (Undefined, W L n l).
  Proof. intros L n l i H. unfold object. cbn [objects]. rewrite H. reflexivity. Qed.
  Lemma has_none : forall L n l i, nth_error L i = None -> has i (W L n l) = (Undefined, W L n l).
  Proof. intros L n l i H. unfold has. erewrite bind_bad by (apply object_none, H). reflexivity. Qed.
  Lemma has_dead : forall L n l i, nth_error L i = Some None -> has i (W L n l) = (Undefined, W L n l).
  Proof. intros L n l i H. unfold has. erewrite bind_bad by (apply object_dead, H). reflexivity. Qed.
  Lemma val_none : forall L n l i, nth_error L i = None -> val i (W L n l) = (Undefined, W L n l).
  Proof. intros L n l i H. unfold val. erewrite bind_bad by (apply object_none, H). reflexivity. Qed.
  Lemma val_dead : forall L n l i, nth_error L i = Some None -> val i (W L n l) = (Undefined, W L n l).
  Proof. intros L n l i H. unfold val. erewrite bind_bad by (apply object_dead, H). reflexivity. Qed.
  Lemma ret_at : forall A (a : A) L n l, ret a (W L n l) = (Done a, W L n l).
  Proof. reflexivity. Qed.
  Lemma throw_no : forall L n l, may_throw (E := E) true (W L n l) = (Done tt, W L n l).
  Proof. reflexivity. Qed.
  Lemma throw_end : forall L n, may_throw (E := E) false (W L n []) = (Done tt, W L n []).
  Proof. reflexivity. Qed.
  Lemma throw_not : forall L n l, may_throw (E := E) false (W L n (false :: l)) = (Done tt, W L n l).
  Proof. reflexivity. Qed.
  Lemma throw_yes : forall L n l, may_throw (E := E) false (W L n (true :: l)) = (Raised MemberThrew, W L n l).
  Proof. reflexivity. Qed.
End Proofs.

(** What object [i] of the objects [L] is, with a proof. *)
Ltac look_at L i := lazymatch L with
  | replace ?L' i ?x => let p := look_at L' i in constr:(rep_here _ L' i x _ p)
  | replace ?L' ?k ?x => let p := look_at L' i in
      match goal with
      | N : k <> i |- _ => constr:(rep_there' _ L' k i x _ N p)
      | N : i <> k |- _ => constr:(rep_there' _ L' k i x _ (not_eq_sym N) p)
      end
  | ?L' ++ [?x] => lazymatch i with
      | length L' => constr:(app_last _ L' x)
      | length _ => lazymatch L' with replace ?L'' ?j ?y => constr:(app_last' _ L'' j y x) end
      | _ => let p := look_at L' i in constr:(app_old _ L' i x _ p)
      end
  | _ => match goal with H : nth_error L i = _ |- _ => constr:(H) end
  end.
(** What a statement does, with a proof. *)
Ltac does m w := lazymatch w with mkWorld ?L ?n ?l => lazymatch m with
  | has ?i => let p := look_at L i in lazymatch type of p with
      | _ = Some (Some _) => constr:(has_at L n l i _ _ p)
      | _ = Some None => constr:(has_dead L n l i p)
      | _ = None => constr:(has_none L n l i p) end
  | object ?i => let p := look_at L i in lazymatch type of p with
      | _ = Some (Some _) => constr:(object_at L n l i _ p)
      | _ = Some None => constr:(object_dead L n l i p)
      | _ = None => constr:(object_none L n l i p) end
  | val ?i => let p := look_at L i in lazymatch type of p with
      | _ = Some (Some (mkExpected (Val _) _)) => constr:(val_at L n l i _ _ p)
      | _ = Some (Some (mkExpected Raw _)) => constr:(val_raw L n l i _ p)
      | _ = Some None => constr:(val_dead L n l i p)
      | _ = None => constr:(val_none L n l i p)
      | _ = Some (Some (mkExpected (Err _) _)) => constr:(val_err L n l i _ _ p) end
  | err ?i => let p := look_at L i in lazymatch type of p with
      | _ = Some (Some (mkExpected (Err _) _)) => constr:(err_at L n l i _ _ p)
      | _ = Some (Some (mkExpected Raw _)) => constr:(err_raw L n l i _ p)
      | _ = Some (Some (mkExpected (Val _) _)) => constr:(err_val L n l i _ _ p) end
  | set_has ?i ?b => let p := look_at L i in constr:(set_has_at L n l i _ _ b p)
  | set_cell ?i ?c => let p := look_at L i in constr:(set_cell_at L n l i _ _ c p)
  | place ?i ?c => let p := look_at L i in lazymatch type of p with
      | _ = Some (Some (mkExpected Raw _)) => constr:(place_at L n l i _ c p)
      | _ = Some (Some (mkExpected (Val _) _)) => constr:(place_over L n l i _ _ c p) end
  | may_throw true => constr:(throw_no L n l)
  | may_throw false => lazymatch l with
      | [] => constr:(throw_end L n)
      | false :: ?l' => constr:(throw_not L n l')
      | true :: ?l' => constr:(throw_yes L n l')
      end
  end end.
Ltac tidy_objects := repeat match goal with
  | |- context [replace (replace ?L ?i ?a) ?i ?b] => rewrite (rep_rep _ L i a b)
  | H : ?i <> ?k |- context [replace (replace (replace ?L ?i ?a) ?k ?b) ?i ?c] =>
      rewrite (rep_comm _ (replace L i a) k i b c (not_eq_sym H)), (rep_rep _ L i a c)
  | H : ?k <> ?i |- context [replace (replace (replace ?L ?i ?a) ?k ?b) ?i ?c] =>
      rewrite (rep_comm _ (replace L i a) k i b c H), (rep_rep _ L i a c)
  | H : nth_error ?L ?i = Some _ |- context [replace (?L ++ [?x]) ?i ?a] => rewrite (rep_app' _ L i a x _ H)
  | |- context [replace (?L ++ [?x]) (length ?L) ?a] => rewrite (rep_last _ L a x)
  | |- context [replace (replace ?L ?j ?y ++ [?x]) (length ?L) ?a] => rewrite (rep_last' _ L j y a x)
  end.
(** One statement. *)
Ltac statement := match goal with
  | |- context [bind (bind ?m ?f) ?g (mkWorld ?L ?n ?l)] => rewrite (bind_assoc _ _ _ m f g (mkWorld L n l))
  | |- context [bind (ret ?a) ?f (mkWorld ?L ?n ?l)] => change (bind (ret a) f (mkWorld L n l)) with (f a (mkWorld L n l))
  | |- context [bind ?m ?f (mkWorld ?L ?n ?l)] =>
      let p := does m (mkWorld L n l) in
      match goal with
      | _ => rewrite (bind_done _ _ m f (mkWorld L n l) _ _ p)
      | _ => rewrite (bind_raise _ _ m f (mkWorld L n l) _ _ p)
      | _ => rewrite (bind_bad _ _ m f (mkWorld L n l) _ p)
      end; tidy_objects
  | |- context [ret ?a (mkWorld ?L ?n ?l)] => rewrite (ret_at _ a L n l)
  | |- context [bind (fun w => @?b w) ?f (mkWorld ?L ?n ?l)] =>
      rewrite (bind_open _ _ b f (mkWorld L n l))
  | |- context [?m (mkWorld ?L ?n ?l)] => let p := does m (mkWorld L n l) in rewrite p; tidy_objects
  end.
(** Cases on a trait, or on whether the next operation throws. *)
Ltac split_if := match goal with
  | |- context [if ?b then _ else _] => lazymatch b with context [match _ with _ => _ end] => fail | _ => destruct b eqn:? end
  | |- context [may_throw ?b _] => lazymatch b with true => fail | false => fail | _ => destruct b eqn:? end
  | |- context [bind (may_throw ?b) _ _] => lazymatch b with true => fail | false => fail | _ => destruct b eqn:? end
  | |- context [bind (may_throw false) _ (mkWorld _ _ ?f)] => is_var f; destruct f as [|[|] ?]
  | |- context [may_throw false (mkWorld _ _ ?f)] => is_var f; destruct f as [|[|] ?]
  end.
(** Opening the functions of the header down to single statements. *)
Ltac open := cbv beta iota zeta delta [noexcept try_catch kill_val kill_err
  lose move_val move_err copy_val copy_err assign_val assign_err construct construct_error destroy_val assign_common_copy
  assign_common_move assign_copy assign_move create arg_nothrow arg_assign_nothrow arg_value arg_make new_default new_value new_error
  new_error_copy new_copy new_move new_convert destroy op_assign_copy op_assign_move op_assign_value op_assign_error_copy
  op_assign_error op_emplace op_emplace_list swap_has swap_vals swap_errs swap_mixed_rest swap_mixed op_swap assert_ op_deref
  op_value op_value_rvalue op_error op_value_or quiet run objects lost fails negb andb orb].
Ltac statements := open; repeat (statement; open).
Ltac run_statements := statements; repeat (split_if; statements).

(** The cases of [meant]. *)
Ltac cases H := cbn [meant] in H;
  repeat (match goal with a : arg |- _ => destruct a; cbn [given] in H end);
  repeat (match goal with c : (?X + _)%type |- _ => lazymatch X with answer => fail | _ => destruct c; cbn [given] in H end end);
  repeat (match type of H with
    | (match ?x with _ => _ end) = _ => let Q := fresh "Q" in destruct x eqn:Q; try discriminate H
    end);
  repeat match goal with Q : match ?x with _ => _ end = _ |- _ => let Q' := fresh "Q" in destruct x eqn:Q'; try discriminate Q end;
  repeat match goal with Q : Some _ = Some ?v |- _ => injection Q as Q; try subst v end;
  repeat match goal with r : (_ + _)%type |- _ => subst r end; repeat match goal with s : store |- _ => subst s end;
  repeat match goal with c : content |- _ => destruct c end;
  repeat match goal with Q : inl _ = inl ?v |- _ => injection Q as Q; try subst v end;
  try discriminate.
(** Objects of the store as the header keeps them. *)
Ltac find_objects HL :=
  repeat match goal with Q : held ?s ?i = Some ?c |- _ =>
    lazymatch goal with _ : nth_error (image s) i = _ |- _ => fail | _ => pose proof (HL i c Q) end end;
  cbn [kept] in *.
Ltac apart :=
  try match goal with Q : (?i =? ?j) = false |- _ => apply Nat.eqb_neq in Q end;
  try match goal with Q1 : nth_error ?L ?i = Some _, Q2 : nth_error ?L ?j = Some _ |- _ =>
     tryif constr_eq i j then fail else
       lazymatch goal with N : i <> j |- _ => idtac | N : j <> i |- _ => idtac
       | _ => destruct (Nat.eq_dec i j) as [->|]; [rewrite Q1 in Q2; try discriminate Q2; try (injection Q2 as <-)|] end end.
Ltac write_back := change (world_of ?a ?b ?c) with (mkWorld (image a) b c);
  rewrite ?rep_rep, ?removelast_last, ?img_val, ?img_err, ?img_end, ?img_app_val, ?img_app_err, ?put_put, ?img_val, ?img_err.

