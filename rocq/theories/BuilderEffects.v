(** Exact effects of the builder calls that return normally. *)
From Coq Require Import List Lia ZArith Bool.
Import ListNotations.
From Verif Require Import Outcome Num Geometry Constraints Builder UtilFacts BuilderFacts SpecBuilder.
Local Open Scope nat_scope.

Ltac bools :=
  repeat match goal with
  | |- context [?a =? ?b] => destruct (Nat.eqb_spec a b)
  | |- context [?a <=? ?b] => destruct (Nat.leb_spec a b)
  | |- context [?a <? ?b] => destruct (Nat.ltb_spec a b)
  end; cbn [andb orb negb app]; try reflexivity; try lia.

Section BE.
  Context {K : Type} {HA : Arith K} {HD : Dbl K}.
  Implicit Types b : builder K.

  Definition guess_at b (i : nat) : list (Pose2 K) := nth i (b_guess b) [zero_pose].

  Definition effect b b' (n : nat) (u v : nat -> list (constraint K)) : Prop :=
    (wlen b' = Nat.max (wlen b) n /\
     (forall j, constraints_at b' j = constraints_at b j ++ u j) /\
     (forall j, segment_constraints_to b' j = segment_constraints_to b j ++ v j)) /\
    (forall j, guess_at b' j = guess_at b j) /\
    b_counts b' = b_counts b ++ repeat 40 ((wlen b' - 1) - (wlen b - 1)) /\
    b_bumpers b' = b_bumpers b /\ b_drivetrain b' = b_drivetrain b /\
    b_callbacks b' = b_callbacks b /\ (inv b -> inv b').

  Definition none : nat -> list (constraint K) := fun _ => [].
  Definition only (i : nat) (c : constraint K) : nat -> list (constraint K) :=
    fun j => if j =? i then [c] else [].

  Lemma effect_ext : forall b b' n u v u' v',
    effect b b' n u v -> (forall j, u j = u' j) -> (forall j, v j = v' j) -> effect b b' n u' v'.
  Proof.
    intros b b' n u v u' v' ((E1 & E2 & E3) & R) Hu Hv.
    split; [|assumption]. split; [assumption|]. split; intros; [rewrite <- Hu|rewrite <- Hv]; auto.
  Qed.
  Lemma effect_refl : forall b, effect b b 0 none none.
  Proof.
    intros b. unfold effect, none. repeat split; intros; rewrite ?app_nil_r; auto; try lia.
    replace (wlen b - 1 - (wlen b - 1)) with 0 by lia. simpl. rewrite app_nil_r. reflexivity.
    all: apply H.
  Qed.
  Lemma effect_trans : forall b1 b2 b3 n n' u u' v v',
    effect b1 b2 n u v -> effect b2 b3 n' u' v' ->
    effect b1 b3 (Nat.max n n') (fun j => u j ++ u' j) (fun j => v j ++ v' j).
  Proof.
    intros b1 b2 b3 n n' u u' v v' ((A1 & A2 & A3) & A4 & A5 & A6 & A7 & A8 & A9)
      ((B1 & B2 & B3) & B4 & B5 & B6 & B7 & B8 & B9).
    split; [split; [lia|]; split; intros|].
    - rewrite B2, A2, app_assoc. reflexivity.
    - rewrite B3, A3, app_assoc. reflexivity.
    - split; [intros; rewrite B4; auto|]. split.
      + rewrite B5, A5, <- app_assoc, <- repeat_app. f_equal. f_equal. lia.
      + repeat split; try congruence. all: destruct (B9 (A9 H)) as (?&?&?); assumption.
  Qed.

  Lemma nth_error_repeat : forall {A} (a : A) n i, nth_error (repeat a n) i = if i <? n then Some a else None.
  Proof.
    induction n; intros [|i]; simpl; auto. rewrite IHn. reflexivity.
  Qed.

  Lemma effect_extend : forall n b, inv b -> n <= max63 -> effect b (extend n b) n none none.
  Proof.
    intros n b Hb Hn. unfold effect, none.
    rewrite wlen_extend. split; [split; [lia|]; split; intros j|].
    - unfold constraints_at, extend. simpl. rewrite app_nil_r.
      destruct (Nat.lt_ge_cases j (wlen b)).
      + rewrite nth_error_app1 by assumption. reflexivity.
      + rewrite nth_error_app2 by assumption. rewrite nth_error_repeat.
        rewrite (proj2 (nth_error_None (b_waypoints b) j)) by assumption.
        destruct (_ <? _); reflexivity.
    - unfold segment_constraints_to, extend. simpl. rewrite app_nil_r.
      destruct (Nat.lt_ge_cases j (wlen b)).
      + rewrite nth_error_app1 by assumption. reflexivity.
      + rewrite nth_error_app2 by assumption. rewrite nth_error_repeat.
        rewrite (proj2 (nth_error_None (b_waypoints b) j)) by assumption.
        destruct (_ <? _); reflexivity.
    - split; [intros j|].
      + unfold guess_at, extend. simpl.
        destruct (Nat.lt_ge_cases j (length (b_guess b))).
        * rewrite app_nth1 by assumption. reflexivity.
        * rewrite app_nth2 by assumption. rewrite nth_overflow with (l := b_guess b) by assumption.
          destruct (Nat.lt_ge_cases (j - length (b_guess b)) (n - wlen b)).
          -- apply nth_repeat.
          -- apply nth_overflow. rewrite repeat_length. assumption.
      + split; [|split; [|split; [|split]]]; try reflexivity.
        * unfold extend. simpl. f_equal. f_equal. lia.
        * intros. apply inv_extend; assumption.
  Qed.

  Lemma effect_set_waypoints : forall b i u v, i < wlen b ->
    effect b (set_waypoints b (upd (b_waypoints b) i
      (fun w => mkWaypoint (waypointConstraints w ++ u) (segmentConstraints w ++ v)))) 0
      (fun j => if j =? i then u else []) (fun j => if j =? i then v else []).
  Proof.
    intros b i u v Hi. unfold effect.
    assert (W : wlen (set_waypoints b (upd (b_waypoints b) i
      (fun w => mkWaypoint (waypointConstraints w ++ u) (segmentConstraints w ++ v)))) = wlen b).
    { unfold wlen. simpl. apply upd_length. }
    rewrite W. split; [split; [lia|]; split; intros j|].
    - unfold constraints_at. simpl. rewrite upd_nth. destruct (Nat.eqb_spec j i) as [->|].
      + destruct (nth_error (b_waypoints b) i) eqn:E; [reflexivity|].
        apply nth_error_None in E. unfold wlen in Hi. lia.
      + rewrite app_nil_r. reflexivity.
    - unfold segment_constraints_to. simpl. rewrite upd_nth. destruct (Nat.eqb_spec j i) as [->|].
      + destruct (nth_error (b_waypoints b) i) eqn:E; [reflexivity|].
        apply nth_error_None in E. unfold wlen in Hi. lia.
      + rewrite app_nil_r. reflexivity.
    - split; [reflexivity|]. split.
      + replace (wlen b - 1 - (wlen b - 1)) with 0 by lia. simpl. rewrite app_nil_r. reflexivity.
      + repeat split; try apply H. unfold inv in H. rewrite W. apply H. rewrite W. apply H.
  Qed.

  Lemma push_wpt_ok : forall i c b, i < wlen b ->
    exists b', push_wpt i c b = (b', Ok tt) /\ effect b b' 0 (only i c) none.
  Proof.
    intros i c b Hi. unfold push_wpt. rewrite upd_at_ok by assumption. eexists. split; [reflexivity|].
    erewrite upd_ext; [eapply effect_ext; [apply (effect_set_waypoints b i [c] [] Hi)| |]|].
    - reflexivity.
    - intros j. simpl. unfold none. destruct (_ =? _); reflexivity.
    - intros. simpl. rewrite app_nil_r. reflexivity.
  Qed.
  Lemma push_sgmt_ok : forall i c b, i < wlen b ->
    exists b', push_sgmt i c b = (b', Ok tt) /\ effect b b' 0 none (only i c).
  Proof.
    intros i c b Hi. unfold push_sgmt. rewrite upd_at_ok by assumption. eexists. split; [reflexivity|].
    erewrite upd_ext; [eapply effect_ext; [apply (effect_set_waypoints b i [] [c] Hi)| |]|].
    - intros j. simpl. unfold none. destruct (_ =? _); reflexivity.
    - reflexivity.
    - intros. simpl. rewrite app_nil_r. reflexivity.
  Qed.
  Lemma push_wpt_throw : forall i c b, wlen b <= i -> push_wpt i c b = (b, Throw OutOfRange).
  Proof. intros i c b Hi. unfold push_wpt. rewrite upd_at_throw by assumption. reflexivity. Qed.

  Lemma bind_inv : forall {A B} (m : bld K A) (f : A -> bld K B) b b' r,
    bbind m f b = (b', Ok r) -> exists b1 a, m b = (b1, Ok a) /\ f a b1 = (b', Ok r).
  Proof.
    intros A B m f b b' r H. unfold bbind in H. destruct (m b) as [b1 [a|e| |u|]]; try discriminate.
    eauto.
  Qed.

  Lemma effect_inv : forall b b' n u v, effect b b' n u v -> inv b -> inv b'.
  Proof. intros b b' n u v H. apply H. Qed.
  Lemma effect_wlen : forall b b' n u v, effect b b' n u v -> wlen b' = Nat.max (wlen b) n.
  Proof. intros b b' n u v H. apply H. Qed.

  Lemma WptConstraint_ok : forall i c b, inv b -> i < max63 ->
    exists b', WptConstraint i c b = (b', Ok tt) /\ effect b b' (S i) (only i c) none.
  Proof.
    intros i c b Hb Hi.
    assert (E : effect b (extend (S i) b) (S i) none none) by (apply effect_extend; [assumption|lia]).
    destruct (push_wpt_ok i c (extend (S i) b)) as (b' & P & E').
    { rewrite wlen_extend. lia. }
    exists b'. split.
    - unfold WptConstraint, bbind, newWpts. rewrite NewWpts_small by (try apply Hb; assumption).
      exact P.
    - eapply effect_ext.
      + pose proof (effect_trans _ _ _ _ _ _ _ _ _ E E') as T. rewrite Nat.max_0_r in T. exact T.
      + reflexivity.
      + reflexivity.
  Qed.
  Lemma WptConstraint_big : forall i c b, inv b -> max63 <= i -> (Z.of_nat i < two64)%Z ->
    WptConstraint i c b = (b, Throw OutOfRange).
  Proof.
    intros i c b Hb Hi Hi'. unfold WptConstraint, bbind, newWpts.
    rewrite NewWpts_big by (try apply Hb; assumption). apply push_wpt_throw.
    destruct Hb as (_ & _ & Hb). lia.
  Qed.

  Lemma segment_loop : forall c n s b, s + n <= wlen b ->
    exists b', bfor (seq s n) (fun i => push_wpt i c ;~ push_sgmt i c) b = (b', Ok tt) /\
      effect b b' 0 (fun j => if (s <=? j) && (j <? s + n) then [c] else [])
                    (fun j => if (s <=? j) && (j <? s + n) then [c] else []).
  Proof.
    intros c n. induction n as [|n IH]; intros s b Hs.
    - exists b. split; [reflexivity|]. eapply effect_ext; [apply effect_refl| |];
        intros j; unfold none; destruct (Nat.leb_spec s j), (Nat.ltb_spec j (s + 0)); try reflexivity; lia.
    - destruct (push_wpt_ok s c b) as (b1 & P1 & E1); [lia|].
      destruct (push_sgmt_ok s c b1) as (b2 & P2 & E2).
      { rewrite (effect_wlen _ _ _ _ _ E1). lia. }
      destruct (IH (S s) b2) as (b3 & P3 & E3).
      { rewrite (effect_wlen _ _ _ _ _ E2), (effect_wlen _ _ _ _ _ E1). lia. }
      exists b3. split.
      + cbn [seq bfor]. unfold bbind at 1 2. rewrite P1, P2. exact P3.
      + eapply effect_ext; [exact (effect_trans _ _ _ _ _ _ _ _ _ E1 (effect_trans _ _ _ _ _ _ _ _ _ E2 E3))| |];
          intros j; unfold only, none; bools.
  Qed.

  Definition within (f t : nat) (cs : list (constraint K)) : nat -> list (constraint K) :=
    fun j => if (f <=? j) && (j <=? t) then cs else [].
  Definition within' (f t : nat) (cs : list (constraint K)) : nat -> list (constraint K) :=
    fun j => if (f <? j) && (j <=? t) then cs else [].

  Lemma SgmtConstraint_ok : forall asserts f t c b, inv b -> f < t -> t < max63 ->
    exists b', SgmtConstraint asserts f t c b = (b', Ok tt) /\
      effect b b' (S t) (within f t [c]) (within' f t [c]).
  Proof.
    intros asserts f t c b Hb Hft Ht.
    assert (E : effect b (extend (S t) b) (S t) none none) by (apply effect_extend; [assumption|lia]).
    assert (W : wlen (extend (S t) b) = Nat.max (wlen b) (S t)) by apply wlen_extend.
    destruct (push_wpt_ok f c (extend (S t) b)) as (b1 & P1 & E1); [lia|].
    destruct (segment_loop c (t - f) (S f) b1) as (b2 & P2 & E2).
    { rewrite (effect_wlen _ _ _ _ _ E1). lia. }
    exists b2. split.
    - unfold SgmtConstraint. replace (f <? t) with true by (symmetry; apply Nat.ltb_lt; lia).
      cbn [negb]. rewrite andb_false_r. unfold bbind, newWpts, bret.
      rewrite NewWpts_small by (try apply Hb; lia). rewrite P1. exact P2.
    - eapply effect_ext.
      + pose proof (effect_trans _ _ _ _ _ _ _ _ _ E (effect_trans _ _ _ _ _ _ _ _ _ E1 E2)) as T.
        rewrite Nat.max_0_r in T. exact T.
      + intros j. unfold only, none, within. bools.
      + intros j. unfold none, within'. bools.
  Qed.

  Lemma bfor_inv : forall {A} (l : list A) (f : A -> bld K unit) b b',
    (forall a, preserves grows (f a)) -> inv b -> bfor l f b = (b', Ok tt) ->
    forall a, In a l -> exists b1 b2, inv b1 /\ f a b1 = (b2, Ok tt).
  Proof.
    induction l as [|x l IH]; intros f b b' Hp Hb H a Ha; [destruct Ha|].
    cbn [bfor] in H. apply bind_inv in H. destruct H as (b1 & [] & H1 & H2).
    destruct Ha as [->|Ha]; [eauto|]. eapply (IH f b1 b'); eauto.
    specialize (Hp x b Hb). rewrite H1 in Hp. apply Hp. assumption.
  Qed.

  Lemma WptConstraint_returned : forall i c b b', inv b -> (Z.of_nat i < two64)%Z ->
    WptConstraint i c b = (b', Ok tt) -> i < max63.
  Proof.
    intros i c b b' Hb Hi H. destruct (Nat.lt_ge_cases i max63) as [|G]; [assumption|].
    rewrite (WptConstraint_big i c b Hb G Hi) in H. discriminate.
  Qed.
  Lemma SgmtConstraint_returned : forall asserts f t c b b', inv b -> (Z.of_nat t < two64)%Z -> f < t ->
    SgmtConstraint asserts f t c b = (b', Ok tt) -> t < max63.
  Proof.
    intros asserts f t c b b' Hb Ht Hft H. destruct (Nat.lt_ge_cases t max63) as [|G]; [assumption|].
    exfalso. unfold SgmtConstraint in H. replace (f <? t) with true in H by (symmetry; apply Nat.ltb_lt; lia).
    cbn [negb] in H. rewrite andb_false_r in H.
    apply bind_inv in H. destruct H as (b1 & a & H1 & H). injection H1 as <- <-.
    apply bind_inv in H. destruct H as (b1 & a & H1 & H). unfold newWpts in H1. injection H1 as <- <-.
    rewrite NewWpts_big in H by (try apply Hb; assumption).
    apply bind_inv in H. destruct H as (b1 & a & H1 & H).
    assert (Hb1 : inv b1).
    { pose proof (pres_push_wpt f c b Hb) as P. rewrite H1 in P. apply P. assumption. }
    assert (Hp : forall i, preserves grows (push_wpt i c ;~ push_sgmt i c)).
    { intros i. apply pres_bind; [apply pres_push_wpt|intros; apply pres_push_sgmt]. }
    destruct (bfor_inv _ _ _ _ Hp Hb1 H t) as (b2 & b3 & Hb2 & H2).
    { apply in_seq. lia. }
    apply bind_inv in H2. destruct H2 as (b4 & a2 & H2 & _).
    rewrite push_wpt_throw in H2; [discriminate|]. destruct Hb2 as (_ & _ & ?). lia.
  Qed.

  (** ** Obstacles *)
  Lemma bfor_ext : forall {A} (l : list A) (f g : A -> bld K unit),
    (forall a b, In a l -> f a b = g a b) -> forall b, bfor l f b = bfor l g b.
  Proof.
    induction l; intros f g H b; [reflexivity|]. cbn [bfor]. unfold bbind.
    rewrite H by (left; reflexivity). destruct (g a b) as [b1 [?|?| |?|]]; auto.
    apply IHl. intros. apply H. right. assumption.
  Qed.
  Lemma bind_assoc : forall {A B C} (m : bld K A) (f : A -> bld K B) (g : B -> bld K C) b,
    bbind (bbind m f) g b = bbind m (fun a => bbind (f a) g) b.
  Proof. intros. unfold bbind. destruct (m b) as [b1 [?|?| |?|]]; reflexivity. Qed.
  Lemma bfor_app : forall {A} (l1 l2 : list A) (f : A -> bld K unit) b,
    bfor (l1 ++ l2) f b = (bfor l1 f ;~ bfor l2 f) b.
  Proof.
    induction l1; intros; cbn [app bfor].
    - reflexivity.
    - rewrite bind_assoc. unfold bbind at 1 2. destruct (f a b) as [b1 [?|?| |?|]]; auto.
  Qed.
  Lemma bfor_flat : forall {A B} (l : list A) (g : A -> list B) (f : B -> bld K unit) b,
    bfor (flat_map g l) f b = bfor l (fun a => bfor (g a) f) b.
  Proof.
    induction l; intros; cbn [flat_map bfor]; [reflexivity|].
    rewrite bfor_app. unfold bbind. destruct (bfor (g a) f b) as [b1 [[]|?| |?|]]; auto.
  Qed.
  Lemma bfor_map : forall {A B} (l : list A) (g : A -> B) (f : B -> bld K unit) b,
    bfor (map g l) f b = bfor l (fun a => f (g a)) b.
  Proof.
    induction l; intros; cbn [map bfor]; [reflexivity|].
    unfold bbind. destruct (f (g a) b) as [b1 [[]|?| |?|]]; auto.
  Qed.
  Lemma bind_ret : forall (m : bld K unit) b, (m ;~ bret tt) b = m b.
  Proof. intros. unfold bbind, bret. destruct (m b) as [b1 [[]|?| |?|]]; reflexivity. Qed.
  Lemma bfor_one : forall {A} (a : A) (f : A -> bld K unit) b, bfor [a] f b = f a b.
  Proof. intros. cbn [bfor]. apply bind_ret. Qed.
  Lemma bind_ext : forall {A B} (m m' : bld K A) (f f' : A -> bld K B) b,
    m b = m' b -> (forall a b1, f a b1 = f' a b1) -> bbind m f b = bbind m' f' b.
  Proof. intros. unfold bbind. rewrite H. destruct (m' b) as [b1 [?|?| |?|]]; auto. Qed.

  Lemma pred64_pos : forall n, 0 < n -> (Z.of_nat n < two64)%Z -> pred64 n = Z.of_nat (n - 1).
  Proof. intros. unfold pred64, to_u64. rewrite Z.mod_small by lia. lia. Qed.

  Lemma at_some : forall {A} (l : list A) i a, nth_error l i = Some a -> at_ l i = Ok a.
  Proof. intros A l i a E. unfold at_. rewrite E. reflexivity. Qed.

  (** The counted loop over consecutive corners. *)
  Lemma corner_loop : forall {A} (ps : list A) (g : A -> A -> bld K unit) fuel s bound b,
    s + length (skipn s ps) = length ps -> length (skipn s ps) <= fuel + 1 -> 0 < length ps ->
    bound = Z.of_nat (length ps - 1) ->
    bloop fuel s bound (fun i => p <~ blift (at_ ps i) ;; q <~ blift (at_ ps (S i)) ;; g p q) b =
    bfor (consecutive (skipn s ps)) (fun e => g (fst e) (snd e)) b.
  Proof.
    intros A ps g fuel. induction fuel; intros s bound b Hs Hf H0 Hb.
    - simpl bloop. destruct (Z.ltb_spec (Z.of_nat s) bound); [lia|].
      destruct (skipn s ps) as [|x [|y l]] eqn:E; try reflexivity. simpl in *. lia.
    - cbn [bloop]. destruct (Z.ltb_spec (Z.of_nat s) bound) as [L|L].
      + destruct (skipn s ps) as [|x [|y l]] eqn:E; simpl in Hs; try lia.
        assert (Ex : nth_error ps s = Some x).
        { rewrite <- (firstn_skipn s ps), E, nth_error_app2; rewrite firstn_length_le by lia; [|lia].
          rewrite Nat.sub_diag. reflexivity. }
        assert (Ey : nth_error ps (S s) = Some y).
        { rewrite <- (firstn_skipn s ps), E, nth_error_app2; rewrite firstn_length_le by lia; [|lia].
          replace (S s - s) with 1 by lia. reflexivity. }
        assert (E' : skipn (S s) ps = y :: l).
        { rewrite <- (firstn_skipn s ps) at 1. rewrite E, skipn_app, firstn_length_le by lia.
          rewrite skipn_all2 by (rewrite firstn_length_le; lia).
          replace (S s - s) with 1 by lia. reflexivity. }
        unfold consecutive. cbn [tl combine bfor fst snd].
        apply bind_ext.
        * unfold bbind, blift. rewrite (at_some ps s x Ex), (at_some ps (S s) y Ey). reflexivity.
        * intros _ b1. rewrite IHfuel; rewrite ?E'; auto; simpl in *; try lia. 
      + destruct (skipn s ps) as [|x [|y l]] eqn:E; try reflexivity. simpl in *. lia.
  Qed.

  Lemma corner_loop0 : forall {A} (ps : list A) (g : A -> A -> bld K unit) b,
    0 < length ps -> (Z.of_nat (length ps) < two64)%Z ->
    bloop (S (length ps)) 0 (pred64 (length ps))
      (fun i => p <~ blift (at_ ps i) ;; q <~ blift (at_ ps (S i)) ;; g p q) b =
    bfor (consecutive ps) (fun e => g (fst e) (snd e)) b.
  Proof.
    intros. rewrite (corner_loop ps g); auto; simpl; try lia.
    apply pred64_pos; assumption.
  Qed.
  Lemma assert_pass : forall {A} asserts (d : K) (a : A),
    (asserts = true -> nleb (nlit 0) d = true) -> assert_nonneg asserts d a = Ok a.
  Proof. intros A [] d a H; unfold assert_nonneg; [rewrite H|]; reflexivity. Qed.
  Lemma assert_fail : forall {A} asserts (d : K) (a x : A),
    assert_nonneg asserts d a = Ok x -> asserts = true -> nleb (nlit 0) d = true.
  Proof. intros A asserts d a x H ->. unfold assert_nonneg in H. destruct (nleb _ d); [reflexivity|discriminate]. Qed.

  Lemma bumper_edges_eq : forall asserts add o bu d b,
    0 < length (o_points bu) -> small_points bu ->
    (asserts = true -> nleb (nlit 0) d = true) ->
    bumper_edges asserts add o bu d b =
    bfor (flat_map (fun c => map (fun e => LinePoint (fst e) (snd e) c d) (outline (o_points bu)))
           (o_points o)) add b.
  Proof.
    intros asserts add o bu d b Hn Hs Ha. rewrite bfor_flat. unfold bumper_edges.
    apply bfor_ext. intros c b1 _. rewrite bfor_map. unfold outline, outline_from.
    rewrite bfor_app. apply bind_ext.
    - rewrite (corner_loop0 (o_points bu)) by assumption.
      apply bfor_ext. intros e b2 _. unfold bbind, blift, mkLinePoint. rewrite assert_pass by assumption. reflexivity.
    - intros _ b2. destruct (3 <=? length (o_points bu)) eqn:E; [|reflexivity].
      apply Nat.leb_le in E.
      rewrite bfor_one. unfold bbind, blift.
      rewrite (at_ok _ _ tr_default) by lia. rewrite (at_ok _ _ tr_default) by lia.
      unfold mkLinePoint. rewrite assert_pass by assumption. reflexivity.
  Qed.

  Lemma obstacle_edges_eq : forall asserts add o bu d b,
    0 < length (o_points o) -> small_points o ->
    (3 <= length (o_points o) -> length (o_points bu) <= length (o_points o)) ->
    (asserts = true -> nleb (nlit 0) d = true) ->
    obstacle_edges asserts add o bu d b =
    bfor (flat_map (fun r => match o_points o with
                       | [q] => [PointPoint r q d]
                       | _ => map (fun e => PointLine r (fst e) (snd e) d)
                                (outline_from (length (o_points bu) - 1) (o_points o))
                       end) (o_points bu)) add b.
  Proof.
    intros asserts add o bu d b Hn Hs Hle Ha. rewrite bfor_flat. unfold obstacle_edges.
    apply bfor_ext. intros r b1 Hin.
    assert (Hnb : 0 < length (o_points bu)) by (destruct (o_points bu); [destruct Hin|simpl; lia]).
    destruct (Nat.ltb_spec 1 (length (o_points o))) as [L|L].
    - replace (match o_points o with
               | [q] => [PointPoint r q d]
               | _ => map (fun e => PointLine r (fst e) (snd e) d)
                        (outline_from (length (o_points bu) - 1) (o_points o)) end)
        with (map (fun e => PointLine r (fst e) (snd e) d)
                (outline_from (length (o_points bu) - 1) (o_points o)))
        by (destruct (o_points o) as [|? [|? ?]]; simpl in L; [lia|lia|reflexivity]).
      rewrite bfor_map. unfold outline_from. rewrite bfor_app. apply bind_ext.
      + rewrite (corner_loop0 (o_points o)) by assumption.
        apply bfor_ext. intros e b2 _. unfold bbind, blift, mkPointLine. rewrite assert_pass by assumption. reflexivity.
      + intros _ b2. destruct (3 <=? length (o_points o)) eqn:E; [|reflexivity].
        apply Nat.leb_le in E. rewrite bfor_one. unfold bbind, blift.
        rewrite (at_ok _ _ tr_default) by lia. rewrite (at_ok _ _ tr_default) by lia.
        unfold mkPointLine. rewrite assert_pass by assumption. reflexivity.
    - destruct (o_points o) as [|q [|? ?]]; simpl in L, Hn; try lia.
      rewrite bfor_one. unfold bbind, blift, mkPointPoint. simpl at_. cbn. rewrite assert_pass by assumption. reflexivity.
  Qed.

  Lemma obstacle_loop_eq : forall asserts add o bumpers,
    Forall small_points bumpers -> small_points o -> accepts_all asserts bumpers o ->
    forall b, obstacle_loop asserts add o bumpers b = bfor (actual_obstacle bumpers o) add b.
  Proof.
    intros asserts add o bumpers Hb Ho. induction bumpers as [|bu rest IH]; intros Hacc b; [reflexivity|].
    destruct Hacc as [Hacc Hrest]. inversion Hb; subst. cbn [obstacle_loop actual_obstacle].
    destruct ((length (o_points bu) =? 1) && (length (o_points o) =? 1)) eqn:E.
    - apply andb_prop in E. destruct E as [E1 E2]. apply Nat.eqb_eq in E1, E2.
      destruct Hacc as [[? ?]|(_ & _ & _ & Ha)]; [lia|].
      destruct (o_points bu) as [|p [|? ?]]; try discriminate.
      destruct (o_points o) as [|q [|? ?]]; try discriminate.
      unfold pair_constraints, outline, outline_from. cbn [length flat_map map consecutive combine tl app Nat.leb].
      rewrite bfor_one. unfold bbind, blift, mkPointPoint. cbn. rewrite assert_pass by assumption. reflexivity.
    - rewrite bfor_app. unfold pair_constraints. 
      destruct Hacc as [[Z1 Z2]|(N1 & N2 & Hle & Ha)].
      + unfold bumper_edges, obstacle_edges.
        destruct (o_points bu); [|discriminate]. destruct (o_points o) eqn:Eo; [|discriminate].
        cbn [bfor flat_map app]. unfold bbind, bret. apply IH; auto.
      + transitivity ((bumper_edges asserts add o bu (nadd (o_safetyDistance bu) (o_safetyDistance o)) ;~
                       obstacle_edges asserts add o bu (nadd (o_safetyDistance bu) (o_safetyDistance o)) ;~
                       bfor (actual_obstacle rest o) add) b).
        { apply bind_ext; [reflexivity|]. intros _ b1. apply bind_ext; [reflexivity|]. intros _ b2. apply IH; auto. }
        rewrite <- bind_assoc. apply bind_ext; [|reflexivity].
        rewrite bfor_app. apply bind_ext.
        * apply bumper_edges_eq; assumption.
        * intros _ b1. apply obstacle_edges_eq; assumption.
  Qed.

  Lemma obstacle_loop_returned : forall asserts add o bumpers b b',
    Forall small_points bumpers -> small_points o ->
    obstacle_loop asserts add o bumpers b = (b', Ok tt) -> accepts_all asserts bumpers o.
  Proof.
    intros asserts add o bumpers. induction bumpers as [|bu rest IH]; intros b b' Hb Ho H; [exact I|].
    inversion Hb; subst. cbn [obstacle_loop] in H. cbn [accepts_all].
    destruct ((length (o_points bu) =? 1) && (length (o_points o) =? 1)) eqn:E.
    - split; [|discriminate].
      apply andb_prop in E. destruct E as [E1 E2]. apply Nat.eqb_eq in E1, E2.
      right. repeat split; try lia.
      repeat (apply bind_inv in H; destruct H as (? & ? & ?G & H)).
      match goal with h : blift (mkPointPoint _ _ _ _) _ = _ |- _ =>
        unfold blift in h; injection h as _ h; eapply assert_fail; exact h end.
    - apply bind_inv in H. destruct H as (b1 & [] & H1 & H).
      apply bind_inv in H. destruct H as (b2 & [] & H2' & H).
      split; [|intros _; eapply IH; eauto].
      unfold bumper_edges in H1. unfold obstacle_edges in H2'.
      destruct (length (o_points bu)) as [|nb] eqn:Enb.
      + destruct (o_points o) as [|q l] eqn:Eo; [left; rewrite Eo; auto|]. exfalso.
        cbn [bfor] in H1. apply bind_inv in H1. destruct H1 as (? & ? & H1 & _).
        apply bind_inv in H1. destruct H1 as (? & ? & H1 & _).
        cbn [bloop] in H1. replace (Z.of_nat 0 <? pred64 0)%Z with true in H1 by reflexivity.
        apply bind_inv in H1. destruct H1 as (? & ? & H1 & _).
        apply bind_inv in H1. destruct H1 as (? & ? & H1 & _).
        destruct (o_points bu); [|discriminate]. discriminate H1.
      + right. destruct (o_points bu) as [|p pl] eqn:Ebu; [discriminate|].
        cbn [bfor] in H2'. apply bind_inv in H2'. destruct H2' as (? & ? & H2' & _).
        destruct (Nat.ltb_spec 1 (length (o_points o))) as [L|L].
        * apply bind_inv in H2'. destruct H2' as (? & ? & H4 & H5).
          split; [lia|]. split; [lia|]. split.
          -- intros L3. destruct (Nat.leb_spec 3 (length (o_points o))); [|lia].
             apply bind_inv in H5. destruct H5 as (? & ? & H5 & _).
             unfold blift in H5. injection H5 as _ H5. unfold at_ in H5.
             match type of H5 with context [nth_error ?l ?i] =>
               destruct (nth_error l i) eqn:En; [|discriminate];
               assert (i < length l) by (apply nth_error_Some; congruence) end.
             rewrite ?Ebu. simpl length in *. lia.
          -- cbn [bloop] in H4. rewrite pred64_pos in H4 by (try assumption; lia).
             destruct (Z.ltb_spec (Z.of_nat 0) (Z.of_nat (length (o_points o) - 1))); [|lia].
             apply bind_inv in H4. destruct H4 as (? & ? & H4 & _).
             repeat (apply bind_inv in H4; destruct H4 as (? & ? & ?H & H4)).
             match goal with h : blift (mkPointLine _ _ _ _ _) _ = _ |- _ =>
               unfold blift in h; injection h as _ h; eapply assert_fail; exact h end.
        * apply bind_inv in H2'. destruct H2' as (? & ? & H4 & H5).
          assert (0 < length (o_points o)).
          { unfold blift in H4. injection H4 as _ H4. destruct (o_points o); [discriminate|simpl; lia]. }
          split; [lia|]. split; [lia|]. split; [lia|].
          apply bind_inv in H5. destruct H5 as (? & ? & H5 & _).
          unfold blift in H5. injection H5 as _ H5. eapply assert_fail. exact H5.
  Qed.

  (** Adding a list of constraints with a uniform effect. *)
  Lemma bfor_effect : forall (add : constraint K -> bld K unit) n (u v : constraint K -> nat -> list (constraint K)),
    (forall c b, inv b -> exists b', add c b = (b', Ok tt) /\ effect b b' n (u c) (v c)) ->
    forall cs b, inv b -> exists b', bfor cs add b = (b', Ok tt) /\
      effect b b' (match cs with [] => 0 | _ => n end)
        (fun j => flat_map (fun c => u c j) cs) (fun j => flat_map (fun c => v c j) cs).
  Proof.
    intros add n u v Hadd cs. induction cs as [|c cs IH]; intros b Hb.
    - exists b. split; [reflexivity|]. apply effect_refl.
    - destruct (Hadd c b Hb) as (b1 & P1 & E1).
      destruct (IH b1 (effect_inv _ _ _ _ _ E1 Hb)) as (b2 & P2 & E2).
      exists b2. split; [cbn [bfor]; unfold bbind; rewrite P1; exact P2|].
      cbn [flat_map].
      pose proof (effect_trans _ _ _ _ _ _ _ _ _ E1 E2) as T.
      replace (Nat.max n (match cs with [] => 0 | _ => n end)) with n in T by (destruct cs; lia).
      exact T.
  Qed.

  Lemma flat_only : forall i j cs, flat_map (fun c => only i c j) cs = if j =? i then cs else [].
  Proof.
    intros i j cs. unfold only. destruct (j =? i); induction cs; simpl; congruence.
  Qed.
  Lemma flat_within : forall f t j cs, flat_map (fun c => within f t [c] j) cs = within f t cs j.
  Proof. intros. unfold within. destruct (_ && _); induction cs; simpl; congruence. Qed.
  Lemma flat_within' : forall f t j cs, flat_map (fun c => within' f t [c] j) cs = within' f t cs j.
  Proof. intros. unfold within'. destruct (_ && _); induction cs; simpl; congruence. Qed.
  Lemma flat_none : forall j (cs : list (constraint K)), flat_map (fun _ => none j) cs = [].
  Proof. induction cs; simpl; auto. Qed.
End BE.
