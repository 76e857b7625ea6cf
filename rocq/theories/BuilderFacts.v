(** Facts about the builder state machine, for every number type. *)
From Coq Require Import List Lia ZArith.
Import ListNotations.
From Verif Require Import Outcome Num Geometry Constraints Builder UtilFacts.
Local Open Scope nat_scope.

Lemma two64_val : two64 = 18446744073709551616%Z. Proof. reflexivity. Qed.
Lemma pow63_val : (2 ^ 63)%Z = 9223372036854775808%Z. Proof. reflexivity. Qed.
Definition max63 : nat := Z.to_nat (2 ^ 63).
Lemma max63_Z : Z.of_nat max63 = (2 ^ 63)%Z.
Proof. unfold max63. rewrite Z2Nat.id; [reflexivity|]. rewrite pow63_val. lia. Qed.
Global Opaque max63.

Lemma to_i64_small : forall z, (0 <= z < 2 ^ 63)%Z -> to_i64 z = z.
Proof.
  intros z Hz. unfold to_i64, to_u64. rewrite pow63_val in *. rewrite two64_val.
  rewrite Z.mod_small by lia. destruct (Z.ltb_spec z 9223372036854775808); lia.
Qed.
Lemma to_i64_range : forall z, (- 2 ^ 63 <= to_i64 z < 2 ^ 63)%Z.
Proof.
  intros z. unfold to_i64, to_u64. rewrite pow63_val, two64_val.
  pose proof (Z.mod_pos_bound z 18446744073709551616).
  destruct (Z.ltb_spec (z mod 18446744073709551616) 9223372036854775808); lia.
Qed.
Lemma to_i64_big : forall z, (2 ^ 63 <= z < two64)%Z -> (to_i64 z < 0)%Z.
Proof.
  intros z Hz. unfold to_i64, to_u64. rewrite pow63_val, two64_val in *.
  rewrite Z.mod_small by lia. destruct (Z.ltb_spec z 9223372036854775808); lia.
Qed.
Lemma greatest_index : forall n, n <= max63 ->
  to_i64 (to_u64 (Z.of_nat n - 1)) = (Z.of_nat n - 1)%Z.
Proof.
  intros n Hn. apply inj_le in Hn. rewrite max63_Z in Hn.
  destruct n.
  - reflexivity.
  - unfold to_u64. rewrite Z.mod_small by (rewrite pow63_val, two64_val in *; lia).
    apply to_i64_small. lia.
Qed.

Section BF.
  Context {K : Type} {HA : Arith K} {HD : Dbl K}.
  Implicit Types b : builder K.

  (** Number of waypoints. *)
  Definition wlen b : nat := length (b_waypoints b).

  Lemma add_wpts_eq : forall n b i, (0 <= i)%Z ->
    add_wpts n i b =
    mkBuilder (b_waypoints b ++ repeat (mkWaypoint [] []) n) (b_drivetrain b) (b_callbacks b)
      (b_bumpers b) (b_guess b ++ repeat [zero_pose] n)
      (b_counts b ++ repeat 40 (n - (if (i =? 0)%Z then 1 else 0))).
  Proof.
    induction n; intros b i Hi.
    - simpl. rewrite !app_nil_r. destruct b; reflexivity.
    - cbn [add_wpts]. rewrite IHn by lia. cbn [b_waypoints b_drivetrain b_callbacks b_bumpers b_guess b_counts].
      rewrite <- !app_assoc. cbn [repeat app].
      replace (i + 1 =? 0)%Z with false by (symmetry; apply Z.eqb_neq; lia).
      destruct (Z.eqb_spec i 0).
      + rewrite Nat.sub_0_r. replace (S n - 1) with n by lia. reflexivity.
      + rewrite <- app_assoc. cbn [app]. rewrite !Nat.sub_0_r. reflexivity.
  Qed.

  (** Closed form of NewWpts when [n] waypoints are wanted. *)
  Definition extend (n : nat) b : builder K :=
    mkBuilder (b_waypoints b ++ repeat (mkWaypoint [] []) (n - wlen b)) (b_drivetrain b)
      (b_callbacks b) (b_bumpers b) (b_guess b ++ repeat [zero_pose] (n - wlen b))
      (b_counts b ++ repeat 40 ((n - 1) - (wlen b - 1))).

  Lemma NewWpts_small : forall i b, wlen b <= max63 -> i < max63 ->
    NewWpts i b = extend (S i) b.
  Proof.
    intros i b Hb Hi. unfold NewWpts.
    change (length (b_waypoints b)) with (wlen b).
    rewrite greatest_index by assumption.
    rewrite to_i64_small by (apply inj_lt in Hi; rewrite max63_Z in Hi; lia).
    unfold extend.
    destruct (Z.ltb_spec (Z.of_nat (wlen b) - 1) (Z.of_nat i)).
    - rewrite add_wpts_eq by lia.
      replace (Z.to_nat (Z.of_nat i - (Z.of_nat (wlen b) - 1))) with (S i - wlen b) by lia.
      f_equal. f_equal. f_equal.
      destruct (Z.eqb_spec (Z.of_nat (wlen b) - 1 + 1) 0); lia.
    - replace (S i - wlen b) with 0 by lia. replace (S i - 1 - (wlen b - 1)) with 0 by lia.
      simpl. rewrite !app_nil_r. destruct b; reflexivity.
  Qed.

  Lemma NewWpts_big : forall i b, wlen b <= max63 -> max63 <= i -> (Z.of_nat i < two64)%Z ->
    NewWpts i b = b.
  Proof.
    intros i b Hb Hi Hi'. unfold NewWpts.
    change (length (b_waypoints b)) with (wlen b).
    rewrite greatest_index by assumption.
    apply inj_le in Hi. rewrite max63_Z in Hi.
    pose proof (to_i64_big (Z.of_nat i) ltac:(lia)).
    destruct (Z.ltb_spec (Z.of_nat (wlen b) - 1) (to_i64 (Z.of_nat i))); [|reflexivity].
    unfold to_i64, to_u64 in *. rewrite pow63_val, two64_val in *.
    rewrite Z.mod_small in * by lia.
    destruct (Z.ltb_spec (Z.of_nat i) 9223372036854775808); lia.
  Qed.

  Lemma NewWpts_cases : forall i b, wlen b <= max63 ->
    exists n, n <= max63 /\ NewWpts i b = extend n b.
  Proof.
    intros i b Hb. unfold NewWpts.
    change (length (b_waypoints b)) with (wlen b).
    rewrite greatest_index by assumption.
    pose proof (to_i64_range (Z.of_nat i)) as R. set (t := to_i64 (Z.of_nat i)) in *.
    destruct (Z.ltb_spec (Z.of_nat (wlen b) - 1) t).
    - exists (Z.to_nat (t + 1)). split.
      + apply Nat2Z.inj_le. rewrite max63_Z. lia.
      + rewrite add_wpts_eq by lia. unfold extend.
        replace (Z.to_nat (t - (Z.of_nat (wlen b) - 1))) with (Z.to_nat (t + 1) - wlen b) by lia.
        f_equal. f_equal. f_equal.
        destruct (Z.eqb_spec (Z.of_nat (wlen b) - 1 + 1) 0); lia.
    - exists 0. split; [lia|]. unfold extend. simpl.
      rewrite !app_nil_r. destruct b; reflexivity.
  Qed.

  (** ** Invariant *)
  Definition inv b : Prop :=
    length (b_guess b) = wlen b /\ Forall (fun l => l <> []) (b_guess b) /\ wlen b <= max63.

  Lemma wlen_extend : forall n b, wlen (extend n b) = Nat.max (wlen b) n.
  Proof.
    intros. unfold extend, wlen. simpl. rewrite app_length, repeat_length. lia.
  Qed.

  Lemma inv_extend : forall n b, inv b -> n <= max63 -> inv (extend n b).
  Proof.
    intros n b (H1 & H2 & H3) Hn. split; [|split].
    - unfold extend, wlen in *. simpl. rewrite !app_length, !repeat_length. lia.
    - unfold extend. simpl. apply Forall_app. split; [assumption|].
      apply Forall_forall. intros x Hx. apply repeat_spec in Hx. subst. discriminate.
    - rewrite wlen_extend. lia.
  Qed.

  Lemma inv_NewWpts : forall i b, inv b -> inv (NewWpts i b).
  Proof.
    intros i b Hb. destruct (NewWpts_cases i b) as (n & Hn & ->); [apply Hb|].
    apply inv_extend; assumption.
  Qed.

  Lemma inv_new : inv new_builder.
  Proof. split; [reflexivity|]. split; [constructor|]. unfold wlen. simpl. lia. Qed.

  (** ** upd *)
  Lemma upd_length : forall {A} (l : list A) i f, length (upd l i f) = length l.
  Proof. induction l; destruct i; simpl; intros; auto. Qed.
  Lemma upd_nth : forall {A} (l : list A) i f j,
    nth_error (upd l i f) j = if j =? i then option_map f (nth_error l j) else nth_error l j.
  Proof.
    induction l; intros [|i] f [|j]; simpl; auto.
    - destruct (j =? i); reflexivity.
  Qed.
  Lemma upd_at_ok : forall {A} (l : list A) i f, i < length l -> upd_at l i f = Ok (upd l i f).
  Proof. intros. unfold upd_at. destruct (Nat.ltb_spec i (length l)); [reflexivity|lia]. Qed.
  Lemma upd_at_throw : forall {A} (l : list A) i f, length l <= i -> upd_at l i f = Throw OutOfRange.
  Proof. intros. unfold upd_at. destruct (Nat.ltb_spec i (length l)); [lia|reflexivity]. Qed.

  (** ** Monad laws used below *)
  Lemma bbind_ok : forall {A B} (m : bld K A) (f : A -> bld K B) b b' a,
    m b = (b', Ok a) -> bbind m f b = f a b'.
  Proof. intros. unfold bbind. rewrite H. reflexivity. Qed.

  (** A property of builder pairs preserved by a method whatever its outcome. *)
  Definition preserves (R : builder K -> builder K -> Prop) {A} (m : bld K A) : Prop :=
    forall b, inv b -> R b (fst (m b)).
  Lemma preserves_bind : forall (R : builder K -> builder K -> Prop) {A B} (m : bld K A) (f : A -> bld K B),
    (forall x y z, R x y -> R y z -> R x z) ->
    (forall x y, R x y -> inv x -> inv y) ->
    preserves R m -> (forall a, preserves R (f a)) -> preserves R (bbind m f).
  Proof.
    intros R A B m f HT HI Hm Hf b Hb. unfold bbind.
    specialize (Hm b Hb). destruct (m b) as [b' o]. simpl in Hm.
    destruct o; simpl; try assumption.
    eapply HT; [exact Hm|]. apply Hf. eapply HI; eassumption.
  Qed.

  (** ** The relation between a builder and a later one: invariant kept,
      constraint lists only grow by appending, counts/guess discipline. *)
  Definition grows b b' : Prop :=
    (inv b -> inv b') /\ wlen b <= wlen b' /\
    forall j w, nth_error (b_waypoints b) j = Some w ->
      exists u v, nth_error (b_waypoints b') j =
        Some (mkWaypoint (waypointConstraints w ++ u) (segmentConstraints w ++ v)).

  Lemma grows_refl : forall b, grows b b.
  Proof.
    intros b. split; [auto|]. split; [lia|]. intros j w H. exists [], [].
    rewrite !app_nil_r. rewrite H. destruct w; reflexivity.
  Qed.
  Lemma grows_same : forall b b', b_waypoints b' = b_waypoints b -> b_guess b' = b_guess b ->
    grows b b'.
  Proof.
    intros b b' H1 H2. unfold grows, inv, wlen. rewrite H1, H2.
    split; [auto|]. split; [lia|]. intros j w H. exists [], [].
    rewrite !app_nil_r. rewrite H. destruct w; reflexivity.
  Qed.
  Lemma grows_trans : forall x y z, grows x y -> grows y z -> grows x z.
  Proof.
    intros x y z (A1 & A2 & A3) (B1 & B2 & B3). split; [auto|]. split; [lia|].
    intros j w H. destruct (A3 _ _ H) as (u & v & H'). destruct (B3 _ _ H') as (u' & v' & H'').
    exists (u ++ u'), (v ++ v'). rewrite H''. simpl. rewrite !app_assoc. reflexivity.
  Qed.
  Lemma grows_extend : forall n b, n <= max63 -> grows b (extend n b).
  Proof.
    intros n b Hn. split; [intros; apply inv_extend; assumption|].
    split; [rewrite wlen_extend; lia|].
    intros j w H. exists [], []. rewrite !app_nil_r. unfold extend. simpl.
    rewrite nth_error_app1 by (apply nth_error_Some; congruence).
    rewrite H. destruct w; reflexivity.
  Qed.

  Lemma pres_newWpts : forall i, preserves grows (newWpts i).
  Proof.
    intros i b Hb. simpl. destruct (NewWpts_cases i b) as (n & Hn & ->); [apply Hb|].
    apply grows_extend. assumption.
  Qed.
  Lemma pres_lift : forall {A} (o : outcome A), preserves grows (blift o).
  Proof. intros A o b Hb. apply grows_refl. Qed.
  Lemma pres_ret : forall {A} (a : A), preserves grows (bret a).
  Proof. intros A o b Hb. apply grows_refl. Qed.

  Lemma grows_upd_wpt : forall b i u v,
    grows b (set_waypoints b (upd (b_waypoints b) i
      (fun w => mkWaypoint (waypointConstraints w ++ u) (segmentConstraints w ++ v)))).
  Proof.
    intros. split; [|split].
    - intros (H1 & H2 & H3). unfold inv, wlen in *. simpl. rewrite upd_length. auto.
    - unfold wlen. simpl. rewrite upd_length. lia.
    - intros j w H. simpl. rewrite upd_nth, H. simpl.
      destruct (j =? i).
      + exists u, v. reflexivity.
      + exists [], []. rewrite !app_nil_r. destruct w; reflexivity.
  Qed.

  Lemma upd_ext : forall {A} (l : list A) i f g, (forall a, f a = g a) -> upd l i f = upd l i g.
  Proof. induction l; destruct i; simpl; intros; f_equal; auto. Qed.

  Lemma pres_push_wpt : forall i c, preserves grows (push_wpt i c).
  Proof.
    intros i c b Hb. unfold push_wpt, upd_at. destruct (i <? _); simpl; [|apply grows_refl].
    erewrite upd_ext; [apply (grows_upd_wpt b i [c] [])|].
    intros w. simpl. rewrite app_nil_r. reflexivity.
  Qed.
  Lemma pres_push_sgmt : forall i c, preserves grows (push_sgmt i c).
  Proof.
    intros i c b Hb. unfold push_sgmt, upd_at. destruct (i <? _); simpl; [|apply grows_refl].
    erewrite upd_ext; [apply (grows_upd_wpt b i [] [c])|].
    intros w. simpl. rewrite app_nil_r. reflexivity.
  Qed.
  Lemma grows_inv : forall x y, grows x y -> inv x -> inv y.
  Proof. intros x y H. apply H. Qed.

  Lemma pres_bind : forall {A B} (m : bld K A) (f : A -> bld K B),
    preserves grows m -> (forall a, preserves grows (f a)) -> preserves grows (bbind m f).
  Proof. intros. apply preserves_bind; auto; [exact grows_trans|exact grows_inv]. Qed.

  Lemma pres_for : forall {A} (l : list A) (f : A -> bld K unit),
    (forall a, preserves grows (f a)) -> preserves grows (bfor l f).
  Proof. induction l; intros; simpl; [apply pres_ret|]. apply pres_bind; auto. Qed.
  Lemma pres_loop : forall fuel i bound (f : nat -> bld K unit),
    (forall a, preserves grows (f a)) -> preserves grows (bloop fuel i bound f).
  Proof.
    induction fuel; intros i bound f Hf; simpl; destruct (_ <? bound)%Z;
      auto using pres_ret, pres_lift.
    apply pres_bind; auto.
  Qed.

  Lemma pres_WptConstraint : forall i c, preserves grows (WptConstraint i c).
  Proof.
    intros. unfold WptConstraint.
    apply pres_bind; [apply pres_newWpts|intros; apply pres_push_wpt].
  Qed.
  Lemma pres_SgmtConstraint : forall asserts f t c, preserves grows (SgmtConstraint asserts f t c).
  Proof.
    intros. unfold SgmtConstraint.
    apply pres_bind; [destruct (_ && _); auto using pres_lift, pres_ret|intros _].
    apply pres_bind; [apply pres_newWpts|intros _].
    apply pres_bind; [apply pres_push_wpt|intros _].
    apply pres_for. intros. apply pres_bind; [apply pres_push_wpt|intros; apply pres_push_sgmt].
  Qed.

  Lemma pres_obstacle : forall asserts add o bumpers,
    (forall c, preserves grows (add c)) ->
    preserves grows (obstacle_loop asserts add o bumpers).
  Proof.
    intros asserts add o bumpers Hadd. induction bumpers as [|bu bumpers IH]; [apply pres_ret|].
    cbn [obstacle_loop]. destruct (_ && _)%bool.
    - repeat (apply pres_bind; [apply pres_lift|intros]). apply Hadd.
    - apply pres_bind; [|intros _; apply pres_bind; [|intros _; exact IH]].
      + apply pres_for. intros c. apply pres_bind.
        * apply pres_loop. intros i. repeat (apply pres_bind; [apply pres_lift|intros]). apply Hadd.
        * intros _. destruct (3 <=? _); [|apply pres_ret].
          repeat (apply pres_bind; [apply pres_lift|intros]). apply Hadd.
      + apply pres_for. intros c. destruct (1 <? _).
        * apply pres_bind.
          -- apply pres_loop. intros i. repeat (apply pres_bind; [apply pres_lift|intros]). apply Hadd.
          -- intros _. destruct (3 <=? _); [|apply pres_ret].
             repeat (apply pres_bind; [apply pres_lift|intros]). apply Hadd.
        * repeat (apply pres_bind; [apply pres_lift|intros]). apply Hadd.
  Qed.

  Lemma set_back_nonempty : forall (l : list (Pose2 K)) p, set_back l p <> [].
  Proof. intros. unfold set_back. intro H. destruct (app_eq_nil _ _ H). discriminate. Qed.

  Lemma Forall_upd : forall {A} (P : A -> Prop) (l : list A) i f,
    Forall P l -> (forall a, P a -> P (f a)) -> Forall P (upd l i f).
  Proof.
    induction l; intros i f Hl Hf; destruct i; simpl; auto; inversion Hl; subst; constructor; auto.
  Qed.

  Lemma grows_set_guess : forall b g, length g = length (b_guess b) ->
    (Forall (fun l => l <> []) (b_guess b) -> Forall (fun l => l <> []) g) ->
    grows b (set_guess b g).
  Proof.
    intros b g Hl Hg. split; [|split].
    - intros (H1 & H2 & H3). split; [|split]; simpl; auto. rewrite Hl. assumption.
    - unfold wlen. simpl. lia.
    - intros j w H. exists [], []. rewrite !app_nil_r. simpl. rewrite H. destruct w; reflexivity.
  Qed.

  Lemma pres_WptGuess : forall i p, preserves grows (WptInitialGuessPoint i p).
  Proof.
    intros i p. apply pres_bind; [apply pres_newWpts|intros _].
    intros b Hb. unfold at_. destruct (nth_error _ _) as [[|q l]|]; simpl; auto using grows_refl.
    apply grows_set_guess.
    - apply upd_length.
    - intros F. apply Forall_upd; [assumption|]. intros. apply set_back_nonempty.
  Qed.
  Lemma pres_SgmtGuess : forall i ps, preserves grows (SgmtInitialGuessPoints i ps).
  Proof.
    intros i ps. apply pres_bind; [apply pres_newWpts|intros _].
    intros b Hb. unfold upd_at. destruct (_ <? _); simpl; auto using grows_refl.
    apply grows_set_guess.
    - apply upd_length.
    - intros F. apply Forall_upd; [assumption|]. intros l Hl E. destruct (app_eq_nil _ _ E). auto.
  Qed.

  (** Every public call, whatever its outcome. *)
  Lemma run_op_grows : forall asserts o b, inv b -> grows b (fst (run_op asserts o b)).
  Proof.
    intros asserts o b Hb. destruct o; simpl run_op.
    - apply grows_same; reflexivity.
    - revert b Hb. apply pres_bind; [apply pres_WptConstraint|intros; apply pres_WptGuess].
    - revert b Hb. apply pres_bind; [apply pres_WptConstraint|intros; apply pres_WptGuess].
    - apply pres_WptGuess; assumption.
    - apply pres_SgmtGuess; assumption.
    - apply grows_same; reflexivity.
    - apply pres_obstacle; auto using pres_WptConstraint.
    - apply pres_obstacle; auto using pres_SgmtConstraint.
    - apply pres_WptConstraint; assumption.
    - apply pres_SgmtConstraint; assumption.
    - apply grows_same; reflexivity.
    - apply grows_same; reflexivity.
  Qed.

  Lemma run_ops_grows : forall asserts ops b, inv b -> grows b (run_ops asserts ops b).
  Proof.
    intros asserts ops. induction ops as [|o ops IH]; intros b Hb; simpl; [apply grows_refl|].
    pose proof (run_op_grows asserts o b Hb) as G.
    eapply grows_trans; [exact G|]. apply IH. apply G. assumption.
  Qed.
  Lemma run_ops_inv : forall asserts ops b, inv b -> inv (run_ops asserts ops b).
  Proof. intros. apply (run_ops_grows asserts ops b); assumption. Qed.
End BF.
