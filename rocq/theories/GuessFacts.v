(** Proofs about GenerateLinearInitialGuess: a closed form for every number
    type, and what it means over the reals. *)
From Coq Require Import List Lia Lra Psatz.
Import ListNotations.
From Verif Require Import Outcome Num NumR Geometry Util Builder Guess Spec UtilFacts GeometryFacts.
Local Open Scope nat_scope.

(** ** Lists *)
Lemma back_ok : forall {A} (l : list A) d, l <> [] -> back l = Ok (last l d).
Proof.
  intros A l d H. destruct (exists_last H) as (l' & a & ->).
  unfold back. rewrite rev_unit, last_last. reflexivity.
Qed.
Lemma front_ok : forall {A} (l : list A) d, l <> [] -> front l = Ok (nth 0 l d).
Proof. intros A [|a l] d H; [congruence|reflexivity]. Qed.
Lemma last_nth : forall {A} (l : list A) d, last l d = nth (length l - 1) l d.
Proof.
  intros A l d. destruct l as [|a l]; [reflexivity|].
  destruct (exists_last (l := a :: l)) as (l' & b & E); [discriminate|]. rewrite E.
  rewrite last_last, app_length. simpl. replace (length l' + 1 - 1) with (length l') by lia.
  rewrite nth_middle. reflexivity.
Qed.
Lemma flat_map_length_sum : forall {A B} (f : A -> list B) (n : A -> nat) l,
  (forall a, In a l -> length (f a) = n a) -> length (flat_map f l) = list_sum (map n l).
Proof.
  induction l; intros H; simpl; [reflexivity|].
  rewrite app_length, IHl, H; auto with datatypes.
Qed.
Lemma nth_flat_map : forall {A B} (f : A -> list B) l1 a l2 i d, i < length (f a) ->
  nth (length (flat_map f l1) + i) (flat_map f (l1 ++ a :: l2)) d = nth i (f a) d.
Proof.
  intros. rewrite flat_map_app. simpl. rewrite app_nth2_plus, app_nth1 by assumption. reflexivity.
Qed.
Lemma seq_split3 : forall s n k, k < n -> seq s n = seq s k ++ (s + k) :: seq (S (s + k)) (n - S k).
Proof.
  intros. replace n with (k + S (n - S k)) at 1 by lia. rewrite seq_app. reflexivity.
Qed.
Lemma flat_map_concat_map' : forall {A B} (f : A -> list B) l, flat_map f l = concat (map f l).
Proof. intros. apply flat_map_concat_map. Qed.

Section Guess.
  Context {K : Type} {HA : Arith K} {HD : Dbl K}.
  Notation leg := (Pose2 K * Pose2 K * nat)%type.

  (** Where the [j]-th guess point of a segment with [n] intervals and [g]
      guess points is hit. *)
  Definition knot (n g j : nat) : nat := if j <? g then j * (n / g) else n.

  (** The stretches of one segment. *)
  Definition seg_leg (pts : list (Pose2 K)) (n j : nat) : leg :=
    (nth j pts pose_default, nth (S j) pts pose_default,
     knot n (length pts - 1) (S j) - knot n (length pts - 1) j).
  Definition seg_legs (pts : list (Pose2 K)) (n : nat) : list leg :=
    map (seg_leg pts n) (seq 0 (length pts - 1)).
  Definition append_legs (l : list leg) (s : solution K) : solution K :=
    fold_left (fun s '(p, q, n) => append_leg p q n s) l s.

  Lemma knot_mono : forall n g j, 0 < g -> knot n g j <= knot n g (S j).
  Proof.
    intros n g j G. unfold knot.
    assert (g * (n / g) <= n) by (apply Nat.mul_div_le; lia).
    assert (0 <= n / g) by lia.
    destruct (Nat.ltb_spec j g), (Nat.ltb_spec (S j) g); try lia.
    assert (j * (n / g) <= g * (n / g)) by (apply Nat.mul_le_mono_r; lia). lia.
  Qed.
  Lemma knot_0 : forall n g, 0 < g -> knot n g 0 = 0.
  Proof. intros. unfold knot. destruct (Nat.ltb_spec 0 g); lia. Qed.
  Lemma knot_end : forall n g, knot n g g = n.
  Proof. intros. unfold knot. rewrite Nat.ltb_irrefl. reflexivity. Qed.

  Lemma legs_sum : forall (pts : list (Pose2 K)) n k, 1 < length pts -> k <= length pts - 1 ->
    list_sum (map (fun l : leg => snd l) (map (seg_leg pts n) (seq 0 k))) = knot n (length pts - 1) k.
  Proof.
    intros pts n k L. induction k; intros Hk.
    - rewrite knot_0 by lia. reflexivity.
    - rewrite seq_S, !map_app, list_sum_app, IHk by lia. simpl.
      pose proof (knot_mono n (length pts - 1) k). lia.
  Qed.

  (** The guess points of the segment ending at waypoint [w]: the guess at the
      previous waypoint, then the list of this one. *)
  Definition seg_points (guess : list (list (Pose2 K))) (w : nat) : list (Pose2 K) :=
    last (nth (w - 1) guess []) pose_default :: nth w guess [].

  Lemma seq_ends : forall g, 2 <= g -> seq 0 g = 0 :: seq 1 (g - 2) ++ [g - 1].
  Proof.
    intros. replace g with (S (S (g - 2))) at 1 by lia.
    rewrite <- cons_seq. f_equal. rewrite seq_S. f_equal. f_equal. lia.
  Qed.

  Lemma fold_left_map : forall {A B S} (f : S -> B -> S) (g : A -> B) l s,
    fold_left f (map g l) s = fold_left (fun s a => f s (g a)) l s.
  Proof. induction l; intros; simpl; auto. Qed.

  Lemma guess_segment_ok : forall guess counts w s,
    1 <= w -> w <= length counts -> w < length guess ->
    nth (w - 1) guess [] <> [] -> nth w guess [] <> [] ->
    guess_segment guess counts w s =
      Ok (append_legs (seg_legs (seg_points guess w) (nth (w - 1) counts 0)) s).
  Proof.
    intros guess counts w s H1 H2 H3 Hp Hh. unfold guess_segment.
    rewrite (at_ok counts _ 0) by lia. cbn [obind].
    rewrite (at_ok guess w []) by lia. cbn [obind].
    set (here := nth w guess []) in *. set (prev := nth (w - 1) guess []) in *.
    set (n := nth (w - 1) counts 0).
    assert (G : 0 < length here) by (destruct here; simpl; [congruence|lia]).
    assert (U : udiv n (length here) = Ok (n / length here)).
    { unfold udiv. destruct (length here); [lia|reflexivity]. }
    rewrite U. cbn [obind]. rewrite (at_ok guess _ []) by lia. cbn [obind]. fold prev.
    rewrite (back_ok prev pose_default Hp). cbn [obind].
    rewrite (front_ok here pose_default Hh). cbn [obind].
    unfold seg_points. fold here prev.
    set (pts := last prev pose_default :: here).
    assert (LP : length pts - 1 = length here) by (simpl; lia).
    unfold seg_legs. rewrite LP. set (g := length here) in *. set (k := n / g).
    assert (L0 : forall j, seg_leg pts n j =
       (nth j pts pose_default, nth (S j) pts pose_default, knot n g (S j) - knot n g j)).
    { intros. unfold seg_leg. rewrite LP. reflexivity. }
    destruct (Nat.ltb_spec 1 g) as [G2|G2].
    - rewrite (foldM_ok _ (fun s i => append_leg (nth (i - 1) here pose_default)
                             (nth i here pose_default) k s)).
      2:{ intros i s0 Hi. apply in_seq in Hi. fold g in Hi.
          rewrite (at_ok here (i - 1) pose_default), (at_ok here i pose_default) by (fold g; lia).
          reflexivity. }
      cbn [obind]. rewrite (at_ok here (g - 2) pose_default) by (fold g; lia). cbn [obind].
      rewrite (back_ok here pose_default Hh). cbn [obind]. f_equal.
      rewrite seq_ends by lia. unfold append_legs. cbn [map fold_left].
      rewrite map_app, fold_left_app. cbn [map fold_left].
      rewrite L0.
      replace (knot n g 1 - knot n g 0) with k.
      2:{ unfold knot. destruct (Nat.ltb_spec 1 g), (Nat.ltb_spec 0 g); try (fold k); lia. }
      change (nth 0 pts pose_default) with (last prev pose_default).
      change (nth 1 pts pose_default) with (nth 0 here pose_default).
      set (s1 := append_leg _ _ _ s).
      rewrite fold_left_map.
      assert (M : forall l s, (forall i, In i l -> 1 <= i < g - 1) ->
         fold_left (fun s i => append_leg (nth (i - 1) here pose_default) (nth i here pose_default) k s) l s =
         fold_left (fun s a => let '(p, q, n0) := seg_leg pts n a in append_leg p q n0 s) l s).
      { induction l as [|i l IH]; intros s0 Hl; [reflexivity|]. cbn [fold_left].
        rewrite L0. rewrite IH by (intros; apply Hl; right; assumption). f_equal.
        specialize (Hl i (or_introl eq_refl)).
        replace (knot n g (S i) - knot n g i) with k.
        2:{ unfold knot. destruct (Nat.ltb_spec (S i) g), (Nat.ltb_spec i g); try (fold k); lia. }
        destruct i; [lia|]. simpl. rewrite Nat.sub_0_r. reflexivity. }
      rewrite M by (intros i Hi; apply in_seq in Hi; lia).
      set (s2 := fold_left _ _ s1). rewrite L0. f_equal.
      + destruct g as [|[|g']]; try lia. simpl. rewrite Nat.sub_0_r. reflexivity.
      + rewrite last_nth. fold g. destruct g as [|[|g']]; try lia. simpl. reflexivity.
      + unfold knot. destruct (Nat.ltb_spec (S (g - 1)) g), (Nat.ltb_spec (g - 1) g); try (fold k); lia.
      + unfold s2, s1. f_equal. f_equal.
        unfold knot. destruct (Nat.ltb_spec 1 g), (Nat.ltb_spec 0 g); try (fold k); lia.
    - assert (g = 1) as G1 by lia.
      rewrite G1 in *. unfold k. rewrite Nat.div_1_r in *.
      change (1 - 2) with 0. cbn [seq foldM obind].
      cbn [map]. rewrite L0. unfold append_legs. cbn [fold_left].
      rewrite G1, Nat.div_1_r. unfold knot. simpl. rewrite Nat.sub_0_r. reflexivity.
  Qed.

  Lemma append_legs_fields : forall l (s : solution K),
    append_legs l s = mkSolution (s_dt s)
      (s_x s ++ flat_map (fun '(p, q, n) => Linspace (pX p) (pX q) n) l)
      (s_y s ++ flat_map (fun '(p, q, n) => Linspace (pY p) (pY q) n) l)
      (s_thetacos s ++ flat_map (fun '(p, q, n) =>
         map ncos (AngleLinspace (rot_radians (pRot p)) (rot_radians (pRot q)) n)) l)
      (s_thetasin s ++ flat_map (fun '(p, q, n) =>
         map nsin (AngleLinspace (rot_radians (pRot p)) (rot_radians (pRot q)) n)) l)
      (s_vx s) (s_vy s) (s_omega s) (s_ax s) (s_ay s) (s_alpha s) (s_moduleFX s) (s_moduleFY s).
  Proof.
    induction l as [|[[p q] n] l IH]; intros s.
    - simpl. rewrite !app_nil_r. destruct s; reflexivity.
    - change (append_legs ((p, q, n) :: l) s) with (append_legs l (append_leg p q n s)).
      rewrite IH. unfold append_leg. simpl. rewrite <- !app_assoc. reflexivity.
  Qed.

  Definition all_legs (guess : list (list (Pose2 K))) (counts : list nat) : list leg :=
    flat_map (fun w => seg_legs (seg_points guess w) (nth (w - 1) counts 0)) (seq 1 (length counts)).

  Lemma append_legs_app : forall l1 l2 (s : solution K),
    append_legs (l1 ++ l2) s = append_legs l2 (append_legs l1 s).
  Proof. intros. unfold append_legs. apply fold_left_app. Qed.

  Definition guess_dt (counts : list nat) : K :=
    ndiv (nmul (nofnat (length counts + 1)) (nlit 5)) (nofnat (1 + list_sum counts)).
  Definition first_pose (guess : list (list (Pose2 K))) : Pose2 K :=
    nth 0 (nth 0 guess []) pose_default.
  Definition guess_result (guess : list (list (Pose2 K))) (counts : list nat) : solution K :=
    let p := first_pose guess in
    append_legs (all_legs guess counts)
      (mkSolution (repeat (guess_dt counts) (1 + list_sum counts))
         [pX p] [pY p] [rCos (pRot p)] [rSin (pRot p)] [] [] [] [] [] [] [] []).

  Lemma guess_loop_ok : forall guess counts n s, n <= length counts -> length counts < length guess ->
    (forall l, In l guess -> l <> []) ->
    foldM (guess_segment guess counts) (seq 1 n) s =
      Ok (append_legs (flat_map (fun w => seg_legs (seg_points guess w) (nth (w - 1) counts 0)) (seq 1 n)) s).
  Proof.
    intros guess counts n s Hn L NE. induction n as [|n IH]; [reflexivity|].
    rewrite seq_S, foldM_app, IH by lia. cbn [obind foldM].
    rewrite guess_segment_ok; try lia; [|apply NE, nth_In; lia..].
    cbn [obind]. rewrite flat_map_app, append_legs_app. simpl. rewrite app_nil_r. reflexivity.
  Qed.

  Lemma GenerateLinearInitialGuess_ok : forall guess counts,
    length counts < length guess -> (forall l, In l guess -> l <> []) ->
    GenerateLinearInitialGuess guess counts = Ok (guess_result guess counts).
  Proof.
    intros guess counts L NE. unfold GenerateLinearInitialGuess.
    rewrite GetIndex_ok by lia. cbn [obind].
    destruct guess as [|g0 guess'] eqn:EG; [simpl in L; lia|]. rewrite <- EG in *.
    assert (N0 : guess <> []) by (rewrite EG; discriminate).
    rewrite (front_ok guess []) by assumption. cbn [obind].
    assert (N1 : nth 0 guess [] <> []) by (apply NE, nth_In; rewrite EG; simpl; lia).
    rewrite (front_ok _ pose_default) by assumption. cbn [obind].
    replace (length counts + 1 - 1) with (length counts) by lia.
    rewrite guess_loop_ok by (try lia; assumption).
    unfold guess_result, all_legs, first_pose, guess_dt.
    replace (if length counts + 1 =? 0 then 0 else 1) with 1
      by (destruct (Nat.eqb_spec (length counts + 1) 0); lia).
    rewrite firstn_all.
    replace (1 + list_sum counts + 0) with (1 + list_sum counts) by lia. reflexivity.
  Qed.

  (** Too many counts: the missing waypoint is reported. *)
  Lemma GenerateLinearInitialGuess_throw : forall guess counts,
    guess <> [] -> length guess <= length counts -> (forall l, In l guess -> l <> []) ->
    GenerateLinearInitialGuess guess counts = Throw OutOfRange.
  Proof.
    intros guess counts N0 L NE. unfold GenerateLinearInitialGuess.
    rewrite GetIndex_ok by lia. cbn [obind].
    rewrite (front_ok guess []) by assumption. cbn [obind].
    assert (0 < length guess) by (destruct guess; simpl; [congruence|lia]).
    assert (N1 : nth 0 guess [] <> []) by (apply NE, nth_In; lia).
    rewrite (front_ok _ pose_default) by assumption. cbn [obind].
    replace (length counts + 1 - 1) with (length counts) by lia.
    replace (length counts) with ((length guess - 1) + S (length counts - length guess)) by lia.
    rewrite seq_app, foldM_app.
    assert (F : forall n s, n <= length guess - 1 ->
      exists s', foldM (guess_segment guess counts) (seq 1 n) s = Ok s').
    { intros n s Hn. induction n; [eexists; reflexivity|].
      destruct IHn as [s' E]; [lia|].
      rewrite seq_S, foldM_app, E. cbn [obind foldM].
      rewrite guess_segment_ok; try lia; [|apply NE, nth_In; lia..]. eexists; reflexivity. }
    match goal with |- context[foldM _ (seq 1 _) ?s] => destruct (F (length guess - 1) s) as [s' E]; [lia|] end.
    rewrite E. cbn [obind seq foldM]. unfold guess_segment.
    rewrite (at_ok counts _ 0) by lia. cbn [obind].
    rewrite at_throw by lia. reflexivity.
  Qed.

  (** *** Lengths *)
  Lemma seg_legs_sum : forall pts n, 1 < length pts ->
    list_sum (map (fun l : leg => snd l) (seg_legs pts n)) = n.
  Proof. intros. unfold seg_legs. rewrite legs_sum by lia. apply knot_end. Qed.

  Lemma seg_points_len : forall guess w, w < length guess -> (forall l, In l guess -> l <> []) ->
    1 < length (seg_points guess w).
  Proof.
    intros guess w L NE. unfold seg_points. simpl.
    assert (nth w guess [] <> []) by (apply NE, nth_In; lia).
    destruct (nth w guess []); [congruence|simpl; lia].
  Qed.

  Lemma list_sum_flat : forall {A} (f : A -> list nat) l,
    list_sum (flat_map f l) = list_sum (map (fun a => list_sum (f a)) l).
  Proof. induction l; simpl; [reflexivity|]. rewrite list_sum_app, IHl. reflexivity. Qed.
  Lemma map_flat_map : forall {A B C} (f : B -> C) (g : A -> list B) l,
    map f (flat_map g l) = flat_map (fun a => map f (g a)) l.
  Proof. induction l; simpl; [reflexivity|]. rewrite map_app, IHl. reflexivity. Qed.

  Lemma legs_upto_sum : forall guess counts n, n <= length counts -> length counts < length guess ->
    (forall l, In l guess -> l <> []) ->
    list_sum (map (fun l : leg => snd l)
      (flat_map (fun w => seg_legs (seg_points guess w) (nth (w - 1) counts 0)) (seq 1 n))) =
    list_sum (firstn n counts).
  Proof.
    intros guess counts n Hn L NE. induction n as [|n IH]; [reflexivity|].
    rewrite seq_S, flat_map_app, map_app, list_sum_app, IH by lia. cbn [flat_map].
    rewrite app_nil_r, seg_legs_sum by (apply seg_points_len; [lia|assumption]).
    rewrite list_sum_firstn_S. replace (1 + n - 1) with n by lia. reflexivity.
  Qed.

  Lemma all_legs_sum : forall guess counts, length counts < length guess ->
    (forall l, In l guess -> l <> []) ->
    list_sum (map (fun l : leg => snd l) (all_legs guess counts)) = list_sum counts.
  Proof.
    intros. unfold all_legs. rewrite legs_upto_sum by (try lia; assumption). rewrite firstn_all. reflexivity.
  Qed.

  Lemma flat_legs_length : forall {B} (f : Pose2 K -> Pose2 K -> nat -> list B) (l : list leg),
    (forall p q n, length (f p q n) = n) ->
    length (flat_map (fun '(p, q, n) => f p q n) l) = list_sum (map (fun l : leg => snd l) l).
  Proof.
    intros B f l H. apply flat_map_length_sum. intros [[p q] n] _. apply H.
  Qed.

  (** *** The sample [i] steps into stretch [j] of segment [s] (0-based). *)
  Lemma leg_nth : forall {B} (f : Pose2 K -> Pose2 K -> nat -> list B) guess counts s j i (x0 d : B),
    (forall p q n, length (f p q n) = n) ->
    length counts < length guess -> (forall l, In l guess -> l <> []) ->
    s < length counts ->
    let pts := seg_points guess (S s) in
    let n := nth s counts 0 in
    let g := length pts - 1 in
    j < g -> 1 <= i <= knot n g (S j) - knot n g j ->
    nth (list_sum (firstn s counts) + knot n g j + i)
      (x0 :: flat_map (fun '(p, q, n) => f p q n) (all_legs guess counts)) d =
    nth (i - 1) (f (nth j pts pose_default) (nth (S j) pts pose_default)
                   (knot n g (S j) - knot n g j)) d.
  Proof.
    intros B f guess counts s j i x0 d Hf L NE Hs pts n g Hj Hi.
    assert (P1 : 1 < length pts) by (apply seg_points_len; [lia|assumption]).
    set (F := fun '(p, q, n) => f p q n).
    unfold all_legs. rewrite (seq_split3 1 (length counts) s) by lia.
    rewrite flat_map_app. cbn [flat_map].
    change (1 + s) with (S s). replace (S s - 1) with s by lia. fold n pts.
    unfold seg_legs at 2. fold g. rewrite (seq_split3 0 g j) by lia. rewrite map_app. cbn [map].
    change (0 + j) with j.
    match goal with |- context[(?a ++ (?b ++ ?c :: ?e) ++ ?h)] =>
      replace (a ++ (b ++ c :: e) ++ h) with ((a ++ b) ++ c :: (e ++ h)) end.
    2:{ rewrite <- !app_assoc. reflexivity. }
    set (l2 := _ ++ flat_map _ _).
    set (l1 := _ ++ map (seg_leg pts n) (seq 0 j)).
    assert (E1 : length (flat_map F l1) = list_sum (firstn s counts) + knot n g j).
    { unfold F. rewrite flat_legs_length by assumption. unfold l1.
      rewrite map_app, list_sum_app, legs_upto_sum by (try lia; assumption).
      rewrite legs_sum by (fold g; lia). reflexivity. }
    replace (list_sum (firstn s counts) + knot n g j + i)
      with (S (length (flat_map F l1) + (i - 1))) by lia.
    cbn [nth]. rewrite nth_flat_map.
    - unfold F, seg_leg. reflexivity.
    - unfold F, seg_leg. rewrite Hf. fold g. lia.
  Qed.
End Guess.
