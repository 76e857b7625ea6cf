(** Values the decision variables are seeded with, and the closed form of the
    whole constructed generator, for every number type. *)
From Coq Require Import List Lia Bool.
Import ListNotations.
From Verif Require Import Outcome Num Geometry Expr Constraints Util Builder Guess Generator SpecBuilder
  UtilFacts BuilderFacts BuilderHistory GuessFacts GuessProofs GeneratorFacts.
Local Close Scope R_scope.
Local Close Scope Q_scope.
Local Close Scope num_scope.
Local Open Scope nat_scope.

Section Seeds.
  Context {K : Type} {HA : Arith K} {HD : Dbl K}.
  Variable m : nat.
  Notation w := (width m).

  Lemma width_pos : w <> 0.
  Proof. unfold width. lia. Qed.

  (** The value of variable number [q] of row [i]. *)
  Definition val (p : problem K) (q i : nat) : K := pr_vals p (i * w + q).

  Lemma cell_eqb : forall q i q' i', q < w -> q' < w ->
    (i' * w + q' =? i * w + q) = ((q' =? q) && (i' =? i)).
  Proof.
    intros q i q' i' Hq Hq'.
    destruct (Nat.eqb_spec q' q) as [->|Nq]; destruct (Nat.eqb_spec i' i) as [->|Ni]; cbn [andb].
    - apply Nat.eqb_refl.
    - apply Nat.eqb_neq. intros X. apply Ni.
      assert (i' * w = i * w) by lia. apply (Nat.mul_cancel_r i' i w width_pos). assumption.
    - apply Nat.eqb_neq. lia.
    - apply Nat.eqb_neq. intros X. apply Nq.
      assert (D1 : (i' * w + q') mod w = q') by (rewrite Nat.add_comm, Nat.mod_add by apply width_pos; apply Nat.mod_small; assumption).
      assert (D2 : (i * w + q) mod w = q) by (rewrite Nat.add_comm, Nat.mod_add by apply width_pos; apply Nat.mod_small; assumption).
      congruence.
  Qed.

  Lemma val_set : forall p q i k q' i', q < w -> q' < w ->
    val (pr_setvalue p (sv m q i) k) q' i' = if (q' =? q) && (i' =? i) then k else val p q' i'.
  Proof.
    intros. unfold val, sv. cbn [pr_setvalue pr_vals]. rewrite cell_eqb by assumption. reflexivity.
  Qed.

  (** Same problem up to variable values. *)
  Definition same_problem (p p' : problem K) : Prop :=
    pr_nvars p' = pr_nvars p /\ pr_cons p' = pr_cons p /\ pr_obj p' = pr_obj p.
  Lemma same_refl : forall p, same_problem p p.
  Proof. repeat split. Qed.
  Lemma same_set : forall p p' e k, same_problem p p' -> same_problem p (pr_setvalue p' e k).
  Proof. intros p p' e k (A & B & C). destruct e; repeat split; assumption. Qed.
  Lemma same_trans : forall p1 p2 p3, same_problem p1 p2 -> same_problem p2 p3 -> same_problem p1 p3.
  Proof. intros ? ? ? (A & B & C) (D & E & F). repeat split; congruence. Qed.

  Variables (T S0 : nat) (s : solution K).
  Hypothesis Lx : length (s_x s) = T.
  Hypothesis Ly : length (s_y s) = T.
  Hypothesis Lc : length (s_thetacos s) = T.
  Hypothesis Ls : length (s_thetasin s) = T.
  Hypothesis Ldt : length (s_dt s) = T.
  Notation lay := (layout T m S0).
  Notation z := (nlit 0).

  (** Finite differences of a sequence over the guess time steps. *)
  Definition diff_quot (f : nat -> K) (i : nat) : K :=
    match i with 0 => z | S j => ndiv (nsub (f i) (f j)) (nth i (s_dt s) z) end.
  Definition seed_omega (i : nat) : K :=
    match i with
    | 0 => z
    | S j => ndiv (rot_radians (rot_rotateBy
                 (mkRot (nth i (s_thetacos s) z) (nth i (s_thetasin s) z))
                 (rot_neg (mkRot (nth j (s_thetacos s) z) (nth j (s_thetasin s) z)))))
               (nth i (s_dt s) z)
    end.
  Definition seed (q i : nat) : K :=
    match q with
    | 0 => nth i (s_x s) z
    | 1 => nth i (s_y s) z
    | 2 => nth i (s_thetacos s) z
    | 3 => nth i (s_thetasin s) z
    | 4 => diff_quot (fun i => nth i (s_x s) z) i
    | 5 => diff_quot (fun i => nth i (s_y s) z) i
    | 6 => seed_omega i
    | 7 => diff_quot (diff_quot (fun i => nth i (s_x s) z)) i
    | 8 => diff_quot (diff_quot (fun i => nth i (s_y s) z)) i
    | _ => diff_quot seed_omega i
    end.

  Ltac wq := unfold width in *; lia.

  Lemma set_ok : forall q i (k : K) p, i < T ->
    set_idx (map (sv m q) (seq 0 T)) i k p = Ok (pr_setvalue p (sv m q i) k).
  Proof. intros. unfold set_idx. rewrite idx_map_seq by assumption. reflexivity. Qed.
  Lemma value_ok : forall q i (p : problem K), i < T -> value_idx (map (sv m q) (seq 0 T)) i p = Ok (val p q i).
  Proof. intros. unfold value_idx. rewrite idx_map_seq by assumption. reflexivity. Qed.

  Lemma pose_loop : forall p n, n <= T -> exists p',
    foldM (guess_pose_sample lay s) (seq 0 n) p = Ok p' /\ same_problem p p' /\
    forall i q, q < w -> val p' q i = if (q <? 4) && (i <? n) then seed q i else val p q i.
  Proof.
    intros p. induction n as [|n IH]; intros Hn.
    - exists p. split; [reflexivity|]. split; [apply same_refl|]. intros. rewrite andb_false_r. reflexivity.
    - destruct IH as (p' & E & S & V); [lia|].
      rewrite seq_S, foldM_app, E. cbn [obind foldM Nat.add]. unfold guess_pose_sample.
      cbn [v_x v_y v_cos v_sin layout].
      rewrite (idx_ok (s_x s) n z), (idx_ok (s_y s) n z), (idx_ok (s_thetacos s) n z),
        (idx_ok (s_thetasin s) n z) by lia.
      cbn [obind]. rewrite set_ok by lia. cbn [obind]. rewrite set_ok by lia. cbn [obind].
      rewrite set_ok by lia. cbn [obind]. rewrite set_ok by lia. cbn [obind].
      eexists. split; [reflexivity|]. split; [repeat apply same_set; assumption|].
      intros i q Hq. rewrite !val_set by wq. rewrite V by assumption.
      destruct (Nat.ltb_spec i (Datatypes.S n)); destruct (Nat.ltb_spec i n);
        destruct (Nat.eqb_spec i n); try lia;
        rewrite ?andb_true_r, ?andb_false_r; subst; try reflexivity;
        destruct q as [|[|[|[|q]]]]; reflexivity.
  Qed.

  Lemma motion_loop : forall p, 0 < T ->
    (forall q, 4 <= q < 10 -> val p q 0 = seed q 0) ->
    (forall q i, q < 4 -> i < T -> val p q i = seed q i) ->
    forall n, n < T -> exists p',
    foldM (guess_motion_sample lay s) (seq 1 n) p = Ok p' /\ same_problem p p' /\
    forall i q, q < w ->
      val p' q i = if (4 <=? q) && (q <? 10) && (1 <=? i) && (i <=? n) then seed q i else val p q i.
  Proof.
    intros p HT Z0 _. induction n as [|n IH]; intros Hn.
    - exists p. split; [reflexivity|]. split; [apply same_refl|]. intros i q Hq.
      destruct (Nat.leb_spec 1 i); destruct (Nat.leb_spec i 0); try lia;
        rewrite ?andb_false_r; try reflexivity.
    - destruct IH as (p' & E & SP & V); [lia|].
      rewrite seq_S, foldM_app, E. cbn [obind foldM].
      replace (1 + n) with (S n) by lia. unfold guess_motion_sample.
      cbn [v_vx v_vy v_omega v_ax v_ay v_alpha layout].
      replace (S n - 1) with n by lia.
      rewrite (idx_ok (s_x s) (S n) z), (idx_ok (s_x s) n z), (idx_ok (s_y s) (S n) z), (idx_ok (s_y s) n z),
        (idx_ok (s_thetacos s) (S n) z), (idx_ok (s_thetacos s) n z), (idx_ok (s_thetasin s) (S n) z),
        (idx_ok (s_thetasin s) n z), (idx_ok (s_dt s) (S n) z) by lia.
      cbn [obind]. do 3 (rewrite set_ok by lia; cbn [obind]).
      rewrite !value_ok by lia. cbn [obind].
      do 1 (rewrite set_ok by lia; cbn [obind]). rewrite !value_ok by lia. cbn [obind].
      do 1 (rewrite set_ok by lia; cbn [obind]). rewrite !value_ok by lia. cbn [obind].
      do 1 (rewrite set_ok by lia; cbn [obind]).
      assert (Vn : forall q, 4 <= q < 10 -> val p' q n = seed q n).
      { intros q Hq. rewrite V by wq.
        rewrite (proj2 (Nat.leb_le 4 q)), (proj2 (Nat.ltb_lt q 10)), (Nat.leb_refl n) by lia.
        destruct n; [cbn [andb Nat.leb]; apply Z0; assumption|reflexivity]. }
      eexists. split; [reflexivity|]. split; [repeat apply same_set; assumption|].
      intros i q Hq. rewrite !val_set by wq. cbn [Nat.eqb andb].
      rewrite ?Nat.eqb_refl. cbn [andb].
      assert (NE : (n =? S n) = false) by (apply Nat.eqb_neq; lia). rewrite ?NE.
      rewrite !Vn by lia. rewrite V by assumption.
      destruct (Nat.eqb_spec i (S n)) as [->|Hi].
      + rewrite ?andb_true_r. rewrite ?Nat.leb_refl. try rewrite (proj2 (Nat.leb_le 1 (S n))) by lia.
        rewrite (proj2 (Nat.leb_gt (S n) n)) by lia. rewrite ?andb_false_r, ?andb_true_r.
        destruct (Nat.leb_spec 4 q); destruct (Nat.ltb_spec q 10); cbn [andb].
        * destruct q as [|[|[|[|[|[|[|[|[|[|q]]]]]]]]]]; try lia; reflexivity.
        * do 10 (destruct q as [|q]; [lia|]). reflexivity.
        * do 4 (destruct q as [|q]; [reflexivity|]). lia.
        * lia.
      + rewrite !andb_false_r.
        destruct (Nat.leb_spec i n); destruct (Nat.leb_spec i (S n)); try lia; reflexivity.
  Qed.

  Lemma apply_guess_ok : forall p, 0 < T -> exists p',
    ApplyInitialGuess lay s p = Ok p' /\ same_problem p p' /\
    forall i q, q < w -> val p' q i = if (q <? 10) && (i <? T) then seed q i else val p q i.
  Proof.
    intros p HT. unfold ApplyInitialGuess.
    replace (length (v_x lay)) with T by (cbn [v_x layout]; rewrite map_length, seq_length; reflexivity).
    destruct (pose_loop p T (le_n T)) as (p1 & E1 & S1 & V1). rewrite E1. cbn [obind].
    cbn [v_vx v_vy v_omega v_ax v_ay v_alpha layout].
    do 6 (rewrite set_ok by lia; cbn [obind]).
    match goal with |- exists p', foldM _ _ ?p2 = _ /\ _ =>
      destruct (motion_loop p2 HT) with (n := T - 1) as (p3 & E3 & S3 & V3) end.
    - intros q Hq. rewrite !val_set by wq. rewrite Nat.eqb_refl.
      do 10 (destruct q as [|q]; [try lia; reflexivity|]). lia.
    - intros q i Hq Hi. rewrite !val_set by wq. rewrite V1 by wq.
      rewrite (proj2 (Nat.ltb_lt i T)) by assumption.
      do 4 (destruct q as [|q]; [reflexivity|]). lia.
    - lia.
    - exists p3. split; [exact E3|]. split.
      + eapply same_trans; [|exact S3]. repeat apply same_set. assumption.
      + intros i q Hq. rewrite V3 by assumption. rewrite !val_set by wq. rewrite V1 by assumption.
        destruct (Nat.leb_spec i (T - 1)); destruct (Nat.ltb_spec i T); try lia;
          destruct i as [|i]; rewrite ?andb_true_r, ?andb_false_r; cbn [Nat.leb Nat.eqb];
          rewrite ?andb_true_r, ?andb_false_r; try lia;
          do 10 (destruct q as [|q]; [reflexivity|]); reflexivity.
  Qed.
End Seeds.

Section Construct.
  Context {K : Type} {HA : Arith K} {HD : Dbl K}.

  (** All constraints of the problem built from [b] with drivetrain [d]. *)
  Definition problem_cons (b : builder K) (d : drivetrain K) : list (ccons K) :=
    let N := b_counts b in
    let T := 1 + list_sum N in
    let m := length (d_modules d) in
    flat_map (step_cons T m (d_modules d)) (seq 0 (length N)) ++
    map (fun s => CGe (dtv T m s) (nlit 0)) (seq 0 (length N)) ++
    flat_map (fun s => flat_map (fun k => kin_cons T m s (1 + start N s + k)) (seq 0 (nth s N 0)))
      (seq 0 (length N)) ++
    flat_map (dyn_cons m d) (seq 0 T) ++
    flat_map (fun w => flat_map (applied m (start N w)) (constraints_at b w)) (seq 0 (1 + length N)) ++
    flat_map (fun s => flat_map (fun c => flat_map (fun i => applied m i c) (seq (1 + start N s) (nth s N 0)))
                (segment_constraints_to b (S s))) (seq 0 (length N)).

  Theorem construct_ok : forall (b : builder K) handle d, inv b ->
    length (b_counts b) < waypoint_count b -> b_drivetrain b = Some d ->
    let N := b_counts b in
    let T := 1 + list_sum N in
    let m := length (d_modules d) in
    let guess := guess_result (b_guess b) N in
    exists p,
      construct b handle = Ok (mkGen (layout T m (length N)) N p (b_callbacks b) handle) /\
      pr_nvars p = T * width m + length N /\
      pr_cons p = problem_cons b d /\
      pr_obj p = Some (objective T m N) /\
      (forall q i, q < 10 -> i < T -> val m p q i = seed guess q i) /\
      (forall i j, i < T -> j < m -> val m p (10 + 2 * j) i = nlit 0 /\ val m p (11 + 2 * j) i = nlit 0) /\
      (forall s, s < length N -> pr_vals p (T * width m + s) = ndiv (nlit 5) (nofnat (nth s N 0))).
  Proof.
    intros b handle d I L D N T m guess.
    assert (W : length (b_guess b) = waypoint_count b) by (destruct I as (I1 & _); exact I1).
    assert (NE : forall l, In l (b_guess b) -> l <> []).
    { destruct I as (_ & I2 & _). rewrite Forall_forall in I2. exact I2. }
    unfold construct. change (GetControlIntervalCounts b) with N.
    destruct (guess_outcome b I) as [[E _]|[[E _]|[_ G]]].
    { rewrite E in W. simpl in W. lia. }
    { lia. }
    rewrite G. cbn [obind]. change (guess_result (b_guess b) (b_counts b)) with guess.
    rewrite GetIndex_ok by lia. cbn [obind Nat.ltb Nat.leb].
    match goal with |- context [alloc_samples ?t _ _] =>
      replace t with T by (replace (1 + length N - 1) with (length N) by lia; rewrite firstn_len; unfold T; simpl; lia)
    end.
    rewrite D. fold m.
    rewrite alloc_samples_ok by reflexivity. cbn [obind].
    rewrite minWidth_ok. cbn [obind].
    rewrite alloc_dt_ok by reflexivity. cbn [obind].
    match goal with |- context [foldM (obj_step _ _) _ (_, ?p0)] =>
      destruct (obj_ok T m (length N) N p0 (le_n _)) as (vals & E & V1 & V2); rewrite E; clear E end.
    cbn [obind].
    replace (1 + length N - 1) with (length N) by lia.
    rewrite kin_ok by reflexivity. cbn [obind].
    rewrite (dyn_ok T m (length N) N) by reflexivity. cbn [obind].
    rewrite wpt_ok by (try reflexivity; exact L). cbn [obind].
    rewrite sgmt_ok by (try reflexivity; exact L). cbn [obind].
    destruct (guess_result_lengths (b_guess b) N ltac:(unfold N; lia) NE) as (X1 & X2 & X3 & X4 & X5).
    match goal with |- context [ApplyInitialGuess _ _ ?p0] =>
      destruct (apply_guess_ok m T (length N) guess X1 X2 X3 X4 X5 p0 ltac:(unfold T; lia))
        as (p & E & (S1 & S2 & S3) & V) end.
    rewrite E. cbn [obind]. clear E.
    exists p. split; [reflexivity|]. split; [|split; [|split; [|split; [|split]]]].
    - rewrite S1. reflexivity.
    - rewrite S2. unfold problem_cons. fold N T m.
      unfold pr_subject, pr_minimize, set_vals, with_nvars. cbn [pr_cons].
      rewrite <- ?app_assoc. reflexivity.
    - rewrite S3. reflexivity.
    - intros q i Hq Hi. rewrite V by (unfold width; lia).
      rewrite (proj2 (Nat.ltb_lt q 10)), (proj2 (Nat.ltb_lt i T)) by assumption. reflexivity.
    - intros i j Hi Hj. rewrite !V by (unfold width; lia).
      rewrite (proj2 (Nat.ltb_ge (10 + 2 * j) 10)), (proj2 (Nat.ltb_ge (11 + 2 * j) 10)) by lia.
      cbn [andb]. unfold val. cbn [pr_subject pr_minimize set_vals with_nvars pr_vals].
      assert (i * width m + width m <= T * width m).
      { replace (i * width m + width m) with (S i * width m) by lia. apply Nat.mul_le_mono_r. lia. }
      rewrite !V2 by (unfold width in *; lia). split; reflexivity.
    - intros s0 Hs. pose proof (V ((T * width m + s0) / width m) ((T * width m + s0) mod width m)
        (Nat.mod_upper_bound _ _ (width_pos m))) as Y.
      unfold val in Y. rewrite (Nat.mul_comm _ (width m)) in Y.
      rewrite <- Nat.div_mod in Y by apply width_pos.
      rewrite Y. cbn [pr_subject pr_minimize set_vals with_nvars pr_vals].
      assert (T <= (T * width m + s0) / width m).
      { apply Nat.div_le_lower_bound; [apply width_pos|]. lia. }
      rewrite (proj2 (Nat.ltb_ge _ T)) by assumption. rewrite andb_false_r.
      apply V1. assumption.
  Qed.

  (** The other outcomes of the constructor. *)
  Theorem construct_fails : forall (b : builder K) handle, inv b ->
    (waypoint_count b = 0 -> construct b handle = Undef EmptyAccess) /\
    (0 < waypoint_count b <= length (b_counts b) -> construct b handle = Throw OutOfRange) /\
    (length (b_counts b) < waypoint_count b -> b_drivetrain b = None ->
       construct b handle = Undef Uninitialized).
  Proof.
    intros b handle I.
    assert (W : length (b_guess b) = waypoint_count b) by (destruct I as (I1 & _); exact I1).
    destruct (guess_outcome b I) as [[E G]|[[E G]|[L G]]].
    - rewrite E in W. simpl in W. repeat split; intros; try lia.
      unfold construct. rewrite G. reflexivity.
    - repeat split; intros; try lia. unfold construct. rewrite G. reflexivity.
    - repeat split; intros; try lia. unfold construct. rewrite G. cbn [obind].
      change (GetControlIntervalCounts b) with (b_counts b).
      rewrite GetIndex_ok by lia. cbn [obind Nat.ltb Nat.leb].
      match goal with |- context [alloc_samples ?t _ _] =>
        replace t with (1 + list_sum (b_counts b))
          by (replace (1 + length (b_counts b) - 1) with (length (b_counts b)) by lia; rewrite firstn_len; simpl; lia)
      end.
      rewrite H0. cbn [length].
      rewrite alloc_samples_ok by reflexivity. cbn [obind].
      rewrite minWidth_ok. cbn [obind].
      rewrite alloc_dt_ok by reflexivity. cbn [obind].
      match goal with |- context [foldM (obj_step _ _) _ (_, ?p0)] =>
        destruct (obj_ok (1 + list_sum (b_counts b)) 0 (length (b_counts b)) (b_counts b) p0 (le_n _))
          as (vals & E & _); rewrite E; clear E end.
      cbn [obind].
      replace (1 + length (b_counts b) - 1) with (length (b_counts b)) by lia.
      rewrite kin_ok by reflexivity. cbn [obind].
      rewrite (dyn_none _ 0 _ (b_counts b)) by reflexivity. reflexivity.
  Qed.
End Construct.
