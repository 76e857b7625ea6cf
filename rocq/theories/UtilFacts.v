(** Proofs about GetIndex, Linspace, AngleLinspace. *)
From Coq Require Import List Lia Lra Psatz.
From Coq Require Import Qreals.
Import ListNotations.
From Verif Require Import Outcome Num NumR Util.
Local Close Scope R_scope.
Local Close Scope Q_scope.
Local Close Scope num_scope.

(** ** Generic list facts *)
Lemma nth_error_map_seq : forall {A} (f : nat -> A) n s i,
  nth_error (map f (seq s n)) i = if i <? n then Some (f (s + i)) else None.
Proof.
  intros A f n. induction n; intros s i; simpl.
  - destruct i; reflexivity.
  - destruct i; simpl.
    + rewrite Nat.add_0_r. reflexivity.
    + rewrite IHn. rewrite <- Nat.add_succ_comm. reflexivity.
Qed.

Lemma foldM_ok : forall {A S} (f : A -> S -> outcome S) (g : S -> A -> S) l s,
  (forall a s, In a l -> f a s = Ok (g s a)) ->
  foldM f l s = Ok (fold_left g l s).
Proof.
  induction l; intros s Hf; simpl; [reflexivity|].
  rewrite Hf by (left; reflexivity). simpl. apply IHl. intros; apply Hf; right; assumption.
Qed.

Lemma foldM_app : forall {A S} (f : A -> S -> outcome S) l1 l2 s,
  foldM f (l1 ++ l2) s = (s' <- foldM f l1 s ;; foldM f l2 s').
Proof.
  induction l1; intros; simpl; [reflexivity|].
  destruct (f a s); simpl; auto.
Qed.

Lemma at_ok : forall {A} (l : list A) i d, i < length l -> at_ l i = Ok (nth i l d).
Proof.
  intros. unfold at_. rewrite (nth_error_nth' l d H). reflexivity.
Qed.
Lemma at_throw : forall {A} (l : list A) i, length l <= i -> at_ l i = Throw OutOfRange.
Proof.
  intros. unfold at_. rewrite (proj2 (nth_error_None l i)); auto.
Qed.
Lemma idx_ok : forall {A} (l : list A) i d, i < length l -> idx l i = Ok (nth i l d).
Proof.
  intros. unfold idx. rewrite (nth_error_nth' l d H). reflexivity.
Qed.

(** ** GetIndex *)
Lemma GetIndex_fold : forall N n acc, n <= length N ->
  foldM (fun w index => x <- at_ N (w - 1) ;; Ok (index + x)) (seq 1 n) acc
  = Ok (acc + list_sum (firstn n N)).
Proof.
  intros N n. induction n; intros acc Hn.
  - simpl. rewrite Nat.add_0_r. reflexivity.
  - rewrite seq_S, foldM_app, IHn by lia. cbn [foldM obind].
    rewrite (at_ok N _ 0) by lia. cbn [foldM obind].
    f_equal. rewrite <- Nat.add_assoc. f_equal.
    replace (1 + n - 1) with n by lia.
    assert (H : firstn (S n) N = firstn n N ++ [nth n N 0]).
    { clear -Hn. revert N Hn. induction n; intros [|a N] Hn; simpl in *; try lia.
      - reflexivity.
      - f_equal. rewrite <- IHn by lia. reflexivity. }
    rewrite H, list_sum_app. simpl. lia.
Qed.

Lemma GetIndex_ok : forall N w k, w <= S (length N) ->
  GetIndex N w k = Ok ((if w =? 0 then 0 else 1) + list_sum (firstn (w - 1) N) + k).
Proof.
  intros. unfold GetIndex. rewrite GetIndex_fold by lia. simpl.
  destruct w; reflexivity.
Qed.

Lemma GetIndex_S : forall N s k, s <= length N ->
  GetIndex N (S s) k = Ok (S (list_sum (firstn s N)) + k).
Proof.
  intros. rewrite GetIndex_ok by lia. simpl. rewrite Nat.sub_0_r. reflexivity.
Qed.

Lemma GetIndex_throw : forall N w k, S (length N) < w -> GetIndex N w k = Throw OutOfRange.
Proof.
  intros. unfold GetIndex.
  replace (w - 1) with (length N + (1 + (w - length N - 2))) by lia.
  rewrite seq_app, foldM_app, GetIndex_fold by lia. cbn [obind].
  rewrite seq_app. cbn [seq app foldM].
  rewrite at_throw by lia. reflexivity.
Qed.

Lemma list_sum_skipn : forall N s, s < length N ->
  list_sum N = list_sum (firstn s N) + nth s N 0 + list_sum (skipn (S s) N).
Proof.
  induction N; simpl; intros; [lia|].
  destruct s; simpl; [reflexivity|]. rewrite (IHN s) by lia. simpl. lia.
Qed.

Lemma list_sum_firstn_le : forall N s, list_sum (firstn s N) <= list_sum N.
Proof.
  induction N; destruct s; simpl; try lia. specialize (IHN s). lia.
Qed.

Lemma list_sum_firstn_mono : forall N a b, a <= b -> list_sum (firstn a N) <= list_sum (firstn b N).
Proof.
  induction N as [|x N IH]; intros a b; destruct a, b; simpl; intros; try lia.
  specialize (IH a b). lia.
Qed.

Lemma list_sum_firstn_S : forall N s, list_sum (firstn (S s) N) = list_sum (firstn s N) + nth s N 0.
Proof.
  induction N; intros [|s]; simpl; try lia. rewrite <- Nat.add_assoc, <- IHN. reflexivity.
Qed.

Lemma flat_map_seq_shift : forall {A} (f : nat -> list A) s n,
  flat_map f (seq (S s) n) = flat_map (fun i => f (S i)) (seq s n).
Proof.
  intros. rewrite <- seq_shift, flat_map_concat_map, map_map, <- flat_map_concat_map. reflexivity.
Qed.

Lemma seq_flat : forall N o,
  flat_map (fun s => map (fun k => o + list_sum (firstn s N) + k) (seq 0 (nth s N 0)))
    (seq 0 (length N)) = seq o (list_sum N).
Proof.
  induction N; intros o; [reflexivity|].
  simpl length. rewrite <- cons_seq. simpl flat_map.
  rewrite flat_map_seq_shift. simpl list_sum. rewrite seq_app.
  f_equal.
  - rewrite Nat.add_0_r. clear. revert o.
    assert (H : forall n s o, map (fun k => o + k) (seq s n) = seq (o + s) n).
    { induction n; simpl; intros; [reflexivity|]. f_equal. rewrite IHn. f_equal. lia. }
    intros. rewrite H, Nat.add_0_r. reflexivity.
  - rewrite <- IHN. apply flat_map_ext. intros s. apply map_ext. intros k. lia.
Qed.

Lemma GetIndex_enumerates : forall N,
  flat_map (fun s => map (fun k => GetIndex N (1 + s) k) (seq 0 (nth s N 0)))
    (seq 0 (length N)) = map Ok (seq 1 (list_sum N)).
Proof.
  intros. rewrite <- (seq_flat N 1).
  rewrite !flat_map_concat_map, concat_map, map_map. f_equal.
  apply map_ext_in. intros s Hs. apply in_seq in Hs. rewrite map_map.
  apply map_ext. intros k. simpl Nat.add at 1. rewrite GetIndex_S by lia. reflexivity.
Qed.

Lemma firstn_len : forall (N : list nat), list_sum (firstn (length N) N) = list_sum N.
Proof. intros. rewrite firstn_all. reflexivity. Qed.

(** ** Linspace over any number type: length and entries *)
Section Generic.
  Context {K : Type} `{Arith K} `{Dbl K}.
  Lemma Linspace_length : forall (a b : K) n, length (Linspace a b n) = n.
  Proof. intros. unfold Linspace. rewrite map_length, seq_length. reflexivity. Qed.
  Lemma AngleLinspace_length : forall (a b : K) n, length (AngleLinspace a b n) = n.
  Proof. intros. apply Linspace_length. Qed.
  Lemma Linspace_nth : forall (a b : K) n k d, k < n ->
    nth k (Linspace a b n) d
    = nadd a (nmul (nofnat (S k)) (ndiv (nsub b a) (nofnat n))).
  Proof.
    intros. unfold Linspace.
    apply nth_error_nth. rewrite nth_error_map_seq.
    destruct (Nat.ltb_spec k n); [|lia]. reflexivity.
  Qed.
End Generic.

(** ** Over the reals *)
Open Scope R_scope.

Lemma Q2R_inject : forall z, Q2R (inject_Z z) = IZR z.
Proof. intros. unfold Q2R. simpl. field. Qed.
Lemma nlit_R_Z : forall z, nlit (inject_Z z) = IZR z.
Proof. exact Q2R_inject. Qed.
Lemma nlit_R_0 : nlit 0%Q = 0%R.
Proof. apply (Q2R_inject 0). Qed.
Lemma nlit_R_1 : nlit 1%Q = 1%R.
Proof. apply (Q2R_inject 1). Qed.
Lemma nlit_R_2 : nlit 2%Q = 2%R.
Proof. apply (Q2R_inject 2). Qed.
Lemma nlit_R_5 : nlit 5%Q = 5%R.
Proof. apply (Q2R_inject 5). Qed.
Lemma nofnat_R : forall n, @nofnat R Dbl_R n = INR n.
Proof. intros. unfold nofnat. simpl. rewrite <- INR_IZR_INZ. reflexivity. Qed.

Lemma Linspace_nth_R : forall (a b : R) n k, (k < n)%nat ->
  nth k (Linspace a b n) 0 = a + INR (S k) * ((b - a) / INR n).
Proof. intros. rewrite Linspace_nth by assumption. rewrite !nofnat_R. reflexivity. Qed.

Lemma Linspace_last_R : forall (a b : R) n, (0 < n)%nat ->
  nth (n - 1) (Linspace a b n) 0 = b.
Proof.
  intros. rewrite Linspace_nth_R by lia. replace (S (n - 1)) with n by lia.
  field. apply not_0_INR. lia.
Qed.

Lemma Linspace_step_R : forall (a b : R) n k, (S k < n)%nat ->
  nth (S k) (Linspace a b n) 0 - nth k (Linspace a b n) 0 = (b - a) / INR n.
Proof. intros. rewrite !Linspace_nth_R by lia. rewrite (S_INR (S k)). ring. Qed.

Lemma Linspace_between_R : forall (a b : R) n k, (k < n)%nat ->
  Rmin a b <= nth k (Linspace a b n) 0 <= Rmax a b.
Proof.
  intros a b n k Hk. rewrite Linspace_nth_R by assumption.
  assert (Hn : 0 < INR n) by (apply lt_0_INR; lia).
  assert (H0 : 0 <= INR (S k) / INR n).
  { apply Rmult_le_pos; [apply pos_INR|]. left. apply Rinv_0_lt_compat. assumption. }
  assert (H1 : INR (S k) / INR n <= 1).
  { apply Rmult_le_reg_r with (INR n); [assumption|].
    unfold Rdiv. rewrite Rmult_assoc, Rinv_l by lra. rewrite Rmult_1_l, Rmult_1_r.
    apply le_INR. lia. }
  replace (INR (S k) * ((b - a) / INR n)) with ((INR (S k) / INR n) * (b - a)) by (field; lra).
  set (t := INR (S k) / INR n) in *.
  unfold Rmin, Rmax. destruct (Rle_dec a b); nra.
Qed.

(** Truncation *)
Lemma Int_part_bounds : forall x, IZR (Int_part x) <= x < IZR (Int_part x) + 1.
Proof.
  intros. destruct (base_Int_part x). lra.
Qed.
Lemma Int_part_unique : forall x z, IZR z <= x < IZR z + 1 -> Int_part x = z.
Proof.
  intros x z [H1 H2]. destruct (Int_part_bounds x) as [H3 H4].
  assert (A : IZR (Int_part x) < IZR (z + 1)) by (rewrite plus_IZR; lra).
  assert (B : IZR z < IZR (Int_part x + 1)) by (rewrite plus_IZR; lra).
  apply lt_IZR in A. apply lt_IZR in B. lia.
Qed.
Lemma Rtrunc_spec : forall x, exists z, Rtrunc x = IZR z /\
  (0 <= x -> IZR z <= x < IZR z + 1 /\ (0 <= z)%Z) /\
  (x < 0 -> IZR z - 1 < x <= IZR z /\ (z <= 0)%Z).
Proof.
  intros. unfold Rtrunc. destruct (Rle_dec 0 x).
  - exists (Int_part x). split; [reflexivity|]. split; [|lra].
    intros _. pose proof (Int_part_bounds x). split; [assumption|].
    assert (IZR (-1) < IZR (Int_part x)) by (simpl; lra).
    apply lt_IZR in H0. lia.
  - exists (- Int_part (- x))%Z. rewrite opp_IZR. split; [reflexivity|].
    split; [lra|]. intros _. pose proof (Int_part_bounds (- x)). split; [lra|].
    assert (IZR (-1) < IZR (Int_part (-x))) by (simpl; lra).
    apply lt_IZR in H0. lia.
Qed.

Lemma angle_diff_R : forall a b : R, exists k : Z,
  angle_diff a b = (b - a) + 2 * IZR k * PI /\
  - PI < angle_diff a b <= PI.
Proof.
  intros a b. unfold angle_diff.
  change (@nsub R Arith_R) with Rminus. change (@nmul R Arith_R) with Rmult.
  change (@ndiv R Arith_R) with Rdiv. change (@nneg R Arith_R) with Ropp.
  change (@npi R Dbl_R) with PI. change (@ntrunc R Dbl_R) with Rtrunc.
  rewrite nlit_R_2.
  pose proof PI_RGT_0 as HPI.
  set (d := b - a).
  destruct (Rtrunc_spec ((d - - PI) / (2 * PI))) as (z1 & Hz1 & Hp1 & Hn1).
  rewrite Hz1.
  set (d1 := d - IZR z1 * (2 * PI)) in *.
  destruct (Rtrunc_spec ((d1 - PI) / (2 * PI))) as (z2 & Hz2 & Hp2 & Hn2).
  rewrite Hz2.
  exists (- z1 - z2)%Z. split.
  - rewrite minus_IZR, opp_IZR. unfold d1. ring.
  - (* t1 = (d+pi)/2pi *)
    assert (E1 : d = 2 * PI * ((d - - PI) / (2 * PI)) - PI) by (field; lra).
    assert (E2 : d1 = 2 * PI * ((d1 - PI) / (2 * PI)) + PI) by (field; lra).
    set (t1 := (d - - PI) / (2 * PI)) in *.
    set (t2 := (d1 - PI) / (2 * PI)) in *.
    assert (E3 : t2 = t1 - IZR z1 - 1).
    { unfold d1 in E2. apply Rmult_eq_reg_l with (2 * PI); [|lra]. lra. }
    assert (X : - PI < d1 - IZR z2 * (2 * PI) <= PI <-> - 1 < t2 - IZR z2 <= 0).
    { rewrite E2. split; intros [U V]; split; nra. }
    apply X. clear X.
    destruct (Rle_dec 0 t1) as [P1|P1].
    + destruct (Hp1 P1) as [B1 C1].
      assert (T2 : t2 < 0) by lra. destruct (Hn2 T2) as [B2 C2]. lra.
    + assert (t1 < 0) as P1' by lra. destruct (Hn1 P1') as [B1 C1].
      assert (T2 : t2 < 0) by lra. destruct (Hn2 T2) as [B2 C2]. lra.
Qed.

Lemma cong_unique : forall x y : R, forall k : Z,
  - PI < x <= PI -> - PI < y <= PI -> x = y + 2 * IZR k * PI -> x = y.
Proof.
  intros x y k Hx Hy E. pose proof PI_RGT_0.
  assert (A : IZR k < 1) by nra. assert (B : -1 < IZR k) by nra.
  apply (lt_IZR k 1) in A. apply (lt_IZR (-1) k) in B.
  assert (k = 0)%Z by lia. subst. lra.
Qed.
