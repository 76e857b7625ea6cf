(** Two segments without a common point are nowhere closer than at an endpoint
    of one of them. *)
From Coq Require Import Reals Lra Lia List.
Import ListNotations.
From Verif Require Import Geometry Spec SpecPhysics.
Open Scope R_scope.

(** A walk from inside the unit interval to outside leaves it at an end. *)
Lemma leave_one : forall x0 x1, 0 <= x0 <= 1 -> ~ 0 <= x1 <= 1 ->
  exists l, 0 <= l <= 1 /\ (x0 + l * (x1 - x0) = 0 \/ x0 + l * (x1 - x0) = 1) /\
    forall m, 0 <= m <= l -> 0 <= x0 + m * (x1 - x0) <= 1.
Proof.
  intros x0 x1 H N. destruct (Rlt_dec x1 0) as [L|L].
  - exists (x0 / (x0 - x1)).
    assert (P : 0 < x0 - x1) by lra.
    assert (E : x0 / (x0 - x1) * (x0 - x1) = x0) by (field; lra).
    set (l := x0 / (x0 - x1)) in *. clearbody l.
    assert (B : 0 <= l <= 1) by (split; nra).
    split; [exact B|]. split; [left; nra|]. intros m Hm. split; nra.
  - assert (x1 > 1) by lra. exists ((1 - x0) / (x1 - x0)).
    assert (P : 0 < x1 - x0) by lra.
    assert (E : (1 - x0) / (x1 - x0) * (x1 - x0) = 1 - x0) by (field; lra).
    set (l := (1 - x0) / (x1 - x0)) in *. clearbody l.
    assert (B : 0 <= l <= 1) by (split; nra).
    split; [exact B|]. split; [right; nra|]. intros m Hm. split; nra.
Qed.

Lemma stay_one : forall x0 x1 m, 0 <= x0 <= 1 -> 0 <= x1 <= 1 -> 0 <= m <= 1 -> 0 <= x0 + m * (x1 - x0) <= 1.
Proof. intros. split; nra. Qed.

Definition unit_square (s t : R) : Prop := 0 <= s <= 1 /\ 0 <= t <= 1.
Definition on_border (s t : R) : Prop := unit_square s t /\ (s = 0 \/ s = 1 \/ t = 0 \/ t = 1).

(** The same for the unit square. *)
Lemma leave_square : forall s0 t0 s1 t1, unit_square s0 t0 -> ~ unit_square s1 t1 ->
  exists l, 0 <= l <= 1 /\ on_border (s0 + l * (s1 - s0)) (t0 + l * (t1 - t0)).
Proof.
  intros s0 t0 s1 t1 [Hs Ht] N. unfold on_border, unit_square in *.
  assert (Ds : 0 <= s1 <= 1 \/ ~ 0 <= s1 <= 1) by lra.
  assert (Dt : 0 <= t1 <= 1 \/ ~ 0 <= t1 <= 1) by lra.
  destruct Ds as [Ds|Ds], Dt as [Dt|Dt].
  - exfalso. tauto.
  - destruct (leave_one t0 t1 Ht Dt) as (l & Hl & E & In). exists l. split; [exact Hl|].
    split; [split; [apply stay_one; assumption|apply In; lra]|]. tauto.
  - destruct (leave_one s0 s1 Hs Ds) as (l & Hl & E & In). exists l. split; [exact Hl|].
    split; [split; [apply In; lra|apply stay_one; assumption]|]. tauto.
  - destruct (leave_one t0 t1 Ht Dt) as (l & Hl & E & In).
    destruct (leave_one s0 s1 Hs Ds) as (m & Hm & F & In').
    destruct (Rle_dec l m) as [L|L].
    + exists l. split; [exact Hl|]. split; [split; [apply In'; lra|apply In; lra]|]. tauto.
    + exists m. split; [exact Hm|]. split; [split; [apply In'; lra|apply In; lra]|]. tauto.
Qed.

Definition sq (v : R * R) : R := fst v * fst v + snd v * snd v.
Definition gap (a b c d : R * R) (s t : R) : R * R :=
  (fst (along a b s) - fst (along c d t), snd (along a b s) - snd (along c d t)).

Lemma border_closer : forall a b c d s t, unit_square s t ->
  (exists s' t', unit_square s' t' /\ gap a b c d s' t' = (0, 0)) \/
  exists s' t', on_border s' t' /\ sq (gap a b c d s' t') <= sq (gap a b c d s t).
Proof.
  intros [ax ay] [bx by_] [cx cy] [dx dy] s t U.
  set (ux := bx - ax). set (uy := by_ - ay). set (vx := dx - cx). set (vy := dy - cy).
  set (D := ux * vy - uy * vx).
  destruct (Req_dec D 0) as [Z|Z].
  - (* parallel: move without changing the gap *)
    right.
    assert (M : exists p q, (p <> 0 \/ q <> 0) /\ p * ux - q * vx = 0 /\ p * uy - q * vy = 0).
    { destruct (Req_dec ux 0) as [X|X].
      - destruct (Req_dec uy 0) as [Y|Y].
        + exists 1, 0. split; [left; lra|]. rewrite X, Y. split; ring.
        + exists vy, uy. split; [right; exact Y|]. unfold D in Z. rewrite X in *. split; [nra|ring].
      - exists vx, ux. split; [right; exact X|]. split; [ring|]. unfold D in Z. lra. }
    destruct M as (p & q & NZ & E1 & E2).
    assert (Out : exists k, ~ unit_square (s + k * p) (t + k * q)).
    { destruct (Req_dec p 0) as [P|P].
      - assert (Q : q <> 0) by tauto. exists (2 / q). intros [_ [_ H]].
        replace (2 / q * q) with 2 in H by (field; exact Q). destruct U. lra.
      - exists (2 / p). intros [[_ H] _]. replace (2 / p * p) with 2 in H by (field; exact P). destruct U. lra. }
    destruct Out as (k & Out). destruct (leave_square s t _ _ U Out) as (l & _ & B).
    eexists _, _. split; [exact B|]. right. unfold sq, gap, along. cbn [fst snd]. fold ux uy vx vy.
    replace (ax + (s + l * (s + k * p - s)) * ux - (cx + (t + l * (t + k * q - t)) * vx))
      with (ax + s * ux - (cx + t * vx) + l * k * (p * ux - q * vx)) by ring.
    replace (ay + (s + l * (s + k * p - s)) * uy - (cy + (t + l * (t + k * q - t)) * vy))
      with (ay + s * uy - (cy + t * vy) + l * k * (p * uy - q * vy)) by ring.
    rewrite E1, E2. ring.
  - (* the lines meet once *)
    set (s1 := ((cx - ax) * vy - (cy - ay) * vx) / D). set (t1 := ((cx - ax) * uy - (cy - ay) * ux) / D).
    assert (G1 : ax + s1 * ux = cx + t1 * vx).
    { unfold s1, t1. apply (Rmult_eq_reg_r D); [|exact Z]. field_simplify; [|exact Z|exact Z]. unfold D. ring. }
    assert (G2 : ay + s1 * uy = cy + t1 * vy).
    { unfold s1, t1. apply (Rmult_eq_reg_r D); [|exact Z]. field_simplify; [|exact Z|exact Z]. unfold D. ring. }
    clearbody s1 t1.
    assert (Dec : unit_square s1 t1 \/ ~ unit_square s1 t1) by (unfold unit_square; lra).
    destruct Dec as [In|Out].
    + left. exists s1, t1. split; [exact In|]. unfold gap, along. cbn [fst snd]. fold ux uy vx vy. rewrite G1, G2.
      f_equal; ring.
    + right. destruct (leave_square s t _ _ U Out) as (l & Hl & B). eexists _, _. split; [exact B|].
      unfold sq, gap, along. cbn [fst snd]. fold ux uy vx vy.
      replace (ax + (s + l * (s1 - s)) * ux - (cx + (t + l * (t1 - t)) * vx))
        with ((1 - l) * (ax + s * ux - (cx + t * vx)) + l * (ax + s1 * ux - (cx + t1 * vx))) by ring.
      replace (ay + (s + l * (s1 - s)) * uy - (cy + (t + l * (t1 - t)) * vy))
        with ((1 - l) * (ay + s * uy - (cy + t * vy)) + l * (ay + s1 * uy - (cy + t1 * vy))) by ring.
      rewrite G1, G2. set (X := ax + s * ux - (cx + t * vx)). set (Y := ay + s * uy - (cy + t * vy)).
      replace (((1 - l) * X + l * (cx + t1 * vx - (cx + t1 * vx))) * ((1 - l) * X + l * (cx + t1 * vx - (cx + t1 * vx))) +
               ((1 - l) * Y + l * (cy + t1 * vy - (cy + t1 * vy))) * ((1 - l) * Y + l * (cy + t1 * vy - (cy + t1 * vy))))
        with ((1 - l) * (1 - l) * (X * X + Y * Y)) by ring.
      pose proof (Rle_0_sqr X) as SX. pose proof (Rle_0_sqr Y) as SY. unfold Rsqr in SX, SY.
      assert ((1 - l) * (1 - l) <= 1) by nra. nra.
Qed.

Lemma dist2_sym : forall p q, dist2 p q = dist2 q p.
Proof. intros p q. unfold dist2. f_equal. ring. Qed.
Lemma dist2_sq : forall a b c d s t, dist2 (along a b s) (along c d t) = sqrt (sq (gap a b c d s t)).
Proof. reflexivity. Qed.
Lemma along_0 : forall a b, along a b 0 = a.
Proof. intros [x y] b. unfold along. cbn [fst snd]. f_equal; ring. Qed.
Lemma along_1 : forall a b, along a b 1 = b.
Proof. intros [x y] [z w]. unfold along. cbn [fst snd]. f_equal; ring. Qed.

(** All endpoints of either segment at distance [e] from the other one. *)
Lemma segments_apart : forall a b c d e,
  clear_of_segment a b c e -> clear_of_segment a b d e ->
  clear_of_segment c d a e -> clear_of_segment c d b e ->
  (exists p, on_segment a b p /\ on_segment c d p) \/
  forall p q, on_segment a b p -> on_segment c d q -> e <= dist2 p q.
Proof.
  intros a b c d e A1 A2 A3 A4.
  destruct (Classical_Prop.classic (exists p, on_segment a b p /\ on_segment c d p)) as [X|X]; [left; exact X|].
  right. intros p q (s & Hs & ->) (t & Ht & ->).
  destruct (border_closer a b c d s t (conj Hs Ht)) as [(s' & t' & [Us Ut] & G)|(s' & t' & [[Us Ut] B] & L)].
  - exfalso. apply X. exists (along a b s'). split; [exists s'; split; [exact Us|reflexivity]|].
    exists t'. split; [exact Ut|]. unfold gap in G. pose proof (f_equal fst G) as G1. pose proof (f_equal snd G) as G2.
    destruct (along a b s') as [x y], (along c d t') as [z w]. cbn [fst snd] in G1, G2. f_equal; lra.
  - apply (Rle_trans _ (dist2 (along a b s') (along c d t'))).
    2: { rewrite !dist2_sq. apply sqrt_le_1_alt. exact L. }
    destruct B as [B|[B|[B|B]]]; subst.
    + rewrite along_0, dist2_sym. apply A3. exists t'. split; [exact Ut|reflexivity].
    + rewrite along_1, dist2_sym. apply A4. exists t'. split; [exact Ut|reflexivity].
    + rewrite along_0. apply A1. exists s'. split; [exact Us|reflexivity].
    + rewrite along_1. apply A2. exists s'. split; [exact Us|reflexivity].
Qed.
