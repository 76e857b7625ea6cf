(** Motion with a piecewise constant acceleration. *)
From Coq Require Import List Lia Lra Psatz Reals.
Import ListNotations.
Open Scope R_scope.

(** A function with a constant derivative, continuous up to the ends. *)
Lemma affine : forall f a b k, a <= b -> (forall t, a <= t <= b -> continuity_pt f t) ->
  (forall t, a < t < b -> derivable_pt_lim f t k) ->
  forall t, a <= t <= b -> f t = f a + k * (t - a).
Proof.
  intros f a b k L C D t Ht. destruct (Req_dec t a) as [->|N]; [ring|].
  assert (A : a < t) by lra.
  assert (E : exists c, a < c < t /\ f t - f a = k * (t - a)).
  { assert (pr1 : forall c, a < c < t -> derivable_pt f c) by (intros c Hc; exists k; apply D; lra).
    assert (pr2 : forall c, a < c < t -> derivable_pt id c) by (intros c _; apply derivable_pt_id).
    destruct (MVT f id a t pr1 pr2 A) as (c & P & Q).
    - intros c Hc. apply C. lra.
    - intros c Hc. apply derivable_continuous_pt, derivable_pt_id.
    - exists c. split; [exact P|].
      assert (K : derive_pt f c (pr1 c P) = k) by (apply derive_pt_eq_0, D; lra).
      assert (I : derive_pt id c (pr2 c P) = 1) by (apply derive_pt_eq_0, derivable_pt_lim_id).
      rewrite K, I in Q. unfold id in Q. lra. }
  destruct E as (c & _ & E). lra.
Qed.
(** Its integral. *)
Lemma quadratic : forall f v a b k, a <= b -> (forall t, a <= t <= b -> derivable_pt_lim f t (v t)) ->
  (forall t, a <= t <= b -> v t = v a + k * (t - a)) ->
  forall t, a <= t <= b -> f t = f a + v a * (t - a) + k * ((t - a) * (t - a)) / 2.
Proof.
  intros f v a b k L D V t Ht.
  pose (g := fun x => f x - (v a * (x - a) + k * ((x - a) * (x - a)) / 2)).
  assert (Dg : forall x, a <= x <= b -> derivable_pt_lim g x 0).
  { intros x Hx. unfold g. replace 0 with (v x - (v a * 1 + k * (1 * (x - a) + (x - a) * 1) / 2)) by (rewrite (V x Hx); field).
    assert (P : derivable_pt_lim (fun y => y - a) x 1).
    { replace 1 with (1 - 0) by ring.
      apply (derivable_pt_lim_minus (fun y => y) (fun _ => a)); [apply derivable_pt_lim_id|apply derivable_pt_lim_const]. }
    apply (derivable_pt_lim_minus f (fun y => v a * (y - a) + k * ((y - a) * (y - a)) / 2)); [apply D, Hx|].
    apply (derivable_pt_lim_plus (fun y => v a * (y - a)) (fun y => k * ((y - a) * (y - a)) / 2)).
    - apply (derivable_pt_lim_scal (fun y => y - a)). exact P.
    - assert (P2 : derivable_pt_lim (fun y => (y - a) * (y - a)) x (1 * (x - a) + (x - a) * 1))
        by (apply (derivable_pt_lim_mult (fun y => y - a) (fun y => y - a)); exact P).
      replace (k * (1 * (x - a) + (x - a) * 1) / 2) with (k / 2 * (1 * (x - a) + (x - a) * 1)) by field.
      apply derivable_pt_lim_ext with (f := fun y => k / 2 * ((y - a) * (y - a))); [intros y; field|].
      apply (derivable_pt_lim_scal (fun y => (y - a) * (y - a))). exact P2. }
  assert (E : g t = g a + 0 * (t - a)).
  { apply (affine g a b 0 L); [|intros x Hx; apply Dg; lra|exact Ht].
    intros x Hx. apply derivable_continuous_pt. exists 0. apply Dg, Hx. }
  unfold g in E. replace (a - a) with 0 in E by ring. lra.
Qed.

(** ** Ramps *)
Definition ramp (s : R) : R := Rmax 0 s.
Definition ramp2 (s : R) : R := ramp s * ramp s / 2.
Lemma ramp_neg : forall s, s <= 0 -> ramp s = 0.
Proof. intros s H. unfold ramp. apply Rmax_left. exact H. Qed.
Lemma ramp_pos : forall s, 0 <= s -> ramp s = s.
Proof. intros s H. unfold ramp. apply Rmax_right. exact H. Qed.
Lemma ramp_close : forall x y, Rabs (ramp x - ramp y) <= Rabs (x - y).
Proof. intros x y. unfold ramp, Rmax, Rabs. repeat destruct (Rle_dec _ _); repeat destruct (Rcase_abs _); lra. Qed.
Lemma ramp_continuous : forall s, continuity_pt ramp s.
Proof.
  intros s eps He. exists eps. split; [exact He|]. intros x [_ Hx]. simpl in *. unfold R_dist in *.
  eapply Rle_lt_trans; [apply ramp_close|exact Hx].
Qed.
Lemma derivable_near : forall f g x l, (exists d, 0 < d /\ forall y, Rabs (y - x) < d -> f y = g y) ->
  derivable_pt_lim g x l -> derivable_pt_lim f x l.
Proof.
  intros f g x l (d & Hd & E) D eps He. destruct (D eps He) as [del Q].
  assert (P : 0 < Rmin del d) by (apply Rmin_pos; [apply cond_pos|exact Hd]).
  exists (mkposreal _ P). intros h Hh Hl. simpl in Hl.
  rewrite !E.
  - apply Q; [exact Hh|]. eapply Rlt_le_trans; [exact Hl|apply Rmin_l].
  - rewrite Rminus_diag_eq by reflexivity. rewrite Rabs_R0. exact Hd.
  - replace (x + h - x) with h by ring. eapply Rlt_le_trans; [exact Hl|apply Rmin_r].
Qed.
Lemma ramp_before : forall s, s < 0 -> derivable_pt_lim ramp s 0.
Proof.
  intros s H. apply derivable_near with (g := fun _ => 0); [|apply derivable_pt_lim_const].
  exists (- s). split; [lra|]. intros y Hy. apply ramp_neg. apply Rabs_def2 in Hy. lra.
Qed.
Lemma ramp_after : forall s, 0 < s -> derivable_pt_lim ramp s 1.
Proof.
  intros s H. apply derivable_near with (g := id); [|apply derivable_pt_lim_id].
  exists s. split; [lra|]. intros y Hy. change (ramp y = y). apply ramp_pos. apply Rabs_def2 in Hy. lra.
Qed.
Lemma ramp2_derivative : forall s, derivable_pt_lim ramp2 s (ramp s).
Proof.
  intros s. assert (Q : forall x, derivable_pt_lim (fun y => y * y / 2) x x).
  { intros x. replace x with (/ 2 * (1 * x + x * 1)) at 2 by field.
    apply derivable_pt_lim_ext with (f := fun y => / 2 * (y * y)); [intros y; field|].
    apply (derivable_pt_lim_scal (fun y => y * y)). apply (derivable_pt_lim_mult id id); apply derivable_pt_lim_id. }
  destruct (Rtotal_order s 0) as [N|[->|P]].
  - rewrite ramp_neg by lra. apply derivable_near with (g := fun _ => 0); [|apply derivable_pt_lim_const].
    exists (- s). split; [lra|]. intros y Hy. unfold ramp2. rewrite ramp_neg; [field|]. apply Rabs_def2 in Hy. lra.
  - rewrite ramp_neg by lra. intros eps He. exists (mkposreal _ He). intros h Hh Hl. simpl in Hl.
    unfold ramp2. rewrite (ramp_neg 0) by lra. rewrite Rplus_0_l.
    replace ((ramp h * ramp h / 2 - 0 * 0 / 2) / h - 0) with (ramp h / 2 * (ramp h / h)) by (field; exact Hh).
    destruct (Rle_dec h 0) as [L|L].
    + rewrite ramp_neg by lra. replace (0 / 2 * (0 / h)) with 0 by (field; exact Hh). rewrite Rabs_R0. exact He.
    + rewrite ramp_pos by lra. replace (h / 2 * (h / h)) with (h / 2) by (field; exact Hh).
      rewrite Rabs_pos_eq in * by lra. lra.
  - rewrite ramp_pos by lra. apply derivable_near with (g := fun y => y * y / 2); [|apply Q].
    exists s. split; [lra|]. intros y Hy. unfold ramp2. rewrite ramp_pos; [reflexivity|]. apply Rabs_def2 in Hy. lra.
Qed.

Lemma shifted : forall f c x l, derivable_pt_lim f (x - c) l -> derivable_pt_lim (fun y => f (y - c)) x l.
Proof.
  intros f c x l D. replace l with (l * 1) by ring.
  apply (derivable_pt_lim_comp (fun y => y - c) f); [|exact D].
  replace 1 with (1 - 0) by ring.
  apply (derivable_pt_lim_minus (fun y => y) (fun _ => c)); [apply derivable_pt_lim_id|apply derivable_pt_lim_const].
Qed.
Lemma shifted_continuous : forall f c x, continuity_pt f (x - c) -> continuity_pt (fun y => f (y - c)) x.
Proof.
  intros f c x C. apply (continuity_pt_comp (fun y => y - c) f); [|exact C].
  apply continuity_pt_minus; [apply derivable_continuous_pt, derivable_pt_id|apply continuity_pt_const; intros ? ?; reflexivity].
Qed.

(** A velocity that starts at [v0] and changes at rate [a i] between the times
    [c (i - 1)] and [c i], and the position it makes. *)
Section Build.
  Variables (c a : nat -> R) (x0 v0 : R).
  Fixpoint vel (n : nat) (t : R) : R :=
    match n with O => v0 | S k => vel k t + a n * (ramp (t - c k) - ramp (t - c n)) end.
  Fixpoint pos (n : nat) (t : R) : R :=
    match n with O => x0 + v0 * t | S k => pos k t + a n * (ramp2 (t - c k) - ramp2 (t - c n)) end.
  Lemma pos_derivative : forall n t, derivable_pt_lim (pos n) t (vel n t).
  Proof.
    induction n as [|n IH]; intros t.
    - cbn [pos vel]. enough (X : derivable_pt_lim (fun y => x0 + v0 * y) t (0 + v0 * 1)) by (replace (0 + v0 * 1) with v0 in X by ring; exact X).
      apply (derivable_pt_lim_plus (fun _ => x0) (fun y => v0 * y)); [apply derivable_pt_lim_const|].
      apply (derivable_pt_lim_scal (fun y => y)). apply derivable_pt_lim_id.
    - cbn [pos vel]. apply (derivable_pt_lim_plus (pos n) (fun y => a (S n) * (ramp2 (y - c n) - ramp2 (y - c (S n))))); [apply IH|].
      apply (derivable_pt_lim_scal (fun y => ramp2 (y - c n) - ramp2 (y - c (S n)))).
      apply (derivable_pt_lim_minus (fun y => ramp2 (y - c n)) (fun y => ramp2 (y - c (S n)))); apply shifted, ramp2_derivative.
  Qed.
  Lemma vel_continuous : forall n t, continuity_pt (vel n) t.
  Proof.
    induction n as [|n IH]; intros t.
    - apply continuity_pt_const. intros ? ?. reflexivity.
    - cbn [vel]. apply (continuity_pt_plus (vel n) (fun y => a (S n) * (ramp (y - c n) - ramp (y - c (S n))))); [apply IH|].
      apply (continuity_pt_scal (fun y => ramp (y - c n) - ramp (y - c (S n)))).
      apply (continuity_pt_minus (fun y => ramp (y - c n)) (fun y => ramp (y - c (S n)))); apply shifted_continuous, ramp_continuous.
  Qed.
  Lemma vel_still : forall n, (forall i, (i < n)%nat -> c i <= c (S i)) -> forall t, c n < t -> derivable_pt_lim (vel n) t 0.
  Proof.
    induction n as [|n IH]; intros M t H.
    - apply derivable_pt_lim_const.
    - cbn [vel]. pose proof (M n ltac:(lia)). replace 0 with (0 + a (S n) * (1 - 1)) by ring.
      apply (derivable_pt_lim_plus (vel n) (fun y => a (S n) * (ramp (y - c n) - ramp (y - c (S n))))).
      + apply IH; [|lra]. intros i Hi. apply M. lia.
      + apply (derivable_pt_lim_scal (fun y => ramp (y - c n) - ramp (y - c (S n)))).
        apply (derivable_pt_lim_minus (fun y => ramp (y - c n)) (fun y => ramp (y - c (S n)))); apply shifted, ramp_after; lra.
  Qed.
  Lemma vel_rate : forall n, (forall i, (i < n)%nat -> c i <= c (S i)) ->
    forall i t, (1 <= i <= n)%nat -> c (i - 1)%nat < t < c i -> derivable_pt_lim (vel n) t (a i).
  Proof.
    induction n as [|n IH]; intros M i t Hi Ht; [lia|].
    cbn [vel]. destruct (Nat.eq_dec i (S n)) as [->|Ne].
    - replace (S n - 1)%nat with n in Ht by lia. enough (X : derivable_pt_lim (fun y => vel n y + a (S n) * (ramp (y - c n) - ramp (y - c (S n)))) t (0 + a (S n) * (1 - 0)))
        by (replace (0 + a (S n) * (1 - 0)) with (a (S n)) in X by ring; exact X).
      apply (derivable_pt_lim_plus (vel n) (fun y => a (S n) * (ramp (y - c n) - ramp (y - c (S n))))).
      + apply vel_still; [|lra]. intros j Hj. apply M. lia.
      + apply (derivable_pt_lim_scal (fun y => ramp (y - c n) - ramp (y - c (S n)))).
        apply (derivable_pt_lim_minus (fun y => ramp (y - c n)) (fun y => ramp (y - c (S n)))); apply shifted.
        * apply ramp_after. lra.
        * apply ramp_before. lra.
    - assert (L : c i <= c n).
      { assert (X : forall m, (i <= m <= n)%nat -> c i <= c m).
        { induction m as [|m IHm]; intros Hm; [replace i with 0%nat by lia; lra|].
          destruct (Nat.eq_dec i (S m)) as [<-|]; [lra|]. pose proof (M m ltac:(lia)). pose proof (IHm ltac:(lia)). lra. }
        apply X. lia. }
      pose proof (M n ltac:(lia)). replace (a i) with (a i + a (S n) * (0 - 0)) by ring.
      apply (derivable_pt_lim_plus (vel n) (fun y => a (S n) * (ramp (y - c n) - ramp (y - c (S n))))).
      + apply IH; [|lia|exact Ht]. intros j Hj. apply M. lia.
      + apply (derivable_pt_lim_scal (fun y => ramp (y - c n) - ramp (y - c (S n)))).
        apply (derivable_pt_lim_minus (fun y => ramp (y - c n)) (fun y => ramp (y - c (S n)))); apply shifted, ramp_before; lra.
  Qed.
  Lemma vel_first : forall n, (forall i, (i < n)%nat -> c i <= c (S i)) -> forall t, t <= c 0%nat -> vel n t = v0.
  Proof.
    induction n as [|n IH]; intros M t H; [reflexivity|]. cbn [vel]. rewrite IH; [|intros i Hi; apply M; lia|exact H].
    assert (X : forall m, (m <= S n)%nat -> c 0%nat <= c m).
    { induction m as [|m IHm]; intros Hm; [lra|]. pose proof (M m ltac:(lia)). pose proof (IHm ltac:(lia)). lra. }
    pose proof (X n ltac:(lia)). pose proof (X (S n) ltac:(lia)). rewrite !ramp_neg by lra. ring.
  Qed.
  Lemma pos_first : forall n, (forall i, (i < n)%nat -> c i <= c (S i)) -> forall t, t <= c 0%nat -> pos n t = x0 + v0 * t.
  Proof.
    induction n as [|n IH]; intros M t H; [reflexivity|]. cbn [pos]. rewrite IH; [|intros i Hi; apply M; lia|exact H].
    assert (X : forall m, (m <= S n)%nat -> c 0%nat <= c m).
    { induction m as [|m IHm]; intros Hm; [lra|]. pose proof (M m ltac:(lia)). pose proof (IHm ltac:(lia)). lra. }
    pose proof (X n ltac:(lia)). pose proof (X (S n) ltac:(lia)). unfold ramp2. rewrite !ramp_neg by lra. ring.
  Qed.
End Build.

(** What such a motion is at the times [c i] and between them. *)
Lemma piecewise : forall (c a : nat -> R) n x v, c 0%nat = 0 -> (forall i, (i < n)%nat -> c i <= c (S i)) ->
  (forall t, 0 <= t <= c n -> derivable_pt_lim x t (v t) /\ continuity_pt v t) ->
  (forall i t, (1 <= i <= n)%nat -> c (i - 1)%nat < t < c i -> derivable_pt_lim v t (a i)) ->
  forall i t, (1 <= i <= n)%nat -> c (i - 1)%nat <= t <= c i ->
  let s := t - c (i - 1)%nat in
  v t = v (c (i - 1)%nat) + a i * s /\
  x t = x (c (i - 1)%nat) + v (c (i - 1)%nat) * s + a i * (s * s) / 2.
Proof.
  intros c a n x v Z M Sm Rt i t Hi Ht s.
  assert (X : forall k j, (k <= j <= n)%nat -> c k <= c j).
  { intros k. induction j as [|j IHj]; intros Hj; [replace k with 0%nat by lia; lra|].
    destruct (Nat.eq_dec k (S j)) as [<-|]; [lra|]. pose proof (M j ltac:(lia)). pose proof (IHj ltac:(lia)). lra. }
  pose proof (X 0%nat (i - 1)%nat ltac:(lia)) as L0. pose proof (X i n ltac:(lia)) as L1. rewrite Z in L0.
  assert (V : forall t, c (i - 1)%nat <= t <= c i -> v t = v (c (i - 1)%nat) + a i * (t - c (i - 1)%nat)).
  { apply affine; [lra| |].
    - intros y Hy. apply Sm. lra.
    - intros y Hy. apply Rt; assumption. }
  split; [apply V, Ht|].
  unfold s. apply (quadratic x v (c (i - 1)%nat) (c i) (a i)); [lra| |exact V|exact Ht].
  intros y Hy. apply Sm. lra.
Qed.
