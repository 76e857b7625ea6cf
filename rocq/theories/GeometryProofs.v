(** Proofs of C01-C03, C51-C53. *)
From Coq Require Import List Lia Lra Psatz Qreals.
Import ListNotations.
From Verif Require Import Outcome Num NumR Geometry Util Spec UtilFacts GeometryFacts.
Local Open Scope nat_scope.

Lemma C01_proof : forall N : list nat,
  flat_map (fun s => map (fun k => GetIndex N (1 + s) k) (seq 0 (nth s N 0)))
    (seq 0 (length N)) = map Ok (seq 1 (list_sum N)) /\
  GetIndex N 0 0 = Ok 0 /\
  GetIndex N (length N + 1) 0 = Ok (1 + list_sum N) /\
  (forall w k, (exists i, GetIndex N w k = Ok i) <-> w <= length N + 1) /\
  (forall w k, GetIndex N w k = Throw OutOfRange <-> length N + 1 < w).
Proof.
  intros N. split; [apply GetIndex_enumerates|]. split; [reflexivity|]. split.
  - rewrite Nat.add_1_r, GetIndex_S, firstn_len by lia. f_equal. lia.
  - assert (D : forall w k, (w <= S (length N) /\ exists i, GetIndex N w k = Ok i) \/
                 (S (length N) < w /\ GetIndex N w k = Throw OutOfRange)).
    { intros w k. destruct (le_lt_dec w (S (length N))).
      - left. split; [assumption|]. rewrite GetIndex_ok by assumption. eauto.
      - right. split; [assumption|]. apply GetIndex_throw. assumption. }
    split; intros w k; destruct (D w k) as [[L [i E]]|[L E]]; rewrite E;
      split; intros X; try lia; try (destruct X; discriminate); try discriminate; eauto.
Qed.

Open Scope R_scope.

Lemma C02_proof : forall (a b : R) (n : nat),
  length (Linspace a b n) = n /\
  (forall k, (1 <= k <= n)%nat ->
     nth (k - 1) (Linspace a b n) 0 = a + INR k * (b - a) / INR n) /\
  ((0 < n)%nat -> nth (n - 1) (Linspace a b n) 0 = b) /\
  (forall k, (k + 1 < n)%nat ->
     nth (k + 1) (Linspace a b n) 0 - nth k (Linspace a b n) 0 = (b - a) / INR n) /\
  (forall v, In v (Linspace a b n) -> Rmin a b <= v <= Rmax a b).
Proof.
  intros. split; [apply Linspace_length|]. split; [|split; [|split]].
  - intros. rewrite Linspace_nth_R by lia. replace (S (k - 1)) with k by lia.
    unfold Rdiv. ring.
  - apply Linspace_last_R.
  - intros. rewrite Nat.add_1_r. apply Linspace_step_R. lia.
  - intros v Hv. apply (In_nth _ _ 0) in Hv. destruct Hv as (k & Hk & <-).
    rewrite Linspace_length in Hk. apply Linspace_between_R. assumption.
Qed.

Lemma C02_example : Linspace 0 3 3 = [1; 2; 3].
Proof.
  apply nth_ext with 0 0; [reflexivity|]. intros k Hk. rewrite Linspace_length in Hk.
  rewrite Linspace_nth_R by assumption.
  destruct k as [|[|[|k]]]; [| | |lia]; simpl; field.
Qed.

Lemma C03_proof : forall (a b : R) (n : nat),
  length (AngleLinspace a b n) = n /\
  exists turn : R,
    principal turn /\ same_direction turn (b - a) /\
    (forall turn', principal turn' -> same_direction turn' (b - a) -> turn' = turn) /\
    (forall k, (1 <= k <= n)%nat ->
       nth (k - 1) (AngleLinspace a b n) 0 = a + INR k * turn / INR n) /\
    ((0 < n)%nat -> same_direction (nth (n - 1) (AngleLinspace a b n) 0) b).
Proof.
  intros a b n. split; [apply AngleLinspace_length|].
  destruct (angle_diff_R a b) as (k & E & B). exists (angle_diff a b).
  split; [exact B|]. split; [exists k; assumption|]. split; [|split].
  - intros t' P [k' E']. apply (cong_unique _ _ (k' - k)); [exact P|exact B|].
    rewrite minus_IZR. lra.
  - intros j Hj. unfold AngleLinspace. rewrite Linspace_nth_R by lia.
    replace (S (j - 1)) with j by lia. change (nadd a (angle_diff a b)) with (a + angle_diff a b).
    unfold Rdiv. ring.
  - intros Hn. unfold AngleLinspace. rewrite Linspace_last_R by assumption.
    exists k. change (nadd a (angle_diff a b)) with (a + angle_diff a b). lra.
Qed.

Lemma C03_example : AngleLinspace (3 * PI / 4) (- (3 * PI / 4)) 2 = [PI; 5 * PI / 4].
Proof.
  assert (T : angle_diff (3 * PI / 4) (- (3 * PI / 4)) = PI / 2).
  { destruct (angle_diff_R (3 * PI / 4) (- (3 * PI / 4))) as (k & E & B).
    apply (cong_unique _ _ (k - 1)); [exact B|pose proof PI_RGT_0; lra|].
    rewrite minus_IZR. rewrite E. field. }
  apply nth_ext with 0 0; [reflexivity|]. intros k Hk. rewrite AngleLinspace_length in Hk.
  unfold AngleLinspace. rewrite Linspace_nth_R by assumption. rewrite T.
  change (nadd (3 * PI / 4) (PI / 2)) with (3 * PI / 4 + PI / 2).
  destruct k as [|[|k]]; [| |lia]; simpl; field.
Qed.

Ltac des := repeat match goal with
  | x : Rotation2 R |- _ => destruct x
  | x : Translation2 R |- _ => destruct x
  | x : Pose2 R |- _ => destruct x end.
Ltac rot := intros; des; apply rot_ext; unfold unit_rot in *; rnum; rewrite ?Q2R_0, ?Q2R_1; try ring; try nra.
Ltac trr := intros; des; apply tr_ext; unfold unit_rot in *; rnum; rewrite ?Q2R_0, ?Q2R_1; try ring; try nra.

Lemma C51_proof :
  (forall a b c : Rotation2 R, rot_add (rot_add a b) c = rot_add a (rot_add b c)) /\
  (forall a b : Rotation2 R, rot_add a b = rot_add b a) /\
  (forall a : Rotation2 R, rot_add a rot_default = a) /\
  (forall a : Rotation2 R, unit_rot a -> rot_add a (rot_neg a) = rot_default) /\
  (forall a b : Rotation2 R, rot_sub a b = rot_add a (rot_neg b)) /\
  (forall a b : Rotation2 R, rot_rotateBy a b = rot_add a b) /\
  (forall x y : R, rot_add (rot_angle x) (rot_angle y) = rot_angle (x + y)) /\
  (forall x y : R, rot_sub (rot_angle x) (rot_angle y) = rot_angle (x - y)) /\
  (forall x : R, rot_neg (rot_angle x) = rot_angle (- x)) /\
  (forall x : R, unit_rot (rot_angle x)) /\ unit_rot rot_default /\
  (forall a b, unit_rot a -> unit_rot b -> unit_rot (rot_add a b)) /\
  (forall a, unit_rot a -> unit_rot (rot_neg a)).
Proof.
  repeat split; try (rot; fail).
  - intros; apply rot_ext; rnum; rewrite ?cos_plus, ?sin_plus; ring.
  - intros; apply rot_ext; rnum; rewrite ?cos_minus, ?sin_minus; ring.
  - intros; apply rot_ext; rnum; rewrite ?cos_neg, ?sin_neg; reflexivity.
  - intros. unfold unit_rot. rnum. apply pyth.
  - unfold unit_rot. rnum. rewrite Q2R_0, Q2R_1. ring.
  - intros [c s] [c' s']. unfold unit_rot. rnum. intros A B.
    transitivity ((c * c + s * s) * (c' * c' + s' * s')); [ring|rewrite A, B; ring].
  - intros [c s]. unfold unit_rot. rnum. intros. lra.
Qed.

Lemma C51_example : unit_rot (mkRot (3 / 5) (4 / 5)) /\
  rot_add (mkRot (3 / 5) (4 / 5)) (rot_angle (PI / 2)) = mkRot (- (4 / 5)) (3 / 5).
Proof.
  split; [unfold unit_rot; simpl; lra|].
  apply rot_ext; rnum; rewrite cos_PI2, sin_PI2; lra.
Qed.

Lemma sqrt_arg : forall x y, x = y -> sqrt x = sqrt y.
Proof. intros; subst; reflexivity. Qed.

Lemma C52_space_proof :
  (forall a b c : Translation2 R, tr_add (tr_add a b) c = tr_add a (tr_add b c)) /\
  (forall a b : Translation2 R, tr_add a b = tr_add b a) /\
  (forall a : Translation2 R, tr_add a tr_default = a) /\
  (forall a : Translation2 R, tr_add a (tr_neg a) = tr_default) /\
  (forall a b : Translation2 R, tr_sub a b = tr_add a (tr_neg b)) /\
  (forall (a b : Translation2 R) k, tr_scale (tr_add a b) k = tr_add (tr_scale a k) (tr_scale b k)) /\
  (forall (a : Translation2 R) j k, tr_scale a (j + k) = tr_add (tr_scale a j) (tr_scale a k)) /\
  (forall (a : Translation2 R) j k, tr_scale (tr_scale a j) k = tr_scale a (j * k)) /\
  (forall a : Translation2 R, tr_scale a 1 = a) /\
  (forall (a : Translation2 R) k, k <> 0 -> tr_scale (tr_divide a k) k = a) /\
  (forall a : Translation2 R, tr_norm a = dist2 (pt a) (0, 0)) /\
  (forall a : Translation2 R, tr_sqnorm a = tr_norm a * tr_norm a) /\
  (forall a b : Translation2 R, tr_distance a b = dist2 (pt a) (pt b)) /\
  (forall a : Translation2 R, tr_dot a a = tr_sqnorm a) /\
  (forall a b : Translation2 R,
     tr_dot a b * tr_dot a b + tr_cross a b * tr_cross a b = tr_sqnorm a * tr_sqnorm b).
Proof.
  repeat split; try (trr; fail).
  - intros; apply tr_ext; rnum; field; assumption.
  - intros [x y]. unfold dist2, pt. rnum. simpl. apply sqrt_arg. ring.
  - intros [x y]. rnum. rewrite sqrt_sqrt by nra. reflexivity.
  - intros [x y] [x' y']. unfold dist2, pt. rnum. simpl. apply sqrt_arg. ring.
  - intros. rnum. ring.
Qed.

Lemma C52_isometry_proof : forall r : Rotation2 R, unit_rot r ->
  (forall a, tr_norm (tr_rotateBy a r) = tr_norm a) /\
  (forall a b, tr_distance (tr_rotateBy a r) (tr_rotateBy b r) = tr_distance a b) /\
  (forall a b, tr_dot (tr_rotateBy a r) (tr_rotateBy b r) = tr_dot a b) /\
  (forall a b, tr_cross (tr_rotateBy a r) (tr_rotateBy b r) = tr_cross a b) /\
  (forall a, tr_rotateBy (tr_rotateBy a r) (rot_neg r) = a) /\
  (forall a q, tr_rotateBy (tr_rotateBy a q) r = tr_rotateBy a (rot_add q r)) /\
  (forall a b, tr_rotateBy (tr_add a b) r = tr_add (tr_rotateBy a r) (tr_rotateBy b r)) /\
  (forall d t, tr_rotateBy (tr_polar d (rot_angle t)) r = tr_polar d (rot_add (rot_angle t) r)) /\
  (forall p, pTr (pose_rotateBy p r) = tr_rotateBy (pTr p) r /\
             pRot (pose_rotateBy p r) = rot_add (pRot p) r).
Proof.
  intros [c s] H. unfold unit_rot in H. simpl in H.
  repeat split; intros.
  - destruct a as [x y]. rnum. apply sqrt_arg.
    transitivity ((x * x + y * y) * (c * c + s * s)); [ring|rewrite H; ring].
  - destruct a as [x y], b as [x' y']. rnum. apply sqrt_arg.
    transitivity (((x' - x) * (x' - x) + (y' - y) * (y' - y)) * (c * c + s * s));
      [ring|rewrite H; ring].
  - destruct a as [x y], b as [x' y']. rnum.
    transitivity ((x * x' + y * y') * (c * c + s * s)); [ring|rewrite H; ring].
  - destruct a as [x y], b as [x' y']. rnum.
    transitivity ((x * y' - y * x') * (c * c + s * s)); [ring|rewrite H; ring].
  - destruct a as [x y]. apply tr_ext; rnum.
    + transitivity (x * (c * c + s * s)); [ring|rewrite H; ring].
    + transitivity (y * (c * c + s * s)); [ring|rewrite H; ring].
  - trr.
  - trr.
  - trr.
Qed.

Lemma C52_example : unit_rot (mkRot 0 1) /\ tr_rotateBy (mkTr 3 4) (mkRot 0 1) = mkTr (-4) 3 /\
  tr_norm (mkTr 3 4 : Translation2 R) = 5.
Proof.
  split; [unfold unit_rot; simpl; lra|]. split; [apply tr_ext; rnum; lra|].
  rnum. apply sqrt_lem_1; lra.
Qed.

Lemma C53_proof :
  (forall r : Rotation2 R, principal (rot_radians r)) /\
  (forall a : R, same_direction (rot_radians (rot_angle a)) a) /\
  (forall a : R, principal a -> rot_radians (rot_angle a) = a) /\
  (forall r : Rotation2 R, unit_rot r -> rot_angle (rot_radians r) = r) /\
  (forall r : Rotation2 R, rot_degrees PI r = rot_radians r * 180 / PI) /\
  (forall t : Translation2 R, t <> mkTr 0 0 ->
     t = tr_polar (tr_norm t) (rot_angle (rot_radians (tr_angle t)))).
Proof.
  split; [intros; apply Ratan2_range|]. split; [intros; apply Ratan2_angle|]. split.
  - intros a P. destruct (Ratan2_angle a) as [k E].
    apply (cong_unique _ _ k); [apply Ratan2_range|exact P|exact E].
  - split; [|split].
    + intros [c s] U. unfold unit_rot in U. simpl in U. destruct (Ratan2_unit c s U).
      apply rot_ext; rnum; assumption.
    + intros r. rnum. rewrite Q2R_180. field. pose proof PI_RGT_0; lra.
    + intros [x y] N. destruct (Ratan2_polar x y) as [E1 E2].
      * destruct (Req_dec x 0) as [->|]; [|left; assumption].
        right. intros ->. apply N. reflexivity.
      * apply tr_ext; rnum; assumption.
Qed.

Lemma C53_example :
  rot_radians (rot_angle (3 * PI)) = PI /\ rot_degrees PI (rot_angle (PI / 2)) = 90.
Proof.
  pose proof PI_RGT_0. destruct C53_proof as (P & S & I & _ & D & _).
  split.
  - destruct (S (3 * PI)) as [k E].
    apply (cong_unique _ _ (k + 1)); [apply P|split; lra|].
    rewrite plus_IZR. rewrite E. ring.
  - rewrite D, I; [field; lra|split; lra].
Qed.
