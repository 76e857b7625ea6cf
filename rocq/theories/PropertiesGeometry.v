(** Property theorems C01-C03 and C51-C53. *)
From Coq Require Import List Lia Lra.
Import ListNotations.
From Verif Require Import Outcome Num NumR Geometry Util Spec UtilFacts GeometryFacts GeometryProofs.
Local Open Scope nat_scope.

(** C01.  The pairs (segment, sample in segment), in order, are sent to
    1, 2, ..., sum N in order; the initial sample is 0, the total is 1 + sum N;
    a waypoint past the last segment throws. *)
Theorem C01_sample_indexing_bijection : forall N : list nat,
  flat_map (fun s => map (fun k => GetIndex N (1 + s) k) (seq 0 (nth s N 0)))
    (seq 0 (length N)) = map Ok (seq 1 (list_sum N)) /\
  GetIndex N 0 0 = Ok 0 /\
  GetIndex N (length N + 1) 0 = Ok (1 + list_sum N) /\
  (forall w k, (exists i, GetIndex N w k = Ok i) <-> w <= length N + 1) /\
  (forall w k, GetIndex N w k = Throw OutOfRange <-> length N + 1 < w).
Proof. exact C01_proof. Qed.
Print Assumptions C01_sample_indexing_bijection.
Example C01_case :
  map (GetIndex [2; 0; 3] 1) [0; 1] ++ map (GetIndex [2; 0; 3] 3) [0; 1; 2]
    = [Ok 1; Ok 2; Ok 3; Ok 4; Ok 5] /\ GetIndex [2; 0; 3] 5 0 = Throw OutOfRange.
Proof. split; reflexivity. Qed.

Open Scope R_scope.

(** C02. *)
Theorem C02_linspace : forall (a b : R) (n : nat),
  length (Linspace a b n) = n /\
  (forall k, (1 <= k <= n)%nat ->
     nth (k - 1) (Linspace a b n) 0 = a + INR k * (b - a) / INR n) /\
  ((0 < n)%nat -> nth (n - 1) (Linspace a b n) 0 = b) /\
  (forall k, (k + 1 < n)%nat ->
     nth (k + 1) (Linspace a b n) 0 - nth k (Linspace a b n) 0 = (b - a) / INR n) /\
  (forall v, In v (Linspace a b n) -> Rmin a b <= v <= Rmax a b).
Proof. exact C02_proof. Qed.
Print Assumptions C02_linspace.
(** The array length does not depend on the number type. *)
Theorem C02_linspace_length : forall (K : Type) (HA : Arith K) (HD : Dbl K) (a b : K) n,
  length (Linspace a b n) = n.
Proof. exact @Linspace_length. Qed.
Print Assumptions C02_linspace_length.
Example C02_case : Linspace 0 3 3 = [1; 2; 3].
Proof. exact C02_example. Qed.

(** C03. *)
Theorem C03_anglelinspace_short_way : forall (a b : R) (n : nat),
  length (AngleLinspace a b n) = n /\
  exists turn : R,
    principal turn /\ same_direction turn (b - a) /\
    (forall turn', principal turn' -> same_direction turn' (b - a) -> turn' = turn) /\
    (forall k, (1 <= k <= n)%nat ->
       nth (k - 1) (AngleLinspace a b n) 0 = a + INR k * turn / INR n) /\
    ((0 < n)%nat -> same_direction (nth (n - 1) (AngleLinspace a b n) 0) b).
Proof. exact C03_proof. Qed.
Print Assumptions C03_anglelinspace_short_way.
(** From 3pi/4 to -3pi/4 the turn is +pi/2, through pi. *)
Example C03_case : AngleLinspace (3 * PI / 4) (- (3 * PI / 4)) 2 = [PI; 5 * PI / 4].
Proof. exact C03_example. Qed.

(** C51. *)
Theorem C51_rotation_group :
  (forall a b c : Rotation2 R, rot_add (rot_add a b) c = rot_add a (rot_add b c)) /\
  (forall a b : Rotation2 R, rot_add a b = rot_add b a) /\
  (forall a : Rotation2 R, rot_add a rot_default = a) /\
  (forall a : Rotation2 R, unit_rot a -> rot_add a (rot_neg a) = rot_default) /\
  (forall a b : Rotation2 R, rot_sub a b = rot_add a (rot_neg b)) /\
  (forall a b : Rotation2 R, rot_rotateBy a b = rot_add a b) /\
  (forall x y : R, rot_add (rot_angle x) (rot_angle y) = rot_angle (x + y)) /\
  (forall x y : R, rot_sub (rot_angle x) (rot_angle y) = rot_angle (x - y)) /\
  (forall x : R, rot_neg (rot_angle x) = rot_angle (- x)) /\
  (forall x : R, unit_rot (rot_angle x)) /\ unit_rot rot_default /\
  (forall a b, unit_rot a -> unit_rot b -> unit_rot (rot_add a b)) /\
  (forall a, unit_rot a -> unit_rot (rot_neg a)).
Proof. exact C51_proof. Qed.
Print Assumptions C51_rotation_group.
Example C51_case : unit_rot (mkRot (3 / 5) (4 / 5)) /\
  rot_add (mkRot (3 / 5) (4 / 5)) (rot_angle (PI / 2)) = mkRot (- (4 / 5)) (3 / 5).
Proof. exact C51_example. Qed.

(** C52. *)
Theorem C52_translation_space :
  (forall a b c : Translation2 R, tr_add (tr_add a b) c = tr_add a (tr_add b c)) /\
  (forall a b : Translation2 R, tr_add a b = tr_add b a) /\
  (forall a : Translation2 R, tr_add a tr_default = a) /\
  (forall a : Translation2 R, tr_add a (tr_neg a) = tr_default) /\
  (forall a b : Translation2 R, tr_sub a b = tr_add a (tr_neg b)) /\
  (forall (a b : Translation2 R) k, tr_scale (tr_add a b) k = tr_add (tr_scale a k) (tr_scale b k)) /\
  (forall (a : Translation2 R) j k, tr_scale a (j + k) = tr_add (tr_scale a j) (tr_scale a k)) /\
  (forall (a : Translation2 R) j k, tr_scale (tr_scale a j) k = tr_scale a (j * k)) /\
  (forall a : Translation2 R, tr_scale a 1 = a) /\
  (forall (a : Translation2 R) k, k <> 0 -> tr_scale (tr_divide a k) k = a) /\
  (forall a : Translation2 R, tr_norm a = dist2 (pt a) (0, 0)) /\
  (forall a : Translation2 R, tr_sqnorm a = tr_norm a * tr_norm a) /\
  (forall a b : Translation2 R, tr_distance a b = dist2 (pt a) (pt b)) /\
  (forall a : Translation2 R, tr_dot a a = tr_sqnorm a) /\
  (forall a b : Translation2 R,
     tr_dot a b * tr_dot a b + tr_cross a b * tr_cross a b = tr_sqnorm a * tr_sqnorm b).
Proof. exact C52_space_proof. Qed.
Print Assumptions C52_translation_space.
Theorem C52_rotation_isometry : forall r : Rotation2 R, unit_rot r ->
  (forall a, tr_norm (tr_rotateBy a r) = tr_norm a) /\
  (forall a b, tr_distance (tr_rotateBy a r) (tr_rotateBy b r) = tr_distance a b) /\
  (forall a b, tr_dot (tr_rotateBy a r) (tr_rotateBy b r) = tr_dot a b) /\
  (forall a b, tr_cross (tr_rotateBy a r) (tr_rotateBy b r) = tr_cross a b) /\
  (forall a, tr_rotateBy (tr_rotateBy a r) (rot_neg r) = a) /\
  (forall a q, tr_rotateBy (tr_rotateBy a q) r = tr_rotateBy a (rot_add q r)) /\
  (forall a b, tr_rotateBy (tr_add a b) r = tr_add (tr_rotateBy a r) (tr_rotateBy b r)) /\
  (forall d t, tr_rotateBy (tr_polar d (rot_angle t)) r = tr_polar d (rot_add (rot_angle t) r)) /\
  (forall p, pTr (pose_rotateBy p r) = tr_rotateBy (pTr p) r /\
             pRot (pose_rotateBy p r) = rot_add (pRot p) r).
Proof. exact C52_isometry_proof. Qed.
Print Assumptions C52_rotation_isometry.
Example C52_case : unit_rot (mkRot 0 1) /\ tr_rotateBy (mkTr 3 4) (mkRot 0 1) = mkTr (-4) 3 /\
  tr_norm (mkTr 3 4 : Translation2 R) = 5.
Proof. exact C52_example. Qed.

(** C53. *)
Theorem C53_angles_round_trip :
  (forall r : Rotation2 R, principal (rot_radians r)) /\
  (forall a : R, same_direction (rot_radians (rot_angle a)) a) /\
  (forall a : R, principal a -> rot_radians (rot_angle a) = a) /\
  (forall r : Rotation2 R, unit_rot r -> rot_angle (rot_radians r) = r) /\
  (forall r : Rotation2 R, rot_degrees PI r = rot_radians r * 180 / PI) /\
  (forall t : Translation2 R, t <> mkTr 0 0 ->
     t = tr_polar (tr_norm t) (rot_angle (rot_radians (tr_angle t)))).
Proof. exact C53_proof. Qed.
Print Assumptions C53_angles_round_trip.
Example C53_case : rot_radians (rot_angle (3 * PI)) = PI /\ rot_degrees PI (rot_angle (PI / 2)) = 90.
Proof. exact C53_example. Qed.
