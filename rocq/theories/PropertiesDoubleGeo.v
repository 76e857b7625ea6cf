(** Claims about rotations and translations of doubles: C121. *)
From Coq Require Import List Reals ZArith SpecFloat.
Import ListNotations.
From Verif Require Import Num NumR NumF64 Geometry SpecPhysics SpecTrajectory SpecDouble SpecDoubleGeo DoubleGeoProofs.
Local Open Scope R_scope.

(** *** C121: the laws of rotations and translations hold in double arithmetic *)

(** Not all of them: sums of rotations are not associative, a rotation minus itself
    need not be the rotation by zero, and rotating can change a length. *)
Theorem C121_refuted :
  forall fcos fsin fatan2 fhypot, let A := Arith_f64 fcos fsin fatan2 fhypot in
  ~ (forall a b c : Rotation2 f64, rotation_within 1 a -> rotation_within 1 b -> rotation_within 1 c ->
       same_dir (rot_add (rot_add a b) c) (rot_add a (rot_add b c))) /\
  ~ same_dir (rot_sub rot_5_12_13 rot_5_12_13) rot_default /\
  SFeqb (tr_sqnorm (tr_rotateBy vec_31 rot_345)) (tr_sqnorm vec_31) = false.
Proof. exact C121_refuted_proof. Qed.
Print Assumptions C121_refuted.

(** What holds bit by bit, NaN and infinities included. *)
Theorem C121_commute_partial :
  forall fcos fsin fatan2 fhypot, let A := Arith_f64 fcos fsin fatan2 fhypot in
  (forall a b : Translation2 f64, tr_add a b = tr_add b a /\ tr_dot a b = tr_dot b a) /\
  (forall a b : Rotation2 f64, rot_add a b = rot_add b a) /\
  (forall a : Translation2 f64, tr_neg (tr_neg a) = a) /\ (forall a : Rotation2 f64, rot_neg (rot_neg a) = a).
Proof. exact C121_commute_proof. Qed.
Print Assumptions C121_commute_partial.

(** What holds without any error: adding zero, differences of equals, rotating by
    nothing and by a quarter turn; the cross product changes its sign. *)
Theorem C121_exact_partial :
  forall fcos fsin fatan2 fhypot, let A := Arith_f64 fcos fsin fatan2 fhypot in
  forall k (t : Translation2 f64) (r : Rotation2 f64), (0 <= k < 500)%Z -> vector_within k t -> rotation_within k r ->
  vec (tr_add t tr_default) = vec t /\ tr_sub t t = tr_default /\
  vec (tr_rotateBy t rot_default) = vec t /\ vec (tr_rotateBy t quarter) = (- real (tY t), real (tX t)) /\
  dir (rot_add r rot_default) = dir r /\ rSin (rot_sub r r) = f64_ofZ 0 /\ tr_cross t t = f64_ofZ 0.
Proof. exact C121_neutral_proof. Qed.
Print Assumptions C121_exact_partial.
Theorem C121_cross_partial :
  forall fcos fsin fatan2 fhypot, let A := Arith_f64 fcos fsin fatan2 fhypot in
  forall k (a b : Translation2 f64), (0 <= k < 500)%Z -> vector_within k a -> vector_within k b ->
  real (tr_cross b a) = - real (tr_cross a b).
Proof. exact C121_cross_proof. Qed.
Print Assumptions C121_cross_partial.

(** Rotating by an angle whose cosine and sine are known up to [delta] is off by
    that and four roundings, in place and in length. *)
Theorem C121_turn_partial :
  forall fcos fsin fatan2 fhypot, let A := Arith_f64 fcos fsin fatan2 fhypot in
  forall k t r a delta, vector_within k t -> (-1074 <= k < 1022)%Z -> delta <= 1 / 8 -> near_angle delta r a ->
  vector_within (k + 2) (tr_rotateBy t r) /\
  apart2 (vec (tr_rotateBy t r)) (turned (vec t) (cos a, sin a)) <= (delta + 4 * roundoff) * norm2 (vec t) + 3 * tiny /\
  Rabs (norm2 (vec (tr_rotateBy t r)) - norm2 (vec t)) <= (delta + 4 * roundoff) * norm2 (vec t) + 3 * tiny.
Proof. exact C121_turn_proof. Qed.
Print Assumptions C121_turn_partial.

(** The sum of n rotations is off by at most 2 n (delta + 4 roundings). *)
Theorem C121_drift_partial :
  forall fcos fsin fatan2 fhypot, let A := Arith_f64 fcos fsin fatan2 fhypot in
  forall delta ras, 0 <= delta <= 1 / 8 -> Forall (fun ra => near_angle delta (fst ra) (snd ra)) ras ->
  INR (length ras) * (delta + 4 * roundoff) <= 1 / 2 ->
  near_angle (2 * INR (length ras) * (delta + 4 * roundoff)) (fold_left rot_add (map fst ras) rot_default) (sum (map snd ras)).
Proof. exact C121_drift_proof. Qed.
Print Assumptions C121_drift_partial.
(** A thousand rotations by the angle of the triangle with sides 3, 4 and 5. *)
Example C121_case : let ras := repeat (rot_345, atan (4 / 3)) 1000 in
  Forall (fun ra => near_angle (2 * roundoff) (fst ra) (snd ra)) ras /\ 0 <= 2 * roundoff <= 1 / 8 /\
  INR (length ras) * (2 * roundoff + 4 * roundoff) <= 1 / 2 /\ vector_within 100 vec_31 /\ rotation_within 100 rot_345.
Proof. exact C121_case_proof. Qed.
