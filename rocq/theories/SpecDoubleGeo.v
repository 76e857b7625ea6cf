(** Specification vocabulary for rotations and translations of doubles. *)
From Coq Require Import List ZArith QArith Reals SpecFloat.
Import ListNotations.
From Verif Require Import Num NumR NumF64 Geometry SpecPhysics SpecDouble.
Local Open Scope R_scope.

(** Coordinates of size at most 2^k. *)
Definition vector_within (k : Z) (t : Translation2 f64) : Prop := within k (tX t) /\ within k (tY t).
Definition rotation_within (k : Z) (r : Rotation2 f64) : Prop := within k (rCos r) /\ within k (rSin r).
(** The real numbers they stand for. *)
Definition vec (t : Translation2 f64) : R * R := (real (tX t), real (tY t)).
Definition dir (r : Rotation2 f64) : R * R := (real (rCos r), real (rSin r)).

(** Rotating the vector [v] by the vector [r]: the product of two complex numbers. *)
Definition turned (v r : R * R) : R * R := (fst v * fst r - snd v * snd r, fst v * snd r + snd v * fst r).
(** How far apart two vectors are. *)
Definition apart2 (v w : R * R) : R := norm2 (fst v - fst w, snd v - snd w).
(** [r] is the rotation by the angle [a], up to an error [delta]. *)
Definition near_angle (delta : R) (r : Rotation2 f64) (a : R) : Prop :=
  rotation_within 1 r /\ apart2 (dir r) (cos a, sin a) <= delta.

(** Rotations and a vector given by doubles near simple fractions. *)
Definition frac (n d : Z) : f64 := f64_div (f64_ofZ n) (f64_ofZ d).
Definition rot_345 : Rotation2 f64 := mkRot (frac 3 5) (frac 4 5).
Definition rot_5_12_13 : Rotation2 f64 := mkRot (frac 5 13) (frac 12 13).
Definition vec_31 : Translation2 f64 := mkTr (f64_ofZ 3) (f64_ofZ 1).
(** The rotation by 0 and by a quarter turn. *)
Definition quarter : Rotation2 f64 := mkRot (f64_ofZ 0) (f64_ofZ 1).
(** Equal as doubles compare ([==] of C++). *)
Definition same_dir (a b : Rotation2 f64) : Prop := SFeqb (rCos a) (rCos b) = true /\ SFeqb (rSin a) (rSin b) = true.
