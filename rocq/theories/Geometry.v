(** Rotation2, Translation2 and Pose2, generic in the number type.
    The C++ templates mix [double] and [Variable] operands; the implicit
    conversion [double -> Variable] is made explicit by [tr_map] and friends. *)
From Verif Require Export Num.
Open Scope num_scope.

(** /repo/include/trajopt/geometry/Rotation2.hpp:20-132 *)
Record Rotation2 (T : Type) : Type := mkRot { rCos : T; rSin : T }.
(** /repo/include/trajopt/geometry/Translation2.hpp:21-210 *)
Record Translation2 (T : Type) : Type := mkTr { tX : T; tY : T }.
(** /repo/include/trajopt/geometry/Pose2.hpp:19-99 *)
Record Pose2 (T : Type) : Type := mkPose { pTr : Translation2 T; pRot : Rotation2 T }.
Arguments mkRot {T} _ _.
Arguments rCos {T} _.
Arguments rSin {T} _.
Arguments mkTr {T} _ _.
Arguments tX {T} _.
Arguments tY {T} _.
Arguments mkPose {T} _ _.
Arguments pTr {T} _.
Arguments pRot {T} _.

(** Coercing constructors, Rotation2.hpp:50-52, Translation2.hpp:56-58, Pose2.hpp:54-56. *)
Definition rot_map {T U} (f : T -> U) (r : Rotation2 T) : Rotation2 U :=
  mkRot (f (rCos r)) (f (rSin r)).
(** Translation2.hpp:56-58 *)
Definition tr_map {T U} (f : T -> U) (t : Translation2 T) : Translation2 U :=
  mkTr (f (tX t)) (f (tY t)).
(** Pose2.hpp:54-56 *)
Definition pose_map {T U} (f : T -> U) (p : Pose2 T) : Pose2 U :=
  mkPose (tr_map f (pTr p)) (rot_map f (pRot p)).

Section Geometry.
  Context {T : Type} `{Arith T}.

  (** Rotation2.hpp:26 with member initialisers 130-131 *)
  Definition rot_default : Rotation2 T := mkRot (nlit 1) (nlit 0).
  (** Rotation2.hpp:33-34 *)
  Definition rot_angle (angle : T) : Rotation2 T := mkRot (ncos angle) (nsin angle).
  (** Rotation2.hpp:93-97 *)
  Definition rot_rotateBy (a b : Rotation2 T) : Rotation2 T :=
    mkRot (rCos a * rCos b - rSin a * rSin b) (rCos a * rSin b + rSin a * rCos b).
  (** Rotation2.hpp:61-63 *)
  Definition rot_add (a b : Rotation2 T) : Rotation2 T := rot_rotateBy a b.
  (** Rotation2.hpp:81-83 *)
  Definition rot_neg (a : Rotation2 T) : Rotation2 T := mkRot (rCos a) (- rSin a).
  (** Rotation2.hpp:72-74 *)
  Definition rot_sub (a b : Rotation2 T) : Rotation2 T := rot_add a (rot_neg b).
  (** Rotation2.hpp:104 *)
  Definition rot_radians (a : Rotation2 T) : T := natan2 (rSin a) (rCos a).
  (** Rotation2.hpp:111-113 *)
  Definition rot_degrees (pi : T) (a : Rotation2 T) : T :=
    natan2 (rSin a) (rCos a) / pi * nlit 180.

  (** Translation2.hpp:27 with member initialisers 208-209 *)
  Definition tr_default : Translation2 T := mkTr (nlit 0) (nlit 0).
  (** Translation2.hpp:47-49 *)
  Definition tr_polar (distance : T) (angle : Rotation2 T) : Translation2 T :=
    mkTr (distance * rCos angle) (distance * rSin angle).
  (** Translation2.hpp:81-85 *)
  Definition tr_add (a b : Translation2 T) : Translation2 T :=
    mkTr (tX a + tX b) (tY a + tY b).
  (** Translation2.hpp:106 *)
  Definition tr_neg (a : Translation2 T) : Translation2 T := mkTr (- tX a) (- tY a).
  (** Translation2.hpp:93-96 *)
  Definition tr_sub (a b : Translation2 T) : Translation2 T := tr_add a (tr_neg b).
  (** Translation2.hpp:115-119 *)
  Definition tr_scale (a : Translation2 T) (k : T) : Translation2 T :=
    mkTr (tX a * k) (tY a * k).
  (** Translation2.hpp:128-132 *)
  Definition tr_divide (a : Translation2 T) (k : T) : Translation2 T :=
    mkTr (tX a / k) (tY a / k).
  (** Translation2.hpp:140-145 *)
  Definition tr_rotateBy (a : Translation2 T) (r : Rotation2 T) : Translation2 T :=
    mkTr (tX a * rCos r - tY a * rSin r) (tX a * rSin r + tY a * rCos r).
  (** Translation2.hpp:152 *)
  Definition tr_angle (a : Translation2 T) : Rotation2 T := mkRot (tX a) (tY a).
  (** Translation2.hpp:160-164 *)
  Definition tr_dot (a b : Translation2 T) : T := tX a * tX b + tY a * tY b.
  (** Translation2.hpp:172-176 *)
  Definition tr_cross (a b : Translation2 T) : T := tX a * tY b - tY a * tX b.
  (** Translation2.hpp:184 *)
  Definition tr_norm (a : Translation2 T) : T := nhypot (tX a) (tY a).
  (** Translation2.hpp:192 *)
  Definition tr_sqnorm (a : Translation2 T) : T := tX a * tX a + tY a * tY a.
  (** Translation2.hpp:202-205 *)
  Definition tr_distance (a b : Translation2 T) : T :=
    nhypot (tX b - tX a) (tY b - tY a).

  (** Pose2.hpp:25 *)
  Definition pose_default : Pose2 T := mkPose tr_default rot_default.
  (** Pose2.hpp:45-47, the rotation given by an angle through Rotation2.hpp:33 *)
  Definition pose_xyh (x y heading : T) : Pose2 T := mkPose (mkTr x y) (rot_angle heading).
  (** Pose2.hpp:70, 77 *)
  Definition pX (p : Pose2 T) : T := tX (pTr p).
  (** Pose2.hpp:77 *)
  Definition pY (p : Pose2 T) : T := tY (pTr p).
  (** Pose2.hpp:92-94 *)
  Definition pose_rotateBy (p : Pose2 T) (r : Rotation2 T) : Pose2 T :=
    mkPose (tr_rotateBy (pTr p) r) (rot_rotateBy (pRot p) r).
End Geometry.

(** [get<I>] for structured bindings, Translation2.hpp:212-219 *)
Definition tr_get {T} (i : nat) (t : Translation2 T) : T :=
  match i with O => tX t | _ => tY t end.
