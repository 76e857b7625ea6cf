(** The real-number instance of [Arith]/[Dbl]: the mathematical reading of
    [double].  Rounding, infinities, NaN and signed zeros are not modelled here
    (see [NumF64.v] for the IEEE instance). *)
From Coq Require Export Reals.
From Coq Require Import Qreals.
From Verif Require Export Num.
Open Scope R_scope.

(** sleipnir::sign, used at
    /repo/include/trajopt/constraint/detail/LinePointDistance.hpp:19, 22. *)
Definition Rsgn (x : R) : R :=
  if Rlt_dec 0 x then 1 else if Rlt_dec x 0 then -1 else 0.

(** std::atan2(y, x) over the reals (C11 7.12.4.4, F.10.1.4; atan2(0,0) = 0). Used
    at /repo/include/trajopt/geometry/Rotation2.hpp:104, 112 and
    /repo/include/trajopt/trajectory/HolonomicTrajectory.hpp:46. *)
Definition Ratan2 (y x : R) : R :=
  if Rlt_dec 0 x then atan (y / x)
  else if Rlt_dec x 0 then
    (if Rle_dec 0 y then atan (y / x) + PI else atan (y / x) - PI)
  else if Rlt_dec 0 y then PI / 2
  else if Rlt_dec y 0 then - (PI / 2)
  else 0.

(** std::trunc: round toward zero. Used at
    /repo/include/trajopt/util/TrajoptUtil.hpp:52, 56. *)
Definition Rtrunc (x : R) : R :=
  if Rle_dec 0 x then IZR (Int_part x) else - IZR (Int_part (- x)).

(** [==] on doubles:
    /repo/include/trajopt/constraint/LinearVelocityMaxMagnitudeConstraint.hpp:48;
    [!=]: /repo/src/SwerveTrajectoryGenerator.cpp:110-118. *)
Definition Reqb (x y : R) : bool := if Req_EM_T x y then true else false.
(** [<] on doubles, inside std::min:
    /repo/src/SwerveTrajectoryGenerator.cpp:112-120. *)
Definition Rltb (x y : R) : bool := if Rlt_dec x y then true else false.
(** [>=] on doubles, in the assertions, e.g.
    /repo/include/trajopt/constraint/PointPointConstraint.hpp:38. *)
Definition Rleb (x y : R) : bool := if Rle_dec x y then true else false.

(** The operations of /repo/include/trajopt/geometry/Translation2.hpp:47-205 and
    Rotation2.hpp:33-112 read over the reals. *)
#[export] Instance Arith_R : Arith R := {
  nadd := Rplus; nsub := Rminus; nmul := Rmult; ndiv := Rdiv; nneg := Ropp;
  nlit := Q2R; ncos := cos; nsin := sin; natan2 := Ratan2;
  nhypot := fun x y => sqrt (x * x + y * y);
  nsign := Rsgn
}.
(** The operations of /repo/include/trajopt/util/TrajoptUtil.hpp:34-60 and
    /repo/src/SwerveTrajectoryGenerator.cpp:110-120 read over the reals. *)
#[export] Instance Dbl_R : Dbl R := {
  nabs := Rabs; ntrunc := Rtrunc; nofZ := IZR;
  neqb := Reqb; nltb := Rltb; nleb := Rleb; nltinf := fun _ => true; npi := PI
}.
