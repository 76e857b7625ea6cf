(** The IEEE-754 binary64 instance, on the axiom-free [SpecFloat] of the
    standard library.  Transcendental functions are not specified by IEEE-754,
    so they are parameters of the instance. *)
From Coq Require Import ZArith SpecFloat.
From Verif Require Export Num.

(** The C++ type [double], e.g.
    /repo/include/trajopt/geometry/Translation2.hpp:208-209 instantiated at
    [double] (line 221). *)
Definition f64 : Type := spec_float.
(** [double] is taken to be IEEE-754 binary64, e.g.
    /repo/include/trajopt/solution/SwerveSolution.hpp:16-52. *)
Definition fprec : Z := 53.
(** [double] is taken to be IEEE-754 binary64, e.g.
    /repo/include/trajopt/solution/SwerveSolution.hpp:16-52. *)
Definition femax : Z := 1024.

(** Conversion of an integer to [double], e.g.
    /repo/include/trajopt/util/GenerateLinearInitialGuess.hpp:41. *)
Definition f64_ofZ (z : Z) : f64 := binary_normalize fprec femax z 0 false.
(** [+] on doubles, e.g.
    /repo/include/trajopt/trajectory/HolonomicTrajectory.hpp:42. *)
Definition f64_add := SFadd fprec femax.
(** [-] on doubles, e.g. /repo/include/trajopt/util/TrajoptUtil.hpp:46. *)
Definition f64_sub := SFsub fprec femax.
(** [*] on doubles, e.g. /repo/include/trajopt/geometry/Translation2.hpp:115-119.
    *)
Definition f64_mul := SFmul fprec femax.
(** [/] on doubles, e.g. /repo/src/SwerveTrajectoryGenerator.cpp:142. *)
Definition f64_div := SFdiv fprec femax.
(** A decimal literal p/q with p and q exactly representable: division is
    correctly rounded, so this is the nearest double, as the compiler computes.
    Literals such as 0.01 (/repo/src/RustFFI.cpp:51) and 5.0
    (/repo/src/SwerveTrajectoryGenerator.cpp:142). *)
Definition f64_lit (q : Q) : f64 := f64_div (f64_ofZ (Qnum q)) (f64_ofZ (Zpos (Qden q))).
(** [std::numbers::pi], /repo/include/trajopt/util/TrajoptUtil.hpp:48-50. *)
Definition f64_pi : f64 := S754_finite false 7074237752028440 (-51).
(** std::trunc on a binary64 value. Used at
    /repo/include/trajopt/util/TrajoptUtil.hpp:52, 56. *)
Definition f64_trunc (x : f64) : f64 :=
  match x with
  | S754_finite s m e =>
      if (0 <=? e)%Z then x
      else let q := (Zpos m / 2 ^ (- e))%Z in
           match q with
           | Z0 => S754_zero s
           | _ => f64_ofZ (if s then (- q)%Z else q)
           end
  | _ => x
  end.
(** sleipnir::sign,
    /repo/include/trajopt/constraint/detail/LinePointDistance.hpp:19, 22. *)
Definition f64_sign (x : f64) : f64 :=
  if SFltb (S754_zero false) x then f64_ofZ 1
  else if SFltb x (S754_zero false) then f64_ofZ (-1) else S754_zero false.

Section Instance.
  (** The library functions called at
      /repo/include/trajopt/geometry/Rotation2.hpp:34, 104 and
      Translation2.hpp:184. *)
  Variables (fcos fsin : f64 -> f64) (fatan2 fhypot : f64 -> f64 -> f64).
  (** The operations of /repo/include/trajopt/geometry/Translation2.hpp:47-205 and
      Rotation2.hpp:33-112 on doubles. *)
  Definition Arith_f64 : Arith f64 := {|
    nadd := f64_add; nsub := f64_sub; nmul := f64_mul; ndiv := f64_div;
    nneg := SFopp; nlit := f64_lit; ncos := fcos; nsin := fsin;
    natan2 := fatan2; nhypot := fhypot; nsign := f64_sign |}.
End Instance.
(** The operations of /repo/include/trajopt/util/TrajoptUtil.hpp:34-60 and
    /repo/src/SwerveTrajectoryGenerator.cpp:110-120 on doubles. *)
#[export] Instance Dbl_f64 : Dbl f64 := {
  nabs := SFabs; ntrunc := f64_trunc; nofZ := f64_ofZ;
  neqb := SFeqb; nltb := SFltb; nleb := SFleb; nltinf := fun x => SFltb x (S754_infinity false); npi := f64_pi
}.
