(** Number types.  [Arith] collects the operations the code uses on both
    [double] and [sleipnir::Variable]; [Dbl] those used on [double] only.
    They are records of operations with no laws: every theorem that needs a law
    is stated for a concrete instance. *)
From Coq Require Export QArith.
From Coq Require Import ZArith.

(** The operations of /repo/include/trajopt/geometry/Rotation2.hpp:33-112,
    /repo/include/trajopt/geometry/Translation2.hpp:47-205,
    /repo/include/trajopt/constraint/detail/LinePointDistance.hpp:18-34 and
    /repo/src/SwerveTrajectoryGenerator.cpp:127-223. *)
Class Arith (T : Type) : Type := {
  nadd : T -> T -> T;
  nsub : T -> T -> T;
  nmul : T -> T -> T;
  ndiv : T -> T -> T;
  nneg : T -> T;
  nlit : Q -> T;            (* a literal such as 0.5 or 180.0 *)
  ncos : T -> T;
  nsin : T -> T;
  natan2 : T -> T -> T;     (* atan2(y, x) *)
  nhypot : T -> T -> T;
  nsign : T -> T
}.

(** [std::abs], [!=], [<] of [std::min]: /repo/src/SwerveTrajectoryGenerator.cpp:108-120;
    [std::trunc], pi: /repo/include/trajopt/util/TrajoptUtil.hpp:48-57; [>=] in
    assertions: /repo/include/trajopt/constraint/PointAtConstraint.hpp:34;
    conversions: /repo/include/trajopt/util/TrajoptUtil.hpp:37-39. *)
Class Dbl (K : Type) : Type := {
  nabs : K -> K;
  ntrunc : K -> K;          (* std::trunc *)
  nofZ : Z -> K;            (* integer to double conversion *)
  neqb : K -> K -> bool;    (* == *)
  nltb : K -> K -> bool;    (* <  *)
  nleb : K -> K -> bool;    (* <= *)
  nltinf : K -> bool;       (* < INFINITY *)
  npi : K                   (* std::numbers::pi *)
}.

(** [size_t] to [double]: /repo/src/SwerveTrajectoryGenerator.cpp:142;
    /repo/include/trajopt/util/GenerateLinearInitialGuess.hpp:41. *)
Definition nofnat {K} `{Dbl K} (n : nat) : K := nofZ (Z.of_nat n).

Declare Scope num_scope.
Delimit Scope num_scope with num.
Infix "+" := nadd : num_scope.
Infix "-" := nsub : num_scope.
Infix "*" := nmul : num_scope.
Infix "/" := ndiv : num_scope.
Notation "- x" := (nneg x) : num_scope.
