(** sleipnir::Variable expressions, constraints and OptimizationProblem.
    Sleipnir is an external dependency (CMakeLists.txt:97-107); this is the part
    of its interface the code relies on: building expressions, recording
    constraints in call order, decision variables with seed values. *)
From Coq Require Import List.
Import ListNotations.
From Verif Require Export Num Geometry.

(** The Variables built by the operators and functions used at
    /repo/src/SwerveTrajectoryGenerator.cpp:127-223, LinePointDistance.hpp:18-34,
    Rotation2.hpp:33-97 and PointAtConstraint.hpp:62-63. *)
Inductive expr (K : Type) : Type :=
| EConst (k : K)
| EVar (v : nat)                       (* the v-th decision variable *)
| EAdd (a b : expr K)
| ESub (a b : expr K)
| EMul (a b : expr K)
| EDiv (a b : expr K)
| ENeg (a : expr K)
| ECos (a : expr K)
| ESin (a : expr K)
| EAtan2 (y x : expr K)
| EHypot (a b : expr K)
| ESign (a : expr K).
Arguments EConst {K} _.
Arguments EVar {K} _.
Arguments EAdd {K} _ _.
Arguments ESub {K} _ _.
Arguments EMul {K} _ _.
Arguments EDiv {K} _ _.
Arguments ENeg {K} _.
Arguments ECos {K} _.
Arguments ESin {K} _.
Arguments EAtan2 {K} _ _.
Arguments EHypot {K} _ _.
Arguments ESign {K} _.

(** The operations of Translation2.hpp:81-205 and Rotation2.hpp:33-112 at type
    Variable (Translation2.hpp:222, Rotation2.hpp:135). *)
#[export] Instance Arith_expr {K} `{Arith K} : Arith (expr K) := {
  nadd := EAdd; nsub := ESub; nmul := EMul; ndiv := EDiv; nneg := ENeg;
  nlit := fun q => EConst (nlit q);
  ncos := ECos; nsin := ESin; natan2 := EAtan2; nhypot := EHypot; nsign := ESign
}.

(** Comparison operators on Variables build constraint objects.
    [CLeInf a] is [a <= INFINITY] (SwerveTrajectoryGenerator.cpp:127-129 when
    minWidth was never updated). *)
Inductive ccons (K : Type) : Type :=
| CEq (a b : expr K)
| CLe (a b : expr K)
| CGe (a b : expr K)
| CLeInf (a : expr K).
Arguments CEq {K} _ _.
Arguments CLe {K} _ _.
Arguments CGe {K} _ _.
Arguments CLeInf {K} _.

(** sleipnir::OptimizationProblem: number of decision variables allocated,
    constraints in SubjectTo order, objective, current variable values. Fresh
    variables have value 0. The member [problem],
    /repo/include/trajopt/SwerveTrajectoryGenerator.hpp:72. *)
Record problem (K : Type) : Type := mkProblem {
  pr_nvars : nat;
  pr_cons : list (ccons K);
  pr_obj : option (expr K);
  pr_vals : nat -> K
}.
Arguments mkProblem {K} _ _ _ _.
Arguments pr_nvars {K} _.
Arguments pr_cons {K} _.
Arguments pr_obj {K} _.
Arguments pr_vals {K} _.

Section Problem.
  Context {K : Type} `{Arith K}.
  (** Its default construction,
      /repo/include/trajopt/SwerveTrajectoryGenerator.hpp:72. *)
  Definition pr_empty : problem K := mkProblem 0 [] None (fun _ => nlit 0).
  (** OptimizationProblem::DecisionVariable() Called at
      /repo/src/SwerveTrajectoryGenerator.cpp:91-104, 125. *)
  Definition pr_decvar (p : problem K) : expr K * problem K :=
    (EVar (pr_nvars p),
     mkProblem (S (pr_nvars p)) (pr_cons p) (pr_obj p) (pr_vals p)).
  (** OptimizationProblem::SubjectTo(constraints) Called at
      /repo/src/SwerveTrajectoryGenerator.cpp:127, 141, 169-172, 211-223 and by
      the constraint classes, e.g. PointPointConstraint.hpp:60. *)
  Definition pr_subject (p : problem K) (cs : list (ccons K)) : problem K :=
    mkProblem (pr_nvars p) (pr_cons p ++ cs) (pr_obj p) (pr_vals p).
  (** OptimizationProblem::Minimize(cost) Called at
      /repo/src/SwerveTrajectoryGenerator.cpp:144. *)
  Definition pr_minimize (p : problem K) (e : expr K) : problem K :=
    mkProblem (pr_nvars p) (pr_cons p) (Some e) (pr_vals p).
  (** Variable::SetValue on a decision variable.  The code only calls it on
      decision variables; on another expression the model does nothing. Called at
      /repo/src/SwerveTrajectoryGenerator.cpp:142, 300-340. *)
  Definition pr_setvalue (p : problem K) (e : expr K) (k : K) : problem K :=
    match e with
    | EVar v => mkProblem (pr_nvars p) (pr_cons p) (pr_obj p)
                  (fun w => if Nat.eqb w v then k else pr_vals p w)
    | _ => p
    end.
End Problem.

(** operator== for Translation2 (Translation2.hpp:224-231): row-wise equality. *)
Definition tr_eq {K} (a b : Translation2 (expr K)) : list (ccons K) :=
  [CEq (tX a) (tX b); CEq (tY a) (tY b)].

(** operator== for Rotation2 (Rotation2.hpp:137-172).  The flags say whether
    the C++ operand type is Variable ([if constexpr] at 162 and 166). *)
Definition rot_eq {K} `{Arith K} (lhsVar rhsVar : bool)
    (a b : Rotation2 (expr K)) : list (ccons K) :=
  (CEq (rCos a * rSin b - rSin a * rCos b) (nlit 0)
   :: (if lhsVar then [CEq (rCos a * rCos a + rSin a * rSin a) (nlit 1)] else [])
   ++ (if rhsVar then [CEq (rCos b * rCos b + rSin b * rSin b) (nlit 1)] else []))%num.

(** operator== for Pose2 (Pose2.hpp:104-110). *)
Definition pose_eq {K} `{Arith K} (lhsVar rhsVar : bool)
    (a b : Pose2 (expr K)) : list (ccons K) :=
  tr_eq (pTr a) (pTr b) ++ rot_eq lhsVar rhsVar (pRot a) (pRot b).
