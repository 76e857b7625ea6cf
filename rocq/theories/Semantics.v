(** Meaning of the optimisation problem handed to the solver: an assignment of
    real numbers to the decision variables, what an expression evaluates to,
    and when a constraint is satisfied.  Sleipnir itself is not modelled; this
    is the mathematical reading of the constraints it is given. *)
From Coq Require Import Reals List.
Import ListNotations.
From Verif Require Import Num NumR Geometry Expr Constraints SpecPhysics.
Open Scope R_scope.

(** Value of an expression. *)
Fixpoint eval (env : nat -> R) (e : expr R) : R :=
  match e with
  | EConst k => k
  | EVar v => env v
  | EAdd a b => eval env a + eval env b
  | ESub a b => eval env a - eval env b
  | EMul a b => eval env a * eval env b
  | EDiv a b => eval env a / eval env b
  | ENeg a => - eval env a
  | ECos a => cos (eval env a)
  | ESin a => sin (eval env a)
  | EAtan2 y x => Ratan2 (eval env y) (eval env x)
  | EHypot a b => sqrt (eval env a * eval env a + eval env b * eval env b)
  | ESign a => Rsgn (eval env a)
  end.

(** No division by zero anywhere in the expression. *)
Fixpoint defined (env : nat -> R) (e : expr R) : Prop :=
  match e with
  | EConst _ | EVar _ => True
  | EAdd a b | ESub a b | EMul a b | EAtan2 a b | EHypot a b => defined env a /\ defined env b
  | EDiv a b => defined env a /\ defined env b /\ eval env b <> 0
  | ENeg a | ECos a | ESin a | ESign a => defined env a
  end.

(** An undefined side (0/0 is NaN in C++) makes a constraint unsatisfied. *)
Definition sat (env : nat -> R) (c : ccons R) : Prop :=
  match c with
  | CEq a b => defined env a /\ defined env b /\ eval env a = eval env b
  | CLe a b => defined env a /\ defined env b /\ eval env a <= eval env b
  | CGe a b => defined env a /\ defined env b /\ eval env a >= eval env b
  | CLeInf a => defined env a
  end.

Definition sat_all (env : nat -> R) (cs : list (ccons R)) : Prop := Forall (sat env) cs.

(** The assignment satisfies the whole problem. *)
Definition feasible (env : nat -> R) (p : problem R) : Prop := sat_all env (pr_cons p).

(** The robot state at a sample as ten decision variables, in the order the
    generator allocates them (SwerveTrajectoryGenerator.cpp:91-101). *)
Definition state_env (s : state) : nat -> R :=
  fun v => nth v [q_x s; q_y s; q_c s; q_s s; q_vx s; q_vy s; q_w s; q_ax s; q_ay s; q_al s] 0.

(** A robot state satisfies a constraint object: everything its Apply method
    hands to the solver holds of that state. *)
Definition satisfied (s : state) (c : constraint R) : Prop :=
  sat_all (state_env s)
    (Apply (mkPose (mkTr (EVar 0) (EVar 1)) (mkRot (EVar 2) (EVar 3)))
       (mkTr (EVar 4) (EVar 5)) (EVar 6) (mkTr (EVar 7) (EVar 8)) c).

(** Value of a pair of expressions. *)
Definition tr_eval (env : nat -> R) (t : Translation2 (expr R)) : R * R :=
  (eval env (tX t), eval env (tY t)).
Definition tr_defined (env : nat -> R) (t : Translation2 (expr R)) : Prop :=
  defined env (tX t) /\ defined env (tY t).
Definition rot_eval (env : nat -> R) (r : Rotation2 (expr R)) : Rotation2 R :=
  mkRot (eval env (rCos r)) (eval env (rSin r)).
Definition rot_defined (env : nat -> R) (r : Rotation2 (expr R)) : Prop := defined env (rCos r) /\ defined env (rSin r).
