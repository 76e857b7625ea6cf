(** What an inexact solver returns: every constraint holds within a tolerance. *)
From Coq Require Import Reals List.
Import ListNotations.
From Verif Require Import Num NumR Geometry Expr Generator Semantics.
Open Scope R_scope.

(** Equations up to [eps], inequalities with slack [eps]. *)
Definition nearly (eps : R) (env : nat -> R) (c : ccons R) : Prop :=
  match c with
  | CEq a b => defined env a /\ defined env b /\ Rabs (eval env a - eval env b) <= eps
  | CLe a b => defined env a /\ defined env b /\ eval env a <= eval env b + eps
  | CGe a b => defined env a /\ defined env b /\ eval env a >= eval env b - eps
  | CLeInf a => defined env a
  end.
Definition nearly_feasible (eps : R) (env : nat -> R) (p : problem R) : Prop :=
  Forall (nearly eps env) (pr_cons p).

(** [sol] is read from an assignment satisfying the problem within [eps]. *)
Definition nearly_solved (eps : R) (g : gen R) (sol : solution R) : Prop :=
  exists env, nearly_feasible eps env (g_problem g) /\ ConstructSwerveSolution g env = Ok sol.

(** [a] and [b] differ by at most [eps]. *)
Definition within (eps a b : R) : Prop := Rabs (a - b) <= eps.
