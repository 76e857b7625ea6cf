(** Specification vocabulary for client sessions. *)
From Coq Require Import List ZArith.
Import ListNotations.
From Verif Require Import Outcome Num Geometry Expr Constraints Builder Generator Runtime Session SpecBuilder SpecGenerator.
Local Open Scope nat_scope.

Section Spec.
  Context {K : Type} {HA : Arith K} {HD : Dbl K}.

  (** The builder calls of a session, in order. *)
  Fixpoint builder_calls (cs : list (call K)) : list (op K) :=
    match cs with
    | [] => []
    | CBuild o :: cs' => o :: builder_calls cs'
    | _ :: cs' => builder_calls cs'
    end.

  (** The session runs the solver on generator [k]. *)
  Definition generates (k : nat) (c : call K) : Prop :=
    match c with CGenerate j _ _ => j = k | _ => False end.

  (** Two generators pose the same problem: same variables, counts,
      constraints, objective, callbacks and handle; the current variable values
      may differ. *)
  Definition same_generator (g g' : gen K) : Prop :=
    g_vars g = g_vars g' /\ g_N g = g_N g' /\ g_callbacks g = g_callbacks g' /\ g_handle g = g_handle g' /\
    pr_nvars (g_problem g) = pr_nvars (g_problem g') /\ pr_cons (g_problem g) = pr_cons (g_problem g') /\
    pr_obj (g_problem g) = pr_obj (g_problem g').

  (** Two builders ask for the same at waypoint [i]. *)
  Definition same_waypoint (b b' : builder K) (i : nat) : Prop :=
    constraints_at b i = constraints_at b' i /\
    segment_constraints_to b i = segment_constraints_to b' i /\
    nth_error (b_guess b) i = nth_error (b_guess b') i.
End Spec.
