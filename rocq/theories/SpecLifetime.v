(** Specification vocabulary for the lifetime of generators. *)
From Coq Require Import List ZArith.
Import ListNotations.
From Verif Require Import Outcome Num Builder Generator Lifetime.
Local Open Scope nat_scope.

Section Spec.
  Context {K : Type} {HA : Arith K} {HD : Dbl K}.

  (** The step ends or replaces what is in object [k]. *)
  Definition touches (k : nat) (l : lop K) : Prop :=
    match l with
    | LMove j => j = k
    | LCopyAssign i _ => i = k
    | LMoveAssign i j => i = k \/ j = k
    | LDestroy i => i = k
    | _ => False
    end.

  (** The step makes another object refer to the variables of [k]. *)
  Definition shares (k : nat) (l : lop K) : Prop :=
    match l with LCopy j => j = k | LCopyAssign _ j => j = k | _ => False end.
  (** The step runs the solver on [k]. *)
  Definition runs (k : nat) (l : lop K) : Prop :=
    match l with LGenerate i _ _ _ => i = k | _ => False end.

  (** [sol] after the callbacks before number [i] have seen it. *)
  Definition passed_on (cbs : list (callback K)) (handle : Z) (sol : solution K) (i : nat) : solution K :=
    fold_left (fun s cb => cb s handle) (firstn i cbs) sol.

  (** Every callback of the path is called once, in order, with the handle; the
      first gets the solution of [g] at the values [env]. *)
  Definition proper_frame (g : gen K) (env : nat -> K) (rs : list (report K)) : Prop :=
    exists sol, ConstructSwerveSolution g env = Ok sol /\
      rs = map (fun i => (i, passed_on (g_callbacks g) (g_handle g) sol i, g_handle g))
             (seq 0 (length (g_callbacks g))).

  (** The reports of a whole run: a proper frame for each iteration in which one
      was due. *)
  Definition proper_progress (g : gen K) (its : list (bool * (nat -> K))) (rs : list (report K)) : Prop :=
    exists frames, rs = concat frames /\
      Forall2 (fun it fr => if fst it : bool then proper_frame g (snd it) fr else fr = []) its frames.

  (** What Generate returns: an error for an unfavourable exit condition, else
      the solution at the final values. *)
  Definition proper_result (stop : Z) (g : gen K) (code : Z) (env : nat -> K) (r : solution K + Z) : Prop :=
    if ((code <? 0) || (code =? stop))%Z then r = inr code
    else exists sol, ConstructSwerveSolution g env = Ok sol /\ r = inl sol.
End Spec.
