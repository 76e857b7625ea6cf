(** Specification of what becomes of generators that are copied, moved, assigned
    and destroyed: a ledger of which constructor call made what each object holds. *)
From Coq Require Import List ZArith.
Import ListNotations.
From Verif Require Import Outcome Num Builder Generator Runtime Lifetime SpecBuilder SpecGenerator SpecLifetime.
Local Open Scope nat_scope.

(** What an object holds: the generator made by the [c]-th constructor call that
    returned, or nothing any more because it was moved from. *)
Inductive content : Type := Holds (c : nat) | Emptied.

Section Spec.
  Context {K : Type} {HA : Arith K} {HD : Dbl K}.

  (** A constructor call that returned: the generator, the object it made, and
      the present values of the decision variables. *)
  Record entry : Type := mkEntry { e_gen : gen K; e_home : nat; e_values : nat -> K }.
  (** The objects, [None] if destroyed, and the constructor calls. *)
  Record ledger : Type := mkLedger { d_objs : list (option content); d_made : list entry }.
  Definition held (d : ledger) (i : nat) : option content := nth i (d_objs d) None.

  (** [l] with its [i]-th element replaced. *)
  Fixpoint replaced {A} (i : nat) (a : A) (l : list A) : list A :=
    match l, i with
    | [], _ => []
    | _ :: l', O => a :: l'
    | x :: l', S i' => x :: replaced i' a l'
    end.

  (** The ledger after one more step. *)
  Definition enter (d : ledger) (l : lop K) : ledger :=
    let put i x := replaced i x (d_objs d) in
    match l with
    | LNew b handle =>
        match construct b handle with
        | Ok g => mkLedger (d_objs d ++ [Some (Holds (length (d_made d)))])
                    (d_made d ++ [mkEntry g (length (d_objs d)) (pr_vals (g_problem g))])
        | _ => d
        end
    | LCopy j => match held d j with Some x => mkLedger (d_objs d ++ [Some x]) (d_made d) | None => d end
    | LMove j => match held d j with Some x => mkLedger (put j (Some Emptied) ++ [Some x]) (d_made d) | None => d end
    | LCopyAssign i j =>
        match held d i, held d j with
        | Some _, Some x => mkLedger (put i (Some x)) (d_made d)
        | _, _ => d
        end
    | LMoveAssign i j =>
        match held d i, held d j with
        | Some _, Some x => if i =? j then d else
            mkLedger (replaced i (Some x) (put j (Some Emptied))) (d_made d)
        | _, _ => d
        end
    | LDestroy i => mkLedger (put i None) (d_made d)
    | LGenerate i _ _ env =>
        match held d i with
        | Some (Holds c) =>
            match nth_error (d_made d) c with
            | Some e => mkLedger (d_objs d) (replaced c (mkEntry (e_gen e) (e_home e) env) (d_made d))
            | None => d
            end
        | _ => d
        end
    end.
  Definition ledger_of (ls : list (lop K)) : ledger := fold_left enter ls (mkLedger [] []).

  (** A frame: all callbacks of [g] in order, with [handle]; the first gets the
      solution of [g] at the values [env]. *)
  Definition frame_of (g : gen K) (handle : Z) (env : nat -> K) (rs : list (report K)) : Prop :=
    exists sol, ConstructSwerveSolution g env = Ok sol /\
      rs = map (fun i => (i, passed_on (g_callbacks g) handle sol i, handle)) (seq 0 (length (g_callbacks g))).
  (** One for each iteration in which it is due; [view] says at which values. *)
  Definition shown (g : gen K) (handle : Z) (view : (nat -> K) -> nat -> K) (its : list (bool * (nat -> K)))
      (rs : list (report K)) : Prop :=
    exists frames, rs = concat frames /\
      Forall2 (fun it fr => if fst it : bool then frame_of g handle (view (snd it)) fr else fr = []) its frames.

  (** A run of the generator of entry [e] = number [c]: it looks for its
      callbacks and its variables in whatever the object it was made in holds
      now, and keeps its own handle. *)
  Definition run_answers (stop : Z) (d : ledger) (c : nat) (e : entry) (its : list (bool * (nat -> K))) (code : Z)
      (env : nat -> K) (a : lanswer K) : Prop :=
    match held d (e_home e) with
    | None => (In true (map fst its) -> a = LGenerated (Undef Dangling)) /\
        (~ In true (map fst its) -> exists r, a = LGenerated (Ok ([], r)) /\ proper_result stop (e_gen e) code env r)
    | Some Emptied => exists r, a = LGenerated (Ok ([], r)) /\ proper_result stop (e_gen e) code env r
    | Some (Holds c') => exists e' rs r, nth_error (d_made d) c' = Some e' /\ a = LGenerated (Ok (rs, r)) /\
        shown (e_gen e') (g_handle (e_gen e)) (fun now => if c' =? c then now else e_values e') its rs /\
        proper_result stop (e_gen e) code env r
    end.

  (** What the client sees of a step. *)
  Definition answers (stop : Z) (d : ledger) (l : lop K) (a : lanswer K) : Prop :=
    match l with
    | LNew b handle => forall g, construct b handle = Ok g -> a = LMade (length (d_objs d))
    | LCopy j | LMove j => a = if held d j then LMade (length (d_objs d)) else LInvalid
    | LCopyAssign i j | LMoveAssign i j =>
        a = match held d i, held d j with Some _, Some _ => if i =? j then LInvalid else LDone | _, _ => LInvalid end
    | LDestroy i => a = if held d i then LDone else LInvalid
    | LGenerate i its code env =>
        match held d i with
        | Some (Holds c) => exists e, nth_error (d_made d) c = Some e /\ run_answers stop d c e its code env a
        | _ => a = LInvalid
        end
    end.

  (** Every generator is made from a builder. *)
  Definition from_builders (ls : list (lop K)) : Prop :=
    forall b handle, In (LNew b handle) ls -> exists asserts h, b = path asserts h.
End Spec.
Arguments entry : clear implicits.
Arguments ledger : clear implicits.
