(** Generator objects that are copied, moved, assigned and destroyed.
    (cpp = /repo/src/SwerveTrajectoryGenerator.cpp, hpp =
    /repo/include/trajopt/SwerveTrajectoryGenerator.hpp.)

    The class declares none of these operations (hpp:24-79), so each member is
    copied or moved by itself:
    - a [sleipnir::Variable] is a shared reference to a decision variable (the
      code relies on that: [x], [y], ... and [problem] refer to the same
      variables, cpp:89-99), so a copy shares them;
    - the lambda in [callbacks] keeps the [this] and the handle it captured at
      construction (cpp:45);
    - a moved-from vector is empty.
    Generate registers a new lambda that captures its own [this] (cpp:277).

    Simplifications: one thread; objects have numbers that are not reused, as if
    every object had its own storage; assignment of an object to itself and
    Generate on a moved-from object are not modelled; cancellation is in
    Runtime.v. *)
From Coq Require Import List ZArith.
Import ListNotations.
From Verif Require Export Outcome Num Builder Generator Runtime.

(** A generator object, hpp:48-74: its members as built by the constructor,
    which decision variables it refers to, what the lambda in [callbacks]
    captured ([None]: [callbacks] is empty), whether it was moved from. *)
Record gobj (K : Type) : Type := mkGobj {
  o_gen : gen K;
  o_store : nat;
  o_lambda : option (nat * Z);
  o_moved : bool
}.
Arguments mkGobj {K} _ _ _ _.
Arguments o_gen {K} _.
Arguments o_store {K} _.
Arguments o_lambda {K} _.
Arguments o_moved {K} _.

(** All objects made so far, [None] for a destroyed one, and the values of each
    set of decision variables (hpp:48-74, cpp:89-104). *)
Record world (K : Type) : Type := mkWorld {
  w_objs : list (option (gobj K));
  w_values : list (nat -> K)
}.
Arguments mkWorld {K} _ _.
Arguments w_objs {K} _.
Arguments w_values {K} _.

(** What a client does with generators (hpp:24-46). *)
Inductive lop (K : Type) : Type :=
| LNew (b : builder K) (handle : Z)     (* cpp:40-272 *)
| LCopy (j : nat)                       (* a new object, copied from j *)
| LMove (j : nat)                       (* a new object, moved from j *)
| LCopyAssign (i j : nat)               (* i = j *)
| LMoveAssign (i j : nat)               (* i = std::move(j) *)
| LDestroy (i : nat)
| LGenerate (i : nat) (iterations : list (bool * (nat -> K))) (code : Z) (env : nat -> K).
    (* cpp:274-294 on object i: for each iteration of the solver whether cpp:52
       finds a frame due and the variable values, then exit condition and final
       values, as in Runtime.v *)
Arguments LNew {K} _ _.
Arguments LCopy {K} _.
Arguments LMove {K} _.
Arguments LCopyAssign {K} _ _.
Arguments LMoveAssign {K} _ _.
Arguments LDestroy {K} _.
Arguments LGenerate {K} _ _ _ _.

(** A call of a user callback, cpp:60: its index in the path, the solution it
    was given, the handle. *)
Definition report (K : Type) : Type := nat * solution K * Z.

(** What the client sees (cpp:40-42, 274-294). *)
Inductive lanswer (K : Type) : Type :=
| LMade (i : nat)                       (* a new object *)
| LDone
| LFailed (r : outcome unit)            (* the constructor did not return *)
| LGenerated (r : outcome (list (report K) * (solution K + Z)))
    (* the callbacks called, in order, and the value returned *)
| LInvalid.                             (* no such object, or not modelled *)
Arguments LMade {K} _.
Arguments LDone {K}.
Arguments LFailed {K} _.
Arguments LGenerated {K} _.
Arguments LInvalid {K}.

Section Lifetime.
  Context {K : Type} `{Arith K} `{Dbl K}.
  (** The numeric value of SolverExitCondition::kCallbackRequestedStop (cpp:289). *)
  Variable stop_code : Z.

  (** Before any generator exists (hpp:24). *)
  Definition world_new : world K := mkWorld [] [].

  (** Object [i] (hpp:48-74). *)
  Definition object (w : world K) (i : nat) : option (gobj K) :=
    match nth_error (w_objs w) i with Some o => o | None => None end.
  (** Object [i] replaced, [None] if destroyed (hpp:48-74). *)
  Definition put (w : world K) (i : nat) (o : option (gobj K)) : world K :=
    mkWorld (upd (w_objs w) i (fun _ => o)) (w_values w).
  (** One more object (hpp:24). *)
  Definition add (w : world K) (o : gobj K) : world K * lanswer K :=
    (mkWorld (w_objs w ++ [Some o]) (w_values w), LMade (length (w_objs w))).
  (** The decision variables [store] take the values [env] (cpp:285). *)
  Definition set_values (w : world K) (store : nat) (env : nat -> K) : world K :=
    mkWorld (w_objs w) (upd (w_values w) store (fun _ => env)).
  (** The values of the decision variables an object refers to (cpp:24, 349). *)
  Definition values (w : world K) (o : gobj K) : nat -> K :=
    nth (o_store o) (w_values w) (fun _ => nlit 0).

  (** What is left of an object after a move: all vectors of hpp:48-74 are empty.
      (Its problem is not used again: Generate on it is not modelled.) *)
  Definition emptied (o : gobj K) : gobj K :=
    mkGobj (mkGen (mkVars [] [] [] [] [] [] [] [] [] [] [] [] []) [] (g_problem (o_gen o)) [] (g_handle (o_gen o)))
      (o_store o) None true.

  (** cpp:59-61: the callbacks of the path in order; each may change the solution. *)
  Fixpoint call_all (i : nat) (cbs : list (callback K)) (sol : solution K) (handle : Z) : list (report K) :=
    match cbs with
    | [] => []
    | cb :: cbs' => (i, sol, handle) :: call_all (S i) cbs' (cb sol handle) handle
    end.

  (** cpp:58-61 when a frame is due in Generate on [o]: the lambda works on the
      object whose address it captured. *)
  Definition frame (w : world K) (o : gobj K) : outcome (list (report K)) :=
    match o_lambda o with
    | None => Ok []
    | Some (this, handle) =>
        match object w this with
        | None => Undef Dangling
        | Some p =>
            sol <- ConstructSwerveSolution (o_gen p) (values w p) ;;
            Ok (call_all 0 (g_callbacks (o_gen p)) sol handle)
        end
    end.

  (** The iterations of one Solve, cpp:277-285. *)
  Fixpoint iterate (w : world K) (o : gobj K) (its : list (bool * (nat -> K))) : outcome (list (report K)) :=
    match its with
    | [] => Ok []
    | (due, env) :: its' =>
        let w' := set_values w (o_store o) env in
        r <- (if due then frame w' o else Ok []) ;;
        rs <- iterate w' o its' ;;
        Ok (r ++ rs)
    end.

  (** cpp:274-294 *)
  Definition generate (w : world K) (o : gobj K) (its : list (bool * (nat -> K))) (code : Z) (env : nat -> K)
      : outcome (list (report K) * (solution K + Z)) :=
    rs <- iterate w o its ;;
    r <- generate_result stop_code (o_gen o) code env ;;
    Ok (rs, r).

  (** One step of the client (hpp:24-79, cpp:40-272, 274-294). *)
  Definition lstep (w : world K) (l : lop K) : world K * lanswer K :=
    match l with
    | LNew b handle =>
        match construct b handle with
        | Ok g => add (mkWorld (w_objs w) (w_values w ++ [pr_vals (g_problem g)]))
                    (mkGobj g (length (w_values w)) (Some (length (w_objs w), handle)) false)
        | Throw e => (w, LFailed (Throw e))
        | AssertFail => (w, LFailed AssertFail)
        | Undef u => (w, LFailed (Undef u))
        | OutOfFuel => (w, LFailed OutOfFuel)
        end
    | LCopy j =>
        match object w j with
        | Some o => add w o
        | None => (w, LInvalid)
        end
    | LMove j =>
        match object w j with
        | Some o => add (put w j (Some (emptied o))) o
        | None => (w, LInvalid)
        end
    | LCopyAssign i j =>
        match object w i, object w j with
        | Some _, Some o => if Nat.eqb i j then (w, LInvalid) else (put w i (Some o), LDone)
        | _, _ => (w, LInvalid)
        end
    | LMoveAssign i j =>
        match object w i, object w j with
        | Some _, Some o => if Nat.eqb i j then (w, LInvalid) else (put (put w j (Some (emptied o))) i (Some o), LDone)
        | _, _ => (w, LInvalid)
        end
    | LDestroy i =>
        match object w i with
        | Some _ => (put w i None, LDone)
        | None => (w, LInvalid)
        end
    | LGenerate i its code env =>
        match object w i with
        | Some o => if o_moved o then (w, LInvalid) else
            (set_values w (o_store o) env, LGenerated (generate w o its code env))
        | None => (w, LInvalid)
        end
    end.

  (** A sequence of client steps (hpp:24-79). *)
  Definition lrun (ls : list (lop K)) (w : world K) : world K := fold_left (fun w l => fst (lstep w l)) ls w.
End Lifetime.
