(** Generate, the cancellation flag and the progress callback as a labelled
    transition system.  Any number of Generate calls may run concurrently and
    any thread may call cancel_all; a run is any list of events the transition
    function accepts.

    The solver (sleipnir::OptimizationProblem::Solve) is external.  What is
    assumed of it is written into [step]: per iteration it calls the callback
    registered at cpp:277 in the calling thread; if the callback returns true
    it stops with exit condition kCallbackRequestedStop, and it reports that
    condition in no other case.  How many iterations it runs, the variable
    values it visits and any other exit condition are unconstrained.

    [lastFrameTime] (cpp:50) is a plain static: its initialisation is
    synchronised by the language, its later reads (cpp:52) and writes (cpp:56)
    are not.  The model records every such access with vector clocks and marks
    a run as racy ([r_race]) when two conflicting accesses are not ordered by
    happens-before; such a run has undefined behaviour.  The cancellation flag
    is a sequentially consistent atomic: a store releases the storing thread's
    clock, a load acquires the clock of the store it reads.  Synchronisation
    done by the client (joining or starting threads, locks, channels) is the
    event [ESync].

    A user callback may throw ([EThrow]); it is assumed that Solve lets the
    exception through, so that it leaves Generate.  A user callback may also call
    Generate on another generator: that call is written as a second thread [u]
    with [ESync t u] before it and [ESync u t] after it, which orders its
    accesses exactly as program order would.

    Simplification: a generator is used by one Generate call at a time. *)
From Coq Require Import List ZArith.
Import ListNotations.
From Verif Require Export Outcome Num Builder Generator.

(** Where a thread is (cpp = /repo/src/SwerveTrajectoryGenerator.cpp):
    outside Generate, or at a point of cpp:274-294. *)
Inductive phase (K : Type) : Type :=
| Idle
| Solving (g : gen K)                     (* inside Solve (cpp:285), between iterations *)
| Entered (g : gen K) (env : nat -> K)    (* past cpp:50; cpp:51 is next *)
| Framing (g : gen K) (env : nat -> K) (now : Z)  (* the frame is due; cpp:56 is next *)
| Calling (g : gen K) (now : Z) (i : nat) (cbs : list (callback K)) (s : solution K)
    (* cpp:59: callback number [i] is next, [cbs] are still to run, [s] is the
       solution object they share *)
| Polling (g : gen K)                     (* cpp:281 is next *)
| Stopping (g : gen K)                    (* the iteration callback returned true *)
| Returned (r : outcome (solution K + Z)).
    (* cpp:287-293: inl the solution, inr the exit condition whose message is returned *)
Arguments Idle {K}.
Arguments Solving {K} _.
Arguments Entered {K} _ _.
Arguments Framing {K} _ _ _.
Arguments Calling {K} _ _ _ _ _.
Arguments Polling {K} _.
Arguments Stopping {K} _.
Arguments Returned {K} _.

(** One invocation of a user callback, cpp:60: which thread, which callback
    of the path, the solution it was given, the handle, the frame's time. *)
Record delivery (K : Type) : Type := mkDelivery {
  dl_thread : nat; dl_cb : nat; dl_solution : solution K; dl_handle : Z; dl_time : Z
}.
Arguments mkDelivery {K} _ _ _ _ _.
Arguments dl_thread {K} _.
Arguments dl_cb {K} _.
Arguments dl_solution {K} _.
Arguments dl_handle {K} _.
Arguments dl_time {K} _.

(** One unsynchronised access to [lastFrameTime]: the accessing thread, that
    thread's local time, and whether it is the write of cpp:56 (else the read
    of cpp:52). *)
Record access : Type := mkAccess { ac_thread : nat; ac_epoch : nat; ac_write : bool }.

(** Vector clocks: [c u] is how much of thread [u] is known. (C++ memory model;
    the ordering matters for the static at cpp:50-56.) *)
Definition vclock : Type := nat -> nat.

(** Process-wide state: the flag of /repo/src/util/Cancellation.cpp:7-10 and
    the clock released by its last store; the static of cpp:50 ([None] before
    its initialisation) and the clock released by the initialisation; the
    clock and phase of every thread; the accesses made to the static; the
    frames (thread and time) written to it; the deliveries made; whether a race happened. *)
Record rt (K : Type) : Type := mkRt {
  r_flag : Z;
  r_flag_clock : vclock;
  r_last : option Z;
  r_init_clock : vclock;
  r_clocks : nat -> vclock;
  r_threads : nat -> phase K;
  r_accesses : list access;
  r_frames : list (nat * Z);
  r_log : list (delivery K);
  r_race : bool
}.
Arguments mkRt {K} _ _ _ _ _ _ _ _ _ _.
Arguments r_flag {K} _.
Arguments r_flag_clock {K} _.
Arguments r_last {K} _.
Arguments r_init_clock {K} _.
Arguments r_clocks {K} _.
Arguments r_threads {K} _.
Arguments r_accesses {K} _.
Arguments r_frames {K} _.
Arguments r_log {K} _.
Arguments r_race {K} _.

(** The events of a run; [t], [u] are threads. The constructors cite the lines of
    /repo/src/SwerveTrajectoryGenerator.cpp:44-64 and 274-294 they stand for. *)
Inductive event (K : Type) : Type :=
| EStart (t : nat) (g : gen K)            (* Generate called, cpp:276-285 *)
| EIter (t : nat) (t0 : Z) (env : nat -> K)
    (* an iteration at variable values [env] reaches cpp:50, whose initialiser
       reads the clock as [t0] (nanoseconds) if it has not run before *)
| ECheck (t : nat) (now : Z)              (* cpp:51-54, the clock reads [now] *)
| EWrite (t : nat)                        (* cpp:56-58 *)
| ECall (t : nat)                         (* cpp:59-61, one callback *)
| EPoll (t : nat)                         (* cpp:281 *)
| EFinish (t : nat) (code : Z) (env : nat -> K)  (* Solve returns, cpp:285-293 *)
| ECancel (t : nat)                       (* cancel_all, /repo/src/RustFFI.cpp:248-250 *)
| ESync (t u : nat)
    (* client code: what [t] did so far happens before what [u] does next *)
| EThrow (t : nat).                       (* cpp:59-61, the callback called throws *)
Arguments EStart {K} _ _.
Arguments EIter {K} _ _ _.
Arguments ECheck {K} _ _.
Arguments EWrite {K} _.
Arguments ECall {K} _.
Arguments EPoll {K} _.
Arguments EFinish {K} _ _ _.
Arguments ECancel {K} _.
Arguments ESync {K} _ _.
Arguments EThrow {K} _.

(** Vector clock operations (C++ memory model, not in /repo): pointwise
    maximum; advancing one's own entry; the empty clock. *)
Definition vc_join (a b : vclock) : vclock := fun u => Nat.max (a u) (b u).
(** Advancing one's own entry (C++ memory model, orders the accesses of
    cpp:50-56). *)
Definition vc_tick (t : nat) (c : vclock) : vclock := fun u => if Nat.eqb u t then S (c u) else c u.
(** The empty clock (C++ memory model, orders the accesses of cpp:50-56). *)
Definition vc_zero : vclock := fun _ => 0%nat.

(** An access already made conflicts with one thread [t] makes now, and is not
    ordered before it (C++ memory model, not in /repo). *)
Definition races_with (c : vclock) (t : nat) (write : bool) (a : access) : bool :=
  negb (Nat.eqb (ac_thread a) t) && (write || ac_write a) && (c (ac_thread a) <? ac_epoch a)%nat.

(** cpp:52: [now - lastFrameTime < 1/60 s], in integer nanoseconds. *)
Definition throttled (last now : Z) : bool := (60 * (now - last) <? 1000000000)%Z.

(** One entry of a thread-indexed table replaced. (Per-thread state of the code of
    cpp:44-64 and 274-294.) *)
Definition set_at {A} (f : nat -> A) (t : nat) (a : A) : nat -> A :=
  fun u => if Nat.eqb u t then a else f u.

Section Runtime.
  Context {K : Type} `{Arith K} `{Dbl K}.
  (** The numeric value of SolverExitCondition::kCallbackRequestedStop (cpp:289). *)
  Variable stop_code : Z.

  (** Initial state of the process: flag 0 (Cancellation.cpp:8), nothing running. *)
  Definition rt_init : rt K :=
    mkRt 0%Z vc_zero None vc_zero (fun _ => vc_zero) (fun _ => Idle) [] [] [] false.

  (** Whether a thread runs client code: outside Generate, or inside a user
      callback (cpp:60). *)
  Definition in_client (p : phase K) : bool :=
    match p with Idle | Returned _ | Calling _ _ _ _ _ => true | _ => false end.

  (** Thread [t] moves on to phase [p] with clock [c] (state update only).
      (cpp:44-64 and 274-294.) *)
  Definition moved (s : rt K) (t : nat) (c : vclock) (p : phase K) : rt K :=
    mkRt (r_flag s) (r_flag_clock s) (r_last s) (r_init_clock s)
      (set_at (r_clocks s) t c) (set_at (r_threads s) t p)
      (r_accesses s) (r_frames s) (r_log s) (r_race s).

  (** After cpp:58, or after callback [i-1]: call the next one, or go on to
      cpp:281. *)
  Definition calling (g : gen K) (now : Z) (i : nat) (cbs : list (callback K))
      (s : solution K) : phase K :=
    match cbs with [] => Polling g | _ => Calling g now i cbs s end.

  (** cpp:287-293 *)
  Definition generate_result (g : gen K) (code : Z) (env : nat -> K)
      : outcome (solution K + Z) :=
    if ((code <? 0) || (code =? stop_code))%Z then Ok (inr code)
    else s <- ConstructSwerveSolution g env ;; Ok (inl s).

  (** One event; [None] if it cannot happen in this state.  Each case cites the
      code through the constructor of [event]. (cpp:44-64 and 274-294,
      Cancellation.cpp:7-10, RustFFI.cpp:248-250.) *)
  Definition step (s : rt K) (e : event K) : option (rt K) :=
    match e with
    | EStart t g =>
        match r_threads s t with
        | Idle | Returned _ =>
            let c := vc_tick t (r_clocks s t) in
            Some (mkRt 0%Z c (r_last s) (r_init_clock s)
                    (set_at (r_clocks s) t c) (set_at (r_threads s) t (Solving g))
                    (r_accesses s) (r_frames s) (r_log s) (r_race s))
        | _ => None
        end
    | EIter t t0 env =>
        match r_threads s t with
        | Solving g =>
            let c := vc_tick t (r_clocks s t) in
            match r_last s with
            | Some _ => Some (moved s t (vc_join c (r_init_clock s)) (Entered g env))
            | None =>
                Some (mkRt (r_flag s) (r_flag_clock s) (Some t0) c
                        (set_at (r_clocks s) t c) (set_at (r_threads s) t (Entered g env))
                        (r_accesses s) (r_frames s) (r_log s) (r_race s))
            end
        | _ => None
        end
    | ECheck t now =>
        match r_threads s t, r_last s with
        | Entered g env, Some last =>
            let c := vc_tick t (r_clocks s t) in
            Some (mkRt (r_flag s) (r_flag_clock s) (r_last s) (r_init_clock s)
                    (set_at (r_clocks s) t c)
                    (set_at (r_threads s) t (if throttled last now then Polling g else Framing g env now))
                    (r_accesses s ++ [mkAccess t (c t) false]) (r_frames s) (r_log s)
                    (r_race s || existsb (races_with c t false) (r_accesses s)))
        | _, _ => None
        end
    | EWrite t =>
        match r_threads s t with
        | Framing g env now =>
            match ConstructSwerveSolution g env with
            | Ok sol =>
                let c := vc_tick t (r_clocks s t) in
                Some (mkRt (r_flag s) (r_flag_clock s) (Some now) (r_init_clock s)
                        (set_at (r_clocks s) t c)
                        (set_at (r_threads s) t (calling g now 0 (g_callbacks g) sol))
                        (r_accesses s ++ [mkAccess t (c t) true]) (r_frames s ++ [(t, now)]) (r_log s)
                        (r_race s || existsb (races_with c t true) (r_accesses s)))
            | _ => None
            end
        | _ => None
        end
    | ECall t =>
        match r_threads s t with
        | Calling g now i (cb :: cbs) sol =>
            Some (mkRt (r_flag s) (r_flag_clock s) (r_last s) (r_init_clock s)
                    (set_at (r_clocks s) t (vc_tick t (r_clocks s t)))
                    (set_at (r_threads s) t (calling g now (S i) cbs (cb sol (g_handle g))))
                    (r_accesses s) (r_frames s)
                    (r_log s ++ [mkDelivery t i sol (g_handle g) now]) (r_race s))
        | _ => None
        end
    | EPoll t =>
        match r_threads s t with
        | Polling g =>
            Some (moved s t (vc_join (vc_tick t (r_clocks s t)) (r_flag_clock s))
                    (if (r_flag s =? 0)%Z then Solving g else Stopping g))
        | _ => None
        end
    | EFinish t code env =>
        match r_threads s t with
        | Solving g =>
            if (code =? stop_code)%Z then None
            else Some (moved s t (vc_tick t (r_clocks s t)) (Returned (generate_result g code env)))
        | Stopping g =>
            if (code =? stop_code)%Z
            then Some (moved s t (vc_tick t (r_clocks s t)) (Returned (generate_result g code env)))
            else None
        | _ => None
        end
    | ECancel t =>
        if in_client (r_threads s t) then
          let c := vc_tick t (r_clocks s t) in
          Some (mkRt 1%Z c (r_last s) (r_init_clock s)
                  (set_at (r_clocks s) t c) (r_threads s)
                  (r_accesses s) (r_frames s) (r_log s) (r_race s))
        else None
    | ESync t u =>
        if in_client (r_threads s t) && in_client (r_threads s u) && negb (Nat.eqb t u) then
          let c := vc_tick t (r_clocks s t) in
          Some (mkRt (r_flag s) (r_flag_clock s) (r_last s) (r_init_clock s)
                  (set_at (set_at (r_clocks s) t c) u (vc_join (r_clocks s u) c)) (r_threads s)
                  (r_accesses s) (r_frames s) (r_log s) (r_race s))
        else None
    | EThrow t =>
        match r_threads s t with
        | Calling g now i (cb :: cbs) sol =>
            Some (mkRt (r_flag s) (r_flag_clock s) (r_last s) (r_init_clock s)
                    (set_at (r_clocks s) t (vc_tick t (r_clocks s t)))
                    (set_at (r_threads s) t (Returned (Throw CallbackException)))
                    (r_accesses s) (r_frames s)
                    (r_log s ++ [mkDelivery t i sol (g_handle g) now]) (r_race s))
        | _ => None
        end
    end.

  (** A run: every event accepted in turn. (cpp:44-64 and 274-294.) *)
  Fixpoint run (s : rt K) (es : list (event K)) : option (rt K) :=
    match es with
    | [] => Some s
    | e :: es' => match step s e with Some s' => run s' es' | None => None end
    end.
End Runtime.
