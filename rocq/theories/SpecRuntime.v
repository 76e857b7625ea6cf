(** Specification vocabulary for concurrent runs of Generate. *)
From Coq Require Import List ZArith Relation_Operators.
Import ListNotations.
From Verif Require Import Outcome Num Geometry Expr Constraints Builder Generator Runtime SpecBuilder SpecGenerator.
Local Open Scope nat_scope.

Section Spec.
  Context {K : Type} {HA : Arith K} {HD : Dbl K}.

  (** [ks] are the values of the decision variables [vs] in [env]. *)
  Definition values (env : nat -> K) (vs : list (expr K)) (ks : list K) : Prop :=
    Forall2 (fun v k => exists n, v = EVar n /\ k = env n) vs ks.
  (** [sol] holds, array by array, the values [env] gives to the generator's
      variables; each segment's time step is repeated for its intervals. *)
  Definition holds_values (env : nat -> K) (g : gen K) (sol : solution K) : Prop :=
    let v := g_vars g in
    values env (v_x v) (s_x sol) /\ values env (v_y v) (s_y sol) /\
    values env (v_cos v) (s_thetacos sol) /\ values env (v_sin v) (s_thetasin sol) /\
    values env (v_vx v) (s_vx sol) /\ values env (v_vy v) (s_vy sol) /\
    values env (v_omega v) (s_omega sol) /\ values env (v_ax v) (s_ax sol) /\
    values env (v_ay v) (s_ay sol) /\ values env (v_alpha v) (s_alpha sol) /\
    Forall2 (values env) (v_Fx v) (s_moduleFX sol) /\ Forall2 (values env) (v_Fy v) (s_moduleFY sol) /\
    exists steps, values env (v_dt v) steps /\ length steps = length (g_N g) /\
      s_dt sol = flat_map (fun nk => repeat (snd nk) (fst nk)) (combine (g_N g) steps).

  (** Generators a program can obtain. *)
  Definition real_generator (g : gen K) : Prop :=
    exists asserts h handle d, generator asserts h handle d g.
  Definition real_start (e : event K) : Prop :=
    match e with EStart _ g => real_generator g | _ => True end.

  (** Kinds of events. *)
  Definition is_start (e : event K) : Prop := match e with EStart _ _ => True | _ => False end.
  Definition is_start_of (t : nat) (e : event K) : Prop := match e with EStart u _ => u = t | _ => False end.
  Definition is_cancel (e : event K) : Prop := match e with ECancel _ => True | _ => False end.
  Definition is_throw_of (t : nat) (e : event K) : Prop := match e with EThrow u => u = t | _ => False end.
  Definition is_poll_of (t : nat) (e : event K) : Prop := match e with EPoll u => u = t | _ => False end.
  (** The thread an event belongs to. *)
  Definition thread_of (e : event K) : nat :=
    match e with
    | EStart t _ | EIter t _ _ | ECheck t _ | EWrite t | ECall t | EPoll t | EFinish t _ _ | ECancel t | ESync t _ | EThrow t => t
    end.
  (** Happens-before between the events of a run, by position.  One event
      comes directly before a later one in the same thread; a store to the
      cancellation flag before the loads that read it; the initialisation of
      the frame clock (the first iteration of all) before every later
      iteration; client synchronisation before what the other thread does. *)
  Definition stores (e : event K) : Prop := match e with EStart _ _ | ECancel _ => True | _ => False end.
  Definition loads (e : event K) : Prop := match e with EPoll _ => True | _ => False end.
  Definition iterates (e : event K) : Prop := match e with EIter _ _ _ => True | _ => False end.
  Definition directly_before (es : list (event K)) (i j : nat) : Prop :=
    i < j /\ exists a b, nth_error es i = Some a /\ nth_error es j = Some b /\
    (thread_of a = thread_of b \/
     (stores a /\ loads b /\ forall k c, i < k < j -> nth_error es k = Some c -> ~ stores c) \/
     (iterates a /\ iterates b /\ forall k c, k < i -> nth_error es k = Some c -> ~ iterates c) \/
     (exists t, a = ESync t (thread_of b))).
  Definition happens_before (es : list (event K)) : nat -> nat -> Prop := clos_trans nat (directly_before es).
  (** Access to the frame clock after its initialisation: [true] for a write. *)
  Definition touches (e : event K) (write : bool) : Prop :=
    match e with ECheck _ _ => write = false | EWrite _ => write = true | _ => False end.
  (** A data race: two accesses by different threads, at least one of them a
      write, neither before the other. *)
  Definition data_race (es : list (event K)) : Prop :=
    exists i j a b wa wb, i < j /\ nth_error es i = Some a /\ nth_error es j = Some b /\
      thread_of a <> thread_of b /\ touches a wa /\ touches b wb /\ (wa = true \/ wb = true) /\
      ~ happens_before es i j.

  (** [e] passes on what thread [t] did so far: a store to the flag, or client
      synchronisation. *)
  Definition publishes (t : nat) (e : event K) : Prop :=
    match e with EStart u _ | ECancel u | ESync u _ => u = t | _ => False end.

  (** A thread inside Generate. *)
  Definition generating (p : phase K) : Prop :=
    match p with Idle | Returned _ => False | _ => True end.

  (** What the callbacks [cbs], numbered from [i], are called with when run in
      order on a solution object that starts as [sol]. *)
  Fixpoint calls_from (t i : nat) (cbs : list (callback K)) (sol : solution K) (handle now : Z) : list (delivery K) :=
    match cbs with
    | [] => []
    | cb :: cbs' => mkDelivery t i sol handle now :: calls_from t (S i) cbs' (cb sol handle) handle now
    end.
  (** The callback invocations of thread [t] so far. *)
  Definition log_of (t : nat) (s : rt K) : list (delivery K) :=
    filter (fun d => Nat.eqb (dl_thread d) t) (r_log s).

  (** At least 1/60 s (in nanoseconds) from [a] to [b]. *)
  Definition frame_apart (a b : Z) : Prop := (1000000000 <= 60 * (b - a))%Z.

  (** Generations follow one another: one starts only when none is running and
      only in a thread that the previous one's thread has synchronised with
      since it returned ([ok t]). *)
  Fixpoint serialised (busy : bool) (ok : nat -> bool) (es : list (event K)) : Prop :=
    match es with
    | [] => True
    | EStart t _ :: es' => busy = false /\ ok t = true /\ serialised true ok es'
    | EFinish t _ _ :: es' | EThrow t :: es' => serialised false (Nat.eqb t) es'
    | ESync t u :: es' => serialised busy (fun v => ok v || (negb busy && ok t && Nat.eqb v u)) es'
    | _ :: es' => serialised busy ok es'
    end.
  (** Iterations are handed from thread to thread: each access to the frame
      clock is made by a thread that client synchronisation has reached since
      the previous one ([ok t]). *)
  Fixpoint handed_on (ok : nat -> bool) (es : list (event K)) : Prop :=
    match es with
    | [] => True
    | ECheck t _ :: es' | EWrite t :: es' => ok t = true /\ handed_on (Nat.eqb t) es'
    | ESync t u :: es' => handed_on (fun v => ok v || (ok t && Nat.eqb v u)) es'
    | _ :: es' => handed_on ok es'
    end.
End Spec.
