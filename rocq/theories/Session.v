(** A client session: one path builder, the generators constructed from it and
    the solver runs on them, in any order.
    /repo/src/SwerveTrajectoryGenerator.cpp:40-42 (the constructor takes the
    builder by value) and 274-294 (Generate); /repo/src/RustFFI.cpp:181-207
    (generate constructs a generator from the builder and runs it once).

    Simplification: generators are neither copied, moved nor destroyed (their
    callback lambdas capture [this], cpp:45 and 277; see Lifetime.v). *)
From Coq Require Import List ZArith.
Import ListNotations.
From Verif Require Export Outcome Num Builder Generator Runtime.

(** Client calls.  For Generate the solver's exit condition and the variable
    values it leaves behind are arbitrary inputs (cpp:285). *)
Inductive call (K : Type) : Type :=
| CBuild (o : op K)                              (* SwervePathBuilder.hpp:41-182 *)
| CConstruct (handle : Z)                        (* cpp:40-272 *)
| CGenerate (k : nat) (code : Z) (env : nat -> K). (* cpp:274-294 on generator [k] *)
Arguments CBuild {K} _.
Arguments CConstruct {K} _.
Arguments CGenerate {K} _ _ _.

(** What the client sees of a call. Return values and exceptions of
    SwervePathBuilder.hpp:41-182 and cpp:40-42, 274-294. *)
Inductive answer (K : Type) : Type :=
| ABuilt (r : outcome unit)
| AConstructed (r : outcome nat)                 (* the new generator's number *)
| AGenerated (r : outcome (solution K + Z))
| ANoSuchGenerator.
Arguments ABuilt {K} _.
Arguments AConstructed {K} _.
Arguments AGenerated {K} _.
Arguments ANoSuchGenerator {K}.

(** The builder and the generators alive, numbered in order of construction.
    (SwervePathBuilder.hpp:185-190, SwerveTrajectoryGenerator.hpp:48-73.) *)
Record session (K : Type) : Type := mkSession {
  ss_builder : builder K;
  ss_gens : list (gen K)
}.
Arguments mkSession {K} _ _.
Arguments ss_builder {K} _.
Arguments ss_gens {K} _.

Section Session.
  Context {K : Type} `{Arith K} `{Dbl K}.
  (** The numeric value of SolverExitCondition::kCallbackRequestedStop (cpp:289). *)
  Variable stop_code : Z.

  (** The session of a program that has just created its builder.
      (SwervePathBuilder.hpp:185-190.) *)
  Definition session_new : session K := mkSession new_builder [].

  (** Solve (cpp:285) leaves the decision variables at the values [env]. *)
  Definition left_at (env : nat -> K) (g : gen K) : gen K :=
    let p := g_problem g in
    mkGen (g_vars g) (g_N g) (mkProblem (pr_nvars p) (pr_cons p) (pr_obj p) env)
      (g_callbacks g) (g_handle g).

  (** One client call. (SwervePathBuilder.hpp:41-182, cpp:40-272, 274-294.) *)
  Definition session_call (asserts : bool) (s : session K) (c : call K)
      : session K * answer K :=
    match c with
    | CBuild o =>
        let '(b, r) := run_op asserts o (ss_builder s) in
        (mkSession b (ss_gens s), ABuilt r)
    | CConstruct handle =>
        match construct (ss_builder s) handle with
        | Ok g => (mkSession (ss_builder s) (ss_gens s ++ [g]), AConstructed (Ok (length (ss_gens s))))
        | Throw e => (s, AConstructed (Throw e))
        | AssertFail => (s, AConstructed AssertFail)
        | Undef u => (s, AConstructed (Undef u))
        | OutOfFuel => (s, AConstructed OutOfFuel)
        end
    | CGenerate k code env =>
        match nth_error (ss_gens s) k with
        | None => (s, ANoSuchGenerator)
        | Some g =>
            let g' := left_at env g in
            (mkSession (ss_builder s) (upd (ss_gens s) k (fun _ => g')),
             AGenerated (generate_result stop_code g' code env))
        end
    end.

  (** A sequence of client calls. (SwervePathBuilder.hpp:41-182, cpp:40-272,
      274-294.) *)
  Definition session_run (asserts : bool) (cs : list (call K)) (s : session K) : session K :=
    fold_left (fun s c => fst (session_call asserts s c)) cs s.
End Session.
