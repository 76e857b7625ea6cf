(** Builder calls mixed with edits through the reference that
    SwervePathBuilder::GetPath hands out (/repo/src/path/SwervePathBuilder.cpp:19-21). *)
From Coq Require Import List.
Import ListNotations.
From Verif Require Export Outcome Num Builder Generator.

(** /repo/include/trajopt/path/Path.hpp:32-42.  [sp_drivetrain = None] as in
    [builder]: mass and moi are still indeterminate. *)
Record spath (K : Type) : Type := mkSpath {
  sp_waypoints : list (waypoint K);
  sp_drivetrain : option (drivetrain K);
  sp_callbacks : list (callback K)
}.
Arguments mkSpath {K} _ _ _.
Arguments sp_waypoints {K} _.
Arguments sp_drivetrain {K} _.
Arguments sp_callbacks {K} _.

(** A call of SwervePathBuilder.hpp:41-182, or an assignment [GetPath() = p]:
    every edit through the reference leaves some value [p] behind. *)
Inductive step (K : Type) : Type :=
| SCall (o : op K)
| SEdit (p : spath K).
Arguments SCall {K} _.
Arguments SEdit {K} _.

Section Edits.
  Context {K : Type} `{Arith K} `{Dbl K}.
  (** GetPath() read, SwervePathBuilder.cpp:19-21. *)
  Definition GetPath (b : builder K) : spath K := mkSpath (b_waypoints b) (b_drivetrain b) (b_callbacks b).
  (** GetPath() assigned to, SwervePathBuilder.cpp:19-21; the private members
      (SwervePathBuilder.hpp:187-190) stay. *)
  Definition SetPath (b : builder K) (p : spath K) : builder K :=
    mkBuilder (sp_waypoints p) (sp_drivetrain p) (sp_callbacks p) (b_bumpers b) (b_guess b) (b_counts b).
  (** One step, SwervePathBuilder.hpp:37-182. *)
  Definition run_step (asserts : bool) (b : builder K) (s : step K) : builder K :=
    match s with
    | SCall o => fst (run_op asserts o b)
    | SEdit p => SetPath b p
    end.
  (** The builder after a sequence of steps, SwervePathBuilder.hpp:37-182. *)
  Definition run_steps (asserts : bool) (ss : list (step K)) (b : builder K) : builder K :=
    fold_left (run_step asserts) ss b.
End Edits.
