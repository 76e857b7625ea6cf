(** Edits of a path that a program can make. *)
From Coq Require Import List ZArith.
From Verif Require Import Outcome Num Builder Generator Edits.

(** A vector of waypoints, however edited, has at most 2^63 elements. *)
Definition small_edit {K} (s : step K) : Prop :=
  match s with SEdit p => (Z.of_nat (length (sp_waypoints p)) <= 2 ^ 63)%Z | SCall _ => True end.
