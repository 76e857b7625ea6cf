(** Vocabulary for sizes: what fits into 64 bits and into memory. *)
From Coq Require Import List ZArith.
From Verif Require Import Outcome Num Geometry Builder SpecBuilder.

(** No address space holds a vector of 2^60 doubles. *)
Definition real_memory (ok : nat -> nat -> bool) : Prop := forall k n, ok k n = true -> (Z.of_nat n < 2 ^ 60)%Z.
(** Vectors that exist: fewer than 2^60 elements each; numbers of 64 bits. *)
Definition stored {K} (guess : list (list (Pose2 K))) (counts : list nat) : Prop :=
  (Z.of_nat (length counts) < 2 ^ 60)%Z /\ Forall (fun n => in_size_t n) counts /\
  Forall (fun l => (Z.of_nat (length l) < 2 ^ 60)%Z) guess.
(** A request for at most [n] doubles was refused. *)
Definition refused (ok : nat -> nat -> bool) (n : nat) : Prop := exists k m, (m <= n)%nat /\ ok k m = false.

(** The 32-bit [int] that agrees with [n] modulo 2^32. *)
Definition int_of (n : nat) (v : Z) : Prop :=
  (- 2 ^ 31 <= v < 2 ^ 31)%Z /\ exists k, Z.of_nat n = (v + k * 2 ^ 32)%Z.
