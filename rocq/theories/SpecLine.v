(** Vocabulary for the distance of a point from a segment, computed with doubles. *)
From Coq Require Import ZArith Reals SpecFloat.
From Verif Require Import NumF64 Geometry SpecDouble.
Local Open Scope R_scope.

(** A position of coordinates of size at most 2^1000. *)
Definition at_reach (p : Translation2 f64) : Prop := within 1000 (tX p) /\ within 1000 (tY p).
(** How far along the line from [s] to [e] the foot of [p] is, as computed. *)
Definition along (s e p : Translation2 f64) : f64 :=
  let lx := f64_sub (tX e) (tX s) in let ly := f64_sub (tY e) (tY s) in
  let vx := f64_sub (tX p) (tX s) in let vy := f64_sub (tY p) (tY s) in
  f64_div (f64_add (f64_mul vx lx) (f64_mul vy ly)) (f64_add (f64_mul lx lx) (f64_mul ly ly)).
(** The square of the distance of [q] and [p], as computed. *)
Definition apart2 (q p : Translation2 f64) : f64 :=
  let dx := f64_add (tX q) (SFopp (tX p)) in let dy := f64_add (tY q) (SFopp (tY p)) in
  f64_add (f64_mul dx dx) (f64_mul dy dy).
(** The coordinate [q] is that of the point [r] of the way from [a] to [b], but for rounding. *)
Definition part_way (a b : f64) (r : R) (q : f64) : Prop :=
  finite q /\ Rabs (real q - (real a + r * (real b - real a))) <=
    roundoff * (Rabs (real a) + 4 * Rabs (real b - real a)) + 3 * tiny.
