(** Specification of the initial guess: a polyline through the guess points. *)
From Coq Require Import Reals List Arith.
Import ListNotations.
From Verif Require Import Num NumR Geometry Builder Spec SpecBuilder.
Local Open Scope nat_scope.

(** The guess points of the segment ending at waypoint [w]: the guess at the
    waypoint before, the points given for the segment, the guess at [w]. *)
Definition route (h : list (op R)) (w : nat) : list (Pose2 R) :=
  last_guess zero_pose h (w - 1) :: sgmt_guesses h w ++ [last_guess zero_pose h w].

(** In a segment of [n] intervals with [g] guess points after its start, the
    point number [j] is reached after this many intervals. *)
Definition reached_after (n g j : nat) : nat := if j <? g then j * (n / g) else n.

(** The sample number at which segment [s] (0-based) starts. *)
Definition segment_start (counts : list nat) (s : nat) : nat := list_sum (firstn s counts).

(** A guess rotation given as an angle. *)
Definition angle_of (p : Pose2 R) (a : R) : Prop := rCos (pRot p) = cos a /\ rSin (pRot p) = sin a.
