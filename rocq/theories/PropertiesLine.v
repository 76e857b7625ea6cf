(** * The distance from a segment, computed with doubles: C133 *)
From Coq Require Import List ZArith Reals SpecFloat.
From Verif Require Import Num NumF64 Geometry Constraints SpecDouble SpecLine LineProofs.
Local Open Scope R_scope.

(** The distance is taken to a point [r] of the way along the segment, but for rounding, where
    [r] is the foot of the point as computed, moved onto the segment, with an error of at most
    2^-54 and of none past the middle; before the start, it is taken to the start itself. *)
Theorem C133_measured : forall fcos fsin fatan2 fhypot, let A : Arith f64 := Arith_f64 fcos fsin fatan2 fhypot in
  forall s e p, at_reach s -> at_reach e -> within 1000 (along s e p) ->
  let t := real (along s e p) in exists r q,
    LinePointDistance (fun x => x) (fun x => x) s e p = apart2 q p /\
    0 <= r <= 1 /\ Rabs (r - Rmax 0 (Rmin t 1)) <= / 2 ^ 54 /\ (t <= 0 \/ 1 / 2 <= t -> r = Rmax 0 (Rmin t 1)) /\
    part_way (tX s) (tX e) r (tX q) /\ part_way (tY s) (tY e) r (tY q) /\
    (t <= 0 -> real (tX q) = real (tX s) /\ real (tY q) = real (tY s)).
Proof. exact C133_measured_proof. Qed.
Print Assumptions C133_measured.

(** Beyond the end it is not always taken to the end itself. *)
Theorem C133_end_refuted : forall fcos fsin fatan2 fhypot, let A : Arith f64 := Arith_f64 fcos fsin fatan2 fhypot in
  exists s e p, at_reach s /\ at_reach e /\ within 1000 (along s e p) /\ 1 <= real (along s e p) /\
  LinePointDistance (fun x => x) (fun x => x) s e p <> apart2 e p.
Proof. exact C133_end_proof. Qed.
Print Assumptions C133_end_refuted.

(** The segment from 0 to 4 on an axis: the foot of 0.1 is in its first half, and that of -1
    before its start.  The distance of 0.1, which is on the segment, is not computed as 0. *)
Example C133_case : forall fcos fsin fatan2 fhypot, let A : Arith f64 := Arith_f64 fcos fsin fatan2 fhypot in
  at_reach (spot fzero) /\ at_reach (spot f4) /\
  within 1000 (along (spot fzero) (spot f4) (spot tenth)) /\ 0 < real (along (spot fzero) (spot f4) (spot tenth)) < 1 / 2 /\
  within 1000 (along (spot fzero) (spot f4) (spot m1)) /\ real (along (spot fzero) (spot f4) (spot m1)) <= 0 /\
  LinePointDistance (fun x => x) (fun x => x) (spot fzero) (spot f4) (spot tenth) = S754_finite false 5066549580791808 (-159).
Proof.
  intros fcos fsin fatan2 fhypot A. destruct along_inside as (I1 & I2), along_before as (B1 & B2).
  split; [exact reach0|]. split; [exact reach4|]. split; [exact I1|]. split; [exact I2|]. split; [exact B1|]. split; [exact B2|].
  exact (inside_value fcos fsin fatan2 fhypot).
Qed.
