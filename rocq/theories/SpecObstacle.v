(** Specification vocabulary for keeping clear of obstacles: outlines as sets
    of points of the plane. *)
From Coq Require Import Reals List Arith.
Import ListNotations.
From Verif Require Import Num NumR Geometry Constraints Builder Generator Spec SpecBuilder SpecPhysics
  SpecTrajectory SpecGenerator.
Open Scope R_scope.

(** The points of the outline of the polygon with corners [ps], each corner
    [c] lying at [f c]. *)
Definition on_outline (f : Translation2 R -> R * R) (ps : list (Translation2 R)) (p : R * R) : Prop :=
  (exists c, In c ps /\ p = f c) \/
  (exists a b, In (a, b) (outline ps) /\ on_segment (f a) (f b) p).

(** The robot in state [s] has a point of its bumper [bu] on the outline of [o]. *)
Definition touching (s : state) (bu o : obstacle R) : Prop :=
  exists p, on_outline (placed s) (o_points bu) p /\ on_outline pt (o_points o) p.
(** All points of the two outlines are at least [e] apart. *)
Definition outlines_apart (s : state) (bu o : obstacle R) (e : R) : Prop :=
  forall p q, on_outline (placed s) (o_points bu) p -> on_outline pt (o_points o) q -> e <= dist2 p q.

(** The call asks to keep clear of [o] at sample [i]. *)
Definition avoids (counts : list nat) (call : op R) (o : obstacle R) (i : nat) : Prop :=
  match call with
  | OWptObstacle w o' => o' = o /\ (w <= length counts)%nat /\ i = waypoint_sample counts w
  | OSgmtObstacle f t o' =>
      o' = o /\ (f <= length counts)%nat /\ (waypoint_sample counts f <= i <= waypoint_sample counts t)%nat
  | _ => False
  end.

(** C40 for one bumper, when bumper and obstacle satisfy [ok]: in every
    solution, at every sample an obstacle call asks for, the outlines are at
    least the sum of the safety distances apart. *)
Definition keeps_distance (asserts : bool) (ok : obstacle R -> obstacle R -> Prop) : Prop :=
  forall h1 call h2 handle d g sol o i bu,
  good_history asserts (h1 ++ call :: h2) -> generator asserts (h1 ++ call :: h2) handle d g -> solved g sol ->
  avoids (counts asserts (h1 ++ call :: h2)) call o i -> flat_map bumper_request h1 = [bu] -> ok bu o ->
  outlines_apart (at_sample sol i) bu o (o_safetyDistance bu + o_safetyDistance o).
