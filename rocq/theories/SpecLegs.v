(** Specification vocabulary for plans that stop and go: the robot drives
    straight from one stop to the next, turning as it goes, and stands still at
    every stop. *)
From Coq Require Import Reals List Arith.
Import ListNotations.
From Verif Require Import Geometry Builder Spec SpecBuilder SpecPhysics SpecTrajectory SpecStep.
Open Scope R_scope.

(** A place to stop at: position and angle. *)
Record stop : Type := mkStop { o_x : R; o_y : R; o_a : R }.
Definition stop_point (p : stop) : R * R := (o_x p, o_y p).

(** The robot stands still there. *)
Definition stands (p : stop) (q : state) : Prop :=
  q_x q = o_x p /\ q_y q = o_y p /\ heading_is q (o_a p) /\ at_rest q /\ q_w q = 0.
(** The robot is on the straight way from [p] to [p'], having covered the part
    [u] of it, at a rate of at most [top] parts per second. *)
Definition under_way (p p' : stop) (top : R) (q : state) : Prop := exists u r, 0 <= u <= 1 /\ 0 <= r <= top /\
  q_x q = o_x p + u * (o_x p' - o_x p) /\ q_y q = o_y p + u * (o_y p' - o_y p) /\
  heading_is q (o_a p + u * (o_a p' - o_a p)) /\
  q_vx q = r * (o_x p' - o_x p) /\ q_vy q = r * (o_y p' - o_y p) /\ q_w q = r * (o_a p' - o_a p).

(** [n] intervals, half of them speeding up and half slowing down by one unit
    per interval, cover [n * n / 4] units; the top speed is [n / 2]. *)
Definition units (n : nat) : R := INR (n * n / 4).
Definition top_rate (n : nat) (dt : R) : R := INR (n / 2) / (units n * dt).

(** Sum of the squares of the lever arms. *)
Definition arms (d : drivetrain R) : R := sum (map (fun md => arm md * arm md) (d_modules d)).

(** The drivetrain can go from [p] to [p'] in [n] steps of [dt] seconds. *)
Definition leg_within (d : drivetrain R) (n : nat) (dt : R) (p p' : stop) : Prop :=
  (2 <= n)%nat /\ 0 < dt /\ step_within d dt /\
  let D := dist2 (stop_point p) (stop_point p') in let A := Rabs (o_a p' - o_a p) in
  forall md, In md (d_modules d) ->
    (D + A * arm md) * top_rate n dt <= wheel_limit md /\
    (d_mass d * D / INR (length (d_modules d)) + d_moi d * A * arm md / arms d) / (units n * (dt * dt))
      <= force_limit md.

(** The legs [legs], each a number of intervals and a time step, subdivide the
    segments with [counts] intervals: waypoint [w] is stop [f w], and the legs
    of one segment have equal time steps. *)
Definition subdivide (counts : list nat) (legs : list (nat * R)) (f : nat -> nat) : Prop :=
  f (length counts) = length legs /\
  (forall w, (w <= length counts)%nat -> (f w <= length legs)%nat /\
     waypoint_sample counts w = waypoint_sample (map fst legs) (f w)) /\
  (forall w k, (w < length counts)%nat -> (f w <= k < f (S w))%nat ->
     snd (nth k legs (0%nat, 0)) = snd (nth (f w) legs (0%nat, 0))).
(** Their total time. *)
Definition total_time (legs : list (nat * R)) : R := sum (map (fun l => INR (fst l) * snd l) legs).
