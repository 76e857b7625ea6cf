(** Parts of paths and of trajectories. *)
From Coq Require Import Reals List Arith.
Import ListNotations.
From Verif Require Import Num NumR Geometry Constraints Builder Spec SpecBuilder SpecPhysics SpecTrajectory SpecGenerator.
Local Open Scope nat_scope.

(** [n] elements from index [i] on. *)
Definition slice {A} (i n : nat) (l : list A) : list A := firstn n (skipn i l).

(** The samples [i] to [i + n] of a trajectory, with the time steps between
    them. *)
Definition stretch (i n : nat) (a : solution R) : solution R :=
  mkSolution (slice i n (s_dt a)) (slice i (S n) (s_x a)) (slice i (S n) (s_y a))
    (slice i (S n) (s_thetacos a)) (slice i (S n) (s_thetasin a))
    (slice i (S n) (s_vx a)) (slice i (S n) (s_vy a)) (slice i (S n) (s_omega a))
    (slice i (S n) (s_ax a)) (slice i (S n) (s_ay a)) (slice i (S n) (s_alpha a))
    (slice i (S n) (s_moduleFX a)) (slice i (S n) (s_moduleFY a)).

(** One trajectory after another; the sample they share comes from the first. *)
Definition joined (a b : solution R) : solution R :=
  mkSolution (s_dt a ++ s_dt b) (s_x a ++ tl (s_x b)) (s_y a ++ tl (s_y b))
    (s_thetacos a ++ tl (s_thetacos b)) (s_thetasin a ++ tl (s_thetasin b))
    (s_vx a ++ tl (s_vx b)) (s_vy a ++ tl (s_vy b)) (s_omega a ++ tl (s_omega b))
    (s_ax a ++ tl (s_ax b)) (s_ay a ++ tl (s_ay b)) (s_alpha a ++ tl (s_alpha b))
    (s_moduleFX a ++ tl (s_moduleFX b)) (s_moduleFY a ++ tl (s_moduleFY b)).

(** Whatever [part] asks of its waypoints 0 to [n] and the segments between
    them, [whole] asks of its waypoints [first] to [first + n] and the segments
    between those. *)
Definition asks_less (part whole : list (op R)) (first n : nat) : Prop :=
  (forall w, w <= n -> incl (wpt_requests [] part w) (wpt_requests [] whole (first + w))) /\
  (forall w, 1 <= w <= n -> incl (sgmt_requests [] part w) (sgmt_requests [] whole (first + w))).

(** Whatever [whole] asks is asked by [one], which reaches up to waypoint [n], or
    by [two], which starts there. *)
Definition asked_by (one two whole : list (op R)) (n : nat) : Prop :=
  (forall w c, In c (wpt_requests [] whole w) ->
     (w <= n /\ In c (wpt_requests [] one w)) \/ (n <= w /\ In c (wpt_requests [] two (w - n)))) /\
  (forall w c, In c (sgmt_requests [] whole w) ->
     (w <= n /\ In c (sgmt_requests [] one w)) \/ (n < w /\ In c (sgmt_requests [] two (w - n)))).

(** [finer] has one more waypoint than [coarse], number [k], at which it asks
    nothing but what [coarse] asks of the whole segment it lies in. *)
Definition asks_between (finer coarse : list (op R)) (k : nat) : Prop :=
  (forall w, w < k -> incl (wpt_requests [] finer w) (wpt_requests [] coarse w) /\
                      incl (sgmt_requests [] finer w) (sgmt_requests [] coarse w)) /\
  incl (wpt_requests [] finer k) (sgmt_requests [] coarse k) /\
  incl (sgmt_requests [] finer k) (sgmt_requests [] coarse k) /\
  (forall w, k <= w -> incl (wpt_requests [] finer (S w)) (wpt_requests [] coarse w) /\
                       incl (sgmt_requests [] finer (S w)) (sgmt_requests [] coarse w)).

(** A call that constrains some of the first [n] waypoints. *)
Definition limits {K} (n : nat) (o : op K) : Prop :=
  match o with
  | OWptConstraint w _ | OWptObstacle w _ => w < n
  | OSgmtConstraint f t _ | OSgmtObstacle f t _ => f < t < n
  | _ => False
  end.
