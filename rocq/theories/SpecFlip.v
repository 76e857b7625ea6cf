(** Vocabulary for trajectories that face backwards at some samples. *)
From Coq Require Import Reals List.
Import ListNotations.
From Verif Require Import Num NumR Geometry Constraints Builder Spec SpecBuilder SpecPhysics SpecTrajectory SpecFront.
Open Scope R_scope.

(** The state with the robot facing the other way. *)
Definition facing_back (s : state) : state :=
  mkState (q_x s) (q_y s) (- q_c s) (- q_s s) (q_vx s) (q_vy s) (q_w s) (q_ax s) (q_ay s) (q_al s).
(** The point of the robot across its centre. *)
Definition point_across (p : Translation2 R) : Translation2 R := mkTr (- tX p) (- tY p).
(** The same constraint about the points across the centre. *)
Definition constraint_across (c : constraint R) : constraint R :=
  match c with
  | LinePoint a b p d => LinePoint (point_across a) (point_across b) p d
  | PointLine p a b d => PointLine (point_across p) a b d
  | PointPoint r f d => PointPoint (point_across r) f d
  | _ => c
  end.
(** What is asked of a point of the robot is asked of the point across, and nothing is
    asked of where the front points. *)
Definition even_handed (cs : list (constraint R)) : Prop :=
  forall c, In c cs -> ~ about_front c /\ In (constraint_across c) cs.
(** Everything the builder was asked for is so. *)
Definition even_handed_path (h : list (op R)) : Prop :=
  (forall w, even_handed (wpt_requests [] h w)) /\ (forall w, even_handed (sgmt_requests [] h w)).
(** [b] is [a] facing backwards at the samples [e] picks; times, positions, velocities and
    accelerations are the same. *)
Definition flipped_at (ns : list nat) (e : nat -> bool) (a b : solution R) : Prop :=
  s_dt b = s_dt a /\
  forall i, (i <= last_sample ns)%nat -> at_sample b i = if e i then facing_back (at_sample a i) else at_sample a i.

(** Square bumpers that keep away from a post. *)
Definition square : obstacle R := mkObstacle 0 [mkTr 1 1; mkTr (-1) 1; mkTr (-1) (-1); mkTr 1 (-1)].
Definition post : obstacle R := mkObstacle 1 [mkTr 0 9].
Definition guarded : list (op R) := [OAddBumpers square; OWptObstacle 0 post; OSgmtObstacle 0 1 post].
