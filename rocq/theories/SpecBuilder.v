(** Specification of the path builder by call histories: what a history of
    calls asks for, independently of how the builder stores it. *)
From Coq Require Import List ZArith.
Import ListNotations.
From Verif Require Import Num Geometry Constraints Builder.
Local Open Scope nat_scope.

Section Spec.
  Context {K : Type} {HA : Arith K} {HD : Dbl K}.

  (** Consecutive pairs of a list of corners. *)
  Definition consecutive {A} (ps : list A) : list (A * A) := combine ps (tl ps).

  (** The edges of an outline whose closing edge (present from three corners
      on) starts at corner [k]. *)
  Definition outline_from (k : nat) (ps : list (Translation2 K)) :=
    consecutive ps ++
    (if 3 <=? length ps then [(nth k ps tr_default, nth 0 ps tr_default)] else []).

  (** The edges of a polygon: the closing edge starts at the last corner. *)
  Definition outline (ps : list (Translation2 K)) := outline_from (length ps - 1) ps.

  (** Constraints between one bumper and one obstacle with the given obstacle
      edges, at distance [d]. *)
  Definition pair_constraints (d : K) (bumper obst : list (Translation2 K))
      (obst_edges : list (Translation2 K * Translation2 K)) : list (constraint K) :=
    flat_map (fun c => map (fun e => LinePoint (fst e) (snd e) c d) (outline bumper)) obst ++
    flat_map (fun r => match obst with
                       | [q] => [PointPoint r q d]
                       | _ => map (fun e => PointLine r (fst e) (snd e) d) obst_edges
                       end) bumper.

  (** What the documentation promises of an obstacle call: every bumper, every
      edge and corner pair, at the sum of the safety distances. *)
  Definition documented_obstacle (bumpers : list (obstacle K)) (o : obstacle K)
      : list (constraint K) :=
    flat_map (fun bu =>
      pair_constraints (nadd (o_safetyDistance bu) (o_safetyDistance o))
        (o_points bu) (o_points o) (outline (o_points o))) bumpers.

  (** What an obstacle call actually requests: the obstacle's closing edge
      starts at the corner numbered by the *bumper*'s last corner, and bumpers
      after a single-point bumper facing a single-point obstacle are skipped. *)
  Fixpoint actual_obstacle (bumpers : list (obstacle K)) (o : obstacle K)
      : list (constraint K) :=
    match bumpers with
    | [] => []
    | bu :: rest =>
        pair_constraints (nadd (o_safetyDistance bu) (o_safetyDistance o))
          (o_points bu) (o_points o)
          (outline_from (length (o_points bu) - 1) (o_points o)) ++
        (if (length (o_points bu) =? 1) && (length (o_points o) =? 1) then []
         else actual_obstacle rest o)
    end.

  (** Constraints one call asks for at waypoint [i], given the bumpers added
      before it. *)
  Definition wpt_request (bumpers : list (obstacle K)) (o : op K) (i : nat)
      : list (constraint K) :=
    match o with
    | OPoseWpt j x y h => if i =? j then [PoseEquality (pose_xyh x y h)] else []
    | OTranslationWpt j x y _ => if i =? j then [TranslationEquality (mkTr x y)] else []
    | OWptConstraint j c => if i =? j then [c] else []
    | OSgmtConstraint f t c => if (f <=? i) && (i <=? t) then [c] else []
    | OWptObstacle j ob => if i =? j then actual_obstacle bumpers ob else []
    | OSgmtObstacle f t ob =>
        if (f <=? i) && (i <=? t) then actual_obstacle bumpers ob else []
    | _ => []
    end.
  (** ... and on the segment ending at waypoint [i]. *)
  Definition sgmt_request (bumpers : list (obstacle K)) (o : op K) (i : nat)
      : list (constraint K) :=
    match o with
    | OSgmtConstraint f t c => if (f <? i) && (i <=? t) then [c] else []
    | OSgmtObstacle f t ob =>
        if (f <? i) && (i <=? t) then actual_obstacle bumpers ob else []
    | _ => []
    end.
  (** Bumpers one call adds. *)
  Definition bumper_request (o : op K) : list (obstacle K) :=
    match o with OAddBumpers b => [b] | _ => [] end.

  (** All constraints a history asks for, in order. *)
  Fixpoint wpt_requests (bumpers : list (obstacle K)) (h : list (op K)) (i : nat)
      : list (constraint K) :=
    match h with
    | [] => []
    | o :: h' => wpt_request bumpers o i ++ wpt_requests (bumpers ++ bumper_request o) h' i
    end.
  Fixpoint sgmt_requests (bumpers : list (obstacle K)) (h : list (op K)) (i : nat)
      : list (constraint K) :=
    match h with
    | [] => []
    | o :: h' => sgmt_request bumpers o i ++ sgmt_requests (bumpers ++ bumper_request o) h' i
    end.

  (** Guess points: a waypoint guess replaces the guess at the waypoint; a
      segment guess goes in front of the earlier ones of its segment. *)
  Definition wpt_guess (o : op K) (i : nat) : option (Pose2 K) :=
    match o with
    | OPoseWpt j x y h | OTranslationWpt j x y h =>
        if i =? j then Some (pose_xyh x y h) else None
    | OWptInitialGuessPoint j p => if i =? j then Some p else None
    | _ => None
    end.
  Definition sgmt_guess (o : op K) (i : nat) : list (Pose2 K) :=
    match o with
    | OSgmtInitialGuessPoints f ps => if i =? S f then ps else []
    | _ => []
    end.
  (** The last waypoint guess of a history, [d] if there is none. *)
  Fixpoint last_guess (d : Pose2 K) (h : list (op K)) (i : nat) : Pose2 K :=
    match h with
    | [] => d
    | o :: h' => last_guess (match wpt_guess o i with Some p => p | None => d end) h' i
    end.
  (** The segment guess lists of a history, most recent call first. *)
  Fixpoint sgmt_guesses (h : list (op K)) (i : nat) : list (Pose2 K) :=
    match h with
    | [] => []
    | o :: h' => sgmt_guesses h' i ++ sgmt_guess o i
    end.

  (** How many waypoints a call needs (0: none). *)
  Definition needed (bumpers : list (obstacle K)) (o : op K) : nat :=
    match o with
    | OPoseWpt i _ _ _ | OTranslationWpt i _ _ _ | OWptInitialGuessPoint i _
    | OWptConstraint i _ => S i
    | OSgmtInitialGuessPoints f _ => S (S f)
    | OSgmtConstraint f t _ => S t
    | OWptObstacle i ob => match actual_obstacle bumpers ob with [] => 0 | _ => S i end
    | OSgmtObstacle f t ob => match actual_obstacle bumpers ob with [] => 0 | _ => S t end
    | _ => 0
    end.

  (** Arguments a C++ caller can pass (indices and vector sizes fit [size_t]),
      with the documented order of segment ends; and no wrap-around of
      [fromIndex + 1]. *)
  Definition in_size_t (i : nat) : Prop := (Z.of_nat i < 2 ^ 64)%Z.
  (** An index [NewWpts] cannot represent as a nonnegative [int64_t]. *)
  Definition huge (i : nat) : Prop := (2 ^ 63 <= Z.of_nat i < 2 ^ 64)%Z.
  Definition proper_call (o : op K) : Prop :=
    match o with
    | OPoseWpt i _ _ _ | OTranslationWpt i _ _ _ | OWptInitialGuessPoint i _
    | OWptConstraint i _ => in_size_t i
    | OSgmtInitialGuessPoints f _ => in_size_t (S f)
    | OSgmtConstraint f t _ => in_size_t f /\ in_size_t t /\ f < t
    | OAddBumpers ob => in_size_t (length (o_points ob))
    | OWptObstacle i ob => in_size_t i /\ in_size_t (length (o_points ob))
    | OSgmtObstacle f t ob =>
        in_size_t f /\ in_size_t t /\ f < t /\ in_size_t (length (o_points ob))
    | _ => True
    end.

  (** When an obstacle call returns normally: for every bumper up to the first
      single-point bumper facing a single-point obstacle, either both have no
      corners, or both have corners, the bumper has at most as many corners as
      a polygonal obstacle, and (assertions on) the total safety distance is
      not negative. *)
  Definition accepts (asserts : bool) (bu o : obstacle K) : Prop :=
    (length (o_points bu) = 0 /\ length (o_points o) = 0) \/
    (0 < length (o_points bu) /\ 0 < length (o_points o) /\
     (3 <= length (o_points o) -> length (o_points bu) <= length (o_points o)) /\
     (asserts = true -> nleb (nlit 0) (nadd (o_safetyDistance bu) (o_safetyDistance o)) = true)).

  Fixpoint accepts_all (asserts : bool) (bumpers : list (obstacle K)) (o : obstacle K) : Prop :=
    match bumpers with
    | [] => True
    | bu :: rest => accepts asserts bu o /\
        ((length (o_points bu) =? 1) && (length (o_points o) =? 1) = false -> accepts_all asserts rest o)
    end.

  Definition small_points (o : obstacle K) : Prop := in_size_t (length (o_points o)).

  (** Observing a builder: constraints and guess points at a waypoint
      ([None]/empty when it does not exist). *)
  Definition constraints_at (b : builder K) (i : nat) : list (constraint K) :=
    match nth_error (b_waypoints b) i with Some w => waypointConstraints w | None => [] end.
  Definition segment_constraints_to (b : builder K) (i : nat) : list (constraint K) :=
    match nth_error (b_waypoints b) i with Some w => segmentConstraints w | None => [] end.
  Definition waypoint_count (b : builder K) : nat := length (b_waypoints b).
  Definition segment_count (b : builder K) : nat := length (b_waypoints b) - 1.

  (** Every call of a history returned normally. *)
  Fixpoint all_returned (asserts : bool) (h : list (op K)) (b : builder K) : Prop :=
    match h with
    | [] => True
    | o :: h' => snd (run_op asserts o b) = Ok tt /\ all_returned asserts h' (fst (run_op asserts o b))
    end.
End Spec.
