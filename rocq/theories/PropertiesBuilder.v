(** Property theorems about the path builder: C08-C12, C38, C39, C41, C42, C59.
    [run_ops asserts h new_builder] is the builder after the history [h] of
    public calls, exceptions caught; all theorems hold for every number type. *)
From Coq Require Import List Lia ZArith Bool Reals Lra.
Import ListNotations.
From Verif Require Import Outcome Num NumR Geometry Constraints Builder SpecBuilder BuilderProofs
  BuilderHistory BuilderCases.
Local Open Scope nat_scope.

(** A history used by the examples. *)
Definition case_history : list (op R) :=
  [OAddBumpers square; OPoseWpt 0 0 0 0;
   OSgmtConstraint 0 2 (LinearVelocityMaxMagnitude 3);
   OSgmtInitialGuessPoints 0 [pose_xyh 1 1 0; pose_xyh 2 1 0];
   OWptObstacle 1 (point_at 9 9); OControlIntervalCounts [7%nat; 8%nat];
   OWptInitialGuessPoint 2 (pose_xyh 4 4 0); OTranslationWpt 3 5 5 0]%R.
Lemma case_history_proper : Forall proper_call case_history.
Proof. repeat constructor. Qed.
Lemma case_history_returned : all_returned true
  (filter (fun o => match o with OWptObstacle _ _ => false | _ => true end) case_history) new_builder /\
  all_returned false case_history new_builder.
Proof. split; repeat split; reflexivity. Qed.

(** C08. *)
Theorem C08_builder_bookkeeping : forall (K : Type) (HA : Arith K) (HD : Dbl K) asserts (h : list (op K)),
  let b := run_ops asserts h new_builder in
  length (b_guess b) = waypoint_count b /\
  (forall g, In g (b_guess b) -> g <> []) /\
  ((forall f ps, In (OSgmtInitialGuessPoints f ps) h -> in_size_t (S f)) ->
     0 < waypoint_count b -> exists p, nth_error (b_guess b) 0 = Some [p]) /\
  ((forall l, ~ In (OControlIntervalCounts l) h) ->
     b_counts b = repeat 40 (segment_count b)).
Proof. exact @C08_proof. Qed.
Print Assumptions C08_builder_bookkeeping.
Example C08_case :
  waypoint_count (run_ops false case_history new_builder) = 4 /\
  map (@length _) (b_guess (run_ops false case_history new_builder)) = [1; 3; 1; 1].
Proof. split; reflexivity. Qed.

(** C09. *)
Theorem C09_waypoints_on_demand : forall (K : Type) (HA : Arith K) (HD : Dbl K) asserts (h : list (op K)) o,
  Forall proper_call h -> proper_call o ->
  let b := run_ops asserts h new_builder in
  let b' := fst (run_op asserts o b) in
  snd (run_op asserts o b) = Ok tt ->
  waypoint_count b' = Nat.max (waypoint_count b) (needed (b_bumpers b) o) /\
  (forall i, i < waypoint_count b ->
     constraints_at b' i = constraints_at b i ++ wpt_request (b_bumpers b) o i /\
     segment_constraints_to b' i = segment_constraints_to b i ++ sgmt_request (b_bumpers b) o i /\
     (wpt_guess o i = None -> sgmt_guess o i = [] ->
      nth_error (b_guess b') i = nth_error (b_guess b) i)) /\
  (forall i, waypoint_count b <= i < waypoint_count b' ->
     (wpt_request (b_bumpers b) o i = [] -> constraints_at b' i = []) /\
     (sgmt_request (b_bumpers b) o i = [] -> segment_constraints_to b' i = []) /\
     (wpt_guess o i = None -> sgmt_guess o i = [] ->
      nth_error (b_guess b') i = Some [pose_xyh (nlit 0) (nlit 0) (nlit 0)])).
Proof. exact @C09_proof. Qed.
Print Assumptions C09_waypoints_on_demand.
(** Failing calls included. *)
Theorem C09_constraint_lists_only_grow : forall (K : Type) (HA : Arith K) (HD : Dbl K) asserts
    (h1 h2 : list (op K)) i,
  let b := run_ops asserts h1 new_builder in
  let b' := run_ops asserts (h1 ++ h2) new_builder in
  waypoint_count b <= waypoint_count b' /\
  (exists u, constraints_at b' i = constraints_at b i ++ u) /\
  (exists v, segment_constraints_to b' i = segment_constraints_to b i ++ v).
Proof. exact @C09_append_proof. Qed.
Print Assumptions C09_constraint_lists_only_grow.
Example C09_case :
  let o := OWptConstraint 6 (LinearVelocityMaxMagnitude 1%R) in
  let b := run_ops false case_history new_builder in
  proper_call o /\ snd (run_op false o b) = Ok tt /\ waypoint_count (fst (run_op false o b)) = 7 /\
  wpt_request (b_bumpers b) o 5 = [] /\ length (wpt_request (b_bumpers b) o 6) = 1.
Proof. repeat split. Qed.

(** C10. *)
Theorem C10_control_interval_counts : forall (K : Type) (HA : Arith K) (HD : Dbl K) asserts,
  (forall (h1 : list (op K)) l h2, (forall l', ~ In (OControlIntervalCounts l') h2) ->
     let before := run_ops asserts h1 new_builder in
     let after := run_ops asserts (h1 ++ OControlIntervalCounts l :: h2) new_builder in
     GetControlIntervalCounts after = l ++ repeat 40 (segment_count after - segment_count before)) /\
  (forall h : list (op K), (forall l', ~ In (OControlIntervalCounts l') h) ->
     let after := run_ops asserts h new_builder in
     GetControlIntervalCounts after = repeat 40 (segment_count after)).
Proof. exact @C10_proof. Qed.
Print Assumptions C10_control_interval_counts.
Example C10_case :
  GetControlIntervalCounts (run_ops false case_history new_builder) = [7; 8; 40] /\
  GetControlIntervalCounts (run_ops false [OPoseWpt 2 0 0 0]%R new_builder) = [40; 40].
Proof. split; reflexivity. Qed.

(** C11. *)
Theorem C11_constraints_recorded_exactly : forall (K : Type) (HA : Arith K) (HD : Dbl K) asserts
    (h : list (op K)),
  Forall proper_call h -> all_returned asserts h new_builder ->
  forall i,
    constraints_at (run_ops asserts h new_builder) i = wpt_requests [] h i /\
    segment_constraints_to (run_ops asserts h new_builder) i = sgmt_requests [] h i.
Proof. exact @C11_proof. Qed.
Print Assumptions C11_constraints_recorded_exactly.
Example C11_case :
  Forall proper_call case_history /\ all_returned false case_history new_builder /\
  wpt_requests [] case_history 0 = [PoseEquality (pose_xyh 0 0 0); LinearVelocityMaxMagnitude 3]%R /\
  length (wpt_requests [] case_history 1) = 9 /\
  sgmt_requests [] case_history 0 = [] /\ length (sgmt_requests [] case_history 2) = 1.
Proof.
  split; [exact case_history_proper|]. split; [exact (proj2 case_history_returned)|].
  repeat split; reflexivity.
Qed.

(** C12. *)
Theorem C12_guesses_recorded_exactly : forall (K : Type) (HA : Arith K) (HD : Dbl K) asserts
    (h : list (op K)),
  Forall proper_call h -> all_returned asserts h new_builder ->
  forall i, i < waypoint_count (run_ops asserts h new_builder) ->
    nth_error (b_guess (run_ops asserts h new_builder)) i =
      Some (sgmt_guesses h i ++ [last_guess zero_pose h i]).
Proof. exact @C12_proof. Qed.
Print Assumptions C12_guesses_recorded_exactly.
Example C12_case :
  sgmt_guesses case_history 1 ++ [last_guess zero_pose case_history 1]
    = [pose_xyh 1 1 0; pose_xyh 2 1 0; zero_pose]%R /\
  last_guess zero_pose case_history 2 = pose_xyh 4%R 4%R 0%R /\
  Forall proper_call case_history /\ all_returned false case_history new_builder.
Proof.
  split; [reflexivity|]. split; [reflexivity|].
  split; [exact case_history_proper|exact (proj2 case_history_returned)].
Qed.

(** For the last index the sum [fromIndex + 1] wraps to 0: the points go in front
    of the guess at waypoint 0, which is created if there is none. *)
Theorem C12_wrapped_index : forall (K : Type) (HA : Arith K) (HD : Dbl K) asserts (h : list (op K)) f ps,
  Z.of_nat f = (2 ^ 64 - 1)%Z ->
  let b := run_ops asserts h new_builder in
  exists b', run_op asserts (OSgmtInitialGuessPoints f ps) b = (b', Ok tt) /\
    waypoint_count b' = Nat.max (waypoint_count b) 1 /\
    nth 0 (b_guess b') [] = ps ++ nth 0 (b_guess b) [zero_pose] /\
    (forall j, nth (S j) (b_guess b') [] = nth (S j) (b_guess b) []) /\
    (forall j, constraints_at b' j = constraints_at b j /\ segment_constraints_to b' j = segment_constraints_to b j) /\
    b_counts b' = b_counts b /\ b_bumpers b' = b_bumpers b /\ b_drivetrain b' = b_drivetrain b /\
    b_callbacks b' = b_callbacks b.
Proof. exact @C12_wrapped_proof. Qed.
Print Assumptions C12_wrapped_index.
Example C12_wrapped_case : exists f, Z.of_nat f = (2 ^ 64 - 1)%Z.
Proof. exists (Z.to_nat (2 ^ 64 - 1)). rewrite Z2Nat.id; [reflexivity|discriminate]. Qed.

(** C38.  False as documented: polygons with at least three corners make the
    call throw (bumper with more corners than the obstacle) or leave out the
    obstacle's closing edge (bumper with fewer). *)
Theorem C38_obstacle_throws_refuted :
  ~ (forall (bu o : obstacle R) i, 3 <= length (o_points bu) -> 3 <= length (o_points o) ->
       snd (run_op false (OWptObstacle i o) (run_ops false [OAddBumpers bu] new_builder)) = Ok tt).
Proof. exact C38_throws_refuted_proof. Qed.
Print Assumptions C38_obstacle_throws_refuted.
Theorem C38_obstacle_closing_edge_refuted :
  ~ (forall (bu o : obstacle R) i, 3 <= length (o_points bu) -> 3 <= length (o_points o) ->
       let r := run_op false (OWptObstacle i o) (run_ops false [OAddBumpers bu] new_builder) in
       snd r = Ok tt ->
       forall c, In c (documented_obstacle [bu] o) -> In c (constraints_at (fst r) i)).
Proof. exact C38_closing_edge_refuted_proof. Qed.
Print Assumptions C38_obstacle_closing_edge_refuted.
(** What holds: the documented constraints are added when every bumper has as
    many corners as the obstacle or the obstacle has fewer than three, and no
    single-point bumper meets a single-point obstacle. *)
Theorem C38_obstacle_constraints_partial : forall (K : Type) (HA : Arith K) (HD : Dbl K) asserts
    (h : list (op K)) o,
  Forall proper_call h ->
  in_size_t (length (o_points o)) -> o_points o <> [] ->
  let b := run_ops asserts h new_builder in
  let bumpers := flat_map bumper_request h in
  Forall (fun bu => o_points bu <> []) bumpers ->
  Forall (fun bu => length (o_points bu) = length (o_points o) \/ length (o_points o) < 3) bumpers ->
  Forall (fun bu => length (o_points bu) <> 1 \/ length (o_points o) <> 1) bumpers ->
  (asserts = true -> Forall (fun bu =>
     nleb (nlit 0) (nadd (o_safetyDistance bu) (o_safetyDistance o)) = true) bumpers) ->
  (forall i, (Z.of_nat i < 2 ^ 63)%Z ->
     let r := run_op asserts (OWptObstacle i o) b in
     snd r = Ok tt /\
     (forall j, constraints_at (fst r) j = constraints_at b j ++
        if j =? i then documented_obstacle bumpers o else []) /\
     (forall j, segment_constraints_to (fst r) j = segment_constraints_to b j)) /\
  (forall f t, f < t -> (Z.of_nat t < 2 ^ 63)%Z ->
     let r := run_op asserts (OSgmtObstacle f t o) b in
     snd r = Ok tt /\
     (forall j, constraints_at (fst r) j = constraints_at b j ++
        if (f <=? j) && (j <=? t) then documented_obstacle bumpers o else []) /\
     (forall j, segment_constraints_to (fst r) j = segment_constraints_to b j ++
        if (f <? j) && (j <=? t) then documented_obstacle bumpers o else [])).
Proof. exact @C38_partial_proof. Qed.
Print Assumptions C38_obstacle_constraints_partial.
(** Exactly when an obstacle call returns. *)
Theorem C38_obstacle_returns_iff : forall (K : Type) (HA : Arith K) (HD : Dbl K) asserts
    (h : list (op K)) o i,
  Forall proper_call h -> in_size_t (length (o_points o)) -> (Z.of_nat i < 2 ^ 63)%Z ->
  let b := run_ops asserts h new_builder in
  (snd (run_op asserts (OWptObstacle i o) b) = Ok tt <->
   accepts_all asserts (flat_map bumper_request h) o).
Proof. exact @C38_returns_proof. Qed.
Print Assumptions C38_obstacle_returns_iff.
(** Square bumper, square obstacle: 16 edge-corner pairs both ways. *)
Example C38_case :
  let bumpers := flat_map bumper_request [OAddBumpers square] in
  Forall (fun bu => length (o_points bu) = length (o_points square) \/ length (o_points square) < 3) bumpers /\
  Forall (fun bu => length (o_points bu) <> 1 \/ length (o_points square) <> 1) bumpers /\
  length (documented_obstacle bumpers square) = 32 /\
  outline (o_points square) = [(mkTr 1 1, mkTr (-1) 1); (mkTr (-1) 1, mkTr (-1) (-1));
    (mkTr (-1) (-1), mkTr 1 (-1)); (mkTr 1 (-1), mkTr 1 1)]%R.
Proof. repeat constructor. discriminate. Qed.

(** C39.  False: after a single-point bumper facing a single-point obstacle the
    remaining bumpers are skipped. *)
Theorem C39_every_bumper_refuted :
  ~ (forall (b1 b2 o : obstacle R) i,
       o_points b1 <> [] -> o_points b2 <> [] -> o_points o <> [] ->
       let h := [OAddBumpers b1; OAddBumpers b2] in
       snd (run_op false (OWptObstacle i o) (run_ops false h new_builder)) = Ok tt ->
       forall c, In c (constraints_at (run_ops false [OAddBumpers b2; OWptObstacle i o] new_builder) i) ->
                 In c (constraints_at (fst (run_op false (OWptObstacle i o) (run_ops false h new_builder))) i)).
Proof. exact C39_refuted_proof. Qed.
Print Assumptions C39_every_bumper_refuted.
(** What holds: otherwise each bumper contributes what it would alone. *)
Theorem C39_every_bumper_partial : forall (K : Type) (HA : Arith K) (HD : Dbl K) asserts
    (h : list (op K)) o i,
  Forall proper_call h -> (Z.of_nat i < 2 ^ 63)%Z -> in_size_t (length (o_points o)) ->
  let b := run_ops asserts h new_builder in
  let bumpers := flat_map bumper_request h in
  (forall bu, In bu bumpers -> length (o_points bu) <> 1 \/ length (o_points o) <> 1) ->
  snd (run_op asserts (OWptObstacle i o) b) = Ok tt ->
  constraints_at (fst (run_op asserts (OWptObstacle i o) b)) i =
    constraints_at b i ++
    flat_map (fun bu =>
      constraints_at (run_ops asserts [OAddBumpers bu; OWptObstacle i o] new_builder) i) bumpers.
Proof. exact @C39_partial_api. Qed.
Print Assumptions C39_every_bumper_partial.
Example C39_case :
  let h := [OAddBumpers square; OAddBumpers triangle] in
  (forall bu, In bu (flat_map bumper_request h) ->
     length (o_points bu) <> 1 \/ length (o_points (point_at 5 5)) <> 1) /\
  snd (run_op false (OWptObstacle 0 (point_at 5 5)) (run_ops false h new_builder)) = Ok tt /\
  length (constraints_at (fst (run_op false (OWptObstacle 0 (point_at 5 5)) (run_ops false h new_builder))) 0) = 14.
Proof.
  split; [|split; reflexivity].
  intros bu [<-|[<-|[]]]; left; discriminate.
Qed.

(** C41. *)
Theorem C41_only_earlier_bumpers : forall (K : Type) (HA : Arith K) (HD : Dbl K) asserts (b : builder K),
  (b_bumpers b = [] -> forall i f t o,
     run_op asserts (OWptObstacle i o) b = (b, Ok tt) /\
     run_op asserts (OSgmtObstacle f t o) b = (b, Ok tt)) /\
  (forall o, let b' := fst (run_op asserts (OAddBumpers o) b) in
     snd (run_op asserts (OAddBumpers o) b) = Ok tt /\
     b_waypoints b' = b_waypoints b /\ b_guess b' = b_guess b /\ b_counts b' = b_counts b /\
     b_bumpers b' = b_bumpers b ++ [o]).
Proof. exact @C41_proof. Qed.
Print Assumptions C41_only_earlier_bumpers.
Theorem C41_bumpers_are_those_added : forall (K : Type) (HA : Arith K) (HD : Dbl K) asserts (h : list (op K)),
  b_bumpers (run_ops asserts h new_builder) = flat_map bumper_request h.
Proof. exact @C41_bumpers_proof. Qed.
Print Assumptions C41_bumpers_are_those_added.
Example C41_case :
  length (constraints_at (run_ops false [OPoseWpt 0 0 0 0; OWptObstacle 0 square; OAddBumpers square]%R new_builder) 0) = 1 /\
  length (constraints_at (run_ops false [OPoseWpt 0 0 0 0; OAddBumpers square; OWptObstacle 0 square]%R new_builder) 0) = 33.
Proof. split; reflexivity. Qed.

(** C42.  [huge i]: 2^63 <= i < 2^64. *)
Theorem C42_failing_calls : forall (K : Type) (HA : Arith K) (HD : Dbl K) asserts (h : list (op K)) o,
  let b := run_ops asserts h new_builder in
  let b' := fst (run_op asserts o b) in
  (match o with
   | OPoseWpt i _ _ _ | OTranslationWpt i _ _ _ | OWptInitialGuessPoint i _
   | OWptConstraint i _ => huge i
   | OSgmtInitialGuessPoints f _ => huge (S f)
   | _ => False
   end -> run_op asserts o b = (b, Throw OutOfRange)) /\
  (forall f t c, o = OSgmtConstraint f t c -> f < t -> huge t ->
     snd (run_op asserts o b) = Throw OutOfRange) /\
  length (b_guess b') = waypoint_count b' /\
  (forall g, In g (b_guess b') -> g <> []) /\
  (forall i, exists u v, constraints_at b' i = constraints_at b i ++ u /\
                         segment_constraints_to b' i = segment_constraints_to b i ++ v).
Proof. exact @C42_proof. Qed.
Print Assumptions C42_failing_calls.
Example C42_case : huge (Z.to_nat (2 ^ 63)).
Proof. unfold huge. rewrite Z2Nat.id; [split; reflexivity || discriminate|discriminate]. Qed.

(** C59. *)
Theorem C59_builder_no_undefined_behaviour : forall (K : Type) (HA : Arith K) (HD : Dbl K) asserts
    (h : list (op K)) o,
  match snd (run_op asserts o (run_ops asserts h new_builder)) with
  | Ok _ => True
  | Throw e => e = OutOfRange
  | AssertFail => asserts = true
  | Undef _ | OutOfFuel => False
  end.
Proof. exact @C59_proof. Qed.
Print Assumptions C59_builder_no_undefined_behaviour.
Example C59_case : snd (run_op true (OSgmtConstraint 2 1 (LinearVelocityMaxMagnitude 3%R)) new_builder) = AssertFail /\
  snd (run_op true (OWptConstraint 2 (LinearVelocityMaxMagnitude 3%R)) new_builder) = Ok tt.
Proof. split; reflexivity. Qed.
