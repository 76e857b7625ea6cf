(** Property theorems about the initial guess: C04-C06. *)
From Coq Require Import List Lia ZArith Bool Reals Lra.
Import ListNotations.
From Verif Require Import Outcome Num NumR Geometry Constraints Builder Guess Spec SpecBuilder SpecGuess
  BuilderProofs BuilderHistory GuessProofs.
Local Open Scope nat_scope.

(** A path with two inserted guess points in its first segment, which has five
    intervals, and two in the second segment, which has only one interval. *)
Definition guess_history : list (op R) :=
  [OPoseWpt 0 1 2 0; OTranslationWpt 1 7 8 PI;
   OSgmtInitialGuessPoints 0 [pose_xyh 3 4 0; pose_xyh 5 6 0];
   OPoseWpt 2 9 9 0; OSgmtInitialGuessPoints 1 [pose_xyh 7 9 0; pose_xyh 8 9 0];
   OControlIntervalCounts [5%nat; 1%nat]]%R.
Lemma guess_history_ok : Forall proper_call guess_history /\
  all_returned true guess_history new_builder /\
  exists sol, CalculateInitialGuess (run_ops true guess_history new_builder) = Ok sol.
Proof.
  split; [repeat constructor|]. split; [repeat split; reflexivity|].
  apply C04_outcomes. apply Nat.leb_le. reflexivity.
Qed.

(** C04. For every number type, in particular IEEE doubles. *)
Theorem C04_guess_dimensions : forall (K : Type) (HA : Arith K) (HD : Dbl K) asserts (h : list (op K)) sol,
  let b := run_ops asserts h new_builder in
  CalculateInitialGuess b = Ok sol ->
  let total := 1 + list_sum (GetControlIntervalCounts b) in
  length (s_x sol) = total /\ length (s_y sol) = total /\
  length (s_thetacos sol) = total /\ length (s_thetasin sol) = total /\
  length (s_dt sol) = total.
Proof. exact @C04_proof. Qed.
Print Assumptions C04_guess_dimensions.
Example C04_case : exists sol,
  CalculateInitialGuess (run_ops true guess_history new_builder) = Ok sol /\
  1 + list_sum (GetControlIntervalCounts (run_ops true guess_history new_builder)) = 7 /\
  length (s_x sol) = 7.
Proof.
  destruct guess_history_ok as (_ & _ & sol & E). exists sol. split; [exact E|]. split; [reflexivity|].
  apply C04_proof in E. apply E.
Qed.

(** C04. It returns exactly when there is a waypoint and there are fewer counts
    than waypoints. *)
Theorem C04_guess_outcomes : forall (K : Type) (HA : Arith K) (HD : Dbl K) asserts (h : list (op K)),
  let b := run_ops asserts h new_builder in
  let counts := length (GetControlIntervalCounts b) in
  let waypoints := waypoint_count b in
  (waypoints = 0 -> CalculateInitialGuess b = Undef EmptyAccess) /\
  (0 < waypoints <= counts -> CalculateInitialGuess b = Throw OutOfRange) /\
  (counts < waypoints -> exists sol, CalculateInitialGuess b = Ok sol).
Proof. exact @C04_outcomes. Qed.
Print Assumptions C04_guess_outcomes.
Example C04_outcomes_case :
  CalculateInitialGuess (run_ops true [OControlIntervalCounts [3%nat]; OPoseWpt 0 1 2 0]%R new_builder)
    = Throw OutOfRange /\
  CalculateInitialGuess (run_ops true [OControlIntervalCounts [3]] (@new_builder R)) = Undef EmptyAccess.
Proof.
  split; apply C04_outcomes; [|reflexivity].
  split; apply Nat.leb_le; reflexivity.
Qed.

(** C05. *)
Theorem C05_guess_starts_at_first_waypoint : forall asserts (h : list (op R)) sol,
  Forall proper_call h -> all_returned asserts h new_builder ->
  CalculateInitialGuess (run_ops asserts h new_builder) = Ok sol ->
  s_x sol <> [] /\
  nth 0 (s_x sol) 0%R = pX (last_guess zero_pose h 0) /\
  nth 0 (s_y sol) 0%R = pY (last_guess zero_pose h 0) /\
  nth 0 (s_thetacos sol) 0%R = rCos (pRot (last_guess zero_pose h 0)) /\
  nth 0 (s_thetasin sol) 0%R = rSin (pRot (last_guess zero_pose h 0)).
Proof. exact C05_start. Qed.
Print Assumptions C05_guess_starts_at_first_waypoint.

Theorem C05_guess_interpolates : forall asserts (h : list (op R)) sol,
  Forall proper_call h -> all_returned asserts h new_builder ->
  CalculateInitialGuess (run_ops asserts h new_builder) = Ok sol ->
  let counts := GetControlIntervalCounts (run_ops asserts h new_builder) in
  forall s j i, s < length counts ->
  let pts := route h (S s) in
  let n := nth s counts 0 in
  let g := length pts - 1 in
  j < g ->
  let len := reached_after n g (S j) - reached_after n g j in
  1 <= i <= len ->
  let at_sample := segment_start counts s + reached_after n g j + i in
  let p := nth j pts zero_pose in
  let q := nth (S j) pts zero_pose in
  (nth at_sample (s_x sol) 0 = pX p + INR i * (pX q - pX p) / INR len /\
   nth at_sample (s_y sol) 0 = pY p + INR i * (pY q - pY p) / INR len /\
   (forall a a', angle_of p a -> angle_of q a' ->
      exists turn, principal turn /\ same_direction turn (a' - a) /\
        nth at_sample (s_thetacos sol) 0 = cos (a + INR i * turn / INR len) /\
        nth at_sample (s_thetasin sol) 0 = sin (a + INR i * turn / INR len)))%R.
Proof. exact C05_proof. Qed.
Print Assumptions C05_guess_interpolates.

(** The guess points themselves are reached, where the leg has an interval. *)
Theorem C05_guess_hits_points : forall asserts (h : list (op R)) sol,
  Forall proper_call h -> all_returned asserts h new_builder ->
  CalculateInitialGuess (run_ops asserts h new_builder) = Ok sol ->
  let counts := GetControlIntervalCounts (run_ops asserts h new_builder) in
  forall s j, s < length counts ->
  let pts := route h (S s) in
  let n := nth s counts 0 in
  let g := length pts - 1 in
  j < g -> reached_after n g j < reached_after n g (S j) ->
  let at_sample := segment_start counts s + reached_after n g (S j) in
  let q := nth (S j) pts zero_pose in
  nth at_sample (s_x sol) 0%R = pX q /\ nth at_sample (s_y sol) 0%R = pY q /\
  ((exists a, angle_of (nth j pts zero_pose) a) -> (exists a, angle_of q a) ->
    nth at_sample (s_thetacos sol) 0%R = rCos (pRot q) /\
    nth at_sample (s_thetasin sol) 0%R = rSin (pRot q)).
Proof. exact C05_hit. Qed.
Print Assumptions C05_guess_hits_points.
(** The first segment of the example reaches its points after 1, 2 and 5
    intervals; the second, with one interval, only its end. *)
Example C05_case :
  (route guess_history 1 = [pose_xyh 1 2 0; pose_xyh 3 4 0; pose_xyh 5 6 0; pose_xyh 7 8 PI])%R /\
  map (reached_after 5 3) [0; 1; 2; 3] = [0; 1; 2; 5] /\
  map (reached_after 1 3) [0; 1; 2; 3] = [0; 0; 0; 1] /\
  angle_of (pose_xyh 7 8 PI)%R PI.
Proof. repeat split; reflexivity. Qed.

(** C06. The only heading taken over as given is the first waypoint's. *)
Theorem C06_guess_headings_unit : forall asserts (h : list (op R)) sol,
  Forall proper_call h -> all_returned asserts h new_builder ->
  CalculateInitialGuess (run_ops asserts h new_builder) = Ok sol ->
  (forall p, In (OWptInitialGuessPoint 0 p) h -> unit_rot (pRot p)) ->
  forall i, i < length (s_thetacos sol) ->
    (nth i (s_thetacos sol) 0 * nth i (s_thetacos sol) 0 +
     nth i (s_thetasin sol) 0 * nth i (s_thetasin sol) 0 = 1)%R.
Proof. exact C06_proof. Qed.
Print Assumptions C06_guess_headings_unit.
Example C06_case : forall p, In (OWptInitialGuessPoint 0 p) guess_history -> unit_rot (pRot p).
Proof. intros p H. simpl in H. repeat destruct H as [H|H]; try discriminate. destruct H. Qed.
(** The condition is needed: a first guess with a rotation that is not on the
    unit circle is copied as it is. *)
Example C06_sharp : exists sol,
  CalculateInitialGuess (run_ops true
    [OWptInitialGuessPoint 0 (mkPose (mkTr 0 0) (mkRot 2 0))]%R new_builder) = Ok sol /\
  (s_thetacos sol = [2] /\ s_thetasin sol = [0])%R.
Proof. eexists. split; [reflexivity|]. split; reflexivity. Qed.
