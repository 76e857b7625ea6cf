(** Properties of the Rust API. *)
From Coq Require Import List ZArith QArith Lia Reals Lra.
Import ListNotations.
From Verif Require Import Outcome Num NumR Geometry Expr Constraints Builder Generator Trajectory Runtime RustFFI
  SpecBuilder SpecGenerator SpecRuntime SpecRust RustProofs RustCases.
Local Open Scope nat_scope.

(** C48: a Rust call does what the C++ call it stands for does; a negative
    magnitude or tolerance ends the process in a build with assertions. *)
Theorem C48_call : forall {K} {HA : Arith K} {HD : Dbl K} asserts (o : rs_op K) b,
  ((asserts = true -> ~ refused o) ->
   match cpp_call o with
   | Some c => rs_call (rs_method asserts o) b =
       (fst (run_op asserts c b), as_seen (snd (run_op asserts c b)))
   | None => rs_call (rs_method asserts o) b = (b, RsOk)
   end) /\
  (asserts = true -> refused o -> rs_call (rs_method asserts o) b = (b, RsAbort)).
Proof. exact @C48_call_proof. Qed.
Print Assumptions C48_call.
(** A Rust program gets through a history exactly if all the C++ calls return,
    and then has the builder they produce. *)
Theorem C48_history : forall {K} {HA : Arith K} {HD : Dbl K} asserts (os : list (rs_op K)) b b',
  rs_run asserts os b = inl b' <->
  (asserts = true -> Forall (fun o => ~ refused o) os) /\
  all_returned asserts (cpp_calls os) b /\ b' = run_ops asserts (cpp_calls os) b.
Proof. exact @C48_history_proof. Qed.
Print Assumptions C48_history.
(** So what is proved of C++ paths holds of Rust ones. *)
Theorem C48_path : forall {K} {HA : Arith K} {HD : Dbl K} asserts (os : list (rs_op K)) b,
  rs_run asserts os rs_new = inl b -> b = path asserts (zero_drivetrain :: cpp_calls os).
Proof. exact @C48_path_proof. Qed.
Print Assumptions C48_path.
(** generate returns the samples of the C++ trajectory, or the C++ error. *)
Theorem C48_generate : forall {K} {HA : Arith K} {HD : Dbl K} stop (b : builder K) handle code env,
  (forall tr, rs_generate stop b handle code env = RsSamples tr <->
     exists g sol, construct b handle = Ok g /\ generate_result stop g code env = Ok (inl sol) /\
       HolonomicTrajectory sol = Ok tr) /\
  (forall c, rs_generate stop b handle code env = RsErrMessage c <->
     exists g, construct b handle = Ok g /\ generate_result stop g code env = Ok (inr c)).
Proof. exact @C48_generate_proof. Qed.
Print Assumptions C48_generate.
(** Every progress callback of a frame is given the samples of the same
    solution, with the handle passed to generate. *)
Theorem C48_progress : forall {K} {HA : Arith K} {HD : Dbl K} asserts (os : list (rs_op K)) b handle g,
  rs_run asserts os rs_new = inl b -> construct b handle = Ok g ->
  real_generator g /\
  (forall t sol now, calls_from t 0 (g_callbacks g) sol (g_handle g) now =
     map (fun i => mkDelivery t i sol handle now) (seq 0 (progress_callbacks os))) /\
  (forall sol, rs_progress_payload sol = HolonomicTrajectory sol).
Proof. exact @C48_progress_proof. Qed.
Print Assumptions C48_progress.
(** A program that describes a robot, a path and an obstacle. *)
Example C48_case : exists b, rs_run false trip rs_new = inl b /\ cpp_calls trip = trip_calls /\
  waypoint_count b = 2 /\ b_counts b = [3] /\ progress_callbacks trip = 2 /\
  exists g, construct b 7 = Ok g.
Proof. exact trip_builds. Qed.
Example C48_asserts_case : exists b, rs_run true (firstn 6 trip) rs_new = inl b /\ waypoint_count b = 2 /\
  Exists (fun o => exists m, bounded_argument o = Some m /\ (0 < m)%R) (firstn 6 trip).
Proof. exact trip_asserted. Qed.
Example C48_refused_case : rs_call (rs_method true (RWptLinearVelocityMaxMagnitude 0 (-1)%R)) rs_new = (rs_new, RsAbort).
Proof.
  apply (C48_call true (RWptLinearVelocityMaxMagnitude 0 (-1)%R)); [reflexivity|]. exists (-1)%R. split; [reflexivity|].
  cbn. unfold Rleb. destruct (Rle_dec _ _) as [H|H]; [exfalso; unfold Q2R in H; cbn in H; lra|reflexivity].
Qed.

(** C49 is false: a second call keeps the first rectangle as well. *)
Theorem C49_replaces_refuted : ~ (forall asserts (os : list (rs_op R)) l w b,
  rs_run asserts (os ++ [RSetBumpers l w]) rs_new = inl b -> b_bumpers b = [centred_rectangle l w]).
Proof. exact C49_refuted_proof. Qed.
Print Assumptions C49_replaces_refuted.
(** Missing: replacement.  The bumpers are all the rectangles ever passed, so
    exactly the given one if the method is called once. *)
Theorem C49_bumpers_partial : forall {K} {HA : Arith K} {HD : Dbl K} asserts (os : list (rs_op K)) b,
  rs_run asserts os rs_new = inl b -> b_bumpers b = rectangles os.
Proof. exact @C49_all_proof. Qed.
Print Assumptions C49_bumpers_partial.
(** Each is the rectangle of the given size centred on the robot: a point lies
    within its corners exactly if it is at most half the length ahead or behind
    and half the width to a side; consecutive corners are joined by its sides. *)
Theorem C49_rectangle_partial : forall l w : R, (0 <= l)%R -> (0 <= w)%R ->
  o_safetyDistance (centred_rectangle l w) = (1 / 100)%R /\
  (forall p, within_corners (o_points (centred_rectangle l w)) p <->
     (Rabs (tX p) <= l / 2 /\ Rabs (tY p) <= w / 2)%R) /\
  map (fun e => (tX (snd e) - tX (fst e), tY (snd e) - tY (fst e))%R) (outline (o_points (centred_rectangle l w))) =
    [(- l, 0); (0, - w); (l, 0); (0, w)]%R.
Proof. exact C49_rectangle_proof. Qed.
Print Assumptions C49_rectangle_partial.
Example C49_case : exists b, rs_run false trip rs_new = inl b /\ rectangles trip = [centred_rectangle 1%R 2%R].
Proof. destruct trip_builds as (b & B & _). exists b. split; [exact B|reflexivity]. Qed.

(** C50. *)
Theorem C50_polygon_obstacle : forall {K} {HA : Arith K} {HD : Dbl K} asserts f t (x y : list K) r b,
  (length x <> length y ->
     rs_call (rs_method asserts (RSgmtPolygonObstacle f t x y r)) b = (b, RsOk)) /\
  (length x = length y -> exists ps, length ps = length x /\
     (forall i, i < length x -> exists a c, nth_error x i = Some a /\ nth_error y i = Some c /\
        nth_error ps i = Some (mkTr a c)) /\
     rs_call (rs_method asserts (RSgmtPolygonObstacle f t x y r)) b =
       (fst (run_op asserts (OSgmtObstacle f t (mkObstacle r ps)) b),
        as_seen (snd (run_op asserts (OSgmtObstacle f t (mkObstacle r ps)) b)))).
Proof. exact @C50_proof. Qed.
Print Assumptions C50_polygon_obstacle.
Example C50_case : exists b, rs_run false trip rs_new = inl b /\
  In (RSgmtPolygonObstacle 0 1 [1; 2; 2; 1]%R [1; 1; 2; 2]%R (1/2)%R) trip /\
  In (RSgmtPolygonObstacle 0 1 [1; 2]%R [1]%R (1/2)%R) trip.
Proof. destruct trip_builds as (b & B & _). exists b. split; [exact B|]. cbn. tauto. Qed.

(** C70: with at least one waypoint, generate returns to Rust, and how. *)
Theorem C70_rust_generate_returns : forall {K} {HA : Arith K} {HD : Dbl K} asserts (os : list (rs_op K)) b
    stop handle code env,
  rs_run asserts os rs_new = inl b -> 0 < waypoint_count b ->
  (exists tr, rs_generate stop b handle code env = RsSamples tr /\
     length tr = 1 + list_sum (b_counts b) /\
     (0 <= code)%Z /\ code <> stop /\ length (b_counts b) < waypoint_count b) \/
  (rs_generate stop b handle code env = RsErrMessage code /\
     ((code < 0)%Z \/ code = stop) /\ length (b_counts b) < waypoint_count b) \/
  (rs_generate stop b handle code env = RsErrRange /\ waypoint_count b <= length (b_counts b)).
Proof. exact @C70_proof. Qed.
Print Assumptions C70_rust_generate_returns.
(** Without waypoints it is undefined behaviour. *)
Theorem C70_no_waypoints : forall {K} {HA : Arith K} {HD : Dbl K} asserts (os : list (rs_op K)) b stop handle code env,
  rs_run asserts os rs_new = inl b -> waypoint_count b = 0 ->
  rs_generate stop b handle code env = RsDied EmptyAccess.
Proof. exact @C70_empty_proof. Qed.
Print Assumptions C70_no_waypoints.
Example C70_case : exists b, rs_run false trip rs_new = inl b /\ 0 < waypoint_count b /\
  exists tr, rs_generate (-1) b 7 0 (fun _ => 0%R) = RsSamples tr /\ length tr = 4.
Proof.
  destruct trip_builds as (b & B & _ & W & N & _). exists b. split; [exact B|]. split; [lia|].
  destruct (C70_rust_generate_returns false trip b (-1) 7 0 (fun _ => 0%R) B ltac:(lia)) as [(tr & T & L & _)|[(_ & [X|X] & _)|[_ X]]];
    try lia.
  - exists tr. split; [exact T|]. rewrite L, N. reflexivity.
  - rewrite N, W in X. cbn in X. lia.
Qed.

(** C71 is false: a triangle ends the process once the bumpers are set. *)
Theorem C71_polygons_accepted_refuted : ~ (forall asserts (os : list (rs_op R)) b f t x y r,
  rs_run asserts os rs_new = inl b -> length x = length y -> 3 <= length x -> in_size_t (length x) ->
  f < t -> (Z.of_nat t < 2 ^ 63)%Z -> (0 <= r)%R ->
  snd (rs_call (rs_method asserts (RSgmtPolygonObstacle f t x y r)) b) = RsOk).
Proof. exact C71_refuted_proof. Qed.
Print Assumptions C71_polygons_accepted_refuted.
(** Exactly which polygons are accepted once the bumpers are set: all but
    triangles, empty ones and (assertions on) those with too negative a radius;
    any other ends the process. *)
Theorem C71_polygons_accepted_partial : forall {K} {HA : Arith K} {HD : Dbl K} asserts (os : list (rs_op K)) b f t
    (x y : list K) r,
  rs_run asserts os rs_new = inl b -> rectangles os <> [] ->
  length x = length y -> in_size_t (length x) -> f < t -> (Z.of_nat t < 2 ^ 63)%Z ->
  let seen := snd (rs_call (rs_method asserts (RSgmtPolygonObstacle f t x y r)) b) in
  let good := length x <> 0 /\ length x <> 3 /\
    (asserts = true -> nleb (nlit 0) (nadd (nlit (1 # 100)) r) = true) in
  (seen = RsOk <-> good) /\ (seen = RsAbort <-> ~ good).
Proof. exact @C71_proof. Qed.
Print Assumptions C71_polygons_accepted_partial.
Example C71_case : exists b, rs_run false trip rs_new = inl b /\ rectangles trip <> [] /\
  snd (rs_call (rs_method false (RSgmtPolygonObstacle 0 1 [0; 1; 1]%R [0; 0; 1]%R 0%R)) b) = RsAbort /\
  snd (rs_call (rs_method false (RSgmtPolygonObstacle 0 1 [0; 1; 1; 0; 0]%R [0; 0; 1; 1; 2]%R 0%R)) b) = RsOk.
Proof.
  destruct trip_builds as (b & B & _). exists b. split; [exact B|].
  assert (N : rectangles trip <> []) by discriminate. split; [exact N|]. split.
  - apply (C71_polygons_accepted_partial false trip b 0 1 [0; 1; 1]%R [0; 0; 1]%R 0%R B N); try reflexivity; [lia|].
    cbn [length]. lia.
  - apply (C71_polygons_accepted_partial false trip b 0 1 [0; 1; 1; 0; 0]%R [0; 0; 1; 1; 2]%R 0%R B N); try reflexivity; [lia|].
    cbn [length]. repeat split; lia || discriminate.
Qed.
