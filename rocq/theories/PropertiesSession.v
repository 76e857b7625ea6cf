(** Properties of client sessions: builders, the generators made from them and
    solver runs, in any order. *)
From Coq Require Import List Lia ZArith Reals.
Import ListNotations.
From Verif Require Import Outcome Num NumR Geometry Expr Constraints Builder Generator Runtime Session RustFFI
  SpecBuilder SpecGenerator SpecSession HistoryFacts GeneratorCases SessionProofs.
Local Open Scope nat_scope.

(** C54. *)
Theorem C54_builder_unchanged : forall {K} {HA : Arith K} {HD : Dbl K} stop asserts (cs : list (call K)),
  ss_builder (session_run stop asserts cs session_new) = path asserts (builder_calls cs).
Proof. exact @C54_builder_proof. Qed.
Print Assumptions C54_builder_unchanged.
Theorem C54_generator_unchanged : forall {K} {HA : Arith K} {HD : Dbl K} stop asserts
    (cs1 cs2 : list (call K)) handle g,
  construct (path asserts (builder_calls cs1)) handle = Ok g ->
  let before := session_run stop asserts cs1 session_new in
  let after := session_run stop asserts (cs1 ++ CConstruct handle :: cs2) session_new in
  let k := length (ss_gens before) in
  snd (session_call stop asserts before (CConstruct handle)) = AConstructed (Ok k) /\
  (exists g', nth_error (ss_gens after) k = Some g' /\ same_generator g g' /\
     ((forall c, In c cs2 -> ~ generates k c) -> g' = g)) /\
  (forall code env, snd (session_call stop asserts after (CGenerate k code env)) =
     AGenerated (generate_result stop g code env)).
Proof. exact @C54_generator_proof. Qed.
Print Assumptions C54_generator_unchanged.
Theorem C54_construct_twice : forall {K} {HA : Arith K} {HD : Dbl K} (b : builder K) handle handle' g,
  construct b handle = Ok g ->
  construct b handle' = Ok (mkGen (g_vars g) (g_N g) (g_problem g) (g_callbacks g) handle').
Proof. exact @C54_twice_proof. Qed.
Print Assumptions C54_construct_twice.
(** A generator made for the path [ride], a waypoint added afterwards, a second
    generator, and a solver run on the first. *)
Definition C54_session : list (call R) :=
  map CBuild ride ++ CConstruct 7 :: [CBuild (OPoseWpt 2 5%R 5%R 0%R); CConstruct 8; CGenerate 0 0 (fun _ => 0%R)].
Example C54_case :
  (exists g, construct (path true (builder_calls (map CBuild ride))) 7 = Ok g) /\
  builder_calls C54_session = ride ++ [OPoseWpt 2 5%R 5%R 0%R] /\
  waypoint_count (ss_builder (session_run 1 true C54_session session_new)) = 3.
Proof.
  split.
  - destruct (ride_generator true 7) as [g [G _]]. exists g. exact G.
  - split; [reflexivity|]. rewrite C54_builder_unchanged. reflexivity.
Qed.

(** C55. *)
Theorem C55_accepted_paths : forall {K} {HA : Arith K} {HD : Dbl K} asserts (h : list (op K)) handle d,
  b_drivetrain (path asserts h) = Some d -> 0 < waypoint_count (path asserts h) ->
  (length (counts asserts h) <= waypoint_count (path asserts h) - 1 <->
     exists g, construct (path asserts h) handle = Ok g) /\
  (~ length (counts asserts h) <= waypoint_count (path asserts h) - 1 ->
     construct (path asserts h) handle = Throw OutOfRange).
Proof. exact @C55_accepts_proof. Qed.
Print Assumptions C55_accepted_paths.
Theorem C55_trailing_waypoints_ignored : forall {K} {HA : Arith K} {HD : Dbl K} asserts asserts'
    (h h' : list (op K)) handle,
  counts asserts h = counts asserts' h' ->
  last_drivetrain None h = last_drivetrain None h' ->
  flat_map callback_request h = flat_map callback_request h' ->
  length (counts asserts h) < waypoint_count (path asserts h) ->
  length (counts asserts h) < waypoint_count (path asserts' h') ->
  (forall i, i <= length (counts asserts h) -> same_waypoint (path asserts h) (path asserts' h') i) ->
  construct (path asserts h) handle = construct (path asserts' h') handle.
Proof. exact @C55_trailing_proof. Qed.
Print Assumptions C55_trailing_waypoints_ignored.
(** [ride] has two waypoints and one count; [ride_on] a third waypoint, with a
    constraint, that its counts do not reach; [overcounted] one count too many. *)
Definition ride_on : list (op R) :=
  ride ++ [OPoseWpt 2 5%R 5%R 0%R; OSgmtConstraint 1 2 (LinearVelocityMaxMagnitude 1%R); OControlIntervalCounts [2]].
Definition overcounted : list (op R) := ride ++ [OControlIntervalCounts [2; 2]].
Example C55_case : waypoint_count (path true ride_on) = 3 /\ counts true ride_on = [2] /\
  b_drivetrain (path true ride_on) = Some cart /\
  waypoint_count (path true overcounted) = 2 /\ counts true overcounted = [2; 2].
Proof. repeat split; reflexivity. Qed.
Example C55_trailing_case :
  let ride_on' := ride ++ [OPoseWpt 2 5%R 5%R 0%R; OControlIntervalCounts [2]] in
  counts true ride = counts true ride_on' /\ last_drivetrain None ride = last_drivetrain None ride_on' /\
  length (counts true ride) < waypoint_count (path true ride) /\
  length (counts true ride) < waypoint_count (path true ride_on') /\
  waypoint_count (path true ride_on') = 3 /\
  (forall i, i <= length (counts true ride) -> same_waypoint (path true ride) (path true ride_on') i).
Proof.
  repeat (split; [first [reflexivity | apply Nat.ltb_lt; reflexivity]|]).
  intros i Hi. rewrite (ride_counts true) in Hi. simpl in Hi.
  destruct i as [|[|i]]; [| |lia]; repeat split; reflexivity.
Qed.

(** C56 is false: without waypoints the code reads the front of an empty vector. *)
Theorem C56_rejected_refuted : forall {K} {HA : Arith K} {HD : Dbl K}, ~ (forall asserts (h : list (op K)) handle,
  waypoint_count (path asserts h) = 0 \/ last_drivetrain None h = None ->
  exists e, construct (path asserts h) handle = Throw e).
Proof. exact @C56_refuted_proof. Qed.
Print Assumptions C56_rejected_refuted.

(** C66: what happens instead. *)
Theorem C66_unset_inputs : forall {K} {HA : Arith K} {HD : Dbl K} asserts (h : list (op K)) handle,
  (waypoint_count (path asserts h) = 0 ->
     construct (path asserts h) handle = Undef EmptyAccess) /\
  (length (counts asserts h) < waypoint_count (path asserts h) -> last_drivetrain None h = None ->
     construct (path asserts h) handle = Undef Uninitialized).
Proof. exact @C66_proof. Qed.
Print Assumptions C66_unset_inputs.
Theorem C66_unset_drivetrain_rust : forall {K} {HA : Arith K} {HD : Dbl K} asserts (h : list (op K)) handle,
  let b := run_ops asserts h rs_new in
  0 < waypoint_count b -> length (b_counts b) < waypoint_count b ->
  last_drivetrain None h = None ->
  exists g, construct b handle = Ok g /\ b_drivetrain b = Some (mkDrivetrain (nlit 0) (nlit 0) []).
Proof. exact @C66_rust_proof. Qed.
Print Assumptions C66_unset_drivetrain_rust.
Example C66_case :
  let h := [OSetDrivetrain cart] in let h' := [OPoseWpt 1 1%R 0%R 0%R] in
  waypoint_count (path true h) = 0 /\ last_drivetrain None h = Some cart /\
  length (counts true h') < waypoint_count (path true h') /\ last_drivetrain None h' = None /\
  waypoint_count (run_ops true h' rs_new) = 2 /\ b_counts (run_ops true h' rs_new) = [40].
Proof. repeat split; try reflexivity. apply Nat.ltb_lt. reflexivity. Qed.
