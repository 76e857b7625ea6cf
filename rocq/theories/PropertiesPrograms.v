(** Claims about the programs that come with the library: C76-C79, C81, C110.  The
    programs are call sequences defined in Programs.v. *)
From Coq Require Import List Lia Lra Reals ZArith.
Import ListNotations.
From Verif Require Import Outcome Num NumR Geometry Expr Constraints Util Builder Guess Generator Trajectory RustFFI Programs
  Spec SpecBuilder SpecPhysics SpecTrajectory SpecGenerator SpecRust SpecStep SpecPrograms ProgramProofs ExampleProofs StoryProofs.

(** C76. All calls of the C++ examples return and the generator accepts the paths. *)
Theorem C76_examples_accepted : forall {K} {HA : Arith K} {HD : Dbl K} asserts handle h, In h (@examples K HA HD) ->
  all_returned asserts h new_builder /\ exists g, generator asserts h handle ex_drivetrain g.
Proof. exact @C76_proof. Qed.
Print Assumptions C76_examples_accepted.
Example C76_case : length (@examples R _ _) = 7%nat /\ map (counts true) (@examples R _ _) =
  [[40]; [40]; [40; 40]; [40]; [40]; [40; 30; 30; 40]; [30]]%nat.
Proof. split; reflexivity. Qed.

(** C77. The obstacle example builds exactly the path of the first example: no
    bumpers were added, so the obstacle is dropped. *)
Theorem C77_obstacle_example_has_no_obstacle : forall {K} {HA : Arith K} {HD : Dbl K} asserts,
  path asserts (@example5 K HA) = path asserts (@example1 K HA).
Proof. exact @C77_proof. Qed.
Print Assumptions C77_obstacle_example_has_no_obstacle.
Example C77_case : In (OSgmtObstacle 0 1 (mkObstacle (nlit (1 # 10)) [mkTr (nlit (1 # 2)) (nlit (1 # 2))]))
  (@example5 R _) /\ waypoint_count (path true (@example5 R _)) = 2%nat.
Proof. split; [simpl; tauto|reflexivity]. Qed.

(** C78. The shortest trajectory of the first example takes sqrt 0.9 s. *)
Theorem C78_first_example_optimum : forall asserts handle g, generator asserts example1 handle ex_drivetrain g ->
  (forall sol, solved g sol -> (sqrt (9/10) <= sum (s_dt sol))%R) /\
  exists sol, solved g sol /\ sum (s_dt sol) = sqrt (9/10).
Proof. exact C78_proof. Qed.
Print Assumptions C78_first_example_optimum.
Example C78_case : exists g, generator true (@example1 R _) 7 ex_drivetrain g.
Proof. apply C76_examples_accepted. left. reflexivity. Qed.

(** C79. The Rust example asks for a path that no trajectory can follow, *)
Theorem C79_rust_example_infeasible : forall asserts b handle g,
  rs_run asserts (@rs_example R _) rs_new = inl b -> construct b handle = Ok g -> ~ exists sol, solved g sol.
Proof. exact rs_example_hopeless. Qed.
Print Assumptions C79_rust_example_infeasible.
(** and so does the obstacle test, whatever drivetrain it is given; *)
Theorem C79_obstacle_test_infeasible : forall asserts d handle g,
  good_history asserts (OSetDrivetrain d :: @obstacle_test R _) ->
  generator asserts (OSetDrivetrain d :: @obstacle_test R _) handle d g -> ~ exists sol, solved g sol.
Proof. exact obstacle_test_hopeless. Qed.
Print Assumptions C79_obstacle_test_infeasible.
(** as written it gives none, and the generator reads uninitialised numbers. *)
Theorem C79_obstacle_test_undefined : forall {K} {HA : Arith K} {HD : Dbl K} handle,
  construct (path false (@obstacle_test K HA)) handle = Undef Uninitialized.
Proof. exact @obstacle_test_unset. Qed.
Print Assumptions C79_obstacle_test_undefined.
Example C79_case : (exists b g, rs_run false (@rs_example R _) rs_new = inl b /\ construct b 7 = Ok g) /\
  exists g, good_history false (OSetDrivetrain ex_drivetrain :: @obstacle_test R _) /\
    generator false (OSetDrivetrain ex_drivetrain :: @obstacle_test R _) 7 ex_drivetrain g.
Proof. split; [exact rs_example_case|exact obstacle_test_case]. Qed.

(** C81. Each of the C++ examples asks for something possible. *)
Theorem C81_examples_feasible : forall asserts handle h g, In h (@examples R _ _) ->
  generator asserts h handle ex_drivetrain g -> exists sol, solved g sol.
Proof. exact C81_proof. Qed.
Print Assumptions C81_examples_feasible.
Example C81_case : In (@example6 R _ _) examples /\ exists g, generator true (@example6 R _ _) 7 ex_drivetrain g.
Proof.
  assert (I : In (@example6 R _ _) examples) by (simpl; tauto). split; [exact I|].
  apply (C76_examples_accepted true 7 example6 I).
Qed.

(** C110. The trajectories of an example are exactly those that obey the
    physics and do at each sample what the example's story says. *)
Theorem C110_example_stories : forall asserts handle h N story g, In (h, N, story) stories ->
  generator asserts h handle ex_drivetrain g ->
  forall sol, solved g sol <-> well_shaped N 4 sol /\ uniform_steps N sol /\
    obeys_physics turns_up_to_half ex_drivetrain N sol /\ follows sol story.
Proof. exact C110_proof. Qed.
Print Assumptions C110_example_stories.
(** Every example has one. *)
Theorem C110_all_told : map (fun s => fst (fst s)) stories = examples.
Proof. exact C110_told_proof. Qed.
Print Assumptions C110_all_told.
(** The Rust example's path. *)
Theorem C110_rust_example : forall {K} {HA : Arith K} {HD : Dbl K} asserts b,
  rs_run asserts (@rs_example K HA) rs_new = inl b -> b = path asserts rust_calls.
Proof. exact @C110_rust_proof. Qed.
Print Assumptions C110_rust_example.
Example C110_rust_case : exists b, rs_run false (@rs_example R _) rs_new = inl b.
Proof. destruct rs_example_case as (b & _ & E & _). exists b. exact E. Qed.
Example C110_case : exists g sol, generator true (@example6 R _ _) 7 ex_drivetrain g /\ solved g sol /\
  q_x (at_sample sol 70) = 1%R /\ q_y (at_sample sol 70) = 2%R /\ q_w (at_sample sol 40) = 0%R.
Proof.
  destruct C81_case as (I & g & G). destruct (C81_examples_feasible true 7 example6 g I G) as (sol & S).
  exists g, sol. split; [exact G|]. split; [exact S|].
  apply (C110_example_stories true 7 example6 [40; 30; 30; 40]%nat pick_up g ltac:(simpl; tauto) G) in S. destruct S as (_ & _ & _ & F).
  destruct (F 70 70 (At 1 2) ltac:(unfold pick_up, stand, during; simpl; tauto) 70 ltac:(lia))%nat as (X & Y).
  split; [exact X|]. split; [exact Y|]. apply (F 40 40 Steady ltac:(unfold pick_up, stand, during; simpl; tauto) 40 ltac:(lia))%nat.
Qed.
