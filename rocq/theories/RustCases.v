(** A concrete Rust program, and the value facts of C49. *)
From Coq Require Import List Lia ZArith QArith Reals Lra.
Import ListNotations.
From Verif Require Import Outcome Num NumR Geometry Expr Constraints Builder Generator Trajectory Runtime RustFFI
  SpecBuilder SpecGenerator SpecRuntime SpecRust RustProofs GeneratorCases.
Local Open Scope nat_scope.

Definition trip : list (rs_op R) :=
  [RSetDrivetrain (mkRsDrivetrain 2 1 [mkRsModule 1 1 1 1 1; mkRsModule (-1) (-1) 1 1 1]);
   RSetBumpers 1 2; RPoseWpt 0 0 0 0; RPoseWpt 1 4 0 1;
   RWptLinearVelocityMaxMagnitude 0 0; RSgmtPointAt 0 1 5 5 (1/4);
   RSgmtPolygonObstacle 0 1 [1; 2; 2; 1] [1; 1; 2; 2] (1/2);
   RSgmtPolygonObstacle 0 1 [1; 2] [1] (1/2);
   RAddProgressCallback; RAddProgressCallback; RSetControlIntervalCounts [3%nat]]%R.
Definition trip_calls : list (op R) :=
  [OSetDrivetrain (mkDrivetrain 2 1 [mkModule (mkTr 1 1) 1 1 1; mkModule (mkTr (-1) (-1)) 1 1 1]);
   OAddBumpers (centred_rectangle 1 2); OPoseWpt 0 0 0 0; OPoseWpt 1 4 0 1;
   OWptConstraint 0 (LinearVelocityMaxMagnitude 0); OSgmtConstraint 0 1 (PointAt (mkTr 5 5) (1/4));
   OSgmtObstacle 0 1 (mkObstacle (1/2) [mkTr 1 1; mkTr 2 1; mkTr 2 2; mkTr 1 2]);
   OAddIntermediateCallback (fun s _ => s); OAddIntermediateCallback (fun s _ => s);
   OControlIntervalCounts [3%nat]]%R.

Lemma not_refused : forall o : rs_op R, (forall m, bounded_argument o = Some m -> (0 <= m)%R) -> ~ refused o.
Proof.
  intros o H (m & E & L). specialize (H m E). cbn in L. unfold Rleb in L. destruct (Rle_dec (Q2R 0) m) as [P|P]; [discriminate|].
  apply P. unfold Q2R. cbn. lra.
Qed.

Lemma trip_builds : exists b, rs_run false trip rs_new = inl b /\ cpp_calls trip = trip_calls /\
  waypoint_count b = 2 /\ b_counts b = [3] /\ progress_callbacks trip = 2 /\
  exists g, construct b 7 = Ok g.
Proof.
  exists (run_ops false trip_calls rs_new). split; [|split; [reflexivity|]].
  - apply C48_history_proof. split; [discriminate|split; [repeat split|reflexivity]].
  - split; [reflexivity|]. split; [reflexivity|]. split; [reflexivity|].
    destruct (generator_exists false (zero_drivetrain :: trip_calls) 7
      (mkDrivetrain 2 1 [mkModule (mkTr 1 1) 1 1 1; mkModule (mkTr (-1) (-1)) 1 1 1])%R) as (g & G & _).
    + apply Nat.ltb_lt. reflexivity.
    + reflexivity.
    + exists g. exact G.
Qed.
(** The same up to the obstacles, with assertions on. *)
Lemma trip_asserted : exists b, rs_run true (firstn 6 trip) rs_new = inl b /\ waypoint_count b = 2 /\
  Exists (fun o => exists m, bounded_argument o = Some m /\ (0 < m)%R) (firstn 6 trip).
Proof.
  exists (run_ops true (firstn 6 trip_calls) rs_new). split; [|split; [reflexivity|]].
  - apply C48_history_proof. split; [|split; [repeat split|reflexivity]].
    intros _. unfold trip. cbn [firstn].
    repeat (constructor; [apply not_refused; intros m E; cbn in E; (discriminate E || (injection E as <-; lra))|]). constructor.
  - do 5 apply Exists_cons_tl. apply Exists_cons_hd. exists (1/4)%R. split; [reflexivity|lra].
Qed.

Lemma C49_refuted_proof : ~ (forall asserts (os : list (rs_op R)) l w b,
  rs_run asserts (os ++ [RSetBumpers l w]) rs_new = inl b -> b_bumpers b = [centred_rectangle l w]).
Proof. intros C. specialize (C true [RSetBumpers 1 2]%R 3%R 4%R _ eq_refl). discriminate C. Qed.

Local Open Scope R_scope.
Lemma half : forall l, l / Q2R 2 = l / 2.
Proof. intros l. unfold Q2R. cbn. f_equal. lra. Qed.

Lemma rectangle_points : forall l w : R, o_points (centred_rectangle l w) =
  [mkTr (l / 2) (w / 2); mkTr (- (l / 2)) (w / 2); mkTr (- (l / 2)) (- (w / 2)); mkTr (l / 2) (- (w / 2))].
Proof.
  intros l w. unfold centred_rectangle. cbn [o_points ndiv nneg nlit Arith_R]. rewrite !half. repeat (f_equal; try lra).
Qed.

Lemma share : forall l x, 0 <= l -> Rabs x <= l / 2 -> exists u, 0 <= u <= 1 /\ x = u * (l / 2) - (1 - u) * (l / 2).
Proof.
  intros l x L H. assert (A : - (l / 2) <= x <= l / 2) by (revert H; unfold Rabs; destruct (Rcase_abs x); lra).
  destruct (Req_dec l 0) as [->|N].
  - exists (1 / 2). split; lra.
  - assert (P : 0 < l) by lra. exists (x / l + 1 / 2). split.
    + assert (E : x = x / l * l) by (field; lra). set (q := x / l) in *. clearbody q. subst x.
      split; nra.
    + field. lra.
Qed.

Lemma C49_rectangle_proof : forall l w : R, (0 <= l)%R -> (0 <= w)%R ->
  o_safetyDistance (centred_rectangle l w) = (1 / 100)%R /\
  (forall p, within_corners (o_points (centred_rectangle l w)) p <->
     (Rabs (tX p) <= l / 2 /\ Rabs (tY p) <= w / 2)%R) /\
  map (fun e => (tX (snd e) - tX (fst e), tY (snd e) - tY (fst e))%R) (outline (o_points (centred_rectangle l w))) =
    [(- l, 0); (0, - w); (l, 0); (0, w)]%R.
Proof.
  intros l w L W. split; [cbn; unfold Q2R; cbn; lra|]. rewrite rectangle_points. split.
  - intros [x y]. cbn [tX tY]. unfold within_corners. split.
    + intros (ws & Len & Pos & Sum & X & Y). cbn [tX tY] in X, Y.
      destruct ws as [|a [|b [|c [|d [|]]]]]; try discriminate Len. cbn in Sum, X, Y.
      repeat match goal with H : Forall _ (_ :: _) |- _ => inversion H; clear H; subst end.
      subst. split; apply Rabs_le; split; nra.
    + intros [X Y]. destruct (share l x L X) as (u & U & ->). destruct (share w y W Y) as (v & V & ->).
      exists [u * v; (1 - u) * v; (1 - u) * (1 - v); u * (1 - v)]. split; [reflexivity|].
      split; [repeat (apply Forall_cons; [nra|]); apply Forall_nil|]. cbn. repeat split; ring.
  - cbn. repeat (f_equal; try lra).
Qed.

(** A triangle, once the bumpers are set. *)
Lemma C71_refuted_proof : ~ (forall asserts (os : list (rs_op R)) b f t x y r,
  rs_run asserts os rs_new = inl b -> length x = length y -> (3 <= length x)%nat -> in_size_t (length x) ->
  (f < t)%nat -> (Z.of_nat t < 2 ^ 63)%Z -> (0 <= r)%R ->
  snd (rs_call (rs_method asserts (RSgmtPolygonObstacle f t x y r)) b) = RsOk).
Proof.
  intros C. set (os := [RSetBumpers 1 2]).
  assert (B : rs_run false os rs_new = inl (run_ops false (cpp_calls os) rs_new)) by reflexivity.
  set (b := run_ops false (cpp_calls os) rs_new) in B. clearbody b.
  specialize (C false os b 0%nat 1%nat [0; 1; 1] [0; 0; 1] 0 B eq_refl (le_n 3)
    ltac:(reflexivity) (le_n 1) ltac:(reflexivity) ltac:(lra)).
  apply (C71_proof false os b 0%nat 1%nat [0; 1; 1] [0; 0; 1] 0 B ltac:(discriminate) eq_refl
    ltac:(reflexivity) (le_n 1) ltac:(reflexivity)) in C. destruct C as (_ & C & _). apply C. reflexivity.
Qed.
