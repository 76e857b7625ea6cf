(** What the client programs of the library ask for (C76-C79). *)
From Coq Require Import List Lia Lra Psatz Reals ZArith Qreals.
Import ListNotations.
From Verif Require Import Outcome Num NumR Geometry Expr Constraints Util Builder Guess Generator Trajectory RustFFI Programs
  Spec SpecBuilder SpecPhysics SpecTrajectory SpecGenerator SpecRust SpecStep Semantics
  UtilFacts GeometryFacts BuilderFacts BuilderHistory ConstraintFacts GuessFacts GeneratorFacts SeedFacts FeasibleFacts
  GeneratorProofs HistoryFacts SolutionProofs TrajectoryProofs GeneratorCases LimitProofs OrderProofs StepProofs DurationProofs
  SessionProofs RustProofs.
Local Open Scope nat_scope.

(** ** Accepted *)
Lemma C76_proof : forall {K} {HA : Arith K} {HD : Dbl K} asserts handle h, In h (@examples K HA HD) ->
  all_returned asserts h new_builder /\ exists g, generator asserts h handle ex_drivetrain g.
Proof.
  intros K HA HD asserts handle h Hh.
  assert (P : all_returned asserts h new_builder /\ last_drivetrain None h = Some ex_drivetrain /\
              (length (counts asserts h) <? waypoint_count (path asserts h)) = true).
  { destruct asserts; simpl in Hh; destruct Hh as [<-|[<-|[<-|[<-|[<-|[<-|[<-|[]]]]]]]];
      (split; [|split; [reflexivity|reflexivity]]); repeat split. }
  destruct P as (A & D & L). split; [exact A|]. apply generator_exists; [apply Nat.ltb_lt; exact L|exact D].
Qed.

Lemma C77_proof : forall {K} {HA : Arith K} {HD : Dbl K} asserts,
  path asserts (@example5 K HA) = path asserts (@example1 K HA).
Proof. intros K HA HD [|]; reflexivity. Qed.

(** ** The first example *)
Open Scope R_scope.
Ltac lits := unfold Q2R in *; cbn [Qnum Qden] in *.

Lemma ex_wheels : real_wheels ex_drivetrain.
Proof. intros md [<-|[<-|[<-|[<-|[]]]]]; cbn; lits; lra. Qed.
Lemma ex_thrust : thrust ex_drivetrain = 200.
Proof. unfold thrust, force_limit. cbn. lits. field. Qed.
Lemma ex_mass : d_mass ex_drivetrain = 45.
Proof. cbn. lits. lra. Qed.
Lemma ex_square : rectangular (6/10) (6/10) ex_drivetrain.
Proof.
  unfold rectangular, pt. cbn. lits. replace (6 * / 10) with (6/10) by reflexivity.
  replace (-6 * / 10) with (- (6/10)) by lra. apply Permutation.Permutation_refl.
Qed.
Lemma example1_good : forall asserts, good_history asserts (@example1 R _).
Proof. intros [|]; repeat split; repeat constructor. Qed.
Lemma example1_counts : forall asserts, counts asserts (@example1 R _) = [40%nat].
Proof. intros [|]; reflexivity. Qed.

Lemma zero_velocity : forall q, demands q zeroLinearVelocity -> at_rest q.
Proof.
  intros q D. cbn in D. replace (Q2R 0) with 0 in D by (unfold Q2R; cbn; lra). rewrite Rabs_R0 in D.
  pose proof (norm2_ge_x (q_vx q) (q_vy q)). pose proof (norm2_ge_y (q_vx q) (q_vy q)).
  pose proof (Rabs_pos (q_vx q)). pose proof (Rabs_pos (q_vy q)).
  split.
  - destruct (Req_dec (q_vx q) 0) as [E|E]; [exact E|]. pose proof (Rabs_pos_lt _ E). lra.
  - destruct (Req_dec (q_vy q) 0) as [E|E]; [exact E|]. pose proof (Rabs_pos_lt _ E). lra.
Qed.

Lemma example1_lower : forall asserts handle g sol, generator asserts example1 handle ex_drivetrain g -> solved g sol ->
  sqrt (9/10) <= sum (s_dt sol).
Proof.
  intros asserts handle g sol G Sv. pose proof (example1_good asserts) as GH. pose proof (example1_counts asserts) as N.
  destruct (solved_requests asserts _ handle _ g sol GH G Sv) as [M _]. rewrite N in M.
  assert (R0 : at_rest (at_sample sol 0)).
  { apply zero_velocity. apply (M 0%nat zeroLinearVelocity); [simpl; lia|]. simpl. tauto. }
  assert (R1 : at_rest (at_sample sol 40)).
  { apply zero_velocity. apply (M 1%nat zeroLinearVelocity); [simpl; lia|]. simpl. tauto. }
  assert (P0 : position (at_sample sol 0) = (nlit 0, nlit 0)).
  { pose proof (waypoint_position asserts _ handle _ g sol 0 (nlit 0) (nlit 0) (nlit 0) GH G Sv) as P. rewrite N in P.
    apply P; [left; simpl; tauto|simpl; lia]. }
  assert (P1 : position (at_sample sol 40) = (nlit 1, nlit 0)).
  { pose proof (waypoint_position asserts _ handle _ g sol 1 (nlit 1) (nlit 0) (nlit 0) GH G Sv) as P. rewrite N in P.
    apply P; [left; simpl; tauto|simpl; lia]. }
  assert (Pm : 0 < d_mass (@ex_drivetrain R _)) by (rewrite ex_mass; lra).
  pose proof (C75_rest_proof asserts _ handle _ g sol G Sv ex_wheels Pm 0) as B. cbv zeta in B. rewrite N in B.
  specialize (B ltac:(simpl; lia) R0 R1). change (waypoint_sample [40%nat] 0) with 0%nat in B.
  change (waypoint_sample [40%nat] 1) with 40%nat in B. rewrite P0, P1, ex_thrust, ex_mass in B.
  assert (D : dist2 (nlit 0, nlit 0) (nlit 1, nlit 0) = 1).
  { unfold dist2. cbn. lits. replace (_ + _) with (1 * 1) by field. apply sqrt_square. lra. }
  rewrite D in B.
  destruct (solved_shape asserts _ handle _ g sol G Sv) as [L _]. rewrite N in L. change (last_sample [40%nat]) with 40%nat in L.
  pose proof (elapsed_all sol) as E. rewrite L in E. rewrite E in B.
  assert (Ps : 0 <= sum (s_dt sol)).
  { rewrite <- E. apply (elapsed_pos asserts _ handle _ g sol G Sv). rewrite N. split; [lia|]. unfold last_sample. simpl. lia. }
  apply Rsqr_incr_0_var; [|exact Ps]. rewrite Rsqr_sqrt by lra. unfold Rsqr. lra.
Qed.

(** Full thrust for half the time, full braking for the other half. *)
Definition tick : R := sqrt (9/10) / 40.
Definition peak (k : nat) : R := INR (Nat.min k (40 - k)).
Definition slope (k : nat) : R := peak k - INR (Nat.min (k - 1) (41 - k)).
Definition every (f : nat -> R) : list R := map f (seq 0 41).
Definition best : solution R :=
  mkSolution (repeat tick 40) (every (fun k => 40/9 * (tick * tick) * tent 40 k)) (every (fun _ => 0))
    (every (fun _ => 1)) (every (fun _ => 0))
    (every (fun k => 40/9 * tick * peak k)) (every (fun _ => 0)) (every (fun _ => 0))
    (every (fun k => 40/9 * slope k)) (every (fun _ => 0)) (every (fun _ => 0))
    (map (fun k => repeat (50 * slope k) 4) (seq 0 41)) (map (fun _ => repeat 0 4) (seq 0 41)).

Lemma nth_every : forall {A} (f : nat -> A) (z : A) k, (k <= 40)%nat -> nth k (map f (seq 0 41)) z = f k.
Proof.
  intros A f z k H. rewrite (nth_indep _ z (f 0%nat)) by (rewrite map_length, seq_length; lia).
  rewrite map_nth, seq_nth by lia. reflexivity.
Qed.
Lemma best_sample : forall k, (k <= 40)%nat -> at_sample best k =
  mkState (40/9 * (tick * tick) * tent 40 k) 0 1 0 (40/9 * tick * peak k) 0 0 (40/9 * slope k) 0 0.
Proof.
  intros k H. unfold at_sample, best. cbn [s_x s_y s_thetacos s_thetasin s_vx s_vy s_omega s_ax s_ay s_alpha].
  unfold every. rewrite !nth_every by exact H. reflexivity.
Qed.
Lemma best_forces : forall k, (k <= 40)%nat -> forces best k =
  [(50 * slope k, 0); (50 * slope k, 0); (50 * slope k, 0); (50 * slope k, 0)].
Proof. intros k H. unfold forces, best. cbn [s_moduleFX s_moduleFY]. rewrite !nth_every by exact H. reflexivity. Qed.
Lemma best_step : forall k, (1 <= k <= 40)%nat -> step_to best k = tick.
Proof.
  intros k H. unfold step_to. cbn [s_dt best]. rewrite (nth_indep _ 0 tick) by (rewrite repeat_length; lia).
  apply nth_repeat.
Qed.

Lemma tick_pos : 0 < tick.
Proof. unfold tick. pose proof (sqrt_lt_R0 (9/10) ltac:(lra)). lra. Qed.
Lemma tick_sqr : 1600 * (tick * tick) = 9/10.
Proof.
  unfold tick. replace (1600 * (sqrt (9/10) / 40 * (sqrt (9/10) / 40))) with (sqrt (9/10) * sqrt (9/10)) by field.
  apply sqrt_sqrt. lra.
Qed.
Lemma tick_small : tick < 1/40.
Proof. pose proof tick_sqr. pose proof tick_pos. nra. Qed.
Lemma slope_cases : forall k, (k <= 40)%nat -> slope k = 0 \/ slope k = 1 \/ slope k = -1.
Proof.
  intros k H. unfold slope, peak. destruct k as [|k]; [left; simpl; lra|]. right.
  destruct (le_lt_dec (S k) 20) as [L|L].
  - left. replace (Nat.min (S k) (40 - S k)) with (S k) by lia. replace (Nat.min (S k - 1) (41 - S k)) with k by lia.
    rewrite S_INR. lra.
  - right. replace (Nat.min (S k) (40 - S k)) with (40 - S k)%nat by lia.
    replace (Nat.min (S k - 1) (41 - S k)) with (S (40 - S k)) by lia. rewrite (S_INR (40 - S k)). lra.
Qed.
Lemma peak_bound : forall k, 0 <= peak k <= 20.
Proof.
  intros k. unfold peak. split; [apply pos_INR|]. replace 20 with (INR 20) by (simpl; lra). apply le_INR. lia.
Qed.
Lemma peak_slope : forall k, (1 <= k <= 40)%nat -> peak k = peak (k - 1) + slope k.
Proof. intros k H. unfold slope, peak. replace (40 - (k - 1))%nat with (41 - k)%nat by lia. lra. Qed.
Lemma tent_peak : forall k, (1 <= k <= 40)%nat -> tent 40 k = tent 40 (k - 1) + peak k.
Proof. intros k H. destruct k as [|k]; [lia|]. replace (S k - 1)%nat with k by lia. reflexivity. Qed.
Lemma tent_end : tent 40 40 = 400.
Proof. cbn [tent]. simpl. lra. Qed.

Lemma best_physics : obeys_physics turns ex_drivetrain [40%nat] best.
Proof.
  pose proof tick_pos as TP. pose proof tick_small as TS. split; change (last_sample [40%nat]) with 40%nat; intros i Hi.
  - cbv zeta. rewrite best_step by lia. rewrite !best_sample by lia.
    split; [|split; [|split]].
    + apply (rectangular_step (6/10) (6/10) ex_drivetrain tick); [lra|lra|exact ex_square|].
      split; [lra|]. intros md [<-|[<-|[<-|[<-|[]]]]]; cbn; lits; lra.
    + unfold moves. cbn [q_x q_y q_vx q_vy]. rewrite (tent_peak i) by lia. split; ring.
    + unfold turns. cbn [q_c q_s q_w]. rewrite Rmult_0_l, cos_0, sin_0. split; ring.
    + unfold accelerates. cbn [q_vx q_vy q_w q_ax q_ay q_al]. rewrite (peak_slope i) by lia. repeat split; ring.
  - rewrite best_forces, best_sample by lia. split; [|split].
    + unfold newton, cross2, turned. cbn. lits. repeat split; field.
    + intros md Hm. unfold wheel_velocity. cbn [q_vx q_vy q_c q_s q_w].
      pose proof (peak_bound i) as PB.
      assert (E : m_wheelRadius md * m_wheelMaxAngularVelocity md = 28/10)
        by (destruct Hm as [<-|[<-|[<-|[<-|[]]]]]; cbn; lits; lra).
      rewrite E. apply norm2_le; [lra|].
      assert (V : 0 <= 40/9 * tick * peak i <= 40/9 * (1/40) * 20).
      { split; [apply Rmult_le_pos; lra|]. apply Rmult_le_compat; lra. }
      rewrite !Rmult_0_r, !Rmult_0_l. nra.
    + intros md f Hf.
      assert (E : In md (d_modules ex_drivetrain) /\ f = (50 * slope i, 0)).
      { cbn [ex_drivetrain d_modules combine] in Hf. simpl in Hf.
        destruct Hf as [E|[E|[E|[E|[]]]]]; injection E as <- <-; (split; [simpl; tauto|reflexivity]). }
      destruct E as [Hm ->].
      assert (E : m_wheelMaxTorque md / m_wheelRadius md = 50)
        by (destruct Hm as [<-|[<-|[<-|[<-|[]]]]]; cbn; lits; field).
      rewrite E. apply norm2_le; [lra|].
      destruct (slope_cases i Hi) as [->|[->| ->]]; lra.
Qed.

Lemma best_solved : forall asserts handle g, generator asserts example1 handle ex_drivetrain g -> solved g best.
Proof.
  intros asserts handle g G.
  apply (C15_accepts_proof asserts _ handle _ g (example1_good asserts) G ex_wheels); rewrite example1_counts.
  - intros n [<-|[]]. lia.
  - unfold well_shaped, best, every. cbn [s_dt s_x s_y s_thetacos s_thetasin s_vx s_vy s_omega s_ax s_ay s_alpha s_moduleFX s_moduleFY].
    change (last_sample [40%nat]) with 40%nat. rewrite repeat_length, !map_length, seq_length.
    repeat split; apply Forall_forall; intros r Hr; apply in_map_iff in Hr; destruct Hr as (k & <- & _); reflexivity.
  - intros s k Hs Hk. simpl in Hs. assert (s = 0)%nat as -> by lia. cbn [nth] in Hk.
    change (waypoint_sample [40%nat] 0) with 0%nat. rewrite !best_step by lia. reflexivity.
  - intros i Hi. change (last_sample [40%nat]) with 40%nat in Hi. rewrite best_sample by lia.
    unfold unit_heading. cbn [q_c q_s]. lra.
  - exact best_physics.
  - assert (Z : Q2R 0 = 0) by (unfold Q2R; cbn; lra). assert (O : Q2R 1 = 1) by (unfold Q2R; cbn; lra).
    split.
    + intros w c Hw Hc. cbn [length] in Hw. assert (w = 0 \/ w = 1)%nat as [->| ->] by lia; cbn in Hc.
      * change (waypoint_sample [40%nat] 0) with 0%nat. rewrite best_sample by lia.
        destruct Hc as [<-|[<-|[]]]; cbn; rewrite ?Z, ?cos_0, ?sin_0, ?Rabs_R0.
        -- split; [ring|]. split; [reflexivity|]. left. split; reflexivity.
        -- unfold peak. simpl. rewrite !Rmult_0_r. rewrite norm2_zero. lra.
      * change (waypoint_sample [40%nat] 1) with 40%nat. rewrite best_sample by lia.
        rewrite tent_end. pose proof tick_sqr as TQ.
        destruct Hc as [<-|[<-|[]]]; cbn; rewrite ?Z, ?O, ?cos_0, ?sin_0, ?Rabs_R0.
        -- split; [lra|]. split; [lra|]. left. lra.
        -- unfold peak. simpl. rewrite !Rmult_0_r. rewrite norm2_zero. lra.
    + intros w c i Hw Hc. cbn [length] in Hw. assert (w = 1)%nat as -> by lia. destruct Hc.
Qed.

Lemma best_duration : sum (s_dt best) = sqrt (9/10).
Proof.
  cbn [s_dt best]. assert (X : forall n x, sum (repeat x n) = INR n * x).
  { induction n as [|n IH]; intros x; cbn [repeat sum]; [simpl; lra|]. rewrite IH, S_INR. lra. }
  rewrite X. unfold tick. replace (INR 40) with 40 by (simpl; lra). field.
Qed.

Lemma C78_proof : forall asserts handle g, generator asserts example1 handle ex_drivetrain g ->
  (forall sol, solved g sol -> sqrt (9/10) <= sum (s_dt sol)) /\
  exists sol, solved g sol /\ sum (s_dt sol) = sqrt (9/10).
Proof.
  intros asserts handle g G. split.
  - intros sol Sv. exact (example1_lower asserts handle g sol G Sv).
  - exists best. split; [exact (best_solved asserts handle g G)|exact best_duration].
Qed.

(** ** Programs that ask for the impossible *)
Lemma obstacle_test_unset : forall {K} {HA : Arith K} {HD : Dbl K} handle,
  construct (path false (@obstacle_test K HA)) handle = Undef Uninitialized.
Proof.
  intros K HA HD handle. apply C66_proof; [apply Nat.ltb_lt; reflexivity|reflexivity].
Qed.

Lemma ends_counts : forall asserts (h : list (op R)) l, counts asserts (h ++ [OControlIntervalCounts l]) = l.
Proof. intros. unfold counts, path. rewrite run_ops_app. reflexivity. Qed.

Lemma obstacle_test_hopeless : forall asserts d handle g,
  good_history asserts (OSetDrivetrain d :: @obstacle_test R _) ->
  generator asserts (OSetDrivetrain d :: @obstacle_test R _) handle d g -> ~ exists sol, solved g sol.
Proof.
  intros asserts d handle g GH G [sol Sv].
  assert (N : counts asserts (OSetDrivetrain d :: @obstacle_test R _) = [10%nat]).
  { apply (ends_counts asserts (OSetDrivetrain d :: firstn 4 obstacle_test)). }
  destruct (solved_requests asserts _ handle d g sol GH G Sv) as [M _]. rewrite N in M.
  change (wpt_requests [] (OSetDrivetrain d :: @obstacle_test R _)) with (wpt_requests [] (@obstacle_test R _)) in M.
  specialize (fun c => M 0%nat c ltac:(simpl; lia)). change (waypoint_sample [10%nat] 0) with 0%nat in M.
  set (q := at_sample sol 0) in *.
  pose proof (M _ (or_introl eq_refl)) as P. 
  pose proof (M _ (or_intror (or_intror (or_intror (or_intror (or_intror (or_introl eq_refl))))))) as A.
  pose proof (M _ (or_intror (or_intror (or_intror (or_intror (or_intror (or_intror (or_intror (or_introl eq_refl))))))))) as B.
  clear M. cbn in P, A, B. destruct P as (X & Y & H). unfold placed, dist2 in A, B. cbn in A, B. rewrite X, Y in A, B.
  clearbody q. lits. rewrite Rmult_0_l, cos_0, sin_0 in H.
  destruct H as [[C S]|[C S]]; [clear B; rename A into T|clear A; rename B into T]; rewrite C, S in T; clear - T;
    (rewrite Rabs_right in T by lra);
    match type of T with _ <= sqrt ?e => replace e with (845/1000) in T by field end;
    (assert (sqrt (845/1000) < 1) by (rewrite <- sqrt_1; apply sqrt_lt_1_alt; lra)); lra.
Qed.

Lemma rs_example_hopeless : forall asserts b handle g, rs_run asserts (@rs_example R _) rs_new = inl b ->
  construct b handle = Ok g -> ~ exists sol, solved g sol.
Proof.
  intros asserts b handle g Ru C [sol Sv]. apply C48_history_proof in Ru as (_ & Ru & ->).
  set (h := zero_drivetrain :: cpp_calls (@rs_example R _)).
  assert (GH : good_history asserts h).
  { split; [repeat constructor|]. split; [repeat constructor|]. split; [reflexivity|]. exact Ru. }
  assert (N : counts asserts h = [40%nat]).
  { apply (ends_counts asserts (zero_drivetrain :: cpp_calls (firstn 8 rs_example))). }
  destruct (b_drivetrain (path asserts h)) as [d|] eqn:D.
  2:{ unfold h in D. change (path asserts h) with (run_ops asserts (cpp_calls (@rs_example R _)) rs_new) in D.
      rewrite (path_drivetrain asserts (zero_drivetrain :: cpp_calls (@rs_example R _))) in D. discriminate D. }
  assert (G : generator asserts h handle d g) by (split; assumption).
  destruct (solved_requests asserts _ handle d g sol GH G Sv) as [M _]. rewrite N in M.
  specialize (fun c => M 0%nat c ltac:(simpl; lia)). change (waypoint_sample [40%nat] 0) with 0%nat in M.
  set (q := at_sample sol 0) in *.
  pose proof (M _ (or_introl eq_refl)) as P. 
  pose proof (M _ (or_intror (or_intror (or_intror (or_intror (or_intror (or_introl eq_refl))))))) as A.
  pose proof (M _ (or_intror (or_intror (or_intror (or_introl eq_refl))))) as B.
  clear M. cbn in P, A, B. destruct P as (X & Y & H). destruct A as [_ A]. destruct B as [_ B].
  unfold placed in A, B. cbn in A, B. rewrite X, Y in A, B.
  clearbody q. clear - H A B. lits. rewrite Rmult_0_l, cos_0, sin_0 in H.
  assert (Q : 3/10 < sqrt (Rabs (1 * / 100 + 2 * / 10))).
  { rewrite Rabs_right by lra. apply Rsqr_incrst_0; [|lra|apply sqrt_pos]. rewrite Rsqr_sqrt by lra. unfold Rsqr. lra. }
  assert (D : forall a b, a = (65/100, -(65/100)) -> b = (65/100, 65/100) ->
    clear_of_segment a b (1 * / 2, 1 * / 10) (sqrt (Rabs (1 * / 100 + 2 * / 10))) -> False).
  { intros a b -> -> C. specialize (C (65/100, 1/10)). unfold dist2 in C. cbn [fst snd] in C.
    assert (S : sqrt ((65 / 100 - 1 * / 2) * (65 / 100 - 1 * / 2) + (1 / 10 - 1 * / 10) * (1 / 10 - 1 * / 10)) = 15/100).
    { replace (_ + _) with (15/100 * (15/100)) by field. apply sqrt_square. lra. }
    rewrite S in C. enough (15/100 >= sqrt (Rabs (1 * / 100 + 2 * / 10))) by lra. apply Rle_ge, C.
    exists (75/130). split; [lra|]. unfold along. cbn [fst snd]. f_equal; field. }
  destruct H as [[C S]|[C S]].
  - apply (D _ _) in A; [exact A| |]; rewrite C, S; f_equal; field.
  - apply (D _ _) in B; [exact B| |]; rewrite C, S; f_equal; field.
Qed.

(** ** Cases *)
Lemma best_rest : exists g, generator true example1 7 ex_drivetrain g /\ solved g best /\
  real_wheels ex_drivetrain /\ 0 < d_mass (ex_drivetrain (K := R)) /\
  at_rest (at_sample best 0) /\ at_rest (at_sample best 40) /\
  4 * d_mass ex_drivetrain * dist2 (position (at_sample best 0)) (position (at_sample best 40))
    = thrust ex_drivetrain * (elapsed best 0 40 * elapsed best 0 40).
Proof.
  destruct (C76_proof true 7 (@example1 R _)) as [_ [g G]]; [left; reflexivity|].
  exists g. split; [exact G|]. split; [exact (best_solved true 7 g G)|]. split; [exact ex_wheels|].
  rewrite ex_mass, ex_thrust. split; [lra|]. rewrite !best_sample by lia.
  split; [|split].
  - unfold at_rest. cbn [q_vx q_vy]. unfold peak. simpl. split; ring.
  - unfold at_rest. cbn [q_vx q_vy]. unfold peak. simpl. split; ring.
  - pose proof (elapsed_all best) as E. replace (length (s_dt best)) with 40%nat in E by reflexivity.
    rewrite E, best_duration, sqrt_sqrt by lra. unfold position, dist2. cbn [q_x q_y fst snd].
    rewrite tent_end. change (tent 40 0) with 0. pose proof tick_sqr as T.
    replace ((_ - _) * (_ - _) + (0 - 0) * (0 - 0)) with (40 / 9 * (1600 * (tick * tick)) / 4 * (40 / 9 * (1600 * (tick * tick)) / 4)) by field.
    rewrite T. rewrite sqrt_square by lra. field.
Qed.
Lemma rs_example_case : exists b g, rs_run false (@rs_example R _) rs_new = inl b /\ construct b 7 = Ok g.
Proof.
  exists (run_ops false (cpp_calls (@rs_example R _)) rs_new).
  destruct (generator_exists false (zero_drivetrain :: cpp_calls (@rs_example R _)) 7
      (mkDrivetrain (nlit 45) (nlit 6) (map module_of
       [rs_ex_module (6 # 10) (6 # 10); rs_ex_module (6 # 10) (- 6 # 10);
        rs_ex_module (- 6 # 10) (6 # 10); rs_ex_module (- 6 # 10) (- 6 # 10)]))) as (g & G & _).
  - apply Nat.ltb_lt. reflexivity.
  - reflexivity.
  - exists g. split; [|exact G]. apply C48_history_proof. split; [discriminate|split; [repeat split|reflexivity]].
Qed.
Lemma obstacle_test_case : exists g, good_history false (OSetDrivetrain ex_drivetrain :: @obstacle_test R _) /\
  generator false (OSetDrivetrain ex_drivetrain :: @obstacle_test R _) 7 ex_drivetrain g.
Proof.
  destruct (generator_exists false (OSetDrivetrain ex_drivetrain :: @obstacle_test R _) 7 ex_drivetrain) as [g G];
    [apply Nat.ltb_lt; reflexivity|reflexivity|].
  exists g. split; [repeat split; repeat constructor|exact G].
Qed.
