(** Robots with less to carry (C125). *)
From Coq Require Import List Lia Lra Psatz Reals ZArith Permutation.
Import ListNotations.
From Verif Require Import Outcome Num NumR Geometry Expr Constraints Util Builder Guess Generator Trajectory
  Spec SpecBuilder SpecPhysics SpecTrajectory SpecGenerator SpecLoad
  BuilderFacts BuilderHistory GeneratorFacts HistoryFacts GeneratorProofs SolutionProofs TrajectoryProofs
  GeneratorCases LimitProofs OrderProofs HardwareProofs.
Open Scope R_scope.

(** ** Forces across *)
Section Across.
  Variables (d : drivetrain R) (fs : list (R * R)).
  Hypothesis Pd : paired d.
  Hypothesis Lf : length fs = length (d_modules d).
  Hypothesis Fo : forces_within d fs.
  Let ms := d_modules d.
  Lemma across_forces : exists gs, length gs = length ms /\
    sum (map fst gs) = - sum (map fst fs) /\ sum (map snd gs) = - sum (map snd fs) /\
    (forall s, sum (map (fun mf => cross2 (turned s (m_translation (fst mf))) (snd mf)) (combine ms gs)) =
               sum (map (fun mf => cross2 (turned s (m_translation (fst mf))) (snd mf)) (combine ms fs))) /\
    forces_within d gs.
  Proof.
    set (ng := fun f : R * R => (- fst f, - snd f)).
    destruct (rearrange_row (map across ms) ms (map ng fs) Pd) as (gs & Lg & P); [rewrite !map_length; exact Lf|].
    assert (E : combine (map across ms) (map ng fs) = map (fun mf => (across (fst mf), ng (snd mf))) (combine ms fs)).
    { clear. generalize fs. induction ms as [|m l IH]; intros [|f l']; try reflexivity. cbn [map combine]. rewrite IH. reflexivity. }
    rewrite E in P.
    assert (N : forall (A : Type) (f g : A -> R) l, (forall a, f a = - g a) -> sum (map f l) = - sum (map g l)).
    { intros A f g l H. induction l as [|a l IH]; cbn [map sum]; [ring|]. rewrite IH, H. ring. }
    assert (Q : forall f : swerve_module R * (R * R) -> R,
      sum (map f (combine ms gs)) = sum (map (fun mf => f (across (fst mf), ng (snd mf))) (combine ms fs))).
    { intros f. rewrite <- (map_map (fun mf => (across (fst mf), ng (snd mf))) f). apply sum_perm, Permutation_map, Permutation_sym, P. }
    exists gs. split; [exact Lg|].
    assert (X : forall f : R * R -> R, (forall a, f (ng a) = - f a) -> sum (map f gs) = - sum (map f fs)).
    { intros f H. rewrite <- (combine_snd f ms gs) by (symmetry; exact Lg). rewrite Q. cbn [fst snd].
      rewrite <- (combine_snd f ms fs) by (symmetry; exact Lf). apply N. intros a. apply H. }
    split; [apply X; reflexivity|]. split; [apply X; reflexivity|]. split.
    - intros s. rewrite Q. f_equal. apply map_ext. intros [m f]. unfold across, ng, cross2, turned. cbn [fst snd m_translation tX tY]. ring.
    - intros md f Hf. apply (Permutation_in _ (Permutation_sym P)) in Hf. apply in_map_iff in Hf.
      destruct Hf as ((m0, f0) & E0 & Hf). cbn [fst snd] in E0. injection E0 as <- <-. specialize (Fo m0 f0 Hf).
      unfold across, ng. cbn [m_wheelMaxTorque m_wheelRadius]. unfold norm2 in *. cbn [fst snd].
      replace (- fst f0 * - fst f0 + - snd f0 * - snd f0) with (fst f0 * fst f0 + snd f0 * snd f0) by ring. exact Fo.
  Qed.
End Across.

Section Mix.
  Variables (a b : R).
  Definition mix (fs gs : list (R * R)) : list (R * R) :=
    map (fun p => (a * fst (fst p) + b * fst (snd p), a * snd (fst p) + b * snd (snd p))) (combine fs gs).
  Lemma mix_length : forall fs gs, length fs = length gs -> length (mix fs gs) = length gs.
  Proof. intros fs gs L. unfold mix. rewrite map_length, combine_length, L. apply Nat.min_id. Qed.
  Lemma mix_fst : forall fs gs, length fs = length gs -> sum (map fst (mix fs gs)) = a * sum (map fst fs) + b * sum (map fst gs).
  Proof.
    induction fs as [|f fs IH]; intros [|g gs] L; try discriminate; [cbn; ring|]. injection L as L. specialize (IH gs L).
    unfold mix in *. cbn [combine map sum fst snd]. rewrite IH. ring.
  Qed.
  Lemma mix_snd : forall fs gs, length fs = length gs -> sum (map snd (mix fs gs)) = a * sum (map snd fs) + b * sum (map snd gs).
  Proof.
    induction fs as [|f fs IH]; intros [|g gs] L; try discriminate; [cbn; ring|]. injection L as L. specialize (IH gs L).
    unfold mix in *. cbn [combine map sum fst snd]. rewrite IH. ring.
  Qed.
  Lemma mix_torque : forall s ms fs gs, length fs = length gs ->
    sum (map (fun mf => cross2 (turned s (m_translation (fst mf))) (snd mf)) (combine ms (mix fs gs))) =
    a * sum (map (fun mf => cross2 (turned s (m_translation (fst mf))) (snd mf)) (combine ms fs)) +
    b * sum (map (fun mf => cross2 (turned s (m_translation (fst mf))) (snd mf)) (combine ms gs)).
  Proof.
    intros s. induction ms as [|m ms IH]; intros fs gs L; [cbn; ring|].
    destruct fs as [|f fs], gs as [|g gs]; try discriminate; [cbn; ring|]. injection L as L. specialize (IH fs gs L).
    unfold mix in *. cbn [combine map sum fst snd]. rewrite IH. unfold cross2. cbn [fst snd]. ring.
  Qed.
  Lemma mix_within : forall lim ms fs gs, Rabs a + Rabs b <= 1 -> length fs = length gs ->
    (forall md f, In (md, f) (combine ms fs) -> norm2 f <= lim md) -> (forall md f, In (md, f) (combine ms gs) -> norm2 f <= lim md) ->
    forall md f, In (md, f) (combine ms (mix fs gs)) -> norm2 f <= (lim : swerve_module R -> R) md.
  Proof.
    intros lim. induction ms as [|m ms IH]; intros fs gs H L F G md f Hf; [destruct Hf|].
    destruct fs as [|[fx fy] fs], gs as [|[gx gy] gs]; try discriminate; [destruct Hf|]. injection L as L.
    unfold mix in Hf. cbn [combine map fst snd] in Hf. destruct Hf as [E|Hf].
    - injection E as <- <-. pose proof (F m (fx, fy) (or_introl eq_refl)) as F1. pose proof (G m (gx, gy) (or_introl eq_refl)) as G1.
      pose proof (norm2_triangle (a * fx) (a * fy) (b * gx) (b * gy)) as T. rewrite !norm2_scale in T.
      pose proof (Rabs_pos a). pose proof (Rabs_pos b). pose proof (norm2_pos (fx, fy)).
      eapply Rle_trans; [exact T|]. apply Rle_trans with ((Rabs a + Rabs b) * lim m); [nra|]. nra.
    - apply (IH fs gs H L); [| |exact Hf].
      + intros md' f' Hi. apply F. right. exact Hi.
      + intros md' f' Hi. apply G. right. exact Hi.
  Qed.
End Mix.

Lemma choose_rows : forall {A} (P : nat -> list A -> Prop) n, (forall i, (i < n)%nat -> exists r, P i r) ->
  exists rows, length rows = n /\ forall i, (i < n)%nat -> P i (nth i rows []).
Proof.
  intros A P. induction n as [|n IH]; intros H; [exists []; split; [reflexivity|lia]|].
  destruct IH as (rows & L & Q); [intros i Hi; apply H; lia|]. destruct (H n ltac:(lia)) as (r & Hr).
  exists (rows ++ [r]). split; [rewrite app_length; simpl; lia|]. intros i Hi.
  destruct (Nat.eq_dec i n) as [->|E].
  - rewrite app_nth2 by lia. rewrite L, Nat.sub_diag. exact Hr.
  - rewrite app_nth1 by lia. apply Q. lia.
Qed.
Definition with_forces (rows : list (list (R * R))) (sol : solution R) : solution R :=
  mkSolution (s_dt sol) (s_x sol) (s_y sol) (s_thetacos sol) (s_thetasin sol) (s_vx sol) (s_vy sol)
    (s_omega sol) (s_ax sol) (s_ay sol) (s_alpha sol) (map (map fst) rows) (map (map snd) rows).
Lemma with_forces_at : forall rows sol i, forces (with_forces rows sol) i = nth i rows [].
Proof.
  intros rows sol i. unfold forces, with_forces. cbn [s_moduleFX s_moduleFY].
  change (@nil R) with (map fst (@nil (R * R))) at 1. rewrite map_nth.
  change (@nil R) with (map snd (@nil (R * R))) at 1. rewrite map_nth.
  induction (nth i rows []) as [|[x y] l IH]; [reflexivity|]. cbn [map combine fst snd]. rewrite IH. reflexivity.
Qed.

Lemma C125_paired_proof : forall asserts h handle d g k j, good_history asserts h -> generator asserts h handle d g ->
  real_wheels d -> paired d -> 0 <= k <= 1 -> 0 <= j <= 1 -> (forall n, In n (counts asserts h) -> (1 <= n)%nat) ->
  exists g', generator asserts (h ++ [OSetDrivetrain (relieved k j d)]) handle (relieved k j d) g' /\
    forall sol, solved g sol -> exists sol', solved g' sol' /\ same_motion sol sol'.
Proof.
  intros asserts h handle d g k j GH G W Pd Hk Hj Pos.
  destruct (other_drivetrain asserts h handle d g (relieved k j d) GH G W W eq_refl Pos) as (g' & G' & Q). exists g'. split; [exact G'|].
  intros sol Sv. pose proof (solved_shape asserts h handle d g sol G Sv) as Sh. set (N := counts asserts h) in *.
  pose proof Sv as (env & F & E). destruct (proj1 (C15_proof asserts h handle d g GH G W Pos env sol E) F) as [(_ & P2) _].
  set (a := (j + k) / 2). set (b := (j - k) / 2).
  assert (Ab : Rabs a + Rabs b <= 1).
  { unfold a, b. rewrite (Rabs_right ((j + k) / 2)) by lra. destruct (Rle_dec k j); [rewrite Rabs_right by lra|rewrite Rabs_left by lra]; lra. }
  destruct (choose_rows (fun i r => length r = length (d_modules d) /\ newton (relieved k j d) (at_sample sol i) r /\ forces_within d r) (S (last_sample N)))
    as (rows & Lr & Hr).
  { intros i Hi. destruct (P2 i ltac:(unfold N in Hi; lia)) as ((N1 & N2 & N3) & _ & Fo).
    pose proof (forces_length N _ sol i Sh ltac:(lia)) as Lf.
    destruct (across_forces d (forces sol i) Pd Lf Fo) as (gs & Lg & G1 & G2 & G3 & G4).
    assert (L : length (forces sol i) = length gs) by congruence.
    exists (mix a b (forces sol i) gs). split; [rewrite mix_length; assumption|]. split.
    - unfold newton, relieved. cbn [d_mass d_moi d_modules]. rewrite mix_fst, mix_snd, mix_torque by exact L.
      rewrite G1, G2, G3, N1, N2, N3. unfold a, b. repeat split; field.
    - intros md f Hf. apply (mix_within a b (fun md => m_wheelMaxTorque md / m_wheelRadius md) (d_modules d) (forces sol i) gs Ab L Fo G4 md f Hf). }
  exists (with_forces rows sol). split; [|repeat split].
  apply (Q sol (with_forces rows sol) Sv); [reflexivity|reflexivity| |].
  - intros (S0 & S1 & S2 & S3 & S4 & S5 & S6 & S7 & S8 & S9 & S10 & S11 & S12 & F1 & F2).
    unfold well_shaped, with_forces. cbv zeta.
    cbn [s_dt s_x s_y s_thetacos s_thetasin s_vx s_vy s_omega s_ax s_ay s_alpha s_moduleFX s_moduleFY].
    rewrite !map_length, Lr. repeat (split; [assumption|]). split; [reflexivity|]. split; [reflexivity|].
    assert (X : Forall (fun r => length r = length (d_modules d)) rows).
    { apply Forall_nth. intros i r0 Hi. rewrite (nth_indep _ r0 [] Hi). apply Hr. lia. }
    split; apply Forall_map; revert X; apply Forall_impl; intros r; rewrite map_length; auto.
  - intros (Q1 & Q2). split; [exact Q1|]. intros i Hi. rewrite with_forces_at.
    change (at_sample (with_forces rows sol) i) with (at_sample sol i).
    destruct (Q2 i Hi) as (_ & Wh & _). destruct (Hr i ltac:(unfold N in *; lia)) as (_ & Nw & Fo).
    split; [exact Nw|]. split; [exact Wh|exact Fo].
Qed.

(** ** One module cannot push without turning *)
Definition push_plan : solution R :=
  mkSolution [1] [0; PI / 3] [0; 0] [1; cos (- (PI / 3))] [0; sin (- (PI / 3))] [0; PI / 3] [0; 0] [0; - (PI / 3)]
    [0; PI / 3] [0; 0] [0; - (PI / 3)] [[0]; [2 * (PI / 3)]] [[0]; [0]].
Lemma scooter_wheels : real_wheels scooter.
Proof. intros md [<-|[]]; simpl; lra. Qed.
Lemma push_good : forall asserts, good_history asserts push_off.
Proof.
  intros asserts. split; [repeat constructor|]. split; [repeat constructor; simpl; exact I|].
  destruct asserts; repeat split; reflexivity.
Qed.
Lemma push_counts : forall asserts, counts asserts push_off = [1%nat].
Proof. destruct asserts; reflexivity. Qed.
Lemma push_generator : forall asserts handle, exists g, generator asserts push_off handle scooter g.
Proof.
  intros asserts handle. apply generator_exists; [|reflexivity]. destruct asserts; apply Nat.ltb_lt; reflexivity.
Qed.
Lemma third : cos (- (PI / 3)) = 1 / 2 /\ sin (- (PI / 3)) = - (sqrt 3 / 2).
Proof. rewrite cos_neg, sin_neg, cos_PI3, sin_PI3. split; reflexivity. Qed.

Lemma push_solved : forall asserts handle g, generator asserts push_off handle scooter g -> solved g push_plan.
Proof.
  intros asserts handle g G. destruct third as [C3 S3].
  assert (Q3 : sqrt 3 * sqrt 3 = 3) by (apply sqrt_sqrt; lra).
  pose proof PI_4 as P4. pose proof PI_RGT_0 as P0.
  set (p := PI / 3) in *. assert (Hp : 0 < p <= 4 / 3) by (unfold p; lra).
  apply (solved_intro asserts push_off handle scooter g push_plan (push_good asserts) G scooter_wheels); rewrite push_counts.
  - intros n [<-|[]]. lia.
  - repeat split; repeat constructor.
  - intros s k Hs Hk. simpl in Hs. assert (s = 0)%nat as -> by lia. simpl in Hk. assert (k = 0)%nat as -> by lia. reflexivity.
  - split.
    + intros i Hi. simpl in Hi. assert (i = 1)%nat as -> by lia.
      unfold at_sample, step_to, push_plan. cbn [nth Nat.sub s_dt s_x s_y s_thetacos s_thetasin s_vx s_vy s_omega s_ax s_ay s_alpha]. fold p.
      split; [split; [lra|]; intros md a b _ [] |]. split; [|split].
      * unfold moves. cbn [q_x q_y q_vx q_vy]. split; ring.
      * left. cbn [q_c q_s q_w]. replace (- p * 1) with (- p) by ring. split; ring.
      * unfold accelerates. cbn [q_vx q_vy q_w q_ax q_ay q_al]. repeat split; ring.
    + intros i Hi. simpl in Hi. assert (i = 0 \/ i = 1)%nat as [-> | ->] by lia;
        unfold at_sample, forces, push_plan; cbn [nth s_x s_y s_thetacos s_thetasin s_vx s_vy s_omega s_ax s_ay s_alpha s_moduleFX s_moduleFY combine]; fold p;
        (split; [|split]).
      * unfold newton, cross2, turned. cbn [scooter d_modules d_mass d_moi combine map sum fst snd m_translation tX tY q_c q_s q_ax q_ay q_al]. repeat split; ring.
      * intros md [<-|[]]. cbn. unfold wheel_velocity. cbn. apply norm2_le; lra.
      * intros md f [E|[]]. injection E as <- <-. cbn. apply norm2_le; lra.
      * unfold newton, cross2, turned. cbn [scooter d_modules d_mass d_moi combine map sum fst snd m_translation tX tY q_c q_s q_ax q_ay q_al]. rewrite C3. repeat split; field.
      * intros md [<-|[]]. unfold wheel_velocity. cbn [m_translation tX tY q_c q_s q_vx q_vy q_w m_wheelRadius m_wheelMaxAngularVelocity]. rewrite C3, S3.
        apply norm2_le; [lra|].
        replace ((p * (1 / 2) + 0 * - (sqrt 3 / 2) - 1 * - p) * (p * (1 / 2) + 0 * - (sqrt 3 / 2) - 1 * - p) +
          (0 * (1 / 2) - p * - (sqrt 3 / 2) + 0 * - p) * (0 * (1 / 2) - p * - (sqrt 3 / 2) + 0 * - p))
          with (9 / 4 * (p * p) + (sqrt 3 * sqrt 3) / 4 * (p * p)) by field. rewrite Q3. nra.
      * intros md f [E|[]]. injection E as <- <-. cbn [m_wheelMaxTorque m_wheelRadius]. apply norm2_le; [lra|]. nra.
  - split.
    + intros w c Hw Hc. simpl in Hw. assert (w = 0 \/ w = 1)%nat as [-> | ->] by lia; cbn -[PI] in Hc.
      * destruct Hc as [<-|[<-|[<-|[]]]]; cbn.
        -- split; [reflexivity|]. split; [reflexivity|]. left. rewrite cos_0, sin_0. split; reflexivity.
        -- apply norm2_le; [apply Rabs_pos|]. rewrite Rabs_R0. lra.
        -- rewrite Rabs_R0. lra.
      * destruct Hc as [<-|[]]. cbn -[PI]. split; [reflexivity|]. split; [reflexivity|]. left. split; reflexivity.
    + intros w c i Hw Hc Hi. simpl in Hw. assert (w = 1)%nat as -> by lia. destruct Hc.
Qed.

(** What the angle a solution turns by is. *)
Lemma relieved_turn : forall asserts handle k j g' sol, 0 < j ->
  generator asserts (push_off ++ [OSetDrivetrain (relieved k j scooter)]) handle (relieved k j scooter) g' -> solved g' sol ->
  exists e t, (e = 1 \/ e = -1) /\ t = - (e * (k / j) * (PI / 3)) /\ cos t * cos t = 1 / 4.
Proof.
  intros asserts handle k j g' sol Hj G Sv. destruct third as [C3 S3].
  pose proof (last_good asserts push_off (relieved k j scooter) (push_good asserts)) as Gd.
  destruct (solved_motion asserts _ handle _ g' sol G Sv) as (M & Nw).
  destruct (solved_requests asserts _ handle _ g' sol Gd G Sv) as (Rq & _).
  rewrite last_counts, push_counts in M, Nw, Rq.
  destruct (M 1%nat ltac:(simpl; lia)) as ((T0 & _) & Mv & Tn & Ac). specialize (Nw 1%nat ltac:(simpl; lia)).
  assert (Rq' : forall w c, (w <= 1)%nat -> In c (wpt_requests [] push_off w) -> demands (at_sample sol (waypoint_sample [1%nat] w)) c).
  { intros w c Hw Hc. apply (Rq w c Hw). rewrite last_wpt. exact Hc. }
  pose proof (Rq' 0%nat _ ltac:(lia) (or_introl eq_refl)) as P0. pose proof (Rq' 0%nat _ ltac:(lia) (or_intror (or_introl eq_refl))) as V0.
  pose proof (Rq' 0%nat _ ltac:(lia) (or_intror (or_intror (or_introl eq_refl)))) as W0.
  pose proof (Rq' 1%nat _ ltac:(lia) (or_introl eq_refl)) as P1.
  change (waypoint_sample [1%nat] 0) with 0%nat in *. change (waypoint_sample [1%nat] 1) with 1%nat in *. change (1 - 1)%nat with 0%nat in *.
  pose proof (solved_shape asserts _ handle _ g' sol G Sv) as Sh. rewrite last_counts, push_counts in Sh.
  pose proof (forces_length [1%nat] _ sol 1 Sh ltac:(simpl; lia)) as Lf. cbn [relieved scooter d_modules length] in Lf.
  set (a := at_sample sol 0) in *. set (b := at_sample sol 1) in *. set (dt := step_to sol 1) in *.
  destruct (forces sol 1) as [|[fx fy] [|? ?]]; try discriminate Lf.
  clearbody a b dt. cbn -[PI cos sin] in P0, P1. cbn [demands] in V0, W0.
  destruct P0 as (X0 & Y0 & H0). destruct P1 as (X1 & Y1 & H1).
  rewrite Rabs_R0 in V0. unfold norm2 in V0. cbn [fst snd] in V0.
  assert (V : q_vx a * q_vx a + q_vy a * q_vy a = 0).
  { apply sqrt_eq_0; [nra|]. apply Rle_antisym; [exact V0|apply sqrt_pos]. }
  assert (Vx : q_vx a = 0) by nra. assert (Vy : q_vy a = 0) by nra.
  assert (Wz : q_w a = 0) by (pose proof (Rle_abs (q_w a)); pose proof (Rle_abs (- q_w a)) as Z; rewrite Rabs_Ropp in Z; lra).
  destruct Mv as (Mx & My). destruct Ac as (Ax & Ay & Aw). destruct Nw as (N1 & N2 & N3).
  unfold cross2, turned in N3. cbn [relieved scooter d_mass d_moi d_modules combine map sum fst snd m_translation tX tY] in N1, N2, N3.
  rewrite cos_0, sin_0 in H0. rewrite C3, S3 in H1.
  assert (Dn : dt <> 0) by (intros Z; rewrite Z in Mx; pose proof PI_RGT_0; lra).
  assert (Vb : q_vy b = 0).
  { assert (Z : q_vy b * dt = 0) by lra. apply Rmult_integral in Z. destruct Z as [Z|Z]; [exact Z|contradiction]. }
  assert (Ab : q_ay b = 0).
  { assert (Z : q_ay b * dt = 0) by lra. apply Rmult_integral in Z. destruct Z as [Z|Z]; [exact Z|contradiction]. }
  assert (Xb : q_ax b * dt * dt = PI / 3) by (replace (q_ax b * dt) with (q_vx b) by lra; lra).
  assert (Fx : fx = k * 2 * q_ax b) by lra. assert (Fy : fy = 0) by (rewrite Ab in N2; lra).
  assert (Al : q_al b = - (q_c b * fx / j)).
  { apply (Rmult_eq_reg_l j); [|lra]. rewrite Fy in N3. replace (j * - (q_c b * fx / j)) with (- (q_c b * fx)) by (field; lra). lra. }
  assert (Wt : q_w b * dt = - (2 * q_c b * (k / j) * (PI / 3))).
  { replace (q_w b) with (q_al b * dt) by lra. rewrite Al, Fx, <- Xb. field. lra. }
  exists (2 * q_c b), (q_w b * dt). split; [|split; [exact Wt|]].
  - destruct H1 as [[-> _]|[-> _]]; [left|right]; field.
  - assert (Cb : q_c b * q_c b = 1 / 4) by (destruct H1 as [[-> _]|[-> _]]; field).
    unfold turns_up_to_half in Tn. cbv zeta in Tn. rewrite <- Cb.
    destruct H0 as [[E1 E2]|[E1 E2]]; rewrite E1, E2 in Tn; destruct Tn as [[Tc _]|[Tc _]];
      first [replace (cos (q_w b * dt)) with (q_c b) by lra; reflexivity|replace (cos (q_w b * dt)) with (- q_c b) by lra; ring].
Qed.

Lemma push_relieved : forall asserts handle k j, exists g',
  generator asserts (push_off ++ [OSetDrivetrain (relieved k j scooter)]) handle (relieved k j scooter) g'.
Proof.
  intros asserts handle k j. apply generator_exists; [|reflexivity].
  rewrite last_counts, push_counts. destruct asserts; apply Nat.ltb_lt; reflexivity.
Qed.
Lemma inertia_stuck : forall asserts handle g' sol,
  generator asserts (push_off ++ [OSetDrivetrain (relieved 1 (1 / 3) scooter)]) handle (relieved 1 (1 / 3) scooter) g' -> ~ solved g' sol.
Proof.
  intros asserts handle g' sol G Sv. destruct (relieved_turn asserts handle 1 (1 / 3) g' sol ltac:(lra) G Sv) as (e & t & He & Et & Ct).
  assert (cos t = -1).
  { destruct He as [-> | ->].
    - replace t with (- PI) by (rewrite Et; field). rewrite cos_neg. apply cos_PI.
    - replace t with PI by (rewrite Et; field). apply cos_PI. }
  rewrite H in Ct. lra.
Qed.
Lemma mass_stuck : forall asserts handle g' sol,
  generator asserts (push_off ++ [OSetDrivetrain (relieved (1 / 2) 1 scooter)]) handle (relieved (1 / 2) 1 scooter) g' -> ~ solved g' sol.
Proof.
  intros asserts handle g' sol G Sv. destruct (relieved_turn asserts handle (1 / 2) 1 g' sol ltac:(lra) G Sv) as (e & t & He & Et & Ct).
  assert (cos t = cos (PI / 6)).
  { destruct He as [-> | ->].
    - replace t with (- (PI / 6)) by (rewrite Et; field). apply cos_neg.
    - f_equal. rewrite Et. field. }
  rewrite H, cos_PI6 in Ct. assert (sqrt 3 * sqrt 3 = 3) by (apply sqrt_sqrt; lra). nra.
Qed.
Lemma C125_refuted_proof : forall k j, (k = 1 /\ j = 1 / 3) \/ (k = 1 / 2 /\ j = 1) ->
  ~ (forall asserts h handle d g g', good_history asserts h -> generator asserts h handle d g -> real_wheels d ->
  (forall n, In n (counts asserts h) -> (1 <= n)%nat) ->
  generator asserts (h ++ [OSetDrivetrain (relieved k j d)]) handle (relieved k j d) g' ->
  (exists sol, solved g sol) -> exists sol, solved g' sol).
Proof.
  intros k j Hkj H. destruct (push_generator true 7) as (g & G). destruct (push_relieved true 7 k j) as (g' & G').
  destruct (H true push_off 7%Z scooter g g' (push_good true) G scooter_wheels ltac:(rewrite push_counts; intros n [<-|[]]; lia) G'
    (ex_intro _ push_plan (push_solved true 7 g G))) as (sol & Sv).
  destruct Hkj as [[-> ->]|[-> ->]]; [apply (inertia_stuck true 7 g' sol G' Sv)|apply (mass_stuck true 7 g' sol G' Sv)].
Qed.
Lemma cart_paired : paired cart.
Proof.
  unfold paired, cart, wheel, across. cbn [d_modules map m_translation m_wheelRadius m_wheelMaxAngularVelocity m_wheelMaxTorque tX tY].
  replace (Ropp (IZR (-1))) with (IZR 1) by ring. replace (Ropp (IZR 1)) with (IZR (-1)) by ring. apply perm_swap.
Qed.
Lemma scooter_unpaired : ~ paired scooter.
Proof.
  intros P. unfold paired, scooter, across in P. cbn [d_modules map m_translation m_wheelRadius m_wheelMaxAngularVelocity m_wheelMaxTorque tX tY] in P.
  apply Permutation_length_1 in P. injection P as _ E. lra.
Qed.
