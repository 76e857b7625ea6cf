(** Better motors and lighter robots (C93). *)
From Coq Require Import List Lia Lra Psatz Reals ZArith.
Import ListNotations.
From Verif Require Import Outcome Num NumR Geometry Expr Constraints Util Builder Guess Generator Trajectory
  Spec SpecBuilder SpecPhysics SpecTrajectory SpecGenerator SpecChange Semantics
  UtilFacts GeometryFacts BuilderFacts BuilderHistory ConstraintFacts GuessFacts GeneratorFacts SeedFacts FeasibleFacts
  GeneratorProofs HistoryFacts SolutionProofs TrajectoryProofs GeneratorCases LimitProofs OrderProofs.
Local Open Scope nat_scope.

Section Pairs.
  Context {A : Type} (r : A -> A -> Prop).
  Lemma pair_in : forall l l', Forall2 r l l' -> forall y, In y l' -> exists x, In x l /\ r x y.
  Proof.
    intros l l' F. induction F as [|a b l l' E F IH]; intros y []; [subst; exists a; split; [left; reflexivity|exact E]|].
    destruct (IH y H) as (x & I & Q). exists x. split; [right; exact I|exact Q].
  Qed.
  Lemma pair_consecutive : forall l l', Forall2 r l l' -> forall a' b', In (a', b') (consecutive l') ->
    exists a b, In (a, b) (consecutive l) /\ r a a' /\ r b b'.
  Proof.
    intros l l' F. induction F as [|x y l l' E F IH]; intros a' b' H; [destruct H|].
    destruct F as [|x2 y2 l l' E2 F]; [destruct H|]. destruct H as [H|H].
    - injection H as <- <-. exists x, x2. split; [left; reflexivity|split; assumption].
    - destruct (IH a' b' H) as (a & b & I & Q). exists a, b. split; [right; exact I|exact Q].
  Qed.
  Lemma pair_combine : forall {B} l l', Forall2 r l l' -> forall (fs : list B) y f, In (y, f) (combine l' fs) ->
    exists x, In (x, f) (combine l fs) /\ r x y.
  Proof.
    intros B l l' F. induction F as [|a b l l' E F IH]; intros [|f0 fs] y f H; try destruct H as [H|H]; try contradiction.
    - injection H as <- <-. exists a. split; [left; reflexivity|exact E].
    - destruct (IH fs y f H) as (x & I & Q). exists x. split; [right; exact I|exact Q].
  Qed.
End Pairs.

Open Scope R_scope.

Lemma newton_modules : forall d d' s fs, d_mass d = d_mass d' -> d_moi d = d_moi d' ->
  Forall2 same_module (d_modules d) (d_modules d') -> newton d s fs -> newton d' s fs.
Proof.
  intros d d' s fs M J F (N1 & N2 & N3). unfold newton. rewrite <- M, <- J. repeat split; try assumption. rewrite <- N3. f_equal.
  clear - F. revert fs. induction F as [|a b l l' E F IH]; intros [|f fs]; try reflexivity. cbn [combine map].
  rewrite IH. cbn [fst]. rewrite (proj1 E). reflexivity.
Qed.
Lemma wheels_modules : forall d d' s, real_wheels d -> Forall2 same_module (d_modules d) (d_modules d') ->
  Forall2 (fun a b => m_wheelMaxAngularVelocity a <= m_wheelMaxAngularVelocity b) (d_modules d) (d_modules d') ->
  wheels_within d s -> wheels_within d' s.
Proof.
  intros d d' s Rw F F' W md Hmd.
  assert (G : Forall2 (fun a b => same_module a b /\ m_wheelMaxAngularVelocity a <= m_wheelMaxAngularVelocity b) (d_modules d) (d_modules d')).
  { clear - F F'. induction F; inversion F'; subst; constructor; auto. }
  destruct (pair_in _ _ _ G md Hmd) as (m0 & I & (E1 & E2) & V). specialize (W m0 I). rewrite <- E1, <- E2.
  destruct (Rw m0 I) as (P & _). apply (Rle_trans _ _ _ W). apply Rmult_le_compat_l; lra.
Qed.
Lemma forces_modules : forall d d' fs, real_wheels d -> Forall2 same_module (d_modules d) (d_modules d') ->
  Forall2 (fun a b => m_wheelMaxTorque a <= m_wheelMaxTorque b) (d_modules d) (d_modules d') ->
  forces_within d fs -> forces_within d' fs.
Proof.
  intros d d' fs Rw F F' W md f Hmd.
  assert (G : Forall2 (fun a b => same_module a b /\ m_wheelMaxTorque a <= m_wheelMaxTorque b) (d_modules d) (d_modules d')).
  { clear - F F'. induction F; inversion F'; subst; constructor; auto. }
  destruct (pair_combine _ _ _ G fs md f Hmd) as (m0 & I & (E1 & E2) & V). specialize (W m0 f I). rewrite <- E2.
  destruct (Rw m0 (in_combine_l _ _ _ _ I)) as (P & _). apply (Rle_trans _ _ _ W). unfold Rdiv. apply Rmult_le_compat_r; [|exact V].
  left. apply Rinv_0_lt_compat. exact P.
Qed.
Lemma steps_modules : forall d d' dt,
  Forall2 (fun a b => same_module a b /\ m_wheelMaxAngularVelocity a = m_wheelMaxAngularVelocity b) (d_modules d) (d_modules d') ->
  step_within d dt -> step_within d' dt.
Proof.
  intros d d' dt F (P & S). split; [exact P|]. intros md a b Hm Hab.
  destruct (pair_in _ _ _ F md Hm) as (m0 & I & (_ & E2) & E3).
  destruct (pair_consecutive _ _ _ F a b Hab) as (a0 & b0 & I' & ((A1 & _) & _) & ((B1 & _) & _)).
  rewrite <- A1, <- B1, <- E2, <- E3. exact (S m0 a0 b0 I I').
Qed.
Lemma real_modules : forall d d', real_wheels d -> Forall2 same_module (d_modules d) (d_modules d') ->
  Forall2 (fun a b => m_wheelMaxAngularVelocity a <= m_wheelMaxAngularVelocity b /\ m_wheelMaxTorque a <= m_wheelMaxTorque b)
    (d_modules d) (d_modules d') -> real_wheels d'.
Proof.
  intros d d' Rw F F' md Hmd.
  assert (G : Forall2 (fun a b => same_module a b /\ (m_wheelMaxAngularVelocity a <= m_wheelMaxAngularVelocity b /\ m_wheelMaxTorque a <= m_wheelMaxTorque b)) (d_modules d) (d_modules d')).
  { clear - F F'. induction F; inversion F'; subst; constructor; auto. }
  destruct (pair_in _ _ _ G md Hmd) as (m0 & I & (_ & E) & V & T). destruct (Rw m0 I) as (P1 & P2 & P3). rewrite <- E. repeat split; lra.
Qed.

(** Another drivetrain with as many modules: the problem has the same requests. *)
Lemma other_drivetrain : forall asserts h handle d g d', good_history asserts h -> generator asserts h handle d g ->
  real_wheels d -> real_wheels d' -> length (d_modules d') = length (d_modules d) ->
  (forall n, In n (counts asserts h) -> (1 <= n)%nat) ->
  exists g', generator asserts (h ++ [OSetDrivetrain d']) handle d' g' /\
    forall sol sol', solved g sol -> s_dt sol' = s_dt sol -> (forall i, at_sample sol' i = at_sample sol i) ->
      (well_shaped (counts asserts h) (length (d_modules d)) sol ->
       well_shaped (counts asserts h) (length (d_modules d)) sol') ->
      (obeys_physics turns_up_to_half d (counts asserts h) sol -> obeys_physics turns_up_to_half d' (counts asserts h) sol') ->
      solved g' sol'.
Proof.
  intros asserts h handle d g d' GH G W W' L Pos.
  assert (X : exists g', generator asserts (h ++ [OSetDrivetrain d']) handle d' g').
  { destruct G as [C D]. destruct (construct_inversion _ _ _ (path_inv asserts h) C) as (Lw & _).
    apply generator_exists; [|rewrite last_drivetrain_app; reflexivity].
    rewrite last_counts. unfold path in *. rewrite run_ops_app. exact Lw. }
  destruct X as [g' G']. exists g'. split; [exact G'|]. intros sol sol' (env & F & E) Ed Es Sh Ph.
  destruct (proj1 (C15_proof asserts h handle d g GH G W Pos env sol E) F) as [P M].
  pose proof (uniform_read asserts h handle d g env sol G E) as U.
  destruct (C25_proof asserts h handle d g env G) as (s0 & E0 & S0). rewrite E in E0. injection E0 as <-.
  assert (T : forall i, step_to sol' i = step_to sol i) by (intros; unfold step_to; rewrite Ed; reflexivity).
  apply (solved_intro asserts (h ++ [OSetDrivetrain d']) handle d' g' sol' (last_good asserts h d' GH) G' W'); rewrite ?last_counts.
  - exact Pos.
  - rewrite L. exact (Sh S0).
  - intros s k Hs Hk. rewrite !T. apply U; assumption.
  - exact (Ph P).
  - rewrite (meets_ext _ _ _ (wpt_requests [] h) _ (sgmt_requests [] h)) by (intros; first [apply last_wpt|apply last_sgmt]).
    destruct M as [M1 M2]. split; intros; rewrite Es; [apply M1; assumption|]. apply (M2 w c i); assumption.
Qed.

Lemma same_solution : forall asserts h handle d g d', good_history asserts h -> generator asserts h handle d g ->
  real_wheels d -> real_wheels d' -> length (d_modules d') = length (d_modules d) ->
  (forall n, In n (counts asserts h) -> (1 <= n)%nat) ->
  exists g', generator asserts (h ++ [OSetDrivetrain d']) handle d' g' /\
    forall sol, solved g sol ->
      (obeys_physics turns_up_to_half d (counts asserts h) sol -> obeys_physics turns_up_to_half d' (counts asserts h) sol) ->
      solved g' sol.
Proof.
  intros asserts h handle d g d' GH G W W' L Pos.
  destruct (other_drivetrain asserts h handle d g d' GH G W W' L Pos) as (g' & G' & Q). exists g'. split; [exact G'|].
  intros sol S P. apply (Q sol sol S); auto.
Qed.

Lemma Forall2_len : forall {A} (r : A -> A -> Prop) l l', Forall2 r l l' -> length l' = length l.
Proof. intros A r l l' F. induction F; simpl; congruence. Qed.
Lemma Forall2_imp : forall {A} (r q : A -> A -> Prop) l l', (forall a b, r a b -> q a b) -> Forall2 r l l' -> Forall2 q l l'.
Proof. intros A r q l l' I F. induction F; constructor; auto. Qed.

Lemma C93_stronger_proof : forall asserts h handle d g d', good_history asserts h -> generator asserts h handle d g ->
  real_wheels d -> stronger d d' -> (forall n, In n (counts asserts h) -> (1 <= n)%nat) ->
  exists g', generator asserts (h ++ [OSetDrivetrain d']) handle d' g' /\ forall sol, solved g sol -> solved g' sol.
Proof.
  intros asserts h handle d g d' GH G W (M & J & F) Pos.
  assert (F1 : Forall2 same_module (d_modules d) (d_modules d')) by (revert F; apply Forall2_imp; intros a b H; apply H).
  assert (W' : real_wheels d').
  { apply (real_modules d d' W F1). revert F. apply Forall2_imp. intros a b (_ & E & T). split; [lra|exact T]. }
  destruct (same_solution asserts h handle d g d' GH G W W' (Forall2_len _ _ _ F) Pos) as (g' & G' & Q).
  exists g'. split; [exact G'|]. intros sol S. apply (Q sol S). intros (P1 & P2). split.
  - intros i Hi. destruct (P1 i Hi) as (A & B). split; [|exact B]. apply (steps_modules d d'); [|exact A].
    revert F. apply Forall2_imp. intros a b (E & V & _). split; assumption.
  - intros i Hi. destruct (P2 i Hi) as (A & B & C). split; [apply (newton_modules d d'); assumption|]. split.
    + apply (wheels_modules d d'); try assumption. revert F. apply Forall2_imp. intros a b (_ & V & _). lra.
    + apply (forces_modules d d'); try assumption. revert F. apply Forall2_imp. intros a b (_ & _ & V). exact V.
Qed.

Lemma C93_faster_proof : forall asserts h handle d g d', good_history asserts h -> generator asserts h handle d g ->
  real_wheels d -> faster d d' -> (forall n, In n (counts asserts h) -> (1 <= n)%nat) ->
  exists g', generator asserts (h ++ [OSetDrivetrain d']) handle d' g' /\
    forall sol, solved g sol -> (forall i, (1 <= i <= last_sample (counts asserts h))%nat -> step_within d' (step_to sol i)) ->
    solved g' sol.
Proof.
  intros asserts h handle d g d' GH G W (M & J & F) Pos.
  assert (F1 : Forall2 same_module (d_modules d) (d_modules d')) by (revert F; apply Forall2_imp; intros a b H; apply H).
  assert (W' : real_wheels d').
  { apply (real_modules d d' W F1). revert F. apply Forall2_imp. intros a b (_ & E & T). split; [exact E|lra]. }
  destruct (same_solution asserts h handle d g d' GH G W W' (Forall2_len _ _ _ F) Pos) as (g' & G' & Q).
  exists g'. split; [exact G'|]. intros sol S St. apply (Q sol S). intros (P1 & P2). split.
  - intros i Hi. destruct (P1 i Hi) as (A & B). split; [|exact B]. apply St. exact Hi.
  - intros i Hi. destruct (P2 i Hi) as (A & B & C). split; [apply (newton_modules d d'); assumption|]. split.
    + apply (wheels_modules d d'); try assumption. revert F. apply Forall2_imp. intros a b (_ & V & _). exact V.
    + apply (forces_modules d d'); try assumption. revert F. apply Forall2_imp. intros a b (_ & _ & V). lra.
Qed.

Lemma scaled_forces_at : forall k sol i, forces (scaled_forces k sol) i = map (fun f => (k * fst f, k * snd f)) (forces sol i).
Proof.
  intros k sol i. unfold forces, scaled_forces. cbn [s_moduleFX s_moduleFY].
  change (@nil R) with (map (Rmult k) (@nil R)) at 1 2. rewrite !map_nth. cbn [map].
  generalize (nth i (s_moduleFX sol) []), (nth i (s_moduleFY sol) []). induction l as [|a l IH]; intros [|b l']; try reflexivity.
  cbn [map combine]. rewrite IH. reflexivity.
Qed.
Lemma sum_scaled : forall {A} (f g : A -> R) k l, (forall a, f a = k * g a) -> sum (map f l) = k * sum (map g l).
Proof. intros A f g k l E. induction l as [|a l IH]; cbn [map sum]; [ring|]. rewrite IH, E. ring. Qed.
Lemma combine_map_r : forall {A B C} (f : B -> C) (l : list A) l', combine l (map f l') = map (fun p => (fst p, f (snd p))) (combine l l').
Proof. induction l as [|a l IH]; intros [|b l']; try reflexivity. cbn [map combine]. rewrite IH. reflexivity. Qed.

Lemma C93_lighter_proof : forall asserts h handle d g k, good_history asserts h -> generator asserts h handle d g ->
  real_wheels d -> 0 < k <= 1 -> (forall n, In n (counts asserts h) -> (1 <= n)%nat) ->
  exists g', generator asserts (h ++ [OSetDrivetrain (reloaded k d)]) handle (reloaded k d) g' /\
    forall sol, solved g sol -> solved g' (scaled_forces k sol).
Proof.
  intros asserts h handle d g k GH G W Hk Pos.
  destruct (other_drivetrain asserts h handle d g (reloaded k d) GH G W W eq_refl Pos) as (g' & G' & Q). exists g'. split; [exact G'|].
  intros sol S. apply (Q sol (scaled_forces k sol) S).
  - reflexivity.
  - reflexivity.
  - intros (S0 & S1 & S2 & S3 & S4 & S5 & S6 & S7 & S8 & S9 & S10 & S11 & S12 & F1 & F2).
    unfold well_shaped, scaled_forces. cbv zeta.
    cbn [s_dt s_x s_y s_thetacos s_thetasin s_vx s_vy s_omega s_ax s_ay s_alpha s_moduleFX s_moduleFY].
    rewrite !map_length. repeat (split; [assumption|]).
    split; apply Forall_map; [revert F1|revert F2]; apply Forall_impl; intros r; rewrite map_length; auto.
  - intros (P1 & P2). split; [exact P1|]. intros i Hi. destruct (P2 i Hi) as ((N1 & N2 & N3) & B & C). split; [|split; [exact B|]].
    + rewrite scaled_forces_at. unfold newton. cbn [reloaded d_mass d_moi d_modules].
      change (at_sample (scaled_forces k sol) i) with (at_sample sol i).
      rewrite combine_map_r, !map_map. rewrite !Rmult_assoc, <- N1, <- N2, <- N3.
      repeat split; apply sum_scaled; intros; cbn [fst snd]; unfold cross2; cbn [fst snd]; ring.
    + rewrite scaled_forces_at. intros md f Hf. cbn [reloaded d_modules] in Hf. rewrite combine_map_r in Hf.
      apply in_map_iff in Hf. destruct Hf as ((m0, f0) & E & Hf). cbn [fst snd] in E. injection E as <- <-.
      specialize (C m0 f0 Hf). unfold norm2 in *. cbn [fst snd].
      replace (k * fst f0 * (k * fst f0) + k * snd f0 * (k * snd f0)) with ((k * k) * (fst f0 * fst f0 + snd f0 * snd f0)) by ring.
      rewrite sqrt_mult_alt by nra. rewrite sqrt_square by lra.
      pose proof (sqrt_pos (fst f0 * fst f0 + snd f0 * snd f0)). nra.
Qed.

(** ** Faster wheels can make a path impossible *)
Definition quick_wheel (x y : R) : swerve_module R := mkModule (mkTr x y) 1 100 4.
Definition quick : drivetrain R := mkDrivetrain 2 1 [quick_wheel 1 1; quick_wheel (-1) (-1)].
Lemma quick_wheels : real_wheels quick.
Proof. intros md [<-|[<-|[]]]; simpl; lra. Qed.
Lemma quick_faster : faster cart quick.
Proof.
  split; [reflexivity|]. split; [reflexivity|]. repeat constructor; cbn; try lra.
Qed.

Lemma norm2_fst : forall x y b, norm2 (x, y) <= b -> - b <= x <= b.
Proof.
  intros x y b H. unfold norm2 in H. cbn [fst snd] in H.
  assert (Rabs x <= b).
  { apply (Rle_trans _ (sqrt (x * x + y * y))); [|exact H]. rewrite <- sqrt_Rsqr_abs. apply sqrt_le_1_alt. pose proof (Rle_0_sqr y). unfold Rsqr in *. lra. }
  split; [pose proof (Rle_abs (- x)); rewrite Rabs_Ropp in *; lra|pose proof (Rle_abs x); lra].
Qed.

Lemma quick_unsolvable : forall asserts g, generator asserts (ride ++ [OSetDrivetrain quick]) 7 quick g -> ~ exists sol, solved g sol.
Proof.
  intros asserts g G (sol & Sv). assert (GH := last_good asserts ride quick (ride_good asserts)).
  assert (N : counts asserts (ride ++ [OSetDrivetrain quick]) = [2%nat]) by (rewrite last_counts; apply ride_counts).
  assert (A : forall i, (i <= 2)%nat -> -4 <= q_ax (at_sample sol i) <= 4).
  { intros i Hi. destruct (C58_proof asserts _ 7 quick g sol G Sv quick_wheels i) as [B _]; [rewrite N; exact Hi|].
    specialize (B ltac:(simpl; lra)). apply norm2_fst in B.
    assert (Q : sum (map force_limit (d_modules quick)) / d_mass quick = 4) by (unfold force_limit; simpl; lra).
    rewrite Q in B. exact B. }
  destruct Sv as (env & F & E).
  assert (Pos : forall n, In n (counts asserts (ride ++ [OSetDrivetrain quick])) -> (1 <= n)%nat) by (rewrite N; intros n [<-|[]]; lia).
  destruct (proj1 (C15_proof asserts _ 7 quick g GH G quick_wheels Pos env sol E) F) as [[P _] [M _]]. rewrite N in P, M.
  assert (D : forall i, (1 <= i <= 2)%nat -> 0 <= step_to sol i <= 1 / 50 /\
     moves (at_sample sol (i - 1)) (at_sample sol i) (step_to sol i) /\ accelerates (at_sample sol (i - 1)) (at_sample sol i) (step_to sol i)).
  { intros i Hi. destruct (P i Hi) as ((S1 & S2) & Mv & _ & Ac). split; [|split; assumption]. split; [exact S1|].
    destruct (S2 (quick_wheel 1 1) (quick_wheel 1 1) (quick_wheel (-1) (-1))) as [X _]; [left; reflexivity|left; reflexivity|].
    cbn in X. specialize (X ltac:(lra)). rewrite Rabs_right in X by lra. lra. }
  assert (V : q_vx (at_sample sol 0) = 0).
  { specialize (M 0%nat (LinearVelocityMaxMagnitude 0) ltac:(simpl; lia)). cbn [demands waypoint_sample firstn list_sum fold_right] in M.
    assert (I : In (LinearVelocityMaxMagnitude 0) (wpt_requests [] (ride ++ [OSetDrivetrain quick]) 0)) by (rewrite last_wpt; simpl; tauto).
    specialize (M I). rewrite Rabs_R0 in M. apply norm2_fst in M. lra. }
  assert (X0 : q_x (at_sample sol 0) = 0).
  { assert (I : In (PoseEquality (pose_xyh 0 0 0)) (wpt_requests [] (ride ++ [OSetDrivetrain quick]) 0)) by (rewrite last_wpt; simpl; tauto).
    destruct (M 0%nat _ ltac:(simpl; lia) I) as (X & _). exact X. }
  assert (X2 : q_x (at_sample sol 2) = 1).
  { assert (I : In (PoseEquality (pose_xyh 1 0 1)) (wpt_requests [] (ride ++ [OSetDrivetrain quick]) 1)) by (rewrite last_wpt; simpl; tauto).
    destruct (M 1%nat _ ltac:(simpl; lia) I) as (X & _). exact X. }
  destruct (D 1%nat ltac:(lia)) as (T1 & (Mx1 & _) & (Av1 & _)), (D 2%nat ltac:(lia)) as (T2 & (Mx2 & _) & (Av2 & _)).
  cbn [Nat.sub] in *.
  pose proof (A 1%nat ltac:(lia)) as A1. pose proof (A 2%nat ltac:(lia)) as A2.
  set (t1 := step_to sol 1) in *. set (t2 := step_to sol 2) in *.
  assert (B : forall a t c, -c <= a <= c -> 0 <= t <= 1 / 50 -> - (c / 50) <= a * t <= c / 50) by (intros a t c [Ha1 Ha2] [Ht1 Ht2]; split; nra).
  rewrite V in Av1. pose proof (B _ _ 4 A1 T1) as B1. pose proof (B _ _ 4 A2 T2) as B2.
  assert (V1 : -1 <= q_vx (at_sample sol 1) <= 1) by lra.
  assert (V2 : -1 <= q_vx (at_sample sol 2) <= 1) by lra.
  pose proof (B _ _ 1 V1 T1). pose proof (B _ _ 1 V2 T2). lra.
Qed.

Lemma C93_refuted_proof : ~ (forall asserts h handle d g d' g', good_history asserts h -> generator asserts h handle d g ->
  real_wheels d -> real_wheels d' -> faster d d' -> (forall n, In n (counts asserts h) -> (1 <= n)%nat) ->
  generator asserts (h ++ [OSetDrivetrain d']) handle d' g' ->
  (exists sol, solved g sol) -> exists sol, solved g' sol).
Proof.
  intros H. destruct (ride_case true) as (g & GH & G & W & Pos & Sv).
  destruct (same_solution true ride 7 cart g quick GH G W quick_wheels eq_refl Pos) as (g' & G' & _).
  apply (quick_unsolvable true g' G').
  apply (H true ride 7%Z cart g quick g' GH G W quick_wheels quick_faster Pos G'). exists ride_solution. exact Sv.
Qed.

(** ** Cases *)
Definition strong : drivetrain R := mkDrivetrain 2 1 [mkModule (mkTr 1 1) 1 4 9; mkModule (mkTr (-1) (-1)) 1 4 5].
Lemma hardware_case : exists g, good_history true ride /\ generator true ride 7 cart g /\ real_wheels cart /\
  (forall n, In n (counts true ride) -> (1 <= n)%nat) /\ solved g ride_solution /\ stronger cart strong /\
  real_wheels quick /\ faster cart quick /\ cart <> quick.
Proof.
  destruct (ride_case true) as (g & GH & G & W & Pos & Sv). exists g. repeat (split; [assumption|]).
  split; [|split; [exact quick_wheels|split; [exact quick_faster|]]].
  - split; [reflexivity|]. split; [reflexivity|]. repeat constructor; cbn; lra.
  - intros E. apply (f_equal (fun d => match d_modules d with md :: _ => m_wheelMaxAngularVelocity md | [] => 0 end)) in E. cbn in E. lra.
Qed.
(** The cart with slower wheels can follow the same trajectory. *)
Definition slow : drivetrain R := mkDrivetrain 2 1 [mkModule (mkTr 1 1) 1 3 4; mkModule (mkTr (-1) (-1)) 1 3 4].
Lemma slow_wheels : real_wheels slow.
Proof. intros md [<-|[<-|[]]]; simpl; lra. Qed.
Lemma slow_case : exists g, let h := ride ++ [OSetDrivetrain slow] in
  good_history true h /\ generator true h 7 slow g /\ real_wheels slow /\ faster slow cart /\
  (forall n, In n (counts true h) -> (1 <= n)%nat) /\ solved g ride_solution /\
  (forall i, (1 <= i <= last_sample (counts true h))%nat -> step_within cart (step_to ride_solution i)).
Proof.
  destruct (ride_case true) as (g & GH & G & W & Pos & Sv).
  destruct (same_solution true ride 7 cart g slow GH G W slow_wheels eq_refl Pos) as (g' & G' & Q). exists g'. cbv zeta.
  split; [apply last_good; exact GH|]. split; [exact G'|]. split; [exact slow_wheels|].
  assert (F : faster slow cart) by (split; [reflexivity|split; [reflexivity|repeat constructor; cbn; lra]]).
  split; [exact F|]. rewrite last_counts. split; [exact Pos|].
  assert (Ph : obeys_physics turns_up_to_half cart (counts true ride) ride_solution).
  { destruct Sv as (env & Fe & E). apply (C15_proof true ride 7 cart g GH G W Pos env ride_solution E). exact Fe. }
  split; [|intros i Hi; apply Ph; exact Hi].
  apply (Q ride_solution Sv). intros (P1 & P2). rewrite ride_counts in *. split.
  - intros i Hi. destruct (P1 i Hi) as ((S1 & S2) & B). split; [|exact B]. split; [exact S1|].
    intros md a b Hm Hab.
    assert (T : step_to ride_solution i = 1 / 2) by (assert (i = 1 \/ i = 2)%nat as [->| ->] by (simpl in Hi; lia); reflexivity).
    rewrite T. assert (L : m_wheelRadius md * m_wheelMaxAngularVelocity md = 3) by (destruct Hm as [<-|[<-|[]]]; simpl; lra).
    rewrite Rmult_assoc, L. destruct Hab as [E|[]]. injection E as <- <-. simpl. rewrite Rabs_right by lra. split; intros; lra.
  - intros i Hi. destruct (P2 i Hi) as (A & _ & C). split; [|split].
    + apply (newton_modules cart slow); try reflexivity; [repeat constructor|exact A].
    + intros md Hm.
      assert (L : m_wheelRadius md * m_wheelMaxAngularVelocity md = 3) by (destruct Hm as [<-|[<-|[]]]; simpl; lra). rewrite L.
      assert (X : forall x y c s v ax, 0 <= v <= 1 -> c * c + s * s = 1 ->
        norm2 (wheel_velocity (mkState x y c s v 0 1 ax 0 0) (m_translation md)) <= 3).
      { intros x y c s v ax Hv U. unfold wheel_velocity. cbn [q_vx q_vy q_c q_s q_w]. apply norm2_le; [lra|].
        assert (B : (v * c) * (v * c) + (v * s) * (v * s) <= 1) by (replace ((v * c) * (v * c) + (v * s) * (v * s)) with (v * v * (c * c + s * s)) by ring; rewrite U; nra).
        assert (B1 : -1 <= v * c <= 1) by nra. assert (B2 : -1 <= v * s <= 1) by nra.
        set (vc := v * c) in *. set (vs := v * s) in *.
        destruct Hm as [<-|[<-|[]]]; simpl; nra. }
      simpl in Hi. assert (i = 0 \/ i = 1 \/ i = 2)%nat as [->|[->| ->]] by lia;
        unfold at_sample, ride_solution; cbn [s_x s_y s_thetacos s_thetasin s_vx s_vy s_omega s_ax s_ay s_alpha nth].
      * apply X; [lra|apply pyth].
      * apply X; [lra|apply pyth].
      * apply X; [lra|apply pyth].
    + apply (forces_modules cart slow); try assumption; repeat constructor; cbn; lra.
Qed.
