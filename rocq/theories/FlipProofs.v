(** Trajectories that face backwards at some samples (C126). *)
From Coq Require Import List Lia Lra Psatz Reals ZArith Permutation.
Import ListNotations.
From Verif Require Import Outcome Num NumR Geometry Expr Constraints Util Builder Guess Generator Trajectory
  Spec SpecBuilder SpecPhysics SpecTrajectory SpecGenerator SpecFront SpecLoad SpecFlip
  BuilderFacts BuilderHistory GeneratorFacts HistoryFacts GeneratorProofs SolutionProofs TrajectoryProofs
  GeneratorCases LimitProofs OrderProofs HardwareProofs PartsProofs BackwardProofs LoadProofs.
Open Scope R_scope.

Lemma placed_back : forall s p, placed (facing_back s) p = placed s (point_across p).
Proof. intros s p. unfold placed, facing_back, point_across. cbn [q_x q_y q_c q_s tX tY]. f_equal; ring. Qed.
Lemma demands_back : forall s c, ~ about_front c -> demands s (constraint_across c) -> demands (facing_back s) c.
Proof.
  intros s c Nf. destruct c; cbn [constraint_across demands about_front] in *; rewrite ?placed_back; try (intros H; exact H).
  - intros H. contradiction (Nf I).
  - intros (X & Y & H). cbn [facing_back q_x q_y q_c q_s]. split; [exact X|]. split; [exact Y|].
    destruct H as [[-> ->]|[-> ->]]; [right|left]; split; ring.
Qed.
Lemma demands_even : forall cs s (b : bool) c, even_handed cs -> (forall c, In c cs -> demands s c) -> In c cs ->
  demands (if b then facing_back s else s) c.
Proof.
  intros cs s [|] c Ev H Hc; [|exact (H c Hc)]. destruct (Ev c Hc) as [Nf Ha]. apply demands_back; [exact Nf|exact (H _ Ha)].
Qed.
Lemma wheels_back : forall d s, paired d -> wheels_within d s -> wheels_within d (facing_back s).
Proof.
  intros d s Pd W md Hm. apply (Permutation_in _ (Permutation_sym Pd)) in Hm. apply in_map_iff in Hm.
  destruct Hm as (m0 & <- & Hm). specialize (W m0 Hm). unfold across. cbn [m_translation m_wheelRadius m_wheelMaxAngularVelocity].
  unfold norm2, wheel_velocity, facing_back in *. cbn [fst snd q_c q_s q_vx q_vy q_w tX tY] in *.
  match goal with |- sqrt ?x <= _ => match type of W with sqrt ?y <= _ => replace x with y by ring end end. exact W.
Qed.
Lemma turning_back : forall a b dt (ea eb : bool), turns_up_to_half a b dt ->
  turns_up_to_half (if ea then facing_back a else a) (if eb then facing_back b else b) dt.
Proof.
  intros a b dt ea eb. unfold turns_up_to_half. destruct ea, eb; cbn [facing_back q_c q_s q_w]; intros [[H1 H2]|[H1 H2]];
    first [left; split; lra|right; split; lra].
Qed.
Lemma moving_back : forall a b dt (ea eb : bool), moves a b dt -> moves (if ea then facing_back a else a) (if eb then facing_back b else b) dt.
Proof. intros a b dt [|] [|] H; exact H. Qed.
Lemma speeding_back : forall a b dt (ea eb : bool), accelerates a b dt ->
  accelerates (if ea then facing_back a else a) (if eb then facing_back b else b) dt.
Proof. intros a b dt [|] [|] H; exact H. Qed.

Lemma forces_back : forall d s fs, paired d -> length fs = length (d_modules d) -> newton d s fs -> forces_within d fs ->
  exists gs, length gs = length (d_modules d) /\ newton d (facing_back s) gs /\ forces_within d gs.
Proof.
  intros d s fs Pd Lf (N1 & N2 & N3) Fo. destruct (across_forces d fs Pd Lf Fo) as (gs & Lg & G1 & G2 & G3 & G4).
  assert (L : length fs = length gs) by congruence.
  assert (Ab : Rabs 0 + Rabs (-1) <= 1) by (rewrite Rabs_R0, Rabs_left by lra; lra).
  exists (mix 0 (-1) fs gs). split; [rewrite mix_length; assumption|]. split.
  - unfold newton. rewrite mix_fst, mix_snd, mix_torque by exact L. rewrite G1, G2.
    assert (T : forall l, sum (map (fun mf => cross2 (turned (facing_back s) (m_translation (fst mf))) (snd mf)) l) =
      - sum (map (fun mf : swerve_module R * (R * R) => cross2 (turned s (m_translation (fst mf))) (snd mf)) l)).
    { induction l as [|x l IH]; cbn [map sum]; [ring|]. rewrite IH. unfold cross2, turned. cbn [facing_back q_c q_s fst snd]. ring. }
    rewrite !T, G3, N3. cbn [facing_back q_ax q_ay q_al]. rewrite N1, N2. repeat split; ring.
  - intros md f Hf. exact (mix_within 0 (-1) (fun md => m_wheelMaxTorque md / m_wheelRadius md) (d_modules d) fs gs Ab L Fo G4 md f Hf).
Qed.

Lemma combine_rows : forall l : list (R * R), combine (map fst l) (map snd l) = l.
Proof. induction l as [|[x y] l IH]; [reflexivity|]. cbn [map combine fst snd]. rewrite IH. reflexivity. Qed.
Lemma dt_list : forall sol n, length (s_dt sol) = n -> map (fun i => step_to sol (S i)) (seq 0 n) = s_dt sol.
Proof.
  intros sol n L. apply (nth_ext _ _ 0 0); [rewrite map_length, seq_length; lia|]. intros i Hi. rewrite map_length, seq_length in Hi.
  rewrite (nth_indep _ 0 (step_to sol 1%nat)) by (rewrite map_length, seq_length; lia).
  rewrite (map_nth (fun i => step_to sol (S i)) _ 0%nat), seq_nth by lia. unfold step_to. f_equal. lia.
Qed.

Lemma C126_proof : forall asserts h handle d g sol e, good_history asserts h -> generator asserts h handle d g ->
  real_wheels d -> paired d -> (forall n, In n (counts asserts h) -> (1 <= n)%nat) -> even_handed_path h -> solved g sol ->
  exists sol', solved g sol' /\ flipped_at (counts asserts h) e sol sol'.
Proof.
  intros asserts h handle d g sol e GH G W Pd Pos (Ew & Es) Sv. set (N := counts asserts h) in *.
  destruct (proj1 (solved_exact asserts h handle d g GH G W Pos sol) Sv) as (Sh & U & (P1 & P2) & (M1 & M2)). fold N in Sh, U, P1, P2, M1, M2.
  set (st := fun i => if e i then facing_back (at_sample sol i) else at_sample sol i).
  destruct (choose_rows (fun i r => length r = length (d_modules d) /\ newton d (st i) r /\ forces_within d r) (S (last_sample N)))
    as (rows & Lr & Hr).
  { intros i Hi. destruct (P2 i ltac:(lia)) as (Nw & _ & Fo). pose proof (forces_length N _ sol i Sh ltac:(lia)) as Lf.
    unfold st. destruct (e i); [exact (forces_back d _ _ Pd Lf Nw Fo)|exists (forces sol i); split; [exact Lf|]; split; assumption]. }
  set (fx := fun i => map fst (nth i rows [])). set (fy := fun i => map snd (nth i rows [])).
  set (n := last_sample N). set (sol' := made n st (step_to sol) fx fy).
  assert (At : forall i, (i <= n)%nat -> at_sample sol' i = st i) by (intros i Hi; apply made_at; exact Hi).
  assert (Dt : s_dt sol' = s_dt sol) by (unfold sol'; rewrite made_dt; apply dt_list; apply Sh).
  assert (Sp : forall i, step_to sol' i = step_to sol i) by (intros i; unfold step_to; rewrite Dt; reflexivity).
  exists sol'. split; [|split; [exact Dt|exact At]].
  apply (proj2 (solved_exact asserts h handle d g GH G W Pos sol')). fold N.
  split; [|split; [|split; [split|split]]].
  - apply made_shaped; [reflexivity|]. intros i Hi. unfold fx, fy. rewrite !map_length. destruct (Hr i ltac:(unfold n in Hi; lia)) as (L & _). lia.
  - intros s k Hs Hk. rewrite !Sp. apply U; assumption.
  - intros i Hi. cbv zeta. rewrite Sp, !At by (unfold n; lia). destruct (P1 i Hi) as (T & Mv & Tn & Ac).
    split; [exact T|]. split; [apply moving_back; exact Mv|]. split; [apply turning_back; exact Tn|apply speeding_back; exact Ac].
  - intros i Hi. rewrite At by exact Hi. unfold sol'. rewrite made_forces by exact Hi. unfold fx, fy. rewrite combine_rows.
    destruct (Hr i ltac:(lia)) as (_ & Nw & Fo). split; [exact Nw|]. split; [|exact Fo].
    destruct (P2 i Hi) as (_ & Wh & _). unfold st. destruct (e i); [apply wheels_back; assumption|exact Wh].
  - intros w c Hw Hc. rewrite At by apply waypoint_last.
    apply (demands_even _ _ _ c (Ew w)); [|exact Hc]. intros c' Hc'. apply M1; assumption.
  - intros w c i Hw Hc Hi. rewrite At by (pose proof (waypoint_last N w); unfold n; lia).
    apply (demands_even _ _ _ c (Es w)); [|exact Hc]. intros c' Hc'. apply (M2 w c' i); assumption.
Qed.

Lemma ride_even : even_handed_path ride.
Proof.
  split; intros w c Hc.
  - destruct w as [|[|w]]; cbn in Hc; repeat (destruct Hc as [<-|Hc]; [split; [exact (fun x => x)|cbn; tauto]|]); destruct Hc.
  - destruct w as [|[|w]]; cbn in Hc; repeat (destruct Hc as [<-|Hc]; [split; [exact (fun x => x)|cbn; tauto]|]); destruct Hc.
Qed.
Lemma guarded_even : even_handed_path guarded.
Proof.
  split; intros w c Hc.
  - destruct w as [|[|w]]; cbn in Hc.
    all: repeat (destruct Hc as [<-|Hc]; [split; [exact (fun x => x)|]; cbn; unfold point_across; cbn [tX tY];
      replace (Ropp (IZR (-1))) with (IZR 1) by ring; replace (Ropp (IZR 1)) with (IZR (-1)) by ring; tauto|]); destruct Hc.
  - destruct w as [|[|w]]; cbn in Hc.
    all: repeat (destruct Hc as [<-|Hc]; [split; [exact (fun x => x)|]; cbn; unfold point_across; cbn [tX tY];
      replace (Ropp (IZR (-1))) with (IZR 1) by ring; replace (Ropp (IZR 1)) with (IZR (-1)) by ring; tauto|]); destruct Hc.
Qed.
