(** Trajectories with another front (C118). *)
From Coq Require Import List Lia Lra Psatz Reals ZArith.
Import ListNotations.
From Verif Require Import Outcome Num NumR Geometry Expr Constraints Util Builder Guess Generator Trajectory
  Spec SpecBuilder SpecPhysics SpecTrajectory SpecGenerator SpecSymmetry SpecFront Semantics
  UtilFacts GeometryFacts BuilderFacts BuilderHistory ConstraintFacts GuessFacts GeneratorFacts SeedFacts FeasibleFacts
  GeneratorProofs HistoryFacts SolutionProofs TrajectoryProofs GeneratorCases LimitProofs OrderProofs StepProofs SymmetryProofs FrontBuild.
Local Open Scope nat_scope.
Open Scope R_scope.

Definition front_state (fr : R) (a : state) : state :=
  mkState (q_x a) (q_y a) (fst (front_heading fr (q_c a, q_s a))) (snd (front_heading fr (q_c a, q_s a)))
    (q_vx a) (q_vy a) (q_w a) (q_ax a) (q_ay a) (q_al a).

Section State.
  Variable fr : R.
  Let P := trig_sqr fr.

  Lemma front_dot : forall a b c e, fst (front_heading fr (a, b)) * fst (front_heading fr (c, e)) +
    snd (front_heading fr (a, b)) * snd (front_heading fr (c, e)) = a * c + b * e.
  Proof.
    intros. unfold front_heading. cbn [fst snd].
    transitivity ((a * c + b * e) * (cos fr * cos fr + sin fr * sin fr)); [ring|rewrite P; ring].
  Qed.
  Lemma front_cross : forall a b c e, fst (front_heading fr (a, b)) * snd (front_heading fr (c, e)) -
    snd (front_heading fr (a, b)) * fst (front_heading fr (c, e)) = a * e - b * c.
  Proof.
    intros. unfold front_heading. cbn [fst snd].
    transitivity ((a * e - b * c) * (cos fr * cos fr + sin fr * sin fr)); [ring|rewrite P; ring].
  Qed.
  (** A point of the robot stays where it is. *)
  Lemma front_turned : forall st p, turned (front_state fr st) (front_point fr p) = turned st p.
  Proof.
    intros st p. unfold turned, front_state, front_point, front_heading. cbn [q_c q_s tX tY fst snd]. f_equal.
    - transitivity ((tX p * q_c st - tY p * q_s st) * (cos fr * cos fr + sin fr * sin fr)); [ring|rewrite P; ring].
    - transitivity ((tX p * q_s st + tY p * q_c st) * (cos fr * cos fr + sin fr * sin fr)); [ring|rewrite P; ring].
  Qed.
  Lemma front_placed : forall st p, placed (front_state fr st) (front_point fr p) = placed st p.
  Proof.
    intros st p. pose proof (front_turned st p) as E. unfold turned in E. apply pair_equal_spec in E. destruct E as [E1 E2].
    unfold placed. rewrite E1, E2. reflexivity.
  Qed.
  Lemma front_unit : forall st, unit_heading st -> unit_heading (front_state fr st).
  Proof. intros st U. unfold unit_heading, front_state in *. cbn [q_c q_s]. rewrite front_dot. exact U. Qed.

  Lemma front_demands : forall st c, ~ about_front c -> demands st c -> demands (front_state fr st) (front_constraint fr c).
  Proof.
    intros st c N D. destruct c; cbn [demands front_constraint about_front] in *; try exact D.
    - rewrite !front_placed. exact D.
    - exfalso. apply N. exact I.
    - rewrite !front_placed. exact D.
    - rewrite front_placed. exact D.
    - destruct D as (E1 & E2 & E3). unfold front_state, front_pose, front_rot, front_heading. cbn [q_x q_y q_c q_s pTr pRot rCos rSin fst snd].
      split; [exact E1|]. split; [exact E2|]. destruct E3 as [(-> & ->)|(-> & ->)]; [left|right]; split; ring.
  Qed.
  Lemma front_turns : forall a b dt, turns_up_to_half a b dt -> turns_up_to_half (front_state fr a) (front_state fr b) dt.
  Proof.
    intros a b dt H. unfold turns_up_to_half in *. cbv zeta in *. unfold front_state. cbn [q_c q_s q_w]. rewrite front_dot.
    pose proof (front_cross (q_c a) (q_s a) (q_c b) (q_s b)) as X.
    assert (X' : snd (front_heading fr (q_c b, q_s b)) * fst (front_heading fr (q_c a, q_s a)) -
      fst (front_heading fr (q_c b, q_s b)) * snd (front_heading fr (q_c a, q_s a)) = q_s b * q_c a - q_c b * q_s a) by lra.
    rewrite X'. exact H.
  Qed.

  Lemma front_newton : forall d st fs, newton d st fs -> newton (front_drivetrain fr d) (front_state fr st) fs.
  Proof.
    intros d st fs (N1 & N2 & N3). unfold newton. cbn [front_drivetrain d_mass d_moi d_modules].
    split; [exact N1|]. split; [exact N2|]. rewrite <- (map_id fs) at 1. rewrite combine_maps, map_map. cbn [fst snd].
    rewrite (map_ext _ (fun mf => cross2 (turned st (m_translation (fst mf))) (snd mf))); [exact N3|].
    intros (md, f). cbn [fst snd front_module m_translation]. rewrite front_turned. reflexivity.
  Qed.
  Lemma front_wheel : forall st p, norm2 (wheel_velocity (front_state fr st) (front_point fr p)) = norm2 (wheel_velocity st p).
  Proof.
    intros st p. unfold norm2. f_equal. unfold wheel_velocity, front_state, front_point, front_heading.
    cbn [q_vx q_vy q_c q_s q_w tX tY fst snd].
    set (X := q_vx st * q_c st + q_vy st * q_s st - tY p * q_w st).
    set (Y := q_vy st * q_c st - q_vx st * q_s st + tX p * q_w st).
    transitivity ((X * X + Y * Y) * (cos fr * cos fr + sin fr * sin fr)); [unfold X, Y; ring|rewrite P; unfold X, Y; ring].
  Qed.
  Lemma front_wheels : forall d st, wheels_within d st -> wheels_within (front_drivetrain fr d) (front_state fr st).
  Proof.
    intros d st W md Hm. cbn [front_drivetrain d_modules] in Hm. apply in_map_iff in Hm. destruct Hm as (md0 & <- & Hm).
    cbn [front_module m_translation m_wheelRadius m_wheelMaxAngularVelocity]. rewrite front_wheel. exact (W md0 Hm).
  Qed.
  Lemma front_forces : forall d fs, forces_within d fs -> forces_within (front_drivetrain fr d) fs.
  Proof.
    intros d fs F md f Hm. cbn [front_drivetrain d_modules] in Hm. rewrite <- (map_id fs), combine_maps in Hm.
    apply in_map_iff in Hm. destruct Hm as ((md0, f0) & E & Hm). cbn [fst snd] in E. injection E as <- <-. exact (F md0 f0 Hm).
  Qed.
  Lemma front_real : forall d, real_wheels d -> real_wheels (front_drivetrain fr d).
  Proof.
    intros d RW md Hm. cbn [front_drivetrain d_modules] in Hm. apply in_map_iff in Hm. destruct Hm as (md0 & <- & Hm). exact (RW md0 Hm).
  Qed.

  Variables (N : list nat) (m : nat) (sol : solution R).
  Hypothesis Sh : well_shaped N m sol.
  Let new := front_solution fr sol.

  Lemma front_sample : forall i, (i <= last_sample N)%nat -> at_sample new i = front_state fr (at_sample sol i).
  Proof.
    intros i Hi. destruct Sh as (S0 & S1 & S2 & S3 & S4 & _).
    unfold at_sample, front_state, new, front_solution. cbv zeta.
    cbn [s_x s_y s_thetacos s_thetasin s_vx s_vy s_omega s_ax s_ay s_alpha q_x q_y q_c q_s q_vx q_vy q_w q_ax q_ay q_al].
    destruct (both_nth N (front_heading fr) _ _ i S3 S4 Hi) as (-> & ->). reflexivity.
  Qed.
  Lemma front_physics : forall d, (forall i, (1 <= i <= last_sample N)%nat -> step_within (front_drivetrain fr d) (step_to sol i)) ->
    obeys_physics turns_up_to_half d N sol -> obeys_physics turns_up_to_half (front_drivetrain fr d) N new.
  Proof.
    intros d St (A & B). split.
    - intros i Hi. cbv zeta. rewrite !front_sample by lia. destruct (A i Hi) as (A1 & A2 & A3 & A4).
      split; [exact (St i Hi)|]. split; [exact A2|]. split; [apply front_turns, A3|exact A4].
    - intros i Hi. rewrite front_sample by lia. destruct (B i Hi) as (B1 & B2 & B3).
      split; [apply front_newton, B1|]. split; [apply front_wheels, B2|apply front_forces, B3].
  Qed.
  Lemma front_requests : forall aw tw aw' tw', (forall w, aw' w = map (front_constraint fr) (aw w)) -> (forall w, tw' w = map (front_constraint fr) (tw w)) ->
    (forall w c, In c (aw w) \/ In c (tw w) -> ~ about_front c) ->
    meets_requests N sol aw tw -> meets_requests N new aw' tw'.
  Proof.
    intros aw tw aw' tw' Ea Et Nf (M1 & M2). split.
    - intros w c Hw Hc. rewrite Ea in Hc. apply in_map_iff in Hc. destruct Hc as (c0 & <- & Hc).
      rewrite front_sample by apply list_sum_firstn_le. apply front_demands; [apply (Nf w); left; exact Hc|apply M1; assumption].
    - intros w c i Hw Hc Hi. rewrite Et in Hc. apply in_map_iff in Hc. destruct Hc as (c0 & <- & Hc).
      assert (waypoint_sample N w <= last_sample N)%nat by apply list_sum_firstn_le.
      rewrite front_sample by lia. apply front_demands; [apply (Nf w); right; exact Hc|apply (M2 w); assumption].
  Qed.
  Lemma front_shape : well_shaped N m new.
  Proof.
    destruct Sh as (S0 & S1 & S2 & S3 & S4 & R0). unfold well_shaped, new, front_solution. cbv zeta.
    cbn [s_dt s_x s_y s_thetacos s_thetasin s_vx s_vy s_omega s_ax s_ay s_alpha s_moduleFX s_moduleFY]. unfold both. cbn [fst snd].
    rewrite !map_length, !combine_length, S3, S4, Nat.min_id. repeat (split; [first [assumption|reflexivity]|]). exact R0.
  Qed.
  Lemma front_uniform : uniform_steps N sol -> uniform_steps N new.
  Proof. intros U. exact U. Qed.
End State.

(** ** And back *)
Lemma heading_back : forall fr h, front_heading (- fr) (front_heading fr h) = h.
Proof.
  intros fr (a, b). pose proof (trig_sqr fr) as P. unfold front_heading. cbn [fst snd]. rewrite cos_neg, sin_neg. f_equal.
  - transitivity (a * (cos fr * cos fr + sin fr * sin fr)); [ring|rewrite P; ring].
  - transitivity (b * (cos fr * cos fr + sin fr * sin fr)); [ring|rewrite P; ring].
Qed.
Lemma front_point_back : forall fr p, front_point (- fr) (front_point fr p) = p.
Proof.
  intros fr (a, b). pose proof (trig_sqr fr) as P. unfold front_point. cbn [tX tY]. rewrite cos_neg, sin_neg. f_equal.
  - transitivity (a * (cos fr * cos fr + sin fr * sin fr)); [ring|rewrite P; ring].
  - transitivity (b * (cos fr * cos fr + sin fr * sin fr)); [ring|rewrite P; ring].
Qed.
Lemma front_constraint_back : forall fr c, front_constraint (- fr) (front_constraint fr c) = c.
Proof.
  intros fr c. destruct c; cbn [front_constraint]; rewrite ?front_point_back; try reflexivity.
  destruct pose as [tr [co si]]. unfold front_pose, front_rot. cbn [pTr pRot rCos rSin].
  rewrite <- surjective_pairing, heading_back. reflexivity.
Qed.
Lemma front_drivetrain_back : forall fr d, front_drivetrain (- fr) (front_drivetrain fr d) = d.
Proof.
  intros fr [ma mo ms]. unfold front_drivetrain. cbn [d_mass d_moi d_modules]. f_equal. rewrite map_map.
  rewrite <- (map_id ms) at 2. apply map_ext. intros [tr r w q]. unfold front_module.
  cbn [m_translation m_wheelRadius m_wheelMaxAngularVelocity m_wheelMaxTorque]. rewrite front_point_back. reflexivity.
Qed.
Lemma front_solution_back : forall fr N m sol, well_shaped N m sol -> front_solution (- fr) (front_solution fr sol) = sol.
Proof.
  intros fr N m sol (S0 & S1 & S2 & S3 & S4 & _). unfold front_solution. cbv zeta.
  cbn [s_dt s_x s_y s_thetacos s_thetasin s_vx s_vy s_omega s_ax s_ay s_alpha s_moduleFX s_moduleFY].
  rewrite (both_back (front_heading fr)) by (first [apply heading_back|congruence]). cbn [fst snd]. destruct sol; reflexivity.
Qed.

(** ** Histories *)
Lemma front_proper : forall fr c, proper_constraint c -> proper_constraint (front_constraint fr c).
Proof.
  intros fr c Q. destruct c; cbn [front_constraint proper_constraint] in *; try exact I; try exact Q.
  unfold unit_rot in *. cbn [front_pose pRot front_rot rCos rSin] in *. rewrite front_dot. exact Q.
Qed.
Lemma front_good : forall fr asserts h, good_history asserts h -> good_history asserts (map (front_call fr) h).
Proof.
  intros fr asserts h (A & B & C). split; [|split].
  - rewrite Forall_forall in *. intros o Ho. apply in_map_iff in Ho. destruct Ho as (o0 & <- & Ho). specialize (A o0 Ho).
    destruct o0; cbn [front_call proper_call front_bumpers o_points] in *; rewrite ?map_length; exact A.
  - rewrite Forall_forall in *. intros o Ho. apply in_map_iff in Ho. destruct Ho as (o0 & <- & Ho). specialize (B o0 Ho).
    destruct o0; cbn [front_call proper_request] in *; try exact I; apply front_proper, B.
  - apply (sim_run fr asserts h new_builder new_builder); [split; reflexivity|exact C].
Qed.
Lemma front_counts : forall fr asserts h, counts asserts (map (front_call fr) h) = counts asserts h.
Proof. intros fr asserts h. apply (sim_c _ _ _ (sim_path fr asserts h)). Qed.
Lemma front_generator : forall fr asserts h handle d g, generator asserts h handle d g ->
  exists g', generator asserts (map (front_call fr) h) handle (front_drivetrain fr d) g'.
Proof.
  intros fr asserts h handle d g (C & D). pose proof (sim_path fr asserts h) as S.
  destruct (main_cons (path asserts h) handle g d (path_inv asserts h) C D) as (_ & Le & _).
  assert (D' : b_drivetrain (path asserts (map (front_call fr) h)) = Some (front_drivetrain fr d)) by (rewrite (sim_d _ _ _ S), D; reflexivity).
  destruct (construct_ok (path asserts (map (front_call fr) h)) handle (front_drivetrain fr d)) as (p & E & _).
  - apply path_inv.
  - unfold waypoint_count in *. rewrite (sim_c _ _ _ S), (sim_w _ _ _ S), map_length. exact Le.
  - exact D'.
  - eexists. split; [exact E|exact D'].
Qed.

Lemma front_carried : forall fr asserts asserts' h h' handle handle' d g g',
  generator asserts h handle d g -> generator asserts' h' handle' (front_drivetrain fr d) g' ->
  real_wheels d -> (forall n, In n (counts asserts h) -> (1 <= n)%nat) -> counts asserts' h' = counts asserts h ->
  (forall w, constraints_at (path asserts' h') w = map (front_constraint fr) (constraints_at (path asserts h) w)) ->
  (forall w, segment_constraints_to (path asserts' h') w = map (front_constraint fr) (segment_constraints_to (path asserts h) w)) ->
  (forall w c, In c (constraints_at (path asserts h) w) \/ In c (segment_constraints_to (path asserts h) w) -> proper_constraint c) ->
  (forall w c, In c (constraints_at (path asserts h) w) \/ In c (segment_constraints_to (path asserts h) w) -> ~ about_front c) ->
  forall sol, (forall i, (1 <= i <= last_sample (counts asserts h))%nat -> step_within (front_drivetrain fr d) (step_to sol i)) ->
  solved g sol -> solved g' (front_solution fr sol).
Proof.
  intros fr asserts asserts' h h' handle handle' d g g' G G' W Pos Ec Ea Et Pr Nf sol St (env & F & E).
  assert (Sh : well_shaped (counts asserts h) (length (d_modules d)) sol).
  { destruct (C25_proof asserts h handle d g env G) as (s & E' & Sh). rewrite E in E'. injection E' as <-. exact Sh. }
  pose proof (uniform_read asserts h handle d g env sol G E) as U.
  apply (C15_recorded_proof asserts h handle d g G W Pos Pr env sol E) in F. destruct F as (Ph & Rq).
  destruct (C15_complete_proof asserts' h' handle' (front_drivetrain fr d) g' G' (front_solution fr sol)) as (env' & E').
  - rewrite Ec. cbn [front_drivetrain d_modules]. rewrite map_length. apply front_shape; assumption.
  - rewrite Ec. apply front_uniform; assumption.
  - exists env'. split; [|exact E'].
    apply (C15_recorded_proof asserts' h' handle' (front_drivetrain fr d) g' G') with (sol := front_solution fr sol); [| | |exact E'|].
    + apply front_real; assumption.
    + rewrite Ec. exact Pos.
    + intros w c. rewrite Ea, Et, !in_map_iff. intros [(c0 & <- & Hc)|(c0 & <- & Hc)]; apply front_proper, (Pr w); auto.
    + rewrite Ec. split; [eapply front_physics; eassumption|].
      eapply front_requests; [exact Sh|exact Ea|exact Et|exact Nf|exact Rq].
Qed.

Lemma C118_general_proof : forall fr asserts h handle d g, good_history asserts h ->
  generator asserts h handle d g -> real_wheels d -> (forall n, In n (counts asserts h) -> (1 <= n)%nat) ->
  (forall w c, In c (wpt_requests [] h w) \/ In c (sgmt_requests [] h w) -> ~ about_front c) ->
  let short d sol := forall i, (1 <= i <= last_sample (counts asserts h))%nat -> step_within d (step_to sol i) in
  exists g', good_history asserts (map (front_call fr) h) /\
    generator asserts (map (front_call fr) h) handle (front_drivetrain fr d) g' /\
    (forall sol, solved g sol -> (solved g' (front_solution fr sol) <-> short (front_drivetrain fr d) sol)) /\
    (forall sol', solved g' sol' -> ((exists sol, solved g sol /\ sol' = front_solution fr sol) <-> short d sol')).
Proof.
  intros fr asserts h handle d g Gd G W Pos Nf short.
  destruct (front_generator fr asserts h handle d g G) as (g' & G'). exists g'.
  pose proof (front_good fr asserts h Gd) as Gd'. split; [exact Gd'|]. split; [exact G'|].
  assert (At := sim_at fr _ _ (sim_path fr asserts h)). pose proof (good_proper asserts h Gd) as Pr.
  assert (Nf' : forall w c, In c (constraints_at (path asserts h) w) \/ In c (segment_constraints_to (path asserts h) w) -> ~ about_front c).
  { intros w c. destruct (good_recorded asserts h Gd w) as (E1 & E2). rewrite E1, E2. apply Nf. }
  pose proof (front_counts fr asserts h) as Ec.
  assert (Sg : forall sol, solved g sol -> short d sol).
  { intros sol (env & F & E) i Hi. apply (C15_proof asserts h handle d g Gd G W Pos env sol E) in F.
    destruct F as ((A & _) & _). apply (A i Hi). }
  assert (Sg' : forall sol, solved g' sol -> short (front_drivetrain fr d) sol).
  { intros sol (env & F & E) i Hi. rewrite <- Ec in Pos, Hi.
    apply (C15_proof asserts _ handle _ g' Gd' G' (front_real fr d W) Pos env sol E) in F.
    destruct F as ((A & _) & _). apply (A i Hi). }
  split.
  - intros sol Sv. split; [intros Sv'; exact (Sg' _ Sv')|]. intros St.
    apply (front_carried fr asserts asserts h (map (front_call fr) h) handle handle d g g' G G' W Pos Ec);
      try assumption; intros w; apply At.
  - intros sol' Sv. split; [intros (sol & Sv' & ->); exact (Sg _ Sv')|]. intros St. exists (front_solution (- fr) sol').
    assert (Sh : well_shaped (counts asserts h) (length (d_modules (front_drivetrain fr d))) sol').
    { destruct Sv as (env & _ & E). destruct (C25_proof asserts _ handle _ g' env G') as (s & E' & Sh). rewrite E in E'. injection E' as <-.
      rewrite Ec in Sh. exact Sh. }
    assert (Inv : front_solution fr (front_solution (- fr) sol') = sol').
    { pose proof (front_solution_back (- fr) _ _ _ Sh) as Q. rewrite Ropp_involutive in Q. exact Q. }
    split; [|symmetry; exact Inv].
    assert (Lb : forall l, map (front_constraint (- fr)) (map (front_constraint fr) l) = l).
    { intros l. rewrite map_map. rewrite <- (map_id l) at 2. apply map_ext. intros c. apply front_constraint_back. }
    apply (front_carried (- fr) asserts asserts (map (front_call fr) h) h handle handle (front_drivetrain fr d) g' g G').
    + rewrite front_drivetrain_back. exact G.
    + apply front_real; assumption.
    + rewrite Ec. exact Pos.
    + symmetry. exact Ec.
    + intros w. rewrite (proj1 (At w)), Lb. reflexivity.
    + intros w. rewrite (proj2 (At w)), Lb. reflexivity.
    + intros w c. rewrite (proj1 (At w)), (proj2 (At w)), !in_map_iff. intros [(c0 & <- & Hc)|(c0 & <- & Hc)]; apply front_proper, (Pr w); auto.
    + intros w c. rewrite (proj1 (At w)), (proj2 (At w)), !in_map_iff. intros Hc Lc.
      assert (X : exists c0, c = front_constraint fr c0 /\ (In c0 (constraints_at (path asserts h) w) \/ In c0 (segment_constraints_to (path asserts h) w))).
      { destruct Hc as [(c0 & E & Hc)|(c0 & E & Hc)]; exists c0; auto. }
      destruct X as (c0 & -> & Hc0). apply (Nf' w c0 Hc0). destruct c0; try exact I; exact Lc.
    + rewrite Ec, front_drivetrain_back. exact St.
    + exact Sv.
Qed.

(** ** Quarter turns *)
Lemma consecutive_map : forall (A B : Type) (f : A -> B) l, consecutive (map f l) = map (fun p => (f (fst p), f (snd p))) (consecutive l).
Proof.
  intros A B f l. unfold consecutive. destruct l as [|x l]; [reflexivity|]. cbn [tl map].
  change (f x :: map f l) with (map f (x :: l)). rewrite combine_maps. reflexivity.
Qed.
Lemma axis_step : forall fr d, cos fr * sin fr = 0 -> forall dt, step_within d dt -> step_within (front_drivetrain fr d) dt.
Proof.
  intros fr d Z dt (H0 & H). split; [exact H0|]. intros md a b Hm Hab. cbn [front_drivetrain d_modules] in Hm, Hab.
  rewrite consecutive_map in Hab. apply in_map_iff in Hm. destruct Hm as (m0 & <- & Hm).
  apply in_map_iff in Hab. destruct Hab as ((a0, b0) & E & Hab). cbn [fst snd] in E. injection E as <- <-.
  destruct (H m0 a0 b0 Hm Hab) as (Hx & Hy). clear H. unfold front_module, front_point.
  cbn [m_translation m_wheelRadius m_wheelMaxAngularVelocity tX tY].
  set (xa := tX (m_translation a0)) in *. set (ya := tY (m_translation a0)) in *. set (xb := tX (m_translation b0)) in *. set (yb := tY (m_translation b0)) in *.
  pose proof (trig_sqr fr) as P.
  assert (A1 : forall k, k * k = 1 -> forall x, Rabs (x * k) = Rabs x).
  { intros k Hk x. rewrite Rabs_mult. replace (Rabs k) with 1; [ring|]. rewrite <- (sqrt_Rsqr_abs k). unfold Rsqr. rewrite Hk, sqrt_1. reflexivity. }
  apply Rmult_integral in Z. destruct Z as [Z|Z]; rewrite Z in P |- *.
  - assert (K : sin fr * sin fr = 1) by lra. split; intros N.
    + replace (xa * 0 + ya * sin fr - (xb * 0 + yb * sin fr)) with ((ya - yb) * sin fr) by ring. rewrite (A1 _ K).
      apply Hy. intros E. apply N. rewrite E. ring.
    + replace (ya * 0 - xa * sin fr - (yb * 0 - xb * sin fr)) with (- ((xa - xb) * sin fr)) by ring. rewrite Rabs_Ropp, (A1 _ K).
      apply Hx. intros E. apply N. rewrite E. ring.
  - assert (K : cos fr * cos fr = 1) by lra. split; intros N.
    + replace (xa * cos fr + ya * 0 - (xb * cos fr + yb * 0)) with ((xa - xb) * cos fr) by ring. rewrite (A1 _ K).
      apply Hx. intros E. apply N. rewrite E. ring.
    + replace (ya * cos fr - xa * 0 - (yb * cos fr - xb * 0)) with ((ya - yb) * cos fr) by ring. rewrite (A1 _ K).
      apply Hy. intros E. apply N. rewrite E. ring.
Qed.
Lemma quarter_step : forall fr d, cos fr * sin fr = 0 -> forall dt, step_within (front_drivetrain fr d) dt <-> step_within d dt.
Proof.
  intros fr d Z dt. split; [|apply axis_step; exact Z]. intros H. rewrite <- (front_drivetrain_back fr d). apply axis_step; [|exact H].
  rewrite cos_neg, sin_neg. lra.
Qed.
Lemma C118_quarter_proof : forall fr asserts h handle d g, cos fr * sin fr = 0 -> good_history asserts h ->
  generator asserts h handle d g -> real_wheels d -> (forall n, In n (counts asserts h) -> (1 <= n)%nat) ->
  (forall w c, In c (wpt_requests [] h w) \/ In c (sgmt_requests [] h w) -> ~ about_front c) ->
  exists g', good_history asserts (map (front_call fr) h) /\
    generator asserts (map (front_call fr) h) handle (front_drivetrain fr d) g' /\
    (forall sol, solved g sol -> solved g' (front_solution fr sol)) /\
    (forall sol', solved g' sol' -> exists sol, solved g sol /\ sol' = front_solution fr sol).
Proof.
  intros fr asserts h handle d g Z Gd G W Pos Nf. pose proof (quarter_step fr d Z) as Q.
  destruct (C118_general_proof fr asserts h handle d g Gd G W Pos Nf) as (g' & Gd' & G' & A & B). exists g'.
  split; [exact Gd'|]. split; [exact G'|].
  assert (Pos' : forall n, In n (counts asserts (map (front_call fr) h)) -> (1 <= n)%nat) by (rewrite front_counts; exact Pos).
  split.
  - intros sol Sv. apply (A sol Sv). intros i Hi. apply Q. destruct Sv as (env & F & E).
    apply (C15_proof asserts h handle d g Gd G W Pos env sol E) in F. destruct F as ((P & _) & _). apply (P i Hi).
  - intros sol' Sv. apply (B sol' Sv). intros i Hi. apply Q. destruct Sv as (env & F & E).
    apply (C15_proof asserts _ handle _ g' Gd' G' (front_real fr d W) Pos' env sol' E) in F. destruct F as ((P & _) & _).
    rewrite front_counts in P. apply (P i Hi).
Qed.

(** ** What the front does matter for *)
(** Two wheels in a row, along the x axis; the robot stands still for half a second. *)
Definition wagon : drivetrain R := mkDrivetrain 2 1 [wheel 1 0; wheel (-1) 0].
Definition parked (cs : list (op R)) : list (op R) :=
  [OSetDrivetrain wagon; OWptInitialGuessPoint 1 (pose_xyh 0 0 0); OControlIntervalCounts [1%nat]] ++ cs.
Definition parked_solution : solution R :=
  mkSolution [1/2] [0; 0] [0; 0] [1; 1] [0; 0] [0; 0] [0; 0] [0; 0] [0; 0] [0; 0] [0; 0]
    [[0; 0]; [0; 0]] [[0; 0]; [0; 0]].
(** A robot that is to look at the point (1, 0) at the start. *)
Definition look : list (op R) := [OWptConstraint 0 (PointAt (mkTr 1 0) 0)].
Lemma wagon_wheels : real_wheels wagon.
Proof. intros md [<-|[<-|[]]]; simpl; lra. Qed.
Lemma parked_good : forall cs, cs = [] \/ cs = look -> good_history true (parked cs).
Proof.
  intros cs [->| ->]; (split; [repeat constructor; try (apply Z.ltb_lt; reflexivity); simpl; lia|]); (split; [repeat constructor|]);
    repeat split; reflexivity.
Qed.
Lemma parked_generator : forall cs, cs = [] \/ cs = look -> exists g, generator true (parked cs) 0 wagon g.
Proof. intros cs [->| ->]; (apply generator_exists; [apply Nat.ltb_lt; reflexivity|reflexivity]). Qed.
Lemma parked_counts : forall cs, cs = [] \/ cs = look -> counts true (parked cs) = [1%nat].
Proof. intros cs [->| ->]; reflexivity. Qed.
Lemma parked_positive : forall cs, cs = [] \/ cs = look -> forall n, In n (counts true (parked cs)) -> (1 <= n)%nat.
Proof. intros cs Hc n. rewrite parked_counts by exact Hc. intros [<-|[]]. lia. Qed.
Lemma parked_shaped : well_shaped [1%nat] 2 parked_solution.
Proof. repeat split; repeat constructor. Qed.
Lemma parked_solved : forall cs g, cs = [] \/ cs = look -> generator true (parked cs) 0 wagon g -> solved g parked_solution.
Proof.
  intros cs g Hc G. apply (solved_intro true (parked cs) 0 wagon g _ (parked_good cs Hc) G wagon_wheels (parked_positive cs Hc)); rewrite ?(parked_counts cs Hc).
  - exact parked_shaped.
  - intros s k Hs Hk. destruct s as [|s]; cbn in Hs, Hk; [|lia]; destruct k; try lia; reflexivity.
  - split.
    + intros i Hi. cbn in Hi. assert (i = 1)%nat as -> by lia. split.
      * split; [unfold step_to; simpl; lra|]. intros md a b Hm [E|[]]. injection E as <- <-. unfold step_to. simpl.
        split; [intros _|lra]. rewrite Rabs_right by lra. destruct Hm as [<-|[<-|[]]]; simpl; lra.
      * unfold moves, turns_up_to_half, accelerates, at_sample, parked_solution, step_to;
        cbn [s_dt s_x s_y s_thetacos s_thetasin s_vx s_vy s_omega s_ax s_ay s_alpha
          nth Nat.sub q_x q_y q_c q_s q_vx q_vy q_w q_ax q_ay q_al];
        rewrite Rmult_0_l, cos_0, sin_0; (split; [split; ring|]); (split; [left; split; lra|]); repeat split; ring.
    + intros i Hi. cbn in Hi.
      assert (i = 0 \/ i = 1)%nat as [->| ->] by lia; (split; [|split]);
      try (unfold newton, cross2, turned, forces, at_sample, parked_solution; simpl; repeat split; lra);
      try (intros md fo [E|[E|[]]]; injection E as <- <-; simpl; apply norm2_le; lra);
      intros md [<-|[<-|[]]]; unfold wheel_velocity, at_sample, parked_solution; simpl; apply norm2_le; lra.
  - destruct Hc as [->| ->]; split; intros w c; [intros _ []|intros i _ []| |intros i _ []].
    intros Hw Hc. destruct w as [|w]; cbn in Hc; [|contradiction]. destruct Hc as [<-|[]].
    cbn [demands]. unfold dist2, pt, waypoint_sample. simpl. rewrite cos_0. 
    match goal with |- 1 * sqrt ?x <= _ => replace x with 1 by ring end. rewrite sqrt_1. lra.
Qed.

Lemma wagon_steps : step_within wagon (1/2).
Proof.
  split; [lra|]. intros md a b Hm [E|[]]. injection E as <- <-. simpl.
  split; [intros _|lra]. rewrite Rabs_right by lra. destruct Hm as [<-|[<-|[]]]; simpl; lra.
Qed.
Lemma wagon_eighth : ~ step_within (front_drivetrain (PI / 4) wagon) (1/2).
Proof.
  intros (_ & A).
  destruct (A (front_module (PI / 4) (wheel 1 0)) (front_module (PI / 4) (wheel 1 0)) (front_module (PI / 4) (wheel (-1) 0))) as (Ax & _);
    [left; reflexivity|left; reflexivity|]. clear A. cbn in Ax.
  replace (1 * cos (PI / 4) + 0 * sin (PI / 4) - (-1 * cos (PI / 4) + 0 * sin (PI / 4))) with (2 * cos (PI / 4)) in Ax by ring.
  assert (C0 : 0 < cos (PI / 4)) by (apply cos_gt_0; pose proof PI_RGT_0; lra).
  rewrite Rabs_right in Ax by lra. specialize (Ax ltac:(lra)).
  assert (S1 : cos (PI / 4) * cos (PI / 4) = 1 / 2).
  { pose proof (trig_sqr (PI / 4)) as P. replace (sin (PI / 4)) with (cos (PI / 4)) in P by (rewrite cos_PI4, sin_PI4; reflexivity). lra. }
  nra.
Qed.
Lemma C118_angle_refuted_proof : ~ (forall fr asserts h handle d g g', good_history asserts h ->
  generator asserts h handle d g -> generator asserts (map (front_call fr) h) handle (front_drivetrain fr d) g' ->
  real_wheels d -> (forall n, In n (counts asserts h) -> (1 <= n)%nat) ->
  (forall w c, In c (wpt_requests [] h w) \/ In c (sgmt_requests [] h w) -> ~ about_front c) ->
  forall sol, solved g sol -> solved g' (front_solution fr sol)).
Proof.
  intros H. pose proof (or_introl eq_refl : (@nil (op R)) = [] \/ [] = look) as N. destruct (parked_generator [] N) as (g & G).
  destruct (front_generator (PI / 4) true (parked []) 0 wagon g G) as (g' & G').
  assert (Q := H (PI / 4) true (parked []) 0%Z wagon g g' (parked_good [] N) G G' wagon_wheels (parked_positive [] N)
    ltac:(intros w c [[]|[]]) parked_solution (parked_solved [] g N G)). clear H.
  destruct Q as (env & F & E). pose proof (front_counts (PI / 4) true (parked [])) as Ec.
  assert (Ps : forall n, In n (counts true (map (front_call (PI / 4)) (parked []))) -> (1 <= n)%nat) by (rewrite Ec; apply parked_positive, N).
  apply (C15_proof true _ 0 _ g' (front_good _ _ _ (parked_good [] N)) G' (front_real _ _ wagon_wheels) Ps env _ E) in F.
  destruct F as ((A & _) & _). rewrite Ec, (parked_counts [] N) in A. specialize (A 1%nat). cbv zeta in A.
  destruct A as (A & _); [cbn; lia|]. exact (wagon_eighth A).
Qed.
Lemma C118_pointing_refuted_proof : ~ (forall fr asserts h handle d g g', cos fr * sin fr = 0 -> good_history asserts h ->
  generator asserts h handle d g -> generator asserts (map (front_call fr) h) handle (front_drivetrain fr d) g' ->
  real_wheels d -> (forall n, In n (counts asserts h) -> (1 <= n)%nat) ->
  forall sol, solved g sol -> solved g' (front_solution fr sol)).
Proof.
  intros H. pose proof (or_intror eq_refl : look = [] \/ look = look) as N. destruct (parked_generator look N) as (g & G).
  destruct (front_generator (PI / 2) true (parked look) 0 wagon g G) as (g' & G').
  assert (Q := H (PI / 2) true (parked look) 0%Z wagon g g' ltac:(rewrite cos_PI2; ring) (parked_good look N) G G' wagon_wheels (parked_positive look N)
    parked_solution (parked_solved look g N G)). clear H.
  destruct (solved_requests true _ 0 _ g' _ (front_good _ _ _ (parked_good look N)) G' Q) as (A & _).
  specialize (A 0%nat (PointAt (mkTr 1 0) 0) ltac:(apply Nat.le_0_l) ltac:(left; reflexivity)).
  rewrite (front_sample (PI / 2) [1%nat] 2 parked_solution parked_shaped) in A by (cbn; lia).
  cbn [demands] in A. unfold dist2, pt, front_state, front_heading, at_sample, parked_solution, waypoint_sample in A. simpl in A.
  rewrite cos_0, cos_PI2, sin_PI2 in A. match type of A with 1 * sqrt ?x <= _ => replace x with 1 in A by ring end. rewrite sqrt_1 in A. lra.
Qed.

(** ** The ride with the left side as front *)
Lemma C118_case_proof : exists g, cos (PI / 2) * sin (PI / 2) = 0 /\ good_history true ride /\ generator true ride 7 cart g /\
  real_wheels cart /\ (forall n, In n (counts true ride) -> (1 <= n)%nat) /\
  (forall w c, In c (wpt_requests [] ride w) \/ In c (sgmt_requests [] ride w) -> ~ about_front c) /\ solved g ride_solution /\
  front_call (PI / 2) (OPoseWpt 1 1 0 1) = OPoseWpt 1 1 0 (1 + PI / 2) /\
  d_modules (front_drivetrain (PI / 2) cart) = [wheel 1 (-1); wheel (-1) 1] /\
  q_x (at_sample (front_solution (PI / 2) ride_solution) 2) = 1 /\
  q_c (at_sample (front_solution (PI / 2) ride_solution) 2) = cos (1 + PI / 2) /\
  q_s (at_sample (front_solution (PI / 2) ride_solution) 2) = sin (1 + PI / 2).
Proof.
  destruct (ride_case true) as (g & Gd & G & W & Pos & S). exists g.
  split; [rewrite cos_PI2; ring|]. split; [exact Gd|]. split; [exact G|]. split; [exact W|]. split; [exact Pos|].
  split. { intros w c H. destruct w as [|[|w]]; cbn in H; repeat (destruct H as [H|H]); try contradiction; subst c; cbn; auto. }
  split; [exact S|]. split; [reflexivity|]. split.
  - unfold front_drivetrain, cart, wheel, front_module, front_point. cbn [map d_modules m_translation tX tY m_wheelRadius m_wheelMaxAngularVelocity m_wheelMaxTorque].
    rewrite cos_PI2, sin_PI2. repeat f_equal; ring.
  - rewrite (front_sample (PI / 2) [2%nat] 2) by (try apply ride_shaped; cbn; lia). split; [reflexivity|].
    rewrite cos_plus, sin_plus. unfold front_state, front_heading, at_sample, ride_solution. cbn [q_c q_s s_thetacos s_thetasin nth fst snd]. split; ring.
Qed.
Lemma C118_angle_case_proof : exists g, good_history true (parked []) /\ generator true (parked []) 0 wagon g /\ real_wheels wagon /\
  (forall n, In n (counts true (parked [])) -> (1 <= n)%nat) /\ solved g parked_solution /\
  (forall w c, In c (wpt_requests [] (parked []) w) \/ In c (sgmt_requests [] (parked []) w) -> ~ about_front c) /\
  last_sample (counts true (parked [])) = 1%nat /\ step_to parked_solution 1 = 1/2 /\
  ~ step_within (front_drivetrain (PI / 4) wagon) (1/2) /\ step_within (front_drivetrain (PI / 2) wagon) (1/2).
Proof.
  pose proof (or_introl eq_refl : (@nil (op R)) = [] \/ [] = look) as N. destruct (parked_generator [] N) as (g & G). exists g.
  split; [exact (parked_good [] N)|]. split; [exact G|]. split; [exact wagon_wheels|]. split; [exact (parked_positive [] N)|].
  split; [exact (parked_solved [] g N G)|]. split; [intros w c [[]|[]]|]. split; [reflexivity|]. split; [reflexivity|].
  split; [exact wagon_eighth|]. apply quarter_step; [rewrite cos_PI2; ring|exact wagon_steps].
Qed.
