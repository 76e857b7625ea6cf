(** Trajectories in other coordinates and units (C89, C90). *)
From Coq Require Import List Lia Lra Psatz Reals ZArith.
Import ListNotations.
From Verif Require Import Outcome Num NumR Geometry Expr Constraints Util Builder Guess Generator Trajectory
  Spec SpecBuilder SpecPhysics SpecTrajectory SpecGenerator SpecSymmetry Semantics
  UtilFacts GeometryFacts BuilderFacts BuilderHistory ConstraintFacts GuessFacts GeneratorFacts SeedFacts FeasibleFacts
  GeneratorProofs HistoryFacts SolutionProofs TrajectoryProofs GeneratorCases LimitProofs OrderProofs StepProofs SymmetryBuild.
Local Open Scope nat_scope.
Open Scope R_scope.

Definition sg (ch : change) : R := if ch_mirror ch then -1 else 1.
Lemma sg_sqr : forall ch, sg ch * sg ch = 1.
Proof. intros ch. unfold sg. destruct (ch_mirror ch); ring. Qed.
Lemma trig_sqr : forall a, cos a * cos a + sin a * sin a = 1.
Proof. intros a. pose proof (sin2_cos2 a). unfold Rsqr in *. lra. Qed.

(** Robot states. *)
Definition new_state (ch : change) (a : state) : state :=
  let l := ch_length ch in let t := ch_time ch in
  let p := new_point ch (q_x a, q_y a) in
  let h := turned_vec ch (q_c a, q_s a) in
  let v := new_vec ch (l / t) (q_vx a, q_vy a) in
  let w := new_vec ch (l / (t * t)) (q_ax a, q_ay a) in
  mkState (fst p) (snd p) (fst h) (snd h) (fst v) (snd v) (sg ch / t * q_w a) (fst w) (snd w) (sg ch / (t * t) * q_al a).

Section State.
  Variable ch : change.
  Hypothesis Proper : proper_change ch.
  Let L := proj1 Proper : 0 < ch_length ch.
  Let T := proj1 (proj2 Proper) : 0 < ch_time ch.
  Notation nv := (new_vec ch).

  (** Turning and mirroring keep lengths, inner products and, up to sign, areas. *)
  Lemma turned_dot : forall a b c e, fst (turned_vec ch (a, b)) * fst (turned_vec ch (c, e)) +
    snd (turned_vec ch (a, b)) * snd (turned_vec ch (c, e)) = a * c + b * e.
  Proof.
    intros. unfold turned_vec. cbn [fst snd]. fold (sg ch). pose proof (sg_sqr ch) as S. pose proof (trig_sqr (ch_angle ch)) as P.
    set (s := sg ch) in *. set (co := cos (ch_angle ch)) in *. set (si := sin (ch_angle ch)) in *.
    transitivity ((a * c + (s * s) * (b * e)) * (co * co + si * si)); [ring|]. rewrite S, P. ring.
  Qed.
  Lemma turned_cross : forall a b c e, fst (turned_vec ch (a, b)) * snd (turned_vec ch (c, e)) -
    snd (turned_vec ch (a, b)) * fst (turned_vec ch (c, e)) = sg ch * (a * e - b * c).
  Proof.
    intros. unfold turned_vec. cbn [fst snd]. fold (sg ch). pose proof (trig_sqr (ch_angle ch)) as P.
    set (s := sg ch) in *. set (co := cos (ch_angle ch)) in *. set (si := sin (ch_angle ch)) in *.
    transitivity (s * (a * e - b * c) * (co * co + si * si)); [ring|]. rewrite P. ring.
  Qed.
  Lemma turned_norm : forall p, norm2 (turned_vec ch p) = norm2 p.
  Proof.
    intros (a, b). unfold norm2 at 1. rewrite turned_dot. reflexivity.
  Qed.
  Lemma vec_norm : forall k p, 0 <= k -> norm2 (nv k p) = k * norm2 p.
  Proof.
    intros k p K. unfold new_vec. rewrite norm2_scale, Rabs_right by lra. f_equal.
    rewrite <- (turned_norm p). destruct (turned_vec ch p). reflexivity.
  Qed.
  Lemma point_dist : forall p q, dist2 (new_point ch p) (new_point ch q) = ch_length ch * dist2 p q.
  Proof.
    intros p q. rewrite !dist2_norm. rewrite <- (vec_norm (ch_length ch)) by lra. unfold new_point, new_vec, turned_vec. cbn [fst snd]. f_equal. f_equal; ring.
  Qed.
  Lemma point_inj : forall p q, new_point ch p = new_point ch q -> p = q.
  Proof.
    intros p q E. assert (D : dist2 (new_point ch p) (new_point ch q) = 0).
    { rewrite E. unfold dist2. rewrite !Rminus_eq_0, Rmult_0_r, Rplus_0_r. apply sqrt_0. }
    rewrite point_dist in D. assert (D' : dist2 p q = 0) by nra. rewrite dist2_norm in D'.
    pose proof (norm2_ge_x (fst q - fst p) (snd q - snd p)) as X. pose proof (norm2_ge_y (fst q - fst p) (snd q - snd p)) as Y.
    rewrite D' in *. pose proof (Rabs_pos (fst q - fst p)). pose proof (Rabs_pos (snd q - snd p)).
    assert (X0 : Rabs (fst q - fst p) = 0) by lra. assert (Y0 : Rabs (snd q - snd p) = 0) by lra.
    assert (fst q - fst p = 0) by (destruct (Req_dec (fst q - fst p) 0) as [|Z]; [assumption|apply Rabs_no_R0 in Z; contradiction]).
    assert (snd q - snd p = 0) by (destruct (Req_dec (snd q - snd p) 0) as [|Z]; [assumption|apply Rabs_no_R0 in Z; contradiction]).
    destruct p, q. cbn [fst snd] in *. f_equal; lra.
  Qed.
  Lemma placed_new : forall st p, placed (new_state ch st) (new_robot ch p) = new_point ch (placed st p).
  Proof.
    intros st p. unfold placed, new_state, new_robot, new_point, new_vec, turned_vec. cbn [q_x q_y q_c q_s tX tY fst snd]. fold (sg ch).
    f_equal.
    - transitivity (ch_dx ch + ch_length ch * ((q_x st + tX p * q_c st - (sg ch * sg ch) * (tY p * q_s st)) * cos (ch_angle ch)
        - sg ch * (q_y st + tX p * q_s st + tY p * q_c st) * sin (ch_angle ch)) + ch_length ch * 0); [|rewrite sg_sqr; ring].
      ring_simplify. pose proof (sg_sqr ch) as S. replace (sg ch ^ 2) with 1 by (rewrite <- S; ring). ring.
    - transitivity (ch_dy ch + ch_length ch * ((q_x st + tX p * q_c st - (sg ch * sg ch) * (tY p * q_s st)) * sin (ch_angle ch)
        + sg ch * (q_y st + tX p * q_s st + tY p * q_c st) * cos (ch_angle ch)) + ch_length ch * 0); [|rewrite sg_sqr; ring].
      ring_simplify. pose proof (sg_sqr ch) as S. replace (sg ch ^ 2) with 1 by (rewrite <- S; ring). ring.
  Qed.
  Lemma along_new : forall a b t, along (new_point ch a) (new_point ch b) t = new_point ch (along a b t).
  Proof. intros (a1, a2) (b1, b2) t. unfold along, new_point, new_vec, turned_vec. cbn [fst snd]. f_equal; ring. Qed.
  Lemma pt_new : forall p, pt (new_field ch p) = new_point ch (pt p).
  Proof. intros p. unfold pt at 1, new_field. cbn [tX tY]. destruct (new_point ch (pt p)). reflexivity. Qed.
  Lemma clear_new : forall a b q r, ch_length ch = 1 -> clear_of_segment a b q r ->
    clear_of_segment (new_point ch a) (new_point ch b) (new_point ch q) r.
  Proof.
    intros a b q r E H p (t & Ht & ->). rewrite along_new, point_dist, E, Rmult_1_l. apply H. exists t. auto.
  Qed.

  Lemma unit_new : forall st, unit_heading st -> unit_heading (new_state ch st).
  Proof. intros st U. unfold unit_heading, new_state in *. cbn [q_c q_s]. rewrite turned_dot. exact U. Qed.

  Lemma demands_new : forall st c, (to_segment c -> ch_length ch = 1) -> demands st c -> demands (new_state ch st) (new_constraint ch c).
  Proof.
    intros st c Ln D. destruct c as [w|a b p r|m|u|m|f tol|p a b r|rp fp r|p|t0]; cbn [demands new_constraint to_segment] in *.
    - unfold new_state. cbn [q_w]. unfold Rdiv. rewrite !Rabs_mult, (Rabs_right (/ ch_time ch)) by (left; apply Rinv_0_lt_compat, T).
      assert (E : Rabs (sg ch) = 1) by (unfold sg; destruct (ch_mirror ch); [rewrite Rabs_left; lra|rewrite Rabs_right; lra]).
      rewrite E. pose proof (Rinv_0_lt_compat _ T). nra.
    - destruct D as (D1 & D2). rewrite !placed_new, pt_new, Ln, Rmult_1_l by exact I. split.
      + intros E. apply D1, point_inj, E.
      + apply clear_new; [apply Ln; exact I|exact D2].
    - unfold new_state. cbn [q_ax q_ay]. rewrite <- surjective_pairing.
      assert (K : 0 <= ch_length ch / (ch_time ch * ch_time ch)) by (left; apply Rdiv_lt_0_compat; [exact L|nra]).
      rewrite vec_norm by exact K. rewrite Rabs_mult, (Rabs_right (_ / _)) by lra. apply Rmult_le_compat_l; assumption.
    - destruct D as (k & E1 & E2). exists (ch_length ch / ch_time ch * k). unfold new_state, new_rot, new_vec, turned_vec. cbn [q_vx q_vy rCos rSin fst snd].
      rewrite E1, E2. split; ring.
    - unfold new_state. cbn [q_vx q_vy]. rewrite <- surjective_pairing.
      assert (K : 0 <= ch_length ch / ch_time ch) by (left; apply Rdiv_lt_0_compat; [exact L|exact T]).
      rewrite vec_norm by exact K. rewrite Rabs_mult, (Rabs_right (_ / _)) by lra. apply Rmult_le_compat_l; assumption.
    - rewrite pt_new. unfold new_state. cbn [q_x q_y q_c q_s]. rewrite <- surjective_pairing, point_dist.
      pose proof (turned_dot (q_c st) (q_s st) (tX f - q_x st) (tY f - q_y st)) as E.
      assert (E' : fst (turned_vec ch (q_c st, q_s st)) * (tX (new_field ch f) - fst (new_point ch (q_x st, q_y st))) +
        snd (turned_vec ch (q_c st, q_s st)) * (tY (new_field ch f) - snd (new_point ch (q_x st, q_y st))) =
        ch_length ch * (q_c st * (tX f - q_x st) + q_s st * (tY f - q_y st))).
      { rewrite <- E. unfold new_field, pt, new_point, new_vec, turned_vec. cbn [tX tY fst snd]. ring. }
      rewrite E'. pose proof (Rmult_le_compat_l _ _ _ (Rlt_le _ _ L) D). lra.
    - destruct D as (D1 & D2). rewrite !placed_new, !pt_new, Ln, Rmult_1_l by exact I. split.
      + intros E. apply D1, point_inj, E.
      + apply clear_new; [apply Ln; exact I|exact D2].
    - rewrite placed_new, pt_new, point_dist, Rabs_mult, (Rabs_right (ch_length ch)) by lra. nra.
    - destruct D as (E1 & E2 & E3). unfold new_state, new_pose, new_field, new_rot, new_point, new_vec, turned_vec, pt. cbn [q_x q_y q_c q_s pTr pRot tX tY rCos rSin fst snd].
      rewrite E1, E2. split; [reflexivity|]. split; [reflexivity|].
      destruct E3 as [(-> & ->)|(-> & ->)]; [left|right]; split; ring.
    - destruct D as (E1 & E2). unfold new_state, new_field, new_point, new_vec, turned_vec, pt. cbn [q_x q_y tX tY fst snd].
      rewrite E1, E2. split; reflexivity.
  Qed.

  (** Kinematics. *)
  Lemma moves_new : forall a b dt, moves a b dt -> moves (new_state ch a) (new_state ch b) (ch_time ch * dt).
  Proof.
    intros a b dt (E1 & E2). unfold moves, new_state, new_point, new_vec, turned_vec. cbn [q_x q_y q_vx q_vy fst snd].
    rewrite E1, E2. split; field; lra.
  Qed.
  Lemma accelerates_new : forall a b dt, accelerates a b dt -> accelerates (new_state ch a) (new_state ch b) (ch_time ch * dt).
  Proof.
    intros a b dt (E1 & E2 & E3). unfold accelerates, new_state, new_vec, turned_vec. cbn [q_vx q_vy q_w q_ax q_ay q_al fst snd].
    rewrite E1, E2, E3. split; [|split]; field; lra.
  Qed.
  Lemma turns_new : forall a b dt, turns_up_to_half a b dt -> turns_up_to_half (new_state ch a) (new_state ch b) (ch_time ch * dt).
  Proof.
    intros a b dt H. unfold turns_up_to_half in *. cbv zeta in *. unfold new_state. cbn [q_c q_s q_w].
    rewrite turned_dot.
    assert (X : snd (turned_vec ch (q_c b, q_s b)) * fst (turned_vec ch (q_c a, q_s a)) -
      fst (turned_vec ch (q_c b, q_s b)) * snd (turned_vec ch (q_c a, q_s a)) = sg ch * (q_s b * q_c a - q_c b * q_s a)).
    { pose proof (turned_cross (q_c a) (q_s a) (q_c b) (q_s b)) as X. lra. }
    rewrite X.
    assert (A : sg ch / ch_time ch * q_w b * (ch_time ch * dt) = sg ch * (q_w b * dt)) by (field; lra).
    rewrite A.
    assert (C : cos (sg ch * (q_w b * dt)) = cos (q_w b * dt) /\ sin (sg ch * (q_w b * dt)) = sg ch * sin (q_w b * dt)).
    { unfold sg. destruct (ch_mirror ch).
      - replace (-1 * (q_w b * dt)) with (- (q_w b * dt)) by ring. rewrite cos_neg, sin_neg. split; ring.
      - rewrite !Rmult_1_l. split; reflexivity. }
    destruct C as (-> & ->). destruct H as [(-> & ->)|(-> & ->)]; [left|right]; split; ring.
  Qed.

  (** Dynamics. *)
  Let fo := ch_mass ch * ch_length ch / (ch_time ch * ch_time ch).
  Lemma vec_sum : forall k fs, sum (map fst (map (nv k) fs)) = fst (nv k (sum (map fst fs), sum (map snd fs))) /\
    sum (map snd (map (nv k) fs)) = snd (nv k (sum (map fst fs), sum (map snd fs))).
  Proof.
    intros k. induction fs as [|f fs (IH1 & IH2)]; cbn [map sum].
    - unfold new_vec, turned_vec. cbn [fst snd]. split; ring.
    - rewrite IH1, IH2. destruct f as (a, b). unfold new_vec, turned_vec. cbn [fst snd]. split; ring.
  Qed.
  Lemma turned_new : forall st p, turned (new_state ch st) (new_robot ch p) = nv (ch_length ch) (turned st p).
  Proof.
    intros st p. pose proof (sg_sqr ch) as S. unfold turned, new_state, new_robot, new_vec, turned_vec. cbn [q_c q_s tX tY fst snd]. fold (sg ch).
    set (s := sg ch) in *. f_equal.
    - transitivity (ch_length ch * ((tX p * q_c st - (s * s) * (tY p * q_s st)) * cos (ch_angle ch) -
        s * (tX p * q_s st + tY p * q_c st) * sin (ch_angle ch))); [ring|rewrite S; ring].
    - transitivity (ch_length ch * ((tX p * q_c st - (s * s) * (tY p * q_s st)) * sin (ch_angle ch) +
        s * (tX p * q_s st + tY p * q_c st) * cos (ch_angle ch))); [ring|rewrite S; ring].
  Qed.
  Lemma cross_new : forall k k' u v, cross2 (nv k u) (nv k' v) = k * k' * sg ch * cross2 u v.
  Proof.
    intros k k' (a, b) (c, e). pose proof (turned_cross a b c e) as X. unfold cross2. cbn [fst snd].
    transitivity (k * k' * (sg ch * (a * e - b * c))); [rewrite <- X; unfold new_vec; cbn [fst snd]; ring|ring].
  Qed.
  Lemma combine_maps : forall {A B C D} (f : A -> C) (g : B -> D) l l', combine (map f l) (map g l') = map (fun p => (f (fst p), g (snd p))) (combine l l').
  Proof. intros A B C D f g. induction l as [|a l IH]; intros [|b l']; cbn [map combine]; try reflexivity. rewrite IH. reflexivity. Qed.

  Lemma newton_new : forall d st fs, newton d st fs -> newton (new_drivetrain ch d) (new_state ch st) (map (nv fo) fs).
  Proof.
    intros d st fs (N1 & N2 & N3). destruct (vec_sum fo fs) as (V1 & V2).
    unfold newton. cbn [new_drivetrain d_mass d_moi d_modules]. rewrite V1, V2, N1, N2.
    split; [|split].
    - unfold new_state, new_vec, turned_vec, fo. cbn [q_ax fst snd]. field. lra.
    - unfold new_state, new_vec, turned_vec, fo. cbn [q_ay fst snd]. field. lra.
    - rewrite combine_maps, map_map. cbn [fst snd].
      rewrite (map_ext _ (fun mf => (ch_length ch * fo * sg ch) * cross2 (turned st (m_translation (fst mf))) (snd mf))).
      2:{ intros (md, f). cbn [fst snd new_module m_translation]. rewrite turned_new, cross_new. reflexivity. }
      assert (Sc : forall (A : Type) k (f : A -> R) l, sum (map (fun a => k * f a) l) = k * sum (map f l)).
      { intros A k f. induction l as [|a l IH]; cbn [map sum]; [ring|rewrite IH; ring]. }
      rewrite Sc, N3. unfold new_state, fo. cbn [q_al]. field. lra.
  Qed.
  Lemma wheel_new : forall st p, norm2 (wheel_velocity (new_state ch st) (new_robot ch p)) = ch_length ch / ch_time ch * norm2 (wheel_velocity st p).
  Proof.
    intros st p.
    assert (E : wheel_velocity (new_state ch st) (new_robot ch p) =
      (ch_length ch / ch_time ch * fst (wheel_velocity st p), ch_length ch / ch_time ch * (sg ch * snd (wheel_velocity st p)))).
    { pose proof (turned_dot (q_vx st) (q_vy st) (q_c st) (q_s st)) as A. pose proof (turned_cross (q_c st) (q_s st) (q_vx st) (q_vy st)) as B.
      pose proof (sg_sqr ch) as S. unfold wheel_velocity. cbn [fst snd]. f_equal.
      - transitivity (ch_length ch / ch_time ch * (q_vx st * q_c st + q_vy st * q_s st - (sg ch * sg ch) * (tY p * q_w st))); [|rewrite S; ring].
        rewrite <- A. unfold new_state, new_robot, new_vec. cbn [q_vx q_vy q_c q_s q_w tX tY fst snd]. fold (sg ch). field. lra.
      - transitivity (ch_length ch / ch_time ch * (sg ch * (q_c st * q_vy st - q_s st * q_vx st) + sg ch * (tX p * q_w st))); [|ring].
        rewrite <- B. unfold new_state, new_robot, new_vec. cbn [q_vx q_vy q_c q_s q_w tX tY fst snd]. field. lra. }
    rewrite E, norm2_scale, Rabs_right; [|left; apply Rdiv_lt_0_compat; assumption]. f_equal.
    unfold norm2. cbn [fst snd]. f_equal. pose proof (sg_sqr ch) as S. set (v := snd (wheel_velocity st p)).
    transitivity (fst (wheel_velocity st p) * fst (wheel_velocity st p) + (sg ch * sg ch) * (v * v)); [ring|rewrite S; ring].
  Qed.
  Lemma wheels_new : forall d st, wheels_within d st -> wheels_within (new_drivetrain ch d) (new_state ch st).
  Proof.
    intros d st W md Hm. cbn [new_drivetrain d_modules] in Hm. apply in_map_iff in Hm. destruct Hm as (md0 & <- & Hm).
    cbn [new_module m_translation m_wheelRadius m_wheelMaxAngularVelocity]. rewrite wheel_new. specialize (W md0 Hm).
    assert (K : 0 < ch_length ch / ch_time ch) by (apply Rdiv_lt_0_compat; assumption).
    replace (ch_length ch * m_wheelRadius md0 * (m_wheelMaxAngularVelocity md0 / ch_time ch))
      with (ch_length ch / ch_time ch * (m_wheelRadius md0 * m_wheelMaxAngularVelocity md0)) by (field; lra).
    apply Rmult_le_compat_l; [lra|exact W].
  Qed.
  Lemma forces_new : forall d fs, real_wheels d -> forces_within d fs -> forces_within (new_drivetrain ch d) (map (nv fo) fs).
  Proof.
    intros d fs RW F md f Hm. cbn [new_drivetrain d_modules] in Hm. rewrite combine_maps in Hm.
    apply in_map_iff in Hm. destruct Hm as ((md0, f0) & E & Hm). cbn [fst snd] in E. injection E as <- <-.
    pose proof (F md0 f0 Hm) as Q. apply in_combine_l in Hm. destruct (RW md0 Hm) as (R0 & _).
    assert (K : 0 < fo). { unfold fo. pose proof (proj2 (proj2 Proper)) as M. apply Rdiv_lt_0_compat; nra. }
    rewrite vec_norm by lra. cbn [new_module m_wheelRadius m_wheelMaxTorque].
    replace (ch_mass ch * (ch_length ch * ch_length ch) / (ch_time ch * ch_time ch) * m_wheelMaxTorque md0 / (ch_length ch * m_wheelRadius md0))
      with (fo * (m_wheelMaxTorque md0 / m_wheelRadius md0)) by (unfold fo; field; lra).
    apply Rmult_le_compat_l; [lra|exact Q].
  Qed.
  Lemma wheels_real : forall d, real_wheels d -> real_wheels (new_drivetrain ch d).
  Proof.
    intros d RW md Hm. cbn [new_drivetrain d_modules] in Hm. apply in_map_iff in Hm. destruct Hm as (md0 & <- & Hm).
    destruct (RW md0 Hm) as (A & B & C). cbn [new_module m_wheelRadius m_wheelMaxAngularVelocity m_wheelMaxTorque].
    pose proof (proj2 (proj2 Proper)) as M. split; [apply Rmult_lt_0_compat; assumption|]. split.
    - apply Rmult_le_pos; [exact B|]. left. apply Rinv_0_lt_compat, T.
    - apply Rmult_le_pos; [|exact C]. left. apply Rdiv_lt_0_compat; repeat apply Rmult_lt_0_compat; assumption.
  Qed.
  Lemma step_new : forall d dt, step_within d dt -> step_within (new_drivetrain ch d) (ch_time ch * dt).
  Proof.
    intros d dt (D0 & D). split; [nra|]. intros md a b Hm Hab. cbn [new_drivetrain d_modules] in Hm, Hab.
    apply in_map_iff in Hm. destruct Hm as (md0 & <- & Hm). unfold consecutive in Hab.
    assert (E : tl (map (new_module ch) (d_modules d)) = map (new_module ch) (tl (d_modules d))) by (destruct (d_modules d); reflexivity).
    rewrite E, combine_maps in Hab. apply in_map_iff in Hab. destruct Hab as ((a0, b0) & Eq & Hab). cbn [fst snd] in Eq. injection Eq as <- <-.
    destruct (D md0 a0 b0 Hm Hab) as (D1 & D2).
    cbn [new_module m_translation m_wheelRadius m_wheelMaxAngularVelocity new_robot tX tY]. fold (sg ch).
    replace (ch_time ch * dt * (ch_length ch * m_wheelRadius md0) * (m_wheelMaxAngularVelocity md0 / ch_time ch))
      with (ch_length ch * (dt * m_wheelRadius md0 * m_wheelMaxAngularVelocity md0)) by (field; lra).
    assert (A : Rabs (sg ch) = 1) by (unfold sg; destruct (ch_mirror ch); [rewrite Rabs_left; lra|rewrite Rabs_right; lra]).
    split; intros N.
    - replace (ch_length ch * tX (m_translation a0) - ch_length ch * tX (m_translation b0))
        with (ch_length ch * (tX (m_translation a0) - tX (m_translation b0))) by ring.
      rewrite Rabs_mult, (Rabs_right (ch_length ch)) by lra. apply Rmult_le_compat_l; [lra|]. apply D1. intros E'. apply N. rewrite E'. reflexivity.
    - replace (ch_length ch * (sg ch * tY (m_translation a0)) - ch_length ch * (sg ch * tY (m_translation b0)))
        with (ch_length ch * (sg ch * (tY (m_translation a0) - tY (m_translation b0)))) by ring.
      rewrite !Rabs_mult, A, (Rabs_right (ch_length ch)), Rmult_1_l by lra. apply Rmult_le_compat_l; [lra|]. apply D2. intros E'. apply N. rewrite E'. reflexivity.
  Qed.

  (** ** Solutions *)
  Variables (N : list nat) (m : nat) (sol : solution R).
  Hypothesis Sh : well_shaped N m sol.
  Let new := new_solution ch sol.

  Lemma both_nth : forall (f : R * R -> R * R) xs ys i, length xs = S (last_sample N) -> length ys = S (last_sample N) ->
    (i <= last_sample N)%nat -> nth i (fst (both f xs ys)) 0 = fst (f (nth i xs 0, nth i ys 0)) /\
    nth i (snd (both f xs ys)) 0 = snd (f (nth i xs 0, nth i ys 0)).
  Proof.
    intros f xs ys i Lx Ly Hi. unfold both. cbn [fst snd].
    assert (Lc : (i < length (combine xs ys))%nat) by (rewrite combine_length; lia).
    split.
    - rewrite (nth_indep _ 0 (fst (f (0, 0)))) by (rewrite map_length; exact Lc).
      rewrite (map_nth (fun p => fst (f p))), List.combine_nth by congruence. reflexivity.
    - rewrite (nth_indep _ 0 (snd (f (0, 0)))) by (rewrite map_length; exact Lc).
      rewrite (map_nth (fun p => snd (f p))), List.combine_nth by congruence. reflexivity.
  Qed.
  Lemma scaled_nth : forall k xs i, nth i (map (fun x => k * x) xs) 0 = k * nth i xs 0.
  Proof. intros k xs i. rewrite <- (map_nth (fun x => k * x)), Rmult_0_r. reflexivity. Qed.

  Lemma sample_new : forall i, (i <= last_sample N)%nat -> at_sample new i = new_state ch (at_sample sol i).
  Proof.
    intros i Hi. destruct Sh as (S0 & S1 & S2 & S3 & S4 & S5 & S6 & S7 & S8 & S9 & S10 & _).
    unfold at_sample, new_state, new, new_solution. cbv zeta.
    cbn [s_x s_y s_thetacos s_thetasin s_vx s_vy s_omega s_ax s_ay s_alpha q_x q_y q_c q_s q_vx q_vy q_w q_ax q_ay q_al].
    fold (sg ch). rewrite !scaled_nth.
    destruct (both_nth (new_point ch) _ _ i S1 S2 Hi) as (-> & ->).
    destruct (both_nth (turned_vec ch) _ _ i S3 S4 Hi) as (-> & ->).
    destruct (both_nth (nv (ch_length ch / ch_time ch)) _ _ i S5 S6 Hi) as (-> & ->).
    destruct (both_nth (nv (ch_length ch / (ch_time ch * ch_time ch))) _ _ i S8 S9 Hi) as (-> & ->). reflexivity.
  Qed.
  Lemma step_to_new : forall i, step_to new i = ch_time ch * step_to sol i.
  Proof. intros i. unfold step_to, new, new_solution. cbv zeta. cbn [s_dt]. apply scaled_nth. Qed.
  Lemma combine_map2 : forall {A B C} (f : A -> B) (g : A -> C) l, combine (map f l) (map g l) = map (fun a => (f a, g a)) l.
  Proof. intros A B C f g. induction l as [|a l IH]; cbn [map combine]; [|rewrite IH]; reflexivity. Qed.
  Lemma forces_at_new : forall i, (i <= last_sample N)%nat -> forces new i = map (nv fo) (forces sol i).
  Proof.
    intros i Hi. destruct Sh as (_ & _ & _ & _ & _ & _ & _ & _ & _ & _ & _ & S11 & S12 & _).
    unfold forces, new, new_solution. cbv zeta. cbn [s_moduleFX s_moduleFY]. rewrite !map_map.
    set (f1 := fun r : list R * list R => fst (both (nv fo) (fst r) (snd r))).
    set (f2 := fun r : list R * list R => snd (both (nv fo) (fst r) (snd r))).
    change (combine (nth i (map f1 (combine (s_moduleFX sol) (s_moduleFY sol))) [])
      (nth i (map f2 (combine (s_moduleFX sol) (s_moduleFY sol))) []) =
      map (nv fo) (combine (nth i (s_moduleFX sol) []) (nth i (s_moduleFY sol) []))).
    rewrite (map_nth f1 _ ([], []) i : nth i (map f1 _) [] = _), (map_nth f2 _ ([], []) i : nth i (map f2 _) [] = _).
    rewrite List.combine_nth by congruence. unfold f1, f2, both. cbn [fst snd]. rewrite combine_map2.
    apply map_ext. intros p. destruct (nv fo p). reflexivity.
  Qed.

  Lemma physics_new : forall d, real_wheels d -> obeys_physics turns_up_to_half d N sol ->
    obeys_physics turns_up_to_half (new_drivetrain ch d) N new.
  Proof.
    intros d RW (P & Q). split.
    - intros i Hi. cbv zeta. rewrite !sample_new, step_to_new by lia. destruct (P i Hi) as (A & B & C & D).
      split; [apply step_new, A|]. split; [apply moves_new, B|]. split; [apply turns_new, C|apply accelerates_new, D].
    - intros i Hi. rewrite sample_new, forces_at_new by lia. destruct (Q i Hi) as (A & B & C).
      split; [apply newton_new, A|]. split; [apply wheels_new, B|apply forces_new; assumption].
  Qed.
  Lemma requests_new : forall aw tw aw' tw', (forall w, aw' w = map (new_constraint ch) (aw w)) -> (forall w, tw' w = map (new_constraint ch) (tw w)) ->
    (forall w c, In c (aw w) \/ In c (tw w) -> to_segment c -> ch_length ch = 1) ->
    meets_requests N sol aw tw -> meets_requests N new aw' tw'.
  Proof.
    intros aw tw aw' tw' Ea Et Ln (M1 & M2). split.
    - intros w c Hw Hc. rewrite Ea in Hc. apply in_map_iff in Hc. destruct Hc as (c0 & <- & Hc).
      rewrite sample_new by apply list_sum_firstn_le. apply demands_new; [apply (Ln w); left; exact Hc|apply M1; assumption].
    - intros w c i Hw Hc Hi. rewrite Et in Hc. apply in_map_iff in Hc. destruct Hc as (c0 & <- & Hc).
      assert (waypoint_sample N w <= last_sample N)%nat by apply list_sum_firstn_le.
      rewrite sample_new by lia. apply demands_new; [apply (Ln w); right; exact Hc|apply (M2 w); assumption].
  Qed.
  Lemma shape_new : well_shaped N m new.
  Proof.
    destruct Sh as (S0 & S1 & S2 & S3 & S4 & S5 & S6 & S7 & S8 & S9 & S10 & S11 & S12 & F1 & F2).
    unfold well_shaped, new, new_solution. cbv zeta.
    cbn [s_dt s_x s_y s_thetacos s_thetasin s_vx s_vy s_omega s_ax s_ay s_alpha s_moduleFX s_moduleFY]. unfold both. cbn [fst snd].
    repeat (rewrite map_length || rewrite combine_length).
    repeat (split; [lia|]). rewrite Forall_forall in F1, F2.
    split; apply Forall_forall; intros r Hr; rewrite map_map in Hr; apply in_map_iff in Hr; destruct Hr as ((r1, r2) & <- & Hr);
      cbn [fst snd]; rewrite map_length, combine_length; pose proof (F1 _ (in_combine_l _ _ _ _ Hr)); pose proof (F2 _ (in_combine_r _ _ _ _ Hr)); lia.
  Qed.
  Lemma uniform_new : uniform_steps N sol -> uniform_steps N new.
  Proof. intros U s k Hs Hk. rewrite !step_to_new. f_equal. apply U; assumption. Qed.
End State.

(** ** The change back *)
Definition back_change (ch : change) : change :=
  let c := cos (ch_angle ch) in let s := sin (ch_angle ch) in
  mkChange (ch_mirror ch) (- (sg ch * ch_angle ch))
    (- ((ch_dx ch * c + ch_dy ch * s) / ch_length ch)) (- (sg ch * (ch_dy ch * c - ch_dx ch * s) / ch_length ch))
    (/ ch_length ch) (/ ch_time ch) (/ ch_mass ch).

Section Back.
  Variable ch : change.
  Hypothesis Proper : proper_change ch.
  Let L := proj1 Proper : 0 < ch_length ch.
  Let T := proj1 (proj2 Proper) : 0 < ch_time ch.
  Let M := proj2 (proj2 Proper) : 0 < ch_mass ch.
  Let bk := back_change ch.

  Lemma back_proper : proper_change bk.
  Proof. split; [|split]; apply Rinv_0_lt_compat; assumption. Qed.
  Lemma back_sg : sg bk = sg ch.
  Proof. reflexivity. Qed.
  Lemma back_trig : cos (ch_angle bk) = cos (ch_angle ch) /\ sin (ch_angle bk) = - (sg ch * sin (ch_angle ch)).
  Proof.
    cbn [bk back_change ch_angle]. rewrite cos_neg, sin_neg. unfold sg. destruct (ch_mirror ch).
    - replace (-1 * ch_angle ch) with (- ch_angle ch) by ring. rewrite cos_neg, sin_neg. split; ring.
    - rewrite !Rmult_1_l. split; reflexivity.
  Qed.
  Lemma turned_back : forall p, turned_vec bk (turned_vec ch p) = p.
  Proof.
    intros (a, b). destruct back_trig as (C & S). unfold turned_vec. cbn [fst snd]. fold (sg ch). fold (sg bk). rewrite back_sg, C, S.
    pose proof (sg_sqr ch) as Q. pose proof (trig_sqr (ch_angle ch)) as P.
    set (s := sg ch) in *. set (co := cos (ch_angle ch)) in *. set (si := sin (ch_angle ch)) in *. f_equal.
    - transitivity (a * (co * co + (s * s) * (si * si)) + b * s * ((s * s) - 1) * co * si); [ring|]. rewrite Q, Rmult_1_l, P. ring.
    - transitivity ((s * s) * b * (si * si + co * co)); [ring|]. rewrite Q. replace (si * si + co * co) with 1 by lra. ring.
  Qed.
  Lemma vec_back : forall k k' p, new_vec bk k' (new_vec ch k p) = (k' * k * fst p, k' * k * snd p).
  Proof.
    intros k k' p. unfold new_vec.
    assert (E : turned_vec bk (k * fst (turned_vec ch p), k * snd (turned_vec ch p)) = (k * fst p, k * snd p)).
    { pose proof (turned_back p) as E. destruct (turned_vec ch p) as (u, v). cbn [fst snd].
      unfold turned_vec in E |- *. cbn [fst snd] in E |- *. rewrite <- E. cbn [fst snd]. f_equal; ring. }
    rewrite E. cbn [fst snd]. f_equal; ring.
  Qed.
  Lemma point_back : forall p, new_point bk (new_point ch p) = p.
  Proof.
    intros p. unfold new_point.
    assert (A : forall u v a b, new_vec bk (/ ch_length ch) (u + a, v + b) =
      (fst (new_vec bk (/ ch_length ch) (u, v)) + fst (new_vec bk (/ ch_length ch) (a, b)),
       snd (new_vec bk (/ ch_length ch) (u, v)) + snd (new_vec bk (/ ch_length ch) (a, b)))).
    { intros. unfold new_vec, turned_vec. cbn [fst snd]. f_equal; ring. }
    change (ch_length bk) with (/ ch_length ch). rewrite A. rewrite <- surjective_pairing, vec_back. cbn [fst snd].
    destruct back_trig as (C & S). unfold new_vec, turned_vec. cbn [fst snd]. fold (sg bk). rewrite back_sg, C, S.
    cbn [bk back_change ch_dx ch_dy]. pose proof (sg_sqr ch) as Q.
    destruct p as (a, b). cbn [fst snd]. f_equal.
    - transitivity (a + (sg ch * sg ch - 1) * (ch_dy ch * sin (ch_angle ch)) / ch_length ch); [field; lra|]. rewrite Q. field. lra.
    - field. lra.
  Qed.
  Lemma field_back : forall p, new_field bk (new_field ch p) = p.
  Proof.
    intros (a, b). unfold new_field. assert (E := point_back (a, b)). unfold pt. cbn [tX tY]. rewrite <- surjective_pairing, E. reflexivity.
  Qed.
  Lemma robot_back : forall p, new_robot bk (new_robot ch p) = p.
  Proof.
    intros (a, b). unfold new_robot. cbn [tX tY]. fold (sg ch). fold (sg bk). rewrite back_sg. change (ch_length bk) with (/ ch_length ch). pose proof (sg_sqr ch) as Q.
    f_equal; [field; lra|]. transitivity ((sg ch * sg ch) * b); [field; lra|rewrite Q; ring].
  Qed.
  Lemma rot_back : forall r, new_rot bk (new_rot ch r) = r.
  Proof.
    intros (c, s). unfold new_rot. cbn [rCos rSin]. rewrite <- surjective_pairing, turned_back. reflexivity.
  Qed.
  Lemma constraint_back : forall c, new_constraint bk (new_constraint ch c) = c.
  Proof.
    intros c. destruct c; cbn [new_constraint]; rewrite ?field_back, ?robot_back, ?rot_back;
      change (ch_length bk) with (/ ch_length ch); change (ch_time bk) with (/ ch_time ch); try (f_equal; field; lra); try reflexivity.
    destruct pose as [tr ro]. unfold new_pose. cbn [pTr pRot]. rewrite field_back, rot_back. reflexivity.
  Qed.
  Lemma drivetrain_back : forall d, new_drivetrain bk (new_drivetrain ch d) = d.
  Proof.
    intros [ma mo ms]. unfold new_drivetrain. cbn [d_mass d_moi d_modules].
    change (ch_length bk) with (/ ch_length ch). change (ch_mass bk) with (/ ch_mass ch).
    f_equal; [field; lra|field; lra|]. rewrite map_map. rewrite <- (map_id ms) at 2. apply map_ext. intros [tr r w q].
    unfold new_module. cbn [m_translation m_wheelRadius m_wheelMaxAngularVelocity m_wheelMaxTorque]. rewrite robot_back.
    change (ch_length bk) with (/ ch_length ch). change (ch_time bk) with (/ ch_time ch). change (ch_mass bk) with (/ ch_mass ch).
    f_equal; field; lra.
  Qed.
  Lemma back_back : back_change bk = ch.
  Proof.
    destruct back_trig as (C & S). unfold back_change at 1. rewrite back_sg, C, S. cbn [bk back_change ch_mirror ch_angle ch_dx ch_dy ch_length ch_time ch_mass].
    pose proof (sg_sqr ch) as Q. pose proof (trig_sqr (ch_angle ch)) as P.
    set (s := sg ch) in *. set (co := cos (ch_angle ch)) in *. set (si := sin (ch_angle ch)) in *.
    destruct ch as [mi an dx dy le ti ma]. cbn [ch_mirror ch_angle ch_dx ch_dy ch_length ch_time ch_mass] in *. f_equal; try (apply Rinv_inv).
    - transitivity ((s * s) * an); [ring|rewrite Q; ring].
    - transitivity ((dx * co + dy * si) * co - (s * s) * ((dy * co - dx * si) * si)); [field; lra|]. rewrite Q.
      transitivity (dx * (co * co + si * si)); [ring|rewrite P; ring].
    - transitivity ((s * s) * ((dy * co - dx * si) * co) + (s * s) * ((dx * co + dy * si) * si)); [field; lra|]. rewrite Q.
      transitivity (dy * (co * co + si * si)); [ring|rewrite P; ring].
  Qed.

  Lemma both_back : forall f g xs ys, (forall p, g (f p) = p) -> length xs = length ys ->
    both g (fst (both f xs ys)) (snd (both f xs ys)) = (xs, ys).
  Proof.
    intros f g. unfold both. cbn [fst snd]. induction xs as [|x xs IH]; intros [|y ys] E Le; try discriminate; [reflexivity|].
    cbn [combine map fst snd]. injection Le as Le. specialize (IH ys E Le). injection IH as I1 I2.
    rewrite <- surjective_pairing, E. cbn [fst snd]. f_equal; f_equal; assumption.
  Qed.
  Lemma solution_back : forall N m sol, well_shaped N m sol -> new_solution bk (new_solution ch sol) = sol.
  Proof.
    intros N m sol (S0 & S1 & S2 & S3 & S4 & S5 & S6 & S7 & S8 & S9 & S10 & S11 & S12 & F1 & F2).
    unfold new_solution at 1. cbv zeta. change (ch_length bk) with (/ ch_length ch). change (ch_time bk) with (/ ch_time ch). change (ch_mass bk) with (/ ch_mass ch).
    unfold new_solution. cbv zeta. cbn [s_dt s_x s_y s_thetacos s_thetasin s_vx s_vy s_omega s_ax s_ay s_alpha s_moduleFX s_moduleFY].
    fold (sg ch). fold (sg bk). rewrite back_sg. pose proof (sg_sqr ch) as Q.
    assert (V : forall k k', k' * k = 1 -> forall p, new_vec bk k' (new_vec ch k p) = p).
    { intros k k' E p. rewrite vec_back, E, !Rmult_1_l. destruct p; reflexivity. }
    assert (I : forall k k' l, k' * k = 1 -> map (fun x => k' * x) (map (fun x => k * x) l) = l).
    { intros k k' l E. rewrite map_map, <- (map_id l) at 1. rewrite map_map. rewrite <- (map_id l) at 2. apply map_ext. intros a. rewrite <- Rmult_assoc, E. ring. }
    rewrite (both_back (new_point ch)) by (first [apply point_back|congruence]).
    rewrite (both_back (turned_vec ch)) by (first [apply turned_back|congruence]).
    rewrite !(both_back (new_vec ch _)) by (first [congruence | apply V; field; lra]).
    rewrite !I by (try (transitivity (sg ch * sg ch); [field; lra|exact Q]); field; lra).
    cbn [fst snd].
    set (g := fun r : list R * list R => both (new_vec bk (/ ch_mass ch * / ch_length ch / (/ ch_time ch * / ch_time ch))) (fst r) (snd r)).
    set (f := fun r : list R * list R => both (new_vec ch (ch_mass ch * ch_length ch / (ch_time ch * ch_time ch))) (fst r) (snd r)).
    assert (E : forall a b, length a = length b -> Forall (fun r => length r = m) a -> Forall (fun r => length r = m) b ->
      map fst (map g (combine (map fst (map f (combine a b))) (map snd (map f (combine a b))))) = a /\
      map snd (map g (combine (map fst (map f (combine a b))) (map snd (map f (combine a b))))) = b).
    { induction a as [|x a IH]; intros [|y b] Le A B; try discriminate; [split; reflexivity|].
      injection Le as Le. inversion A as [|x' a' A1 A2]; subst x' a'. inversion B as [|y' b' B1 B2]; subst y' b'.
      cbn [combine map]. destruct (IH b Le A2 B2) as (E1 & E2). rewrite E1, E2.
      assert (X : g (fst (f (x, y)), snd (f (x, y))) = (x, y)).
      { unfold f, g. cbn [fst snd]. apply both_back; [apply V; field; lra|congruence]. }
      rewrite X. split; reflexivity. }
    destruct (E _ _ (eq_trans S11 (eq_sym S12)) F1 F2) as (E1 & E2). rewrite E1, E2. destruct sol; reflexivity.
  Qed.
End Back.

(** ** Histories *)
Lemma proper_new : forall ch c, proper_constraint c -> proper_constraint (new_constraint ch c).
Proof.
  intros ch c P. destruct c; cbn [new_constraint proper_constraint] in *; try exact I;
    unfold unit_rot in *; cbn [new_pose pRot new_rot rCos rSin] in *; rewrite turned_dot; exact P.
Qed.
Lemma good_new : forall ch asserts h, proper_change ch -> good_history asserts h -> good_history asserts (map (new_call ch) h).
Proof.
  intros ch asserts h P (A & B & C). split; [|split].
  - rewrite Forall_forall in *. intros o Ho. apply in_map_iff in Ho. destruct Ho as (o0 & <- & Ho). specialize (A o0 Ho).
    destruct o0; cbn [new_call proper_call new_bumpers new_obstacle o_points] in *; rewrite ?map_length; exact A.
  - rewrite Forall_forall in *. intros o Ho. apply in_map_iff in Ho. destruct Ho as (o0 & <- & Ho). specialize (B o0 Ho).
    destruct o0; cbn [new_call proper_request] in *; try exact I; apply proper_new, B.
  - apply (sim_run ch P asserts h new_builder new_builder); [split; reflexivity|exact C].
Qed.
Lemma counts_new : forall ch asserts h, proper_change ch -> counts asserts (map (new_call ch) h) = counts asserts h.
Proof. intros ch asserts h P. apply (sim_c _ _ _ (sim_path ch P asserts h)). Qed.
Lemma generator_new : forall ch asserts h handle d g handle', proper_change ch -> generator asserts h handle d g ->
  exists g', generator asserts (map (new_call ch) h) handle' (new_drivetrain ch d) g'.
Proof.
  intros ch asserts h handle d g handle' P (C & D). pose proof (sim_path ch P asserts h) as S.
  destruct (main_cons (path asserts h) handle g d (path_inv asserts h) C D) as (_ & Le & _).
  assert (D' : b_drivetrain (path asserts (map (new_call ch) h)) = Some (new_drivetrain ch d)) by (rewrite (sim_d _ _ _ S), D; reflexivity).
  destruct (construct_ok (path asserts (map (new_call ch) h)) handle' (new_drivetrain ch d)) as (p & E & _).
  - apply path_inv.
  - unfold waypoint_count in *. rewrite (sim_c _ _ _ S), (sim_w _ _ _ S), map_length. exact Le.
  - exact D'.
  - eexists. split; [exact E|exact D'].
Qed.

(** One direction, between any two problems that correspond. *)
Lemma carried : forall ch asserts asserts' h h' handle handle' d g g', proper_change ch ->
  generator asserts h handle d g -> generator asserts' h' handle' (new_drivetrain ch d) g' ->
  real_wheels d -> (forall n, In n (counts asserts h) -> (1 <= n)%nat) -> counts asserts' h' = counts asserts h ->
  (forall w, constraints_at (path asserts' h') w = map (new_constraint ch) (constraints_at (path asserts h) w)) ->
  (forall w, segment_constraints_to (path asserts' h') w = map (new_constraint ch) (segment_constraints_to (path asserts h) w)) ->
  (forall w c, In c (constraints_at (path asserts h) w) \/ In c (segment_constraints_to (path asserts h) w) -> proper_constraint c) ->
  (forall w c, In c (constraints_at (path asserts h) w) \/ In c (segment_constraints_to (path asserts h) w) -> to_segment c -> ch_length ch = 1) ->
  forall sol, solved g sol -> solved g' (new_solution ch sol).
Proof.
  intros ch asserts asserts' h h' handle handle' d g g' P G G' W Pos Ec Ea Et Pr Ln sol (env & F & E).
  assert (Sh : well_shaped (counts asserts h) (length (d_modules d)) sol).
  { destruct (C25_proof asserts h handle d g env G) as (s & E' & Sh). rewrite E in E'. injection E' as <-. exact Sh. }
  pose proof (uniform_read asserts h handle d g env sol G E) as U.
  apply (C15_recorded_proof asserts h handle d g G W Pos Pr env sol E) in F. destruct F as (Ph & Rq).
  destruct (C15_complete_proof asserts' h' handle' (new_drivetrain ch d) g' G' (new_solution ch sol)) as (env' & E').
  - rewrite Ec. cbn [new_drivetrain d_modules]. rewrite map_length. apply shape_new; assumption.
  - rewrite Ec. apply uniform_new; assumption.
  - exists env'. split; [|exact E'].
    apply (C15_recorded_proof asserts' h' handle' (new_drivetrain ch d) g' G') with (sol := new_solution ch sol); [| | |exact E'|].
    + apply wheels_real; assumption.
    + rewrite Ec. exact Pos.
    + intros w c. rewrite Ea, Et, !in_map_iff. intros [(c0 & <- & Hc)|(c0 & <- & Hc)]; apply proper_new, (Pr w); auto.
    + rewrite Ec. split; [eapply physics_new; eassumption|].
      eapply requests_new; [exact P|exact Sh|exact Ea|exact Et|exact Ln|exact Rq].
Qed.

(** Both directions for a history and its translation. *)
Lemma symmetric : forall ch asserts h handle handle' d g g', proper_change ch -> good_history asserts h ->
  generator asserts h handle d g -> generator asserts (map (new_call ch) h) handle' (new_drivetrain ch d) g' ->
  real_wheels d -> (forall n, In n (counts asserts h) -> (1 <= n)%nat) ->
  (forall w c, In c (wpt_requests [] h w) \/ In c (sgmt_requests [] h w) -> to_segment c -> ch_length ch = 1) ->
  (forall sol, solved g sol -> solved g' (new_solution ch sol)) /\
  (forall sol', solved g' sol' -> exists sol, solved g sol /\ sol' = new_solution ch sol).
Proof.
  intros ch asserts h handle handle' d g g' P Gd G G' W Pos Ln.
  assert (At := sim_at ch _ _ (sim_path ch P asserts h)). pose proof (good_proper asserts h Gd) as Pr.
  assert (Ln' : forall w c, In c (constraints_at (path asserts h) w) \/ In c (segment_constraints_to (path asserts h) w) -> to_segment c -> ch_length ch = 1).
  { intros w c. destruct (good_recorded asserts h Gd w) as (E1 & E2). rewrite E1, E2. apply Ln. }
  pose proof (counts_new ch asserts h P) as Ec.
  split.
  - apply (carried ch asserts asserts h (map (new_call ch) h) handle handle' d g g' P G G' W Pos Ec); try assumption; intros w; apply At.
  - intros sol' Sv. exists (new_solution (back_change ch) sol').
    assert (Sh : well_shaped (counts asserts h) (length (d_modules (new_drivetrain ch d))) sol').
    { destruct Sv as (env & _ & E). destruct (C25_proof asserts _ handle' _ g' env G') as (s & E' & Sh). rewrite E in E'. injection E' as <-.
      rewrite Ec in Sh. exact Sh. }
    assert (Pb : proper_change (back_change ch)) by (apply back_proper; exact P).
    assert (Inv : new_solution ch (new_solution (back_change ch) sol') = sol').
    { pose proof (solution_back (back_change ch) Pb _ _ _ Sh) as Q. rewrite (back_back ch P) in Q. exact Q. }
    split; [|symmetry; exact Inv].
    assert (Lb : forall l, map (new_constraint (back_change ch)) (map (new_constraint ch) l) = l).
    { intros l. rewrite map_map. rewrite <- (map_id l) at 2. apply map_ext. intros c. apply constraint_back, P. }
    apply (carried (back_change ch) asserts asserts (map (new_call ch) h) h handle' handle (new_drivetrain ch d) g' g Pb G').
    + rewrite drivetrain_back by exact P. exact G.
    + apply wheels_real; assumption.
    + rewrite Ec. exact Pos.
    + symmetry. exact Ec.
    + intros w. rewrite (proj1 (At w)), Lb. reflexivity.
    + intros w. rewrite (proj2 (At w)), Lb. reflexivity.
    + intros w c. rewrite (proj1 (At w)), (proj2 (At w)), !in_map_iff. intros [(c0 & <- & Hc)|(c0 & <- & Hc)]; apply proper_new, (Pr w); auto.
    + intros w c. rewrite (proj1 (At w)), (proj2 (At w)), !in_map_iff. intros Hc Lc.
      assert (X : exists c0, c = new_constraint ch c0 /\ (In c0 (constraints_at (path asserts h) w) \/ In c0 (segment_constraints_to (path asserts h) w))).
      { destruct Hc as [(c0 & E & Hc)|(c0 & E & Hc)]; exists c0; auto. }
      destruct X as (c0 & -> & Hc0). assert (Lc0 : to_segment c0) by (destruct c0; try exact I; exact Lc).
      cbn [back_change ch_length]. rewrite (Ln' w c0 Hc0 Lc0). apply Rinv_1.
    + exact Sv.
Qed.

Lemma rigid_proper : forall ch, rigid ch -> proper_change ch.
Proof. intros ch (A & B & C). unfold proper_change. rewrite A, B, C. lra. Qed.

Lemma C89_proof : forall ch asserts h handle d g, rigid ch -> good_history asserts h ->
  generator asserts h handle d g -> real_wheels d -> (forall n, In n (counts asserts h) -> (1 <= n)%nat) ->
  exists g', good_history asserts (map (new_call ch) h) /\
    generator asserts (map (new_call ch) h) handle (new_drivetrain ch d) g' /\
    (forall sol, solved g sol -> solved g' (new_solution ch sol)) /\
    (forall sol', solved g' sol' -> exists sol, solved g sol /\ sol' = new_solution ch sol) /\
    (forall sol, s_dt (new_solution ch sol) = s_dt sol).
Proof.
  intros ch asserts h handle d g Rg Gd G W Pos. pose proof (rigid_proper ch Rg) as P.
  destruct (generator_new ch asserts h handle d g handle P G) as (g' & G'). exists g'.
  split; [apply good_new; assumption|]. split; [exact G'|].
  destruct (symmetric ch asserts h handle handle d g g' P Gd G G' W Pos) as (A & B).
  { intros w c _ _. apply Rg. }
  split; [exact A|]. split; [exact B|]. intros sol. unfold new_solution. cbv zeta. cbn [s_dt]. destruct Rg as (_ & -> & _).
  rewrite <- (map_id (s_dt sol)) at 2. apply map_ext. intros. ring.
Qed.

Lemma C90_partial_proof : forall ch asserts h handle d g, proper_change ch -> good_history asserts h ->
  generator asserts h handle d g -> real_wheels d -> (forall n, In n (counts asserts h) -> (1 <= n)%nat) ->
  ch_length ch = 1 \/ (forall w c, In c (wpt_requests [] h w) \/ In c (sgmt_requests [] h w) -> ~ to_segment c) ->
  exists g', good_history asserts (map (new_call ch) h) /\
    generator asserts (map (new_call ch) h) handle (new_drivetrain ch d) g' /\
    (forall sol, solved g sol -> solved g' (new_solution ch sol)) /\
    (forall sol', solved g' sol' -> exists sol, solved g sol /\ sol' = new_solution ch sol).
Proof.
  intros ch asserts h handle d g P Gd G W Pos Ln.
  destruct (generator_new ch asserts h handle d g handle P G) as (g' & G'). exists g'.
  split; [apply good_new; assumption|]. split; [exact G'|].
  apply (symmetric ch asserts h handle handle d g g' P Gd G G' W Pos).
  intros w c Hc Lc. destruct Ln as [E|N]; [exact E|destruct (N w c Hc Lc)].
Qed.

(** ** Cases *)
(** A quarter turn, mirrored and shifted. *)
Definition other_side : change := mkChange true (PI / 2) 16 8 1 1 1.
(** Centimetres, milliseconds and grams. *)
Definition small_units : change := mkChange false 0 0 0 100 1000 1000.
(** Another unit of length only. *)
Definition other_length : change := mkChange false 0 0 0 (1/4) 1 1.

(** The ride past a wall four metres away, with a requested distance of 16. *)
Definition wall : constraint R := PointLine (mkTr 0 0) (mkTr 0 4) (mkTr 1 4) 16.
Definition fenced : list (op R) := ride ++ [OWptConstraint 0 wall].
Lemma fenced_good : good_history true fenced.
Proof.
  split; [repeat constructor|]. split.
  - repeat constructor; simpl; try exact I; unfold unit_rot; simpl.
  - repeat split; reflexivity.
Qed.
Lemma fenced_generator : exists g, generator true fenced 7 cart g.
Proof. apply generator_exists; [|reflexivity]. apply Nat.ltb_lt. reflexivity. Qed.
Lemma fenced_counts : counts true fenced = [2%nat].
Proof. reflexivity. Qed.
Lemma wpt_last : forall h b (c : constraint R) w, wpt_requests b (h ++ [OWptConstraint 0 c]) w = wpt_requests b h w ++ (if (w =? 0)%nat then [c] else []).
Proof.
  induction h as [|o h IH]; intros b c w; cbn [app wpt_requests].
  - cbn [wpt_request]. rewrite app_nil_r. reflexivity.
  - rewrite IH, app_assoc. reflexivity.
Qed.
Lemma sgmt_last : forall h b (c : constraint R) w, sgmt_requests b (h ++ [OWptConstraint 0 c]) w = sgmt_requests b h w.
Proof.
  induction h as [|o h IH]; intros b c w; cbn [app sgmt_requests]; [reflexivity|]. rewrite IH. reflexivity.
Qed.
Lemma fenced_solved : forall g, generator true fenced 7 cart g -> solved g ride_solution.
Proof.
  intros g G. assert (C : counts true fenced = [2%nat]) by reflexivity.
  apply (C15_accepts_proof true fenced 7 cart g fenced_good G cart_wheels); rewrite ?C;
    try apply ride_shaped; try apply ride_headings; try apply ride_physics.
  - intros n [<-|[]]. lia.
  - destruct ride_requests as (A & B). split.
    + intros w c Hw Hc. unfold fenced in Hc. rewrite wpt_last in Hc. apply in_app_or in Hc. destruct Hc as [Hc|Hc]; [apply A; assumption|].
      destruct (Nat.eqb_spec w 0) as [->|]; [|destruct Hc]. destruct Hc as [<-|[]]. cbn [demands wall]. split.
      * intros E. injection E as E. lra.
      * intros p (t & Ht & ->). unfold along, pt, placed, dist2, waypoint_sample. cbn. rewrite (Rabs_right 16) by lra.
        apply sqrt_le_1_alt. nra.
    + intros w c i Hw Hc Hi. unfold fenced in Hc. rewrite sgmt_last in Hc. apply (B w); assumption.
Qed.
Lemma C90_refuted_proof : ~ (forall ch asserts h handle d g g', proper_change ch -> good_history asserts h ->
  generator asserts h handle d g -> generator asserts (map (new_call ch) h) handle (new_drivetrain ch d) g' ->
  real_wheels d -> (forall n, In n (counts asserts h) -> (1 <= n)%nat) ->
  forall sol, solved g sol -> solved g' (new_solution ch sol)).
Proof.
  intros H. destruct fenced_generator as (g & G).
  assert (P : proper_change other_length) by (unfold proper_change; cbn; lra).
  destruct (generator_new other_length true fenced 7 cart g 7 P G) as (g' & G').
  assert (Sv := H other_length true fenced 7%Z cart g g' P fenced_good G G' cart_wheels).
  assert (Q : solved g' (new_solution other_length ride_solution)).
  { apply Sv; [rewrite fenced_counts; intros n [<-|[]]; lia|]. apply fenced_solved, G. }
  clear H Sv. pose proof (good_new other_length true fenced P fenced_good) as Gd.
  destruct (solved_requests true _ 7 _ g' _ Gd G' Q) as (A & _).
  specialize (A 0%nat (new_constraint other_length wall)). 
  assert (D : demands (at_sample (new_solution other_length ride_solution) 0) (new_constraint other_length wall)).
  { apply A; [apply Nat.le_0_l|]. unfold fenced. rewrite map_app. cbn [map new_call]. rewrite wpt_last. apply in_or_app. right. left. reflexivity. }
  clear A. rewrite (sample_new other_length [2%nat] 2) in D; [|apply ride_shaped|cbn; lia].
  cbn [wall new_constraint demands] in D. destruct D as (_ & D).
  rewrite (placed_new other_length), !pt_new in D. specialize (D (new_point other_length (0, 4))).
  assert (S : 0 <= 0 <= 1) by lra.
  assert (D' : sqrt (Rabs (ch_length other_length * 16)) <= dist2 (new_point other_length (0, 4)) (new_point other_length (placed (at_sample ride_solution 0) (mkTr 0 0)))).
  { apply D. exists 0. split; [exact S|]. unfold along. cbn [fst snd]. rewrite !Rmult_0_l, !Rplus_0_r. apply surjective_pairing. }
  rewrite (point_dist other_length P) in D'. cbn [other_length ch_length] in D'.
  rewrite (Rabs_right (1 / 4 * 16)) in D' by lra. replace (1 / 4 * 16) with (2 * 2) in D' by lra. rewrite sqrt_square in D' by lra.
  unfold dist2, placed in D'. cbn in D'.
  match type of D' with _ <= _ * sqrt ?x => replace x with (4 * 4) in D' by ring end.
  rewrite sqrt_square in D' by lra. lra.
Qed.

Lemma C89_case_proof : exists g, rigid other_side /\ good_history true ride /\ generator true ride 7 cart g /\
  real_wheels cart /\ (forall n, In n (counts true ride) -> (1 <= n)%nat) /\ solved g ride_solution /\
  In (OPoseWpt 1 1 0 1) ride /\ new_call other_side (OPoseWpt 1 1 0 1) = OPoseWpt 1 16 9 (PI / 2 - 1) /\
  q_x (at_sample (new_solution other_side ride_solution) 2) = 16 /\ q_y (at_sample (new_solution other_side ride_solution) 2) = 9.
Proof.
  destruct (ride_case true) as (g & Gd & G & W & Pos & S). exists g.
  split; [repeat split; reflexivity|]. split; [exact Gd|]. split; [exact G|]. split; [exact W|]. split; [exact Pos|]. split; [exact S|].
  split; [right; right; left; reflexivity|].
  assert (E : new_point other_side (1, 0) = (16, 9)).
  { unfold new_point, new_vec, turned_vec. cbn [fst snd other_side ch_dx ch_dy ch_length ch_angle ch_mirror]. rewrite cos_PI2, sin_PI2. f_equal; ring. }
  split; [cbn [new_call]; rewrite E; cbn [fst snd]; f_equal; unfold new_angle, other_side; cbn [ch_angle ch_mirror]; ring|].
  rewrite (sample_new other_side [2%nat] 2) by (try apply ride_shaped; cbn; lia).
  assert (P : (q_x (at_sample ride_solution 2), q_y (at_sample ride_solution 2)) = (1, 0)) by reflexivity.
  unfold new_state. cbv zeta. rewrite P, E. split; reflexivity.
Qed.
Lemma ride_wpts : forall w c, In c (wpt_requests [] ride w) \/ In c (sgmt_requests [] ride w) -> ~ to_segment c.
Proof.
  intros w c H. destruct w as [|[|w]]; cbn in H; repeat (destruct H as [H|H]); try contradiction; subst c; cbn; auto.
Qed.
Lemma C90_case_proof : exists g, proper_change small_units /\ good_history true ride /\ generator true ride 7 cart g /\
  real_wheels cart /\ (forall n, In n (counts true ride) -> (1 <= n)%nat) /\
  (forall w c, In c (wpt_requests [] ride w) \/ In c (sgmt_requests [] ride w) -> ~ to_segment c) /\ solved g ride_solution /\
  s_dt (new_solution small_units ride_solution) = [1000 * (1/2); 1000 * (1/2)] /\
  q_x (at_sample (new_solution small_units ride_solution) 2) = 100.
Proof.
  destruct (ride_case true) as (g & Gd & G & W & Pos & S). exists g.
  split; [unfold proper_change; cbn; lra|]. split; [exact Gd|]. split; [exact G|]. split; [exact W|]. split; [exact Pos|].
  split; [exact ride_wpts|]. split; [exact S|]. split; [reflexivity|].
  rewrite (sample_new small_units [2%nat] 2) by (try apply ride_shaped; cbn; lia).
  assert (P : (q_x (at_sample ride_solution 2), q_y (at_sample ride_solution 2)) = (1, 0)) by reflexivity.
  unfold new_state. cbv zeta. rewrite P. cbn [q_x]. unfold new_point, new_vec, turned_vec. cbn [fst snd small_units ch_dx ch_length ch_angle ch_mirror].
  rewrite cos_0, sin_0. ring.
Qed.
