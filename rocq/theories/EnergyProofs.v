(** Energy balance, slower trajectories and reached limits (C104, C105). *)
From Coq Require Import List Lia Lra Reals Classical.
Import ListNotations.
From Verif Require Import Outcome Num NumR Geometry Constraints Builder Generator Spec SpecBuilder SpecPhysics SpecTrajectory
  SpecGenerator SpecStep SpecEnergy SpecChange Semantics SolutionProofs LimitProofs StepProofs HardwareProofs PartsProofs GeneratorCases.
Open Scope R_scope.

(** ** Energy *)
Lemma power_newton : forall ms q fs, length fs = length ms ->
  sum (map (fun mf => dot2 (snd mf) (ground_velocity q (m_translation (fst mf)))) (combine ms fs)) =
  sum (map fst fs) * q_vx q + sum (map snd fs) * q_vy q +
  sum (map (fun mf => cross2 (turned q (m_translation (fst mf))) (snd mf)) (combine ms fs)) * q_w q.
Proof.
  intros ms q. induction ms as [|m ms IH]; intros [|f fs] L; try discriminate; cbn [combine map sum fst snd]; [ring|].
  rewrite IH by (injection L; auto). unfold dot2, ground_velocity, cross2. cbn [fst snd]. ring.
Qed.

Lemma C104_balance_proof : forall asserts h handle d g sol, generator asserts h handle d g -> solved g sol -> real_wheels d ->
  forall i, (1 <= i <= last_sample (counts asserts h))%nat ->
  let a := at_sample sol (i - 1) in let b := at_sample sol i in
  kinetic_energy d b + jump_energy d a b = kinetic_energy d a + step_to sol i * power d b (forces sol i).
Proof.
  intros asserts h handle d g sol G Sv W i Hi a b.
  destruct (solved_physics asserts h handle d g sol G Sv W) as [P1 P2].
  destruct (P1 i Hi) as (_ & _ & _ & A1 & A2 & A3). destruct (P2 i ltac:(lia)) as ((N1 & N2 & N3) & _ & _).
  pose proof (forces_length _ _ sol i (solved_shape asserts h handle d g sol G Sv) ltac:(lia)) as L.
  unfold a, b. clear a b. revert A1 A2 A3 N1 N2 N3. generalize (at_sample sol (i - 1)), (at_sample sol i), (step_to sol i).
  intros a b t A1 A2 A3 N1 N2 N3. unfold power. rewrite (power_newton _ _ _ L), N1, N2, N3.
  unfold kinetic_energy, jump_energy. rewrite A1, A2, A3. field.
Qed.

Lemma dot_bound : forall f v, dot2 f v <= norm2 f * norm2 v.
Proof.
  intros f v. pose proof (cross_bound (snd v, - fst v) f) as B.
  replace (cross2 (snd v, - fst v) f) with (dot2 f v) in B by (unfold dot2, cross2; cbn [fst snd]; ring).
  replace (norm2 (snd v, - fst v)) with (norm2 v) in B by (unfold norm2; cbn [fst snd]; f_equal; ring).
  pose proof (Rle_abs (dot2 f v)). lra.
Qed.
Lemma C104_power_proof : forall asserts h handle d g sol, generator asserts h handle d g -> solved g sol -> real_wheels d ->
  forall i, (i <= last_sample (counts asserts h))%nat -> unit_heading (at_sample sol i) ->
  power d (at_sample sol i) (forces sol i) <= full_power d.
Proof.
  intros asserts h handle d g sol G Sv W i Hi U.
  destruct (solved_physics asserts h handle d g sol G Sv W) as [_ P]. destruct (P i Hi) as (_ & Wh & Fo).
  pose proof (forces_length _ _ sol i (solved_shape asserts h handle d g sol G Sv) Hi) as L.
  unfold power, full_power. rewrite <- (combine_fst _ (d_modules d) (forces sol i)) by (symmetry; exact L).
  apply sum_le_map. intros [md f] Hin. cbn [fst snd]. pose proof (in_combine_l _ _ _ _ Hin) as Hm.
  destruct (W md Hm) as (R1 & R2 & R3). specialize (Wh md Hm). specialize (Fo md f Hin).
  rewrite wheel_ground_norm in Wh by exact U. eapply Rle_trans; [apply dot_bound|].
  replace (m_wheelMaxTorque md * m_wheelMaxAngularVelocity md) with
    ((m_wheelMaxTorque md / m_wheelRadius md) * (m_wheelRadius md * m_wheelMaxAngularVelocity md)) by (field; lra).
  apply Rmult_le_compat; try assumption; apply norm2_pos.
Qed.

Lemma jump_pos : forall d a b, 0 <= d_mass d -> 0 <= d_moi d -> 0 <= jump_energy d a b.
Proof.
  intros d a b M J. unfold jump_energy.
  pose proof (Rle_0_sqr (q_vx b - q_vx a)). pose proof (Rle_0_sqr (q_vy b - q_vy a)). pose proof (Rle_0_sqr (q_w b - q_w a)).
  unfold Rsqr in *.
  assert (0 <= d_mass d * ((q_vx b - q_vx a) * (q_vx b - q_vx a) + (q_vy b - q_vy a) * (q_vy b - q_vy a))) by (apply Rmult_le_pos; lra).
  assert (0 <= d_moi d * ((q_w b - q_w a) * (q_w b - q_w a))) by (apply Rmult_le_pos; lra). lra.
Qed.
Lemma elapsed_S : forall sol i n, elapsed sol i (S (i + n)) = elapsed sol i (i + n) + step_to sol (S (i + n)).
Proof.
  intros sol i n. unfold elapsed. replace (S (i + n) - i)%nat with (S n) by lia. replace (i + n - i)%nat with n by lia.
  rewrite seq_S, map_app. assert (A : forall l x, sum (l ++ [x]) = sum l + x) by (induction l; intros; cbn [app sum]; [ring|rewrite IHl; ring]).
  cbn [map]. rewrite A. replace (S i + n)%nat with (S (i + n)) by lia. reflexivity.
Qed.
Lemma C104_total_proof : forall asserts h handle d g sol, generator asserts h handle d g -> solved g sol -> real_wheels d ->
  0 <= d_mass d -> 0 <= d_moi d -> forall i j, (i <= j <= last_sample (counts asserts h))%nat ->
  (forall k, (i < k <= j)%nat -> unit_heading (at_sample sol k)) ->
  kinetic_energy d (at_sample sol j) <= kinetic_energy d (at_sample sol i) + elapsed sol i j * full_power d.
Proof.
  intros asserts h handle d g sol G Sv W M J i j [Hij Hj] U.
  replace j with (i + (j - i))%nat in * by lia. revert Hj U. clear Hij. generalize (j - i)%nat. clear j. intros n.
  induction n as [|n IH]; intros Hj U.
  - rewrite Nat.add_0_r. unfold elapsed. rewrite Nat.sub_diag. cbn. lra.
  - rewrite Nat.add_succ_r in *. specialize (IH ltac:(lia) ltac:(intros; apply U; lia)).
    pose proof (C104_balance_proof asserts h handle d g sol G Sv W (S (i + n)) ltac:(lia)) as B. cbv zeta in B.
    replace (S (i + n) - 1)%nat with (i + n)%nat in B by lia.
    pose proof (C104_power_proof asserts h handle d g sol G Sv W (S (i + n)) ltac:(lia) (U (S (i + n)) ltac:(lia))) as P.
    pose proof (jump_pos d (at_sample sol (i + n)) (at_sample sol (S (i + n))) M J).
    destruct (proj1 (solved_physics asserts h handle d g sol G Sv W) (S (i + n)) ltac:(lia)) as ((T & _) & _).
    rewrite elapsed_S. pose proof (Rmult_le_compat_l _ _ _ T P). lra.
Qed.

(** ** Slower trajectories *)
Definition slowed_state (k : R) (q : state) : state :=
  mkState (q_x q) (q_y q) (q_c q) (q_s q) (q_vx q / k) (q_vy q / k) (q_w q / k)
    (q_ax q / (k * k)) (q_ay q / (k * k)) (q_al q / (k * k)).
Lemma nth_div : forall k l i, nth i (map (fun v => v / k) l) 0 = nth i l 0 / k.
Proof. intros k l i. replace 0 with (0 / k) at 1 by (unfold Rdiv; ring). apply (map_nth (fun v => v / k)). Qed.
Lemma slowed_at : forall k sol i, at_sample (slowed k sol) i = slowed_state k (at_sample sol i).
Proof.
  intros k sol i. unfold at_sample, slowed, slowed_state.
  cbn [s_dt s_x s_y s_thetacos s_thetasin s_vx s_vy s_omega s_ax s_ay s_alpha q_x q_y q_c q_s q_vx q_vy q_w q_ax q_ay q_al].
  rewrite !nth_div. reflexivity.
Qed.
Lemma slowed_step : forall k sol i, step_to (slowed k sol) i = k * step_to sol i.
Proof.
  intros k sol i. unfold step_to, slowed. cbn [s_dt]. replace 0 with (k * 0) at 1 by ring. apply (map_nth (fun t => k * t)).
Qed.
Lemma slowed_forces : forall k sol i,
  forces (slowed k sol) i = map (fun f => (fst f / (k * k), snd f / (k * k))) (forces sol i).
Proof.
  intros k sol i. unfold forces, slowed. cbn [s_moduleFX s_moduleFY].
  change (@nil R) with (map (fun f => f / (k * k)) (@nil R)) at 1 2. rewrite !map_nth. cbn [map].
  generalize (nth i (s_moduleFX sol) []), (nth i (s_moduleFY sol) []). induction l as [|a l IH]; intros [|b l']; try reflexivity.
  cbn [map combine]. rewrite IH. reflexivity.
Qed.
Lemma norm2_div : forall k x y, 0 < k -> norm2 (x / k, y / k) = norm2 (x, y) / k.
Proof.
  intros k x y K. replace (x / k) with (/ k * x) by (unfold Rdiv; ring). replace (y / k) with (/ k * y) by (unfold Rdiv; ring).
  rewrite norm2_scale, Rabs_right; [unfold Rdiv; ring|]. apply Rle_ge, Rlt_le, Rinv_0_lt_compat. exact K.
Qed.

(** A bound on a speed or an acceleration that leaves room for the factor [k]. *)
Definition quick (k : R) (q : state) (c : constraint R) : Prop :=
  match c with
  | AngularVelocityMaxMagnitude m => Rabs (q_w q) / k <= m
  | LinearAccelerationMaxMagnitude m => norm2 (q_ax q, q_ay q) / (k * k) <= Rabs m
  | LinearVelocityMaxMagnitude m => norm2 (q_vx q, q_vy q) / k <= Rabs m
  | _ => True
  end.
Lemma demands_slowed : forall k q c, 0 < k -> demands q c -> quick k q c -> demands (slowed_state k q) c.
Proof.
  intros k q c K D Q. unfold slowed_state. destruct c; cbn [demands quick] in *;
    cbn [q_x q_y q_c q_s q_vx q_vy q_w q_ax q_ay q_al]; try exact D.
  - unfold Rdiv in *. rewrite Rabs_mult, (Rabs_right (/ k)); [exact Q|]. apply Rle_ge, Rlt_le, Rinv_0_lt_compat. exact K.
  - rewrite norm2_div; [exact Q|]. nra.
  - destruct D as (j & E1 & E2). exists (j / k). rewrite E1, E2. split; unfold Rdiv; ring.
  - rewrite norm2_div; [exact Q|exact K].
Qed.

Section Slow.
  Variables (asserts : bool) (h : list (op R)) (handle : Z) (d : drivetrain R) (g : gen R).
  Hypotheses (GH : good_history asserts h) (G : generator asserts h handle d g) (W : real_wheels d)
    (Pos : forall n, In n (counts asserts h) -> (1 <= n)%nat).
  Let N := counts asserts h.
  Let at_wpt := wpt_requests [] h.
  Let to_wpt := sgmt_requests [] h.

  Definition fits (sol : solution R) (k : R) : Prop :=
    (forall i, (i <= last_sample N)%nat -> forall md, In md (d_modules d) ->
       norm2 (wheel_velocity (at_sample sol i) (m_translation md)) / k <= wheel_limit md) /\
    (forall i, (i <= last_sample N)%nat -> forall mf, In mf (combine (d_modules d) (forces sol i)) ->
       norm2 (snd mf) / (k * k) <= force_limit (fst mf)) /\
    (forall w, (w <= length N)%nat -> forall c, In c (at_wpt w) -> quick k (at_sample sol (waypoint_sample N w)) c) /\
    (forall w, (w <= length N)%nat -> forall c, In c (to_wpt w) -> forall i, (i <= last_sample N)%nat ->
       (1 <= w)%nat -> (waypoint_sample N (w - 1) < i <= waypoint_sample N w)%nat -> quick k (at_sample sol i) c).

  Lemma sample_bound : forall w, (waypoint_sample N w <= last_sample N)%nat.
  Proof.
    intros w. unfold waypoint_sample, last_sample. rewrite <- (firstn_skipn w N) at 2. rewrite list_sum_app. lia.
  Qed.

  Lemma slowed_solved : forall sol k, 0 < k -> solved g sol ->
    (forall i, (1 <= i <= last_sample N)%nat -> step_within d (k * step_to sol i)) -> fits sol k ->
    solved g (slowed k sol).
  Proof.
    intros sol k K Sv St (F1 & F2 & F3 & F4). apply (solved_exact asserts h handle d g GH G W Pos) in Sv.
    apply (solved_exact asserts h handle d g GH G W Pos). fold N at_wpt to_wpt in Sv |- *.
    destruct Sv as (Sh & U & (P1 & P2) & M1 & M2). assert (KK : 0 < k * k) by nra.
    split; [|split; [|split; [split|split]]].
    - destruct Sh as (S0 & S1 & S2 & S3 & S4 & S5 & S6 & S7 & S8 & S9 & S10 & S11 & S12 & FX & FY).
      unfold well_shaped, slowed. cbv zeta.
      cbn [s_dt s_x s_y s_thetacos s_thetasin s_vx s_vy s_omega s_ax s_ay s_alpha s_moduleFX s_moduleFY].
      rewrite !map_length. repeat (split; [assumption|]).
      split; apply Forall_map; [revert FX|revert FY]; apply Forall_impl; intros r; rewrite map_length; auto.
    - intros s j Hs Hj. rewrite !slowed_step. f_equal. apply U; assumption.
    - intros i Hi. cbv zeta. rewrite !slowed_at, slowed_step. destruct (P1 i Hi) as (_ & Mv & Tn & Ac). cbv zeta in Mv, Tn, Ac.
      split; [apply St; exact Hi|]. revert Mv Tn Ac. generalize (at_sample sol (i - 1)), (at_sample sol i), (step_to sol i).
      intros a b t (V1 & V2) Tn (A1 & A2 & A3).
      assert (E : q_w b / k * (k * t) = q_w b * t) by (field; lra).
      split; [|split].
      + unfold moves, slowed_state. cbn [q_x q_y q_vx q_vy]. rewrite V1 at 1. rewrite V2 at 1. split; field; lra.
      + unfold turns_up_to_half, slowed_state. cbn [q_c q_s q_w]. rewrite E. exact Tn.
      + unfold accelerates, slowed_state. cbn [q_vx q_vy q_w q_ax q_ay q_al]. rewrite A1, A2, A3. repeat split; field; lra.
    - intros i Hi. cbv zeta. rewrite slowed_at, slowed_forces. destruct (P2 i Hi) as ((N1 & N2 & N3) & Wh & Fo). split; [|split].
      + unfold newton. rewrite combine_map_r, !map_map. unfold slowed_state at 1 2. cbn [q_ax q_ay q_al].
        replace (d_mass d * (q_ax (at_sample sol i) / (k * k))) with (/ (k * k) * (d_mass d * q_ax (at_sample sol i))) by (field; lra).
        replace (d_mass d * (q_ay (at_sample sol i) / (k * k))) with (/ (k * k) * (d_mass d * q_ay (at_sample sol i))) by (field; lra).
        replace (d_moi d * (q_al (slowed_state k (at_sample sol i)))) with (/ (k * k) * (d_moi d * q_al (at_sample sol i)))
          by (unfold slowed_state; cbn [q_al]; field; lra).
        rewrite <- N1, <- N2, <- N3.
        repeat split; apply sum_scaled; intros; unfold cross2, turned, slowed_state; cbn [fst snd q_c q_s]; unfold Rdiv; ring.
      + intros md Hm. specialize (F1 i Hi md Hm). unfold wheel_limit in F1. set (v := wheel_velocity _ _) in F1.
        replace (wheel_velocity (slowed_state k (at_sample sol i)) (m_translation md)) with (fst v / k, snd v / k).
        * rewrite norm2_div, <- surjective_pairing by exact K. exact F1.
        * unfold v, wheel_velocity, slowed_state. cbn [q_c q_s q_vx q_vy q_w fst snd]. f_equal; field; lra.
      + intros md f Hf. rewrite combine_map_r in Hf. apply in_map_iff in Hf. destruct Hf as ((m0, f0) & E & Hf).
        cbn [fst snd] in E. injection E as <- <-. specialize (F2 i Hi (m0, f0) Hf). cbn [fst snd] in F2. unfold force_limit in F2.
        rewrite norm2_div by exact KK. destruct f0. exact F2.
    - intros w c Hw Hc. rewrite slowed_at. apply demands_slowed; [exact K|apply M1; assumption|apply F3; assumption].
    - intros w c i Hw Hc Hi. rewrite slowed_at. apply demands_slowed; [exact K|apply (M2 w); assumption|].
      pose proof (sample_bound w). apply (F4 w); try assumption; try lia.
  Qed.

  Lemma div_le : forall v l k, 0 <= v -> 1 <= k -> v <= l -> v / k <= l.
  Proof.
    intros v l k V K L. apply (Rmult_le_reg_r k); [lra|]. unfold Rdiv. rewrite Rmult_assoc, Rinv_l by lra. nra.
  Qed.
  Lemma fits_slower : forall sol k, solved g sol -> 1 <= k -> fits sol k.
  Proof.
    intros sol k Sv K. apply (solved_exact asserts h handle d g GH G W Pos) in Sv. fold N at_wpt to_wpt in Sv.
    destruct Sv as (_ & _ & (_ & P) & M1 & M2). assert (KK : 1 <= k * k) by nra.
    assert (Q : forall q c, demands q c -> quick k q c).
    { intros q c D. destruct c; cbn [demands quick] in *; try exact I;
        (apply div_le; [first [apply Rabs_pos|apply norm2_pos]|assumption|exact D]). }
    split; [|split; [|split]].
    - intros i Hi md Hm. apply div_le; [apply norm2_pos|exact K|]. apply (P i Hi). exact Hm.
    - intros i Hi [md f] Hf. apply div_le; [apply norm2_pos|exact KK|]. apply (P i Hi). exact Hf.
    - intros w Hw c Hc. apply Q, M1; assumption.
    - intros w Hw c Hc i _ Hw1 Hi. apply Q, (M2 w c i); [lia|exact Hc|exact Hi].
  Qed.

  Lemma C105_slower_proof : forall sol k, solved g sol -> 1 <= k ->
    (forall i, (1 <= i <= last_sample N)%nat -> step_within d (k * step_to sol i)) -> solved g (slowed k sol).
  Proof.
    intros sol k Sv K St. apply slowed_solved; [lra|exact Sv|exact St|apply fits_slower; assumption].
  Qed.
  Lemma slowed_sum : forall k sol, sum (s_dt (slowed k sol)) = k * sum (s_dt sol).
  Proof. intros k sol. unfold slowed. cbn [s_dt]. induction (s_dt sol) as [|t l IH]; cbn [map sum]; [ring|]. rewrite IH. ring. Qed.

  (** The bound on the time step leaves room for everything shorter. *)
  Lemma within_less : forall t t', 0 <= t' <= t -> step_within d t -> step_within d t'.
  Proof.
    intros t t' H (_ & B). split; [lra|]. intros md a b Hm Hab. destruct (W md Hm) as (R1 & R2 & _).
    assert (0 <= m_wheelRadius md * m_wheelMaxAngularVelocity md) by (apply Rmult_le_pos; lra).
    assert (t' * m_wheelRadius md * m_wheelMaxAngularVelocity md <= t * m_wheelRadius md * m_wheelMaxAngularVelocity md).
    { rewrite !Rmult_assoc. apply Rmult_le_compat_r; lra. }
    destruct (B md a b Hm Hab) as [B1 B2].
    split; intros E; eapply Rle_trans; try eassumption; auto.
  Qed.

  Lemma steps_pos : forall sol, solved g sol -> forall i, (1 <= i <= last_sample N)%nat -> 0 <= step_to sol i.
  Proof. intros sol Sv i Hi. apply (proj1 (solved_physics asserts h handle d g sol G Sv W) i Hi). Qed.

  Lemma C105_durations_proof : forall sol k T, solved g sol -> 1 <= k ->
    (forall i, (1 <= i <= last_sample N)%nat -> step_within d (k * step_to sol i)) ->
    sum (s_dt sol) <= T <= k * sum (s_dt sol) -> exists sol', solved g sol' /\ sum (s_dt sol') = T.
  Proof.
    intros sol k T Sv K St HT. destruct (Rtotal_order (sum (s_dt sol)) 0) as [L|[E|P]].
    - exists sol. split; [exact Sv|]. assert (k * sum (s_dt sol) <= sum (s_dt sol)) by nra. lra.
    - exists sol. split; [exact Sv|]. rewrite E in *. lra.
    - exists (slowed (T / sum (s_dt sol)) sol). assert (B : 1 <= T / sum (s_dt sol) <= k).
      { split; apply (Rmult_le_reg_r (sum (s_dt sol))); try exact P; unfold Rdiv; rewrite Rmult_assoc, Rinv_l by lra; lra. }
      split; [|rewrite slowed_sum; field; lra]. apply C105_slower_proof; [exact Sv|lra|].
      intros i Hi. apply (within_less (k * step_to sol i)); [|apply St; exact Hi].
      pose proof (steps_pos sol Sv i Hi). split; [apply Rmult_le_pos; lra|apply Rmult_le_compat_r; lra].
  Qed.

  (** For all factors less than 1 but near enough. *)
  Definition near (P : R -> Prop) : Prop := exists e, 0 < e < 1 /\ forall k, e <= k < 1 -> P k.
  Lemma near_imp : forall P Q : R -> Prop, (forall k, 0 < k -> P k -> Q k) -> near P -> near Q.
  Proof. intros P Q H (e & E & F). exists e. split; [exact E|]. intros k K. apply H; [lra|]. apply F. exact K. Qed.
  Lemma near_true : forall P : R -> Prop, (forall k, 0 < k -> P k) -> near P.
  Proof. intros P H. exists (1/2). split; [lra|]. intros k K. apply H. lra. Qed.
  Lemma near_and : forall P Q, near P -> near Q -> near (fun k => P k /\ Q k).
  Proof.
    intros P Q (e & E & F) (e' & E' & F'). exists (Rmax e e'). split.
    - split; [apply Rlt_le_trans with e; [lra|apply Rmax_l]|apply Rmax_lub_lt; lra].
    - intros k K. pose proof (Rmax_l e e'). pose proof (Rmax_r e e'). split; [apply F|apply F']; lra.
  Qed.
  Lemma near_nat : forall n (P : nat -> R -> Prop), (forall i, (i <= n)%nat -> near (P i)) ->
    near (fun k => forall i, (i <= n)%nat -> P i k).
  Proof.
    induction n as [|n IH]; intros P H.
    - apply (near_imp (P 0%nat)); [|apply H; lia]. intros k _ Pk i Hi. replace i with 0%nat by lia. exact Pk.
    - apply (near_imp (fun k => P (S n) k /\ forall i, (i <= n)%nat -> P i k)).
      + intros k _ [A B] i Hi. destruct (Nat.eq_dec i (S n)) as [->|]; [exact A|apply B; lia].
      + apply near_and; [apply H; lia|apply IH; intros; apply H; lia].
  Qed.
  Lemma near_list : forall {A} (l : list A) (P : A -> R -> Prop), (forall a, In a l -> near (P a)) ->
    near (fun k => forall a, In a l -> P a k).
  Proof.
    intros A l P. induction l as [|a l IH]; intros H.
    - apply near_true. intros k _ a [].
    - apply (near_imp (fun k => P a k /\ forall a, In a l -> P a k)).
      + intros k _ [B C] a' [<-|Ha]; auto.
      + apply near_and; [apply H; left; reflexivity|apply IH; intros; apply H; right; assumption].
  Qed.
  Lemma near_limit : forall v l, 0 <= v -> v <= l -> ~ at_limit v l -> near (fun k => v / k <= l /\ v / (k * k) <= l).
  Proof.
    intros v l V L Na. destruct V as [V|<-].
    - assert (Lt : v < l) by (destruct L as [L|L]; [exact L|exfalso; apply Na; split; assumption]).
      assert (T : 0 < v / l < 1).
      { split; [apply Rdiv_lt_0_compat; lra|]. apply (Rmult_lt_reg_r l); [lra|]. unfold Rdiv. rewrite Rmult_assoc, Rinv_l; lra. }
      exists ((1 + v / l) / 2). split; [lra|]. intros k K.
      assert (E : v = v / l * l) by (field; lra). set (t := v / l) in *.
      assert (K1 : t <= k) by lra. assert (K2 : t <= k * k).
      { apply Rle_trans with ((1 + t) / 2 * ((1 + t) / 2)); [pose proof (Rle_0_sqr (1 - t)); unfold Rsqr in *; lra|].
        apply Rmult_le_compat; lra. }
      assert (Kp : 0 < k) by lra. assert (KK : 0 < k * k) by (apply Rmult_lt_0_compat; lra).
      split; [apply (Rmult_le_reg_r k); [exact Kp|]|apply (Rmult_le_reg_r (k * k)); [exact KK|]];
        unfold Rdiv; rewrite Rmult_assoc, Rinv_l by lra; rewrite Rmult_1_r, E at 1; rewrite (Rmult_comm l);
        apply Rmult_le_compat_r; lra.
    - apply near_true. intros k _. unfold Rdiv. rewrite !Rmult_0_l. split; exact L.
  Qed.

  Lemma near_fits : forall sol, solved g sol -> ~ limit_reached d N at_wpt to_wpt sol -> near (fits sol).
  Proof.
    intros sol Sv Free. apply (solved_exact asserts h handle d g GH G W Pos) in Sv. fold N at_wpt to_wpt in Sv.
    destruct Sv as (_ & _ & (_ & P) & M1 & M2).
    assert (Q : forall i c, (i <= last_sample N)%nat -> asked N at_wpt to_wpt i c -> demands (at_sample sol i) c ->
      near (fun k => quick k (at_sample sol i) c)).
    { intros i c Hi As D.
      assert (Nb : ~ bound_reached (at_sample sol i) c).
      { intros B. apply Free. exists i. split; [exact Hi|]. right. right. exists c. split; assumption. }
      destruct c; cbn [demands quick bound_reached] in *; try (apply near_true; intros; exact I);
        (refine (near_imp _ _ _ (near_limit _ _ _ D Nb)); [intros k _ [A B]; assumption|first [apply norm2_pos|apply Rabs_pos]]). }
    repeat apply near_and.
    - apply near_nat. intros i Hi. apply near_list. intros md Hm.
      refine (near_imp _ _ _ (near_limit _ _ (norm2_pos _) (proj1 (proj2 (P i Hi)) md Hm) _)); [intros k _ [A _]; exact A|].
      intros B. apply Free. exists i. split; [exact Hi|]. left. exists md. split; assumption.
    - apply near_nat. intros i Hi. apply near_list. intros [md f] Hf.
      refine (near_imp _ _ _ (near_limit _ _ (norm2_pos _) (proj2 (proj2 (P i Hi)) md f Hf) _)); [intros k _ [_ A]; exact A|].
      intros B. apply Free. exists i. split; [exact Hi|]. right. left. exists md, f. split; assumption.
    - apply near_nat. intros w Hw. apply near_list. intros c Hc. apply Q; [apply sample_bound| |apply M1; assumption].
      left. exists w. auto.
    - apply near_nat. intros w Hw. apply near_list. intros c Hc. apply near_nat. intros i Hi.
      destruct (classic ((1 <= w)%nat /\ (waypoint_sample N (w - 1) < i <= waypoint_sample N w)%nat)) as [[H1 H2]|No].
      + apply (near_imp (fun k => quick k (at_sample sol i) c)); [auto|].
        apply Q; [exact Hi| |apply (M2 w); [lia|exact Hc|exact H2]]. right. exists w. split; [lia|]. auto.
      + apply near_true. intros k _ H1 H2. exfalso. apply No. split; assumption.
  Qed.

  Lemma C105_limit_proof : forall sol, solved g sol -> 0 < sum (s_dt sol) ->
    (forall sol', solved g sol' -> sum (s_dt sol) <= sum (s_dt sol')) -> limit_reached d N at_wpt to_wpt sol.
  Proof.
    intros sol Sv Dur Best. apply NNPP. intros Free. destruct (near_fits sol Sv Free) as (e & E & F).
    assert (S' : solved g (slowed e sol)).
    { apply slowed_solved; [lra|exact Sv| |apply F; lra]. intros i Hi. pose proof (steps_pos sol Sv i Hi).
      apply (within_less (step_to sol i)); [split; [apply Rmult_le_pos; lra|]|].
      - rewrite <- (Rmult_1_l (step_to sol i)) at 2. apply Rmult_le_compat_r; lra.
      - apply (proj1 (solved_physics asserts h handle d g sol G Sv W) i Hi). }
    specialize (Best _ S'). rewrite slowed_sum in Best. nra.
  Qed.
End Slow.
