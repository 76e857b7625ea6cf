(** What a robot does that drives a planned trajectory (C115). *)
From Coq Require Import List Lia Lra Psatz Reals ZArith.
Import ListNotations.
From Verif Require Import Outcome Num NumR Geometry Expr Constraints Util Builder Guess Generator Trajectory
  Spec SpecBuilder SpecPhysics SpecTrajectory SpecGenerator SpecStep SpecDrive Semantics
  GeneratorFacts GeneratorProofs SolutionProofs TrajectoryProofs GeneratorCases LimitProofs OrderProofs StepProofs
  DurationProofs DriveFacts.
Open Scope R_scope.

Lemma clock_0 : forall sol, clock sol 0 = 0.
Proof. intros sol. apply elapsed_self. Qed.
Lemma clock_S : forall sol i, clock sol (S i) = clock sol i + step_to sol (S i).
Proof. intros sol i. apply elapsed_step. lia. Qed.
Lemma waypoint_S : forall N w, (w < length N)%nat -> waypoint_sample N (S w) = (waypoint_sample N w + nth w N 0)%nat.
Proof.
  intros N w H. unfold waypoint_sample. revert w H. induction N as [|n N IH]; intros w H; [simpl in H; lia|].
  destruct w as [|w]; [simpl; lia|]. cbn [firstn nth length list_sum fold_right] in *. change (fold_right Nat.add 0%nat) with list_sum in *.
  rewrite (IH w) by lia. lia.
Qed.
Lemma waypoint_le : forall N w, (waypoint_sample N w <= last_sample N)%nat.
Proof.
  intros N w. unfold waypoint_sample, last_sample. revert w. induction N as [|n N IH]; intros [|w]; simpl; try lia.
  specialize (IH w). lia.
Qed.

Section Drive.
  Variables (asserts : bool) (h : list (op R)) (handle : Z) (d : drivetrain R) (g : gen R) (sol : solution R).
  Hypotheses (G : generator asserts h handle d g) (Sv : solved g sol).
  Let N := counts asserts h.

  Lemma clock_mono : forall n, (n <= last_sample N)%nat -> forall i, (i < n)%nat -> clock sol i <= clock sol (S i).
  Proof.
    intros n Hn i Hi. rewrite clock_S. pose proof (dt_nonneg asserts h handle d g sol G Sv (S i) ltac:(fold N; lia)). lra.
  Qed.

  (** ** A motion *)
  Definition driven (n : nat) (a0 : R) : motion :=
    let q := at_sample sol in let c := clock sol in
    mkMotion (pos c (fun i => q_ax (q i)) (q_x (q 0%nat)) (q_vx (q 0%nat)) n)
             (pos c (fun i => q_ay (q i)) (q_y (q 0%nat)) (q_vy (q 0%nat)) n)
             (vel c (fun i => q_ax (q i)) (q_vx (q 0%nat)) n)
             (vel c (fun i => q_ay (q i)) (q_vy (q 0%nat)) n)
             (pos c (fun i => q_al (q i)) a0 (q_w (q 0%nat)) n)
             (vel c (fun i => q_al (q i)) (q_w (q 0%nat)) n).
  Lemma driven_drives : forall n a0, (n <= last_sample N)%nat -> drives sol n (driven n a0) /\ at_angle (driven n a0) 0 = a0.
  Proof.
    intros n a0 Hn. pose proof (clock_mono n Hn) as M. pose proof (clock_0 sol) as Z.
    split; [split; [|split]|].
    - unfold starts_as_planned, driven. cbn [at_x at_y at_vx at_vy at_w].
      rewrite !pos_first, !vel_first by (try exact M; lra). repeat split; ring.
    - intros t _. unfold driven. cbn [at_x at_y at_vx at_vy at_angle at_w].
      repeat split; first [apply pos_derivative|apply vel_continuous].
    - intros i t Hi Ht. unfold driven. cbn [at_x at_y at_vx at_vy at_angle at_w].
      repeat split; [apply (vel_rate (clock sol) (fun i => q_ax (at_sample sol i)))
                    |apply (vel_rate (clock sol) (fun i => q_ay (at_sample sol i)))
                    |apply (vel_rate (clock sol) (fun i => q_al (at_sample sol i)))]; assumption.
    - unfold driven. cbn [at_angle]. rewrite pos_first by (try exact M; lra). ring.
  Qed.

  (** ** Every motion *)
  Section Motion.
    Variables (n : nat) (m : motion).
    Hypotheses (Hn : (n <= last_sample N)%nat) (Dr : drives sol n m).

    Lemma in_step : forall i t, (1 <= i <= n)%nat -> clock sol (i - 1) <= t <= clock sol i ->
      let s := t - clock sol (i - 1) in let c := clock sol (i - 1) in let q := at_sample sol i in
      (at_vx m t = at_vx m c + q_ax q * s /\ at_x m t = at_x m c + at_vx m c * s + q_ax q * (s * s) / 2) /\
      (at_vy m t = at_vy m c + q_ay q * s /\ at_y m t = at_y m c + at_vy m c * s + q_ay q * (s * s) / 2) /\
      (at_w m t = at_w m c + q_al q * s /\ at_angle m t = at_angle m c + at_w m c * s + q_al q * (s * s) / 2).
    Proof.
      destruct Dr as (_ & Sm & Ap). intros i t Hi Ht s c q. unfold s, c, q.
      pose proof (clock_mono n Hn) as M. pose proof (clock_0 sol) as Z.
      split; [|split].
      - apply (piecewise (clock sol) (fun i => q_ax (at_sample sol i)) n (at_x m) (at_vx m) Z M); try assumption.
        + intros u Hu. destruct (Sm u Hu) as (A & B & C & D & E & F). split; assumption.
        + intros j u Hj Hu. apply Ap; assumption.
      - apply (piecewise (clock sol) (fun i => q_ay (at_sample sol i)) n (at_y m) (at_vy m) Z M); try assumption.
        + intros u Hu. destruct (Sm u Hu) as (A & B & C & D & E & F). split; assumption.
        + intros j u Hj Hu. apply Ap; assumption.
      - apply (piecewise (clock sol) (fun i => q_al (at_sample sol i)) n (at_angle m) (at_w m) Z M); try assumption.
        + intros u Hu. destruct (Sm u Hu) as (A & B & C & D & E & F). split; assumption.
        + intros j u Hj Hu. apply Ap; assumption.
    Qed.

    Lemma velocity_met : forall i, (i <= n)%nat -> at_vx m (clock sol i) = q_vx (at_sample sol i) /\
      at_vy m (clock sol i) = q_vy (at_sample sol i) /\ at_w m (clock sol i) = q_w (at_sample sol i).
    Proof.
      induction i as [|i IH]; intros Hi.
      - rewrite clock_0. destruct Dr as ((_ & _ & A & B & C) & _). tauto.
      - pose proof (clock_mono n Hn i ltac:(lia)) as M.
        destruct (in_step (S i) (clock sol (S i)) ltac:(lia)) as ((A & _) & (B & _) & (C & _));
          [replace (S i - 1)%nat with i by lia; lra|].
        destruct (C16_steps_proof asserts h handle d g sol G Sv (S i) ltac:(fold N; lia)) as [_ (AX & AY & AW)].
        replace (S i - 1)%nat with i in * by lia. destruct (IH ltac:(lia)) as (E1 & E2 & E3).
        rewrite clock_S in A, B, C. rewrite <- (clock_S sol i) in A, B, C.
        assert (S0 : clock sol (S i) - clock sol i = step_to sol (S i)) by (rewrite clock_S; ring).
        rewrite S0 in A, B, C. rewrite A, B, C, E1, E2, E3, AX, AY, AW. tauto.
    Qed.

    Lemma step_met : forall i, (i < n)%nat ->
      let p := at_sample sol i in let q := at_sample sol (S i) in let dt := step_to sol (S i) in
      at_x m (clock sol (S i)) = at_x m (clock sol i) + (q_vx p + q_vx q) / 2 * dt /\
      at_y m (clock sol (S i)) = at_y m (clock sol i) + (q_vy p + q_vy q) / 2 * dt /\
      at_angle m (clock sol (S i)) = at_angle m (clock sol i) + (q_w p + q_w q) / 2 * dt.
    Proof.
      intros i Hi p q dt. pose proof (clock_mono n Hn i ltac:(lia)) as M.
      destruct (in_step (S i) (clock sol (S i)) ltac:(lia)) as ((_ & A) & (_ & B) & (_ & C));
        [replace (S i - 1)%nat with i by lia; lra|].
      destruct (C16_steps_proof asserts h handle d g sol G Sv (S i) ltac:(fold N; lia)) as [_ (AX & AY & AW)].
      replace (S i - 1)%nat with i in * by lia. destruct (velocity_met i ltac:(lia)) as (E1 & E2 & E3).
      assert (S0 : clock sol (S i) - clock sol i = dt) by (rewrite clock_S; unfold dt; ring).
      rewrite S0 in A, B, C. rewrite E1 in A. rewrite E2 in B. rewrite E3 in C.
      fold p q dt in AX, AY, AW, A, B, C. rewrite A, B, C, AX, AY, AW. repeat split; field.
    Qed.

    Lemma offsets : forall i, (i <= n)%nat ->
      at_x m (clock sol i) = q_x (at_sample sol i) - lag q_vx sol i /\
      at_y m (clock sol i) = q_y (at_sample sol i) - lag q_vy sol i.
    Proof.
      induction i as [|i IH]; intros Hi.
      - rewrite clock_0. destruct Dr as ((-> & -> & _) & _). unfold lag, sum_to. simpl. split; ring.
      - destruct (IH ltac:(lia)) as [X Y]. destruct (step_met i ltac:(lia)) as (A & B & _).
        destruct (C16_steps_proof asserts h handle d g sol G Sv (S i) ltac:(fold N; lia)) as [[MX MY] _].
        unfold lag in *. rewrite !sum_to_S. replace (S i - 1)%nat with i in * by lia. rewrite A, B, X, Y, MX, MY.
        split; field.
    Qed.
    Lemma angles : heading_is (at_sample sol 0) (at_angle m 0) ->
      (forall i, (1 <= i <= n)%nat -> turns (at_sample sol (i - 1)) (at_sample sol i) (step_to sol i)) ->
      forall i, (i <= n)%nat -> heading_is (at_sample sol i) (at_angle m (clock sol i) + lag q_w sol i).
    Proof.
      intros H0 T. induction i as [|i IH]; intros Hi.
      - rewrite clock_0. unfold lag, sum_to. simpl. rewrite Rplus_0_r. exact H0.
      - destruct (IH ltac:(lia)) as [X Y]. destruct (step_met i ltac:(lia)) as (_ & _ & A).
        destruct (T (S i) ltac:(lia)) as [TC TS].
        unfold lag in *. rewrite !sum_to_S. replace (S i - 1)%nat with i in * by lia. rewrite A. unfold heading_is.
        rewrite TC, TS, X, Y.
        match goal with |- _ = cos ?b /\ _ = sin _ => match type of X with _ = cos ?a =>
          replace b with (a + q_w (at_sample sol (S i)) * step_to sol (S i)) by field; generalize a; intros u end end.
        rewrite cos_plus, sin_plus. split; ring.
    Qed.

    (** ** Within one segment *)
    Lemma segment_way : forall dt i k, (i + k <= n)%nat -> (forall j, (j < k)%nat -> step_to sol (S (i + j)) = dt) ->
      let p := at_sample sol i in let q := at_sample sol (i + k) in
      at_x m (clock sol (i + k)) - at_x m (clock sol i) = q_x q - q_x p - (q_vx q - q_vx p) * dt / 2 /\
      at_y m (clock sol (i + k)) - at_y m (clock sol i) = q_y q - q_y p - (q_vy q - q_vy p) * dt / 2.
    Proof.
      intros dt i k. induction k as [|k IH]; intros Hk U.
      - rewrite Nat.add_0_r. cbv zeta. split; field.
      - destruct (IH ltac:(lia) ltac:(intros; apply U; lia)) as [X Y]. rewrite Nat.add_succ_r.
        destruct (step_met (i + k) ltac:(lia)) as (A & B & _).
        destruct (C16_steps_proof asserts h handle d g sol G Sv (S (i + k)) ltac:(fold N; lia)) as [[MX MY] _].
        replace (S (i + k) - 1)%nat with (i + k)%nat in * by lia. cbv zeta. rewrite (U k ltac:(lia)) in *. rewrite A, B, MX, MY.
        split; lra.
    Qed.
    Lemma speed_between : forall i t, (1 <= i <= n)%nat -> clock sol (i - 1) <= t <= clock sol i ->
      speed m t <= Rmax (norm2 (q_vx (at_sample sol (i - 1)), q_vy (at_sample sol (i - 1))))
                        (norm2 (q_vx (at_sample sol i), q_vy (at_sample sol i))).
    Proof.
      intros i t Hi Ht. destruct (in_step i t Hi Ht) as ((A & _) & (B & _) & _). cbv zeta in A, B.
      destruct (velocity_met (i - 1) ltac:(lia)) as (E1 & E2 & _). rewrite E1 in A. rewrite E2 in B.
      destruct (C16_steps_proof asserts h handle d g sol G Sv i ltac:(fold N; lia)) as [_ (AX & AY & _)].
      set (p := at_sample sol (i - 1)) in *. set (q := at_sample sol i) in *.
      assert (S0 : clock sol i - clock sol (i - 1) = step_to sol i).
      { destruct i as [|i]; [lia|]. replace (S i - 1)%nat with i by lia. rewrite clock_S. ring. }
      set (s := t - clock sol (i - 1)) in *. set (dt := step_to sol i) in *.
      assert (Hs : 0 <= s <= dt) by (unfold s; lra).
      unfold speed. rewrite A, B. destruct (Req_dec dt 0) as [Z|Z].
      { replace s with 0 by lra. replace (q_vx p + q_ax q * 0) with (q_vx p) by ring.
        replace (q_vy p + q_ay q * 0) with (q_vy p) by ring. apply Rmax_l. }
      assert (L : 0 <= s / dt <= 1).
      { split; [apply Rmult_le_pos; [lra|left; apply Rinv_0_lt_compat; lra]|]. apply (Rmult_le_reg_r dt); [lra|].
        replace (s / dt * dt) with s by (field; exact Z). lra. }
      set (l := s / dt) in *.
      replace (q_vx p + q_ax q * s) with ((1 - l) * q_vx p + l * q_vx q) by (rewrite AX; unfold l; field; exact Z).
      replace (q_vy p + q_ay q * s) with ((1 - l) * q_vy p + l * q_vy q) by (rewrite AY; unfold l; field; exact Z).
      eapply Rle_trans; [apply norm2_triangle|]. rewrite !norm2_scale, !Rabs_right by lra.
      pose proof (Rmax_l (norm2 (q_vx p, q_vy p)) (norm2 (q_vx q, q_vy q))) as M1.
      pose proof (Rmax_r (norm2 (q_vx p, q_vy p)) (norm2 (q_vx q, q_vy q))) as M2.
      pose proof (Rmult_le_compat_l (1 - l) _ _ ltac:(lra) M1). pose proof (Rmult_le_compat_l l _ _ ltac:(lra) M2). lra.
    Qed.
  End Motion.

  Lemma uniform : forall w k, (w < length N)%nat -> (k < nth w N 0)%nat ->
    step_to sol (S (waypoint_sample N w + k)) = step_to sol (S (waypoint_sample N w)).
  Proof. destruct Sv as (env & F & E). intros w k. exact (uniform_read asserts h handle d g env sol G E w k). Qed.

  Lemma waypoint_way : forall m, drives sol (last_sample N) m -> forall w, (w < length N)%nat ->
    let i := waypoint_sample N w in let j := waypoint_sample N (S w) in
    let p := at_sample sol i in let q := at_sample sol j in let dt := step_to sol (S i) in
    way (spot m (clock sol i)) (spot m (clock sol j)) =
    (q_x q - q_x p - (q_vx q - q_vx p) * dt / 2, q_y q - q_y p - (q_vy q - q_vy p) * dt / 2).
  Proof.
    intros m Dr w Hw i j p q dt. unfold way, spot. cbn [fst snd].
    assert (Ej : j = (i + nth w N 0)%nat) by (apply waypoint_S, Hw).
    pose proof (waypoint_le N (S w)) as L. fold j in L.
    destruct (segment_way (last_sample N) m (le_n _) Dr dt i (nth w N 0%nat)) as [X Y].
    - lia.
    - intros k Hk. apply uniform; assumption.
    - rewrite <- Ej in X, Y. cbv zeta in X, Y. f_equal; assumption.
  Qed.

  Lemma stop_and_go : forall m, drives sol (last_sample N) m -> forall w, (w <= length N)%nat ->
    (forall v, (v <= w)%nat -> at_rest (at_sample sol (waypoint_sample N v))) ->
    spot m (clock sol (waypoint_sample N w)) = position (at_sample sol (waypoint_sample N w)).
  Proof.
    intros m Dr w. induction w as [|w IH]; intros Hw Rs.
    - replace (waypoint_sample N 0) with 0%nat by (destruct N; reflexivity). rewrite clock_0.
      destruct Dr as ((A & B & _) & _). unfold spot, position. rewrite A, B. reflexivity.
    - specialize (IH ltac:(lia) ltac:(intros; apply Rs; lia)). pose proof (waypoint_way m Dr w ltac:(lia)) as E. cbv zeta in E.
      destruct (Rs w ltac:(lia)) as [X1 Y1]. destruct (Rs (S w) ltac:(lia)) as [X2 Y2]. rewrite X1, Y1, X2, Y2 in E.
      unfold way, spot, position in *. cbn [fst snd] in *. apply pair_equal_spec in IH, E. destruct IH as [IX IY]. destruct E as [EX EY]. f_equal; lra.
  Qed.

  (** ** How far off *)
  Lemma speed_step : real_wheels d -> centred d -> forall s, spacing d s -> forall i k, (1 <= i <= last_sample N)%nat ->
    (k <= last_sample N)%nat -> unit_heading (at_sample sol k) ->
    step_to sol i * norm2 (q_vx (at_sample sol k), q_vy (at_sample sol k)) <= s.
  Proof.
    intros W Ce s Sp i k Hi Hk U.
    pose proof (C21_proof asserts h handle d g sol G Sv i Hi) as St.
    pose proof (dt_nonneg asserts h handle d g sol G Sv i Hi) as Dt.
    pose proof (speed_limit_proof asserts h handle d g sol G Sv W Ce k Hk U) as B. cbv zeta in B.
    set (q := at_sample sol k) in *. set (dt := step_to sol i) in *.
    assert (L : (0 < length (d_modules d))%nat).
    { destruct Sp as (_ & a & b & Hab & _). destruct (consecutive_in _ _ _ Hab) as [Ha _].
      destruct (d_modules d); [destruct Ha|simpl; lia]. }
    assert (Bs : dt * sum (map wheel_limit (d_modules d)) <= INR (length (d_modules d)) * s).
    { assert (X : forall l, (forall md, In md l -> dt * wheel_limit md <= s) ->
                dt * sum (map wheel_limit l) <= INR (length l) * s).
      { induction l as [|md l IH]; intros Hl; cbn [map sum length]; [simpl; lra|].
        rewrite S_INR. pose proof (Hl md (or_introl eq_refl)).
        specialize (IH (fun m Hm => Hl m (or_intror Hm))). lra. }
      apply X. intros md Hm. apply (spacing_step d s dt md Sp St Hm). }
    apply (Rmult_le_reg_l (INR (length (d_modules d)))); [apply lt_0_INR; exact L|].
    apply Rle_trans with (dt * sum (map wheel_limit (d_modules d))); [|exact Bs].
    replace (INR (length (d_modules d)) * (dt * norm2 (q_vx q, q_vy q)))
      with (dt * (INR (length (d_modules d)) * norm2 (q_vx q, q_vy q))) by ring.
    apply Rmult_le_compat_l; [exact Dt|exact B].
  Qed.

  (** The distance between the way driven and the way planned. *)
  Lemma way_off : forall m, drives sol (last_sample N) m -> forall w, (w < length N)%nat ->
    let i := waypoint_sample N w in let j := waypoint_sample N (S w) in
    let p := at_sample sol i in let q := at_sample sol j in
    dist2 (way (spot m (clock sol i)) (spot m (clock sol j))) (way (position p) (position q)) =
    Rabs (step_to sol (S i) / 2) * norm2 (q_vx q - q_vx p, q_vy q - q_vy p).
  Proof.
    intros m Dr w Hw i j p q. pose proof (waypoint_way m Dr w Hw) as E. cbv zeta in E. fold i j in E. fold p q in E.
    rewrite E, dist2_norm. unfold way, position. cbn [fst snd].
    rewrite <- norm2_scale. f_equal. f_equal; field.
  Qed.
  Lemma way_spacing : real_wheels d -> centred d -> forall s, spacing d s -> headings_unit N sol ->
    forall m, drives sol (last_sample N) m -> forall w, (w < length N)%nat ->
    let i := waypoint_sample N w in let j := waypoint_sample N (S w) in
    dist2 (way (spot m (clock sol i)) (spot m (clock sol j)))
          (way (position (at_sample sol i)) (position (at_sample sol j))) <= s.
  Proof.
    intros W Ce s Sp U m Dr w Hw i j. pose proof (way_off m Dr w Hw) as E. cbv zeta in E. fold i j in E. rewrite E.
    assert (Ej : j = (i + nth w N 0)%nat) by (apply waypoint_S, Hw). pose proof (waypoint_le N (S w)) as L. fold j in L.
    set (p := at_sample sol i) in *. set (q := at_sample sol j) in *.
    destruct (Nat.eq_dec (nth w N 0%nat) 0) as [Z|Z].
    { assert (Q : q = p) by (unfold q, p; f_equal; lia). rewrite Q.
      replace (q_vx p - q_vx p) with 0 by ring. replace (q_vy p - q_vy p) with 0 by ring. rewrite norm2_zero.
      destruct Sp as [P _]. lra. }
    pose proof (dt_nonneg asserts h handle d g sol G Sv (S i) ltac:(fold N; lia)) as Dt.
    pose proof (speed_step W Ce s Sp (S i) i ltac:(lia) ltac:(lia) (U i ltac:(lia))) as B1.
    pose proof (speed_step W Ce s Sp (S i) j ltac:(lia) ltac:(lia) (U j ltac:(lia))) as B2.
    fold p in B1. fold q in B2. rewrite Rabs_right by lra.
    pose proof (norm2_triangle (q_vx q) (q_vy q) (- q_vx p) (- q_vy p)) as T. rewrite norm2_neg in T.
    change (q_vx q + - q_vx p) with (q_vx q - q_vx p) in T. change (q_vy q + - q_vy p) with (q_vy q - q_vy p) in T.
    pose proof (Rmult_le_compat_l _ _ _ Dt T). lra.
  Qed.
  Lemma way_force : real_wheels d -> 0 < d_mass d ->
    forall m, drives sol (last_sample N) m -> forall w, (w < length N)%nat ->
    let i := waypoint_sample N w in let j := waypoint_sample N (S w) in
    2 * d_mass d * INR (nth w N 0%nat) * dist2 (way (spot m (clock sol i)) (spot m (clock sol j)))
          (way (position (at_sample sol i)) (position (at_sample sol j)))
      <= thrust d * (elapsed sol i j * elapsed sol i j).
  Proof.
    intros W Pm m Dr w Hw i j. pose proof (way_off m Dr w Hw) as E. cbv zeta in E. fold i j in E. rewrite E.
    assert (Ej : j = (i + nth w N 0)%nat) by (apply waypoint_S, Hw). pose proof (waypoint_le N (S w)) as L. fold j in L.
    set (k := nth w N 0%nat) in *.
    pose proof (velocity_time asserts h handle d g sol G Sv W Pm i j ltac:(fold N; lia)) as V.
    set (p := at_sample sol i) in *. set (q := at_sample sol j) in *.
    assert (El : elapsed sol i j = INR k * step_to sol (S i)).
    { rewrite Ej. apply (elapsed_uniform sol (step_to sol (S i)) i k); [|lia]. intros a Ha. apply uniform; assumption. }
    destruct (Nat.eq_dec k 0) as [Z|Z].
    { rewrite El, Z. simpl (INR 0). lra. }
    pose proof (dt_nonneg asserts h handle d g sol G Sv (S i) ltac:(fold N; lia)) as Dt.
    rewrite Rabs_right by lra. rewrite El in V. rewrite El.
    assert (P : 0 <= INR k * step_to sol (S i)) by (apply Rmult_le_pos; [apply pos_INR|exact Dt]).
    pose proof (Rmult_le_compat_l _ _ _ P V). lra.
  Qed.
  Lemma waypoint_off : real_wheels d -> centred d -> forall s, spacing d s -> headings_unit N sol ->
    forall m, drives sol (last_sample N) m -> forall w, (w <= length N)%nat ->
    dist2 (spot m (clock sol (waypoint_sample N w))) (position (at_sample sol (waypoint_sample N w))) <= INR w * s.
  Proof.
    intros W Ce s Sp U m Dr w. induction w as [|w IH]; intros Hw.
    - replace (waypoint_sample N 0) with 0%nat by (destruct N; reflexivity). rewrite clock_0.
      destruct Dr as ((A & B & _) & _). unfold spot, position. rewrite A, B, dist2_self. simpl. lra.
    - specialize (IH ltac:(lia)). pose proof (way_spacing W Ce s Sp U m Dr w ltac:(lia)) as B. cbv zeta in B.
      rewrite S_INR. rewrite dist2_norm in *. unfold way, spot, position in *. cbn [fst snd] in *.
      set (i := waypoint_sample N w) in *. set (j := waypoint_sample N (S w)) in *.
      match type of IH with norm2 (?a, ?b) <= _ => match type of B with norm2 (?c, ?e) <= _ =>
        pose proof (norm2_triangle a b c e) as T end end.
      match goal with |- norm2 (?a, ?b) <= _ => match type of T with norm2 (?c, ?e) <= _ =>
        replace a with c by ring; replace b with e by ring end end. lra.
  Qed.
End Drive.
