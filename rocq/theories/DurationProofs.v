(** How long a trajectory must take (C75). *)
From Coq Require Import List Lia Lra Psatz Reals ZArith.
Import ListNotations.
From Verif Require Import Outcome Num NumR Geometry Expr Constraints Util Builder Guess Generator Trajectory
  Spec SpecBuilder SpecPhysics SpecTrajectory SpecGenerator SpecStep Semantics
  UtilFacts GeometryFacts BuilderFacts BuilderHistory ConstraintFacts GuessFacts GeneratorFacts SeedFacts FeasibleFacts
  GeneratorProofs HistoryFacts SolutionProofs TrajectoryProofs GeneratorCases LimitProofs OrderProofs StepProofs.
Local Open Scope nat_scope.
Open Scope R_scope.

(** ** Elapsed time *)
Lemma sum_app : forall a b, sum (a ++ b) = sum a + sum b.
Proof. induction a as [|x a IH]; intros b; simpl; [ring|]. rewrite IH. ring. Qed.
Lemma elapsed_self : forall sol i, elapsed sol i i = 0.
Proof. intros. unfold elapsed. rewrite Nat.sub_diag. reflexivity. Qed.
Lemma elapsed_step : forall sol i j, (i <= j)%nat -> elapsed sol i (S j) = elapsed sol i j + step_to sol (S j).
Proof.
  intros sol i j H. unfold elapsed. replace (S j - i)%nat with (S (j - i)) by lia.
  rewrite seq_S, map_app, sum_app. replace (S i + (j - i))%nat with (S j) by lia. simpl. ring.
Qed.
Lemma elapsed_trans : forall sol i j k, (i <= j <= k)%nat -> elapsed sol i k = elapsed sol i j + elapsed sol j k.
Proof.
  intros sol i j k H. induction k as [|k IH].
  - assert (i = 0 /\ j = 0)%nat as [-> ->] by lia. rewrite !elapsed_self. ring.
  - destruct (Nat.eq_dec j (S k)) as [->|N]; [rewrite elapsed_self; ring|].
    rewrite !elapsed_step by lia. rewrite IH by lia. ring.
Qed.
Lemma elapsed_all : forall sol, elapsed sol 0 (length (s_dt sol)) = sum (s_dt sol).
Proof.
  intros sol. unfold elapsed, step_to. rewrite Nat.sub_0_r. rewrite <- seq_shift, map_map. cbn beta.
  f_equal. generalize (s_dt sol). intros l.
  assert (X : forall l (k : nat -> nat), (forall n, k n = n)%nat ->
    map (fun x => nth (k x) l 0) (seq 0 (length l)) = l).
  { induction l0 as [|a l0 IH]; intros k Hk; [reflexivity|]. cbn [length seq map]. rewrite Hk. f_equal.
    rewrite <- seq_shift, map_map. erewrite map_ext; [apply (IH k Hk)|]. intros n. rewrite !Hk. reflexivity. }
  apply X. intros n. lia.
Qed.
Lemma elapsed_uniform : forall sol dt i n, (forall k, (k < n)%nat -> step_to sol (S (i + k)) = dt) ->
  forall k, (k <= n)%nat -> elapsed sol i (i + k) = INR k * dt.
Proof.
  intros sol dt i n U k. induction k as [|k IH]; intros Hk.
  - rewrite Nat.add_0_r, elapsed_self. simpl. ring.
  - rewrite Nat.add_succ_r, elapsed_step by lia. rewrite IH by lia. rewrite U by lia. rewrite S_INR. ring.
Qed.

Lemma norm2_neg : forall x y, norm2 (- x, - y) = norm2 (x, y).
Proof. intros. unfold norm2. cbn [fst snd]. f_equal. ring. Qed.
Lemma norm2_zero : norm2 (0, 0) = 0.
Proof. unfold norm2. cbn [fst snd]. replace (0 * 0 + 0 * 0) with 0 by ring. apply sqrt_0. Qed.

(** ** The largest distance with bounded steps up and down again *)
Fixpoint tent (n : nat) (k : nat) : R :=
  match k with O => 0 | S k' => tent n k' + INR (Nat.min (S k') (n - S k')) end.
Lemma tent_shift : forall n k, (k <= n)%nat -> tent (S (S n)) (S k) = tent n k + INR (S k).
Proof.
  intros n k. induction k as [|k IH]; intros Hk.
  - cbn [tent]. replace (Nat.min 1 (S (S n) - 1)) with 1%nat by lia. simpl. ring.
  - cbn [tent] in *. rewrite IH by lia.
    replace (Nat.min (S (S k)) (S (S n) - S (S k))) with (S (Nat.min (S k) (n - S k))) by lia.
    rewrite (S_INR (Nat.min _ _)), (S_INR (S k)). ring.
Qed.
Lemma tent_bound : forall n, 4 * tent n n <= INR n * INR n.
Proof.
  intros n. assert (H : 4 * tent n n <= INR n * INR n /\ 4 * tent (S n) (S n) <= INR (S n) * INR (S n)); [|apply H].
  induction n as [|n [IH1 IH2]].
  - split; simpl; lra.
  - split; [exact IH2|].
    change (tent (S (S n)) (S (S n))) with (tent (S (S n)) (S n) + INR (Nat.min (S (S n)) (S (S n) - S (S n)))).
    replace (Nat.min (S (S n)) (S (S n) - S (S n))) with 0%nat by lia. rewrite tent_shift by lia.
    rewrite !S_INR in *. simpl (INR 0). lra.
Qed.

Section Run.
  Variables (asserts : bool) (h : list (op R)) (handle : Z) (d : drivetrain R) (g : gen R) (sol : solution R).
  Hypotheses (G : generator asserts h handle d g) (Sv : solved g sol) (W : real_wheels d).
  Let N := counts asserts h.

  Lemma elapsed_pos : forall i j, (i <= j <= last_sample N)%nat -> 0 <= elapsed sol i j.
  Proof.
    intros i j. induction j as [|j IH]; intros H.
    - assert (i = 0)%nat as -> by lia. rewrite elapsed_self. lra.
    - destruct (Nat.eq_dec i (S j)) as [->|D]; [rewrite elapsed_self; lra|].
      rewrite elapsed_step by lia. specialize (IH ltac:(lia)).
      pose proof (dt_nonneg asserts h handle d g sol G Sv (S j) ltac:(fold N; lia)). lra.
  Qed.

  (** Distance covered against speed limits. *)
  Lemma distance_time : centred d -> forall i j, (i <= j <= last_sample N)%nat ->
    (forall k, (i < k <= j)%nat -> unit_heading (at_sample sol k)) ->
    INR (length (d_modules d)) * dist2 (position (at_sample sol i)) (position (at_sample sol j))
      <= elapsed sol i j * sum (map wheel_limit (d_modules d)).
  Proof.
    intros Ce i j. induction j as [|j IH]; intros H U.
    - assert (i = 0)%nat as -> by lia. rewrite elapsed_self, dist2_self. lra.
    - destruct (Nat.eq_dec i (S j)) as [->|D]; [rewrite elapsed_self, dist2_self; lra|].
      rewrite elapsed_step by lia. specialize (IH ltac:(lia) ltac:(intros; apply U; lia)).
      pose proof (dt_nonneg asserts h handle d g sol G Sv (S j) ltac:(fold N; lia)) as Dt.
      pose proof (speed_limit_proof asserts h handle d g sol G Sv W Ce (S j) ltac:(fold N; lia) (U (S j) ltac:(lia))) as B.
      destruct (C16_steps_proof asserts h handle d g sol G Sv (S j) ltac:(fold N; lia)) as [[MX MY] _].
      cbv zeta in B. replace (S j - 1)%nat with j in MX, MY by lia.
      assert (E : dist2 (position (at_sample sol j)) (position (at_sample sol (S j))) =
                  step_to sol (S j) * norm2 (q_vx (at_sample sol (S j)), q_vy (at_sample sol (S j)))).
      { rewrite dist2_norm. unfold position. cbn [fst snd].
        replace (q_x (at_sample sol (S j)) - q_x (at_sample sol j)) with (step_to sol (S j) * q_vx (at_sample sol (S j))) by lra.
        replace (q_y (at_sample sol (S j)) - q_y (at_sample sol j)) with (step_to sol (S j) * q_vy (at_sample sol (S j))) by lra.
        rewrite norm2_scale, Rabs_right by lra. reflexivity. }
      pose proof (dist2_tri (position (at_sample sol i)) (position (at_sample sol j)) (position (at_sample sol (S j)))) as T.
      rewrite E in T. pose proof (pos_INR (length (d_modules d))) as PL.
      pose proof (Rmult_le_compat_l _ _ _ PL T) as T'. pose proof (Rmult_le_compat_l _ _ _ Dt B) as B'. lra.
  Qed.

  (** Change of velocity against force limits. *)
  Lemma velocity_time : 0 < d_mass d -> forall i j, (i <= j <= last_sample N)%nat ->
    d_mass d * norm2 (q_vx (at_sample sol j) - q_vx (at_sample sol i), q_vy (at_sample sol j) - q_vy (at_sample sol i))
      <= elapsed sol i j * thrust d.
  Proof.
    intros Pm i j. induction j as [|j IH]; intros H.
    - assert (i = 0)%nat as -> by lia. rewrite elapsed_self.
      replace (q_vx (at_sample sol 0) - q_vx (at_sample sol 0)) with 0 by ring.
      replace (q_vy (at_sample sol 0) - q_vy (at_sample sol 0)) with 0 by ring. rewrite norm2_zero. lra.
    - destruct (Nat.eq_dec i (S j)) as [->|D].
      { rewrite elapsed_self. set (q := at_sample sol (S j)).
        replace (q_vx q - q_vx q) with 0 by ring. replace (q_vy q - q_vy q) with 0 by ring. rewrite norm2_zero. lra. }
      rewrite elapsed_step by lia. specialize (IH ltac:(lia)).
      pose proof (dt_nonneg asserts h handle d g sol G Sv (S j) ltac:(fold N; lia)) as Dt.
      destruct (C58_proof asserts h handle d g sol G Sv W (S j) ltac:(fold N; lia)) as [B _]. specialize (B Pm).
      fold (thrust d) in B.
      destruct (C16_steps_proof asserts h handle d g sol G Sv (S j) ltac:(fold N; lia)) as [_ (AX & AY & _)].
      replace (S j - 1)%nat with j in AX, AY by lia.
      set (qi := at_sample sol i) in *. set (qj := at_sample sol j) in *. set (q := at_sample sol (S j)) in *.
      set (dt := step_to sol (S j)) in *.
      replace (q_vx q - q_vx qi) with ((q_vx qj - q_vx qi) + dt * q_ax q) by lra.
      replace (q_vy q - q_vy qi) with ((q_vy qj - q_vy qi) + dt * q_ay q) by lra.
      pose proof (norm2_triangle (q_vx qj - q_vx qi) (q_vy qj - q_vy qi) (dt * q_ax q) (dt * q_ay q)) as T.
      rewrite (norm2_scale dt), (Rabs_right dt) in T by lra.
      assert (B' : d_mass d * norm2 (q_ax q, q_ay q) <= thrust d).
      { apply (Rmult_le_compat_l (d_mass d)) in B; [|lra].
        replace (d_mass d * (thrust d / d_mass d)) with (thrust d) in B by (field; lra). exact B. }
      pose proof (Rmult_le_compat_l _ _ _ Dt B'). 
      pose proof (Rmult_le_compat_l (d_mass d) _ _ (Rlt_le _ _ Pm) T). lra.
  Qed.

  (** From rest to rest within a segment. *)
  Lemma rest_to_rest : 0 < d_mass d -> forall dt i n, (i + n <= last_sample N)%nat ->
    (forall k, (k < n)%nat -> step_to sol (S (i + k)) = dt) ->
    at_rest (at_sample sol i) -> at_rest (at_sample sol (i + n)) ->
    4 * d_mass d * dist2 (position (at_sample sol i)) (position (at_sample sol (i + n)))
      <= thrust d * (elapsed sol i (i + n) * elapsed sol i (i + n)).
  Proof.
    intros Pm dt i n Hn U R1 R2.
    destruct n as [|n0].
    { rewrite Nat.add_0_r, dist2_self, elapsed_self. lra. }
    set (n := S n0) in *.
    assert (Dt : 0 <= dt).
    { rewrite <- (U 0%nat) by lia. apply (dt_nonneg asserts h handle d g sol G Sv). fold N. lia. }
    assert (Th : 0 <= thrust d).
    { unfold thrust. assert (X : forall l, (forall md, In md l -> 0 <= force_limit md) -> 0 <= sum (map force_limit l)).
      { induction l as [|m l IH]; intros Hl; simpl; [lra|]. pose proof (Hl m (or_introl eq_refl)).
        specialize (IH (fun x Hx => Hl x (or_intror Hx))). lra. }
      apply X. intros md Hm. destruct (W md Hm) as (P1 & _ & P2). unfold force_limit, Rdiv.
      apply Rmult_le_pos; [exact P2|]. left. apply Rinv_0_lt_compat. exact P1. }
    assert (V : forall k, (k <= n)%nat ->
      d_mass d * norm2 (q_vx (at_sample sol (i + k)), q_vy (at_sample sol (i + k)))
        <= INR (Nat.min k (n - k)) * dt * thrust d).
    { intros k Hk.
      pose proof (velocity_time Pm i (i + k) ltac:(lia)) as A.
      pose proof (velocity_time Pm (i + k) (i + n) ltac:(lia)) as B.
      destruct R1 as [X1 Y1]. destruct R2 as [X2 Y2]. rewrite X1, Y1, !Rminus_0_r in A. rewrite X2, Y2, !Rminus_0_l in B.
      rewrite norm2_neg in B. rewrite (elapsed_uniform sol dt i n U k Hk) in A.
      assert (E : elapsed sol (i + k) (i + n) = INR (n - k) * dt).
      { pose proof (elapsed_trans sol i (i + k) (i + n) ltac:(lia)) as T.
        rewrite (elapsed_uniform sol dt i n U n ltac:(lia)), (elapsed_uniform sol dt i n U k Hk) in T.
        rewrite minus_INR by lia. lra. }
      rewrite E in B. destruct (Nat.min_spec k (n - k)) as [[_ ->]|[_ ->]]; assumption. }
    assert (D : forall k, (k <= n)%nat ->
      d_mass d * dist2 (position (at_sample sol i)) (position (at_sample sol (i + k))) <= dt * dt * thrust d * tent n k).
    { induction k as [|k IH]; intros Hk.
      - rewrite Nat.add_0_r, dist2_self. simpl. lra.
      - specialize (IH ltac:(lia)). specialize (V (S k) Hk). cbn [tent].
        destruct (C16_steps_proof asserts h handle d g sol G Sv (i + S k) ltac:(fold N; lia)) as [[MX MY] _].
        replace (i + S k - 1)%nat with (i + k)%nat in MX, MY by lia.
        assert (Es : step_to sol (i + S k) = dt) by (rewrite Nat.add_succ_r; apply U; lia).
        rewrite Es in MX, MY.
        pose proof (dist2_tri (position (at_sample sol i)) (position (at_sample sol (i + k))) (position (at_sample sol (i + S k)))) as T.
        set (p := at_sample sol (i + k)) in *. set (q := at_sample sol (i + S k)) in *.
        assert (E : dist2 (position p) (position q) = dt * norm2 (q_vx q, q_vy q)).
        { rewrite dist2_norm. unfold position. cbn [fst snd].
          replace (q_x q - q_x p) with (dt * q_vx q) by lra. replace (q_y q - q_y p) with (dt * q_vy q) by lra.
          rewrite norm2_scale, (Rabs_right dt) by lra. reflexivity. }
        rewrite E in T.
        pose proof (Rmult_le_compat_l (d_mass d) _ _ (Rlt_le _ _ Pm) T).
        pose proof (Rmult_le_compat_l _ _ _ Dt V). lra. }
    specialize (D n ltac:(lia)). rewrite (elapsed_uniform sol dt i n U n ltac:(lia)).
    pose proof (tent_bound n) as TB.
    assert (P : 0 <= dt * dt * thrust d) by (apply Rmult_le_pos; [nra|exact Th]).
    pose proof (Rmult_le_compat_l _ _ _ P TB). lra.
  Qed.
End Run.

Lemma C75_speed_proof : forall asserts h handle d g sol, generator asserts h handle d g -> solved g sol ->
  real_wheels d -> centred d -> forall i j, (i <= j <= last_sample (counts asserts h))%nat ->
  (forall k, (i < k <= j)%nat -> unit_heading (at_sample sol k)) ->
  INR (length (d_modules d)) * dist2 (position (at_sample sol i)) (position (at_sample sol j))
    <= elapsed sol i j * sum (map wheel_limit (d_modules d)).
Proof. intros. eapply distance_time; eassumption. Qed.
Lemma C75_force_proof : forall asserts h handle d g sol, generator asserts h handle d g -> solved g sol ->
  real_wheels d -> 0 < d_mass d -> forall i j, (i <= j <= last_sample (counts asserts h))%nat ->
  let p := at_sample sol i in let q := at_sample sol j in
  d_mass d * norm2 (q_vx q - q_vx p, q_vy q - q_vy p) <= elapsed sol i j * thrust d.
Proof. intros. eapply velocity_time; eassumption. Qed.

Lemma C75_rest_proof : forall asserts h handle d g sol, generator asserts h handle d g -> solved g sol ->
  real_wheels d -> 0 < d_mass d -> forall w, (w < length (counts asserts h))%nat ->
  let i := waypoint_sample (counts asserts h) w in let j := waypoint_sample (counts asserts h) (S w) in
  at_rest (at_sample sol i) -> at_rest (at_sample sol j) ->
  4 * d_mass d * dist2 (position (at_sample sol i)) (position (at_sample sol j))
    <= thrust d * (elapsed sol i j * elapsed sol i j).
Proof.
  intros asserts h handle d g sol G Sv W Pm w Hw i j Ri Rj. unfold i, j in *. clear i j.
  set (N := counts asserts h) in *.
  assert (E : waypoint_sample N (S w) = (waypoint_sample N w + nth w N 0)%nat).
  { rewrite (between_sum N w (S w)) by lia. replace (S w - w)%nat with 1%nat by lia. f_equal.
    clear - Hw. revert w Hw. induction N as [|a N IH]; intros w Hw; [simpl in Hw; lia|].
    destruct w as [|w]; [simpl; lia|]. simpl. apply IH. simpl in Hw. lia. }
  assert (L : (waypoint_sample N w + nth w N 0 <= last_sample N)%nat).
  { rewrite <- E. rewrite <- (waypoint_sample_past N (length N)) by lia. apply waypoint_sample_mono. lia. }
  rewrite E in *.
  destruct Sv as (env & F & E'). pose proof (uniform_read asserts h handle d g env sol G E') as U. fold N in U.
  assert (Sv : solved g sol) by (exists env; split; assumption).
  apply (rest_to_rest asserts h handle d g sol G Sv W Pm (step_to sol (S (waypoint_sample N w))) _ _ L); try assumption.
  intros k Hk. apply (U w k Hw Hk).
Qed.
