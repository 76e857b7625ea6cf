(** Stop-and-go plans are trajectories (C80). *)
From Coq Require Import List Lia Lra Psatz Reals ZArith.
Import ListNotations.
From Verif Require Import Outcome Num NumR Geometry Expr Constraints Util Builder Guess Generator Trajectory
  Spec SpecBuilder SpecPhysics SpecTrajectory SpecGenerator SpecStep SpecLegs Semantics
  GeometryFacts SolutionProofs TrajectoryProofs GeneratorCases LimitProofs StepProofs DurationProofs.
Open Scope R_scope.

(** ** Speeding up and slowing down *)
Definition peak (n j : nat) : R := INR (Nat.min j (n - j)).
Definition slope (n j : nat) : R := peak n j - peak n (j - 1).
Lemma tent_units : forall n, tent n n = units n.
Proof.
  intros n. unfold units. assert (H : tent n n = INR (n * n / 4) /\ tent (S n) (S n) = INR (S n * S n / 4)); [|apply H].
  induction n as [|n [I1 I2]]; [split; simpl; lra|]. split; [exact I2|].
  change (tent (S (S n)) (S (S n))) with (tent (S (S n)) (S n) + INR (Nat.min (S (S n)) (S (S n) - S (S n)))).
  replace (Nat.min (S (S n)) (S (S n) - S (S n))) with 0%nat by lia. rewrite tent_shift by lia. rewrite I1.
  replace (S (S n) * S (S n))%nat with (n * n + (S n) * 4)%nat by lia. rewrite Nat.div_add by lia.
  rewrite plus_INR. simpl (INR 0). ring.
Qed.
Lemma units_pos : forall n, (2 <= n)%nat -> 0 < units n.
Proof.
  intros n H. unfold units. apply lt_0_INR. apply Nat.div_str_pos. nia.
Qed.
Lemma tent_mono : forall n i j, (i <= j)%nat -> tent n i <= tent n j.
Proof.
  intros n i j H. induction j as [|j IH]; [assert (i = 0)%nat as -> by lia; lra|].
  destruct (Nat.eq_dec i (S j)) as [->|D]; [lra|]. cbn [tent].
  pose proof (pos_INR (Nat.min (S j) (n - S j))). specialize (IH ltac:(lia)). lra.
Qed.
Lemma tent_range : forall n j, (j <= n)%nat -> 0 <= tent n j <= units n.
Proof. intros n j H. rewrite <- tent_units. split; [apply (tent_mono n 0 j); lia|apply tent_mono; lia]. Qed.
Lemma tent_peak : forall n j, (1 <= j)%nat -> tent n j = tent n (j - 1) + peak n j.
Proof. intros n j H. destruct j as [|j]; [lia|]. replace (S j - 1)%nat with j by lia. reflexivity. Qed.
Lemma peak_range : forall n j, 0 <= peak n j <= INR (n / 2).
Proof.
  intros n j. unfold peak. split; [apply pos_INR|]. apply le_INR. pose proof (Nat.div_mod n 2 ltac:(lia)).
  pose proof (Nat.mod_upper_bound n 2 ltac:(lia)). lia.
Qed.
Lemma slope_range : forall n j, (j <= n)%nat -> Rabs (slope n j) <= 1.
Proof.
  intros n j H. unfold slope, peak. apply Rabs_le.
  assert (A : (Nat.min j (n - j) <= S (Nat.min (j - 1) (n - (j - 1))))%nat) by lia.
  assert (B : (Nat.min (j - 1) (n - (j - 1)) <= S (Nat.min j (n - j)))%nat) by lia.
  apply le_INR in A, B. rewrite S_INR in A, B. lra.
Qed.
Lemma peak_start : forall n, peak n 0 = 0.
Proof. reflexivity. Qed.
Lemma peak_end : forall n, peak n n = 0.
Proof. intros n. unfold peak. rewrite Nat.sub_diag, Nat.min_0_r. reflexivity. Qed.

(** ** Which leg a sample belongs to *)
Fixpoint locate (S : list nat) (i : nat) : nat * nat :=
  match S with
  | [] => (0, i)
  | n :: S' => if i <=? n then (0, i) else let (k, j) := locate S' (i - n) in (Datatypes.S k, j)
  end%nat.
Lemma locate_at : forall S k j, (forall n, In n S -> (1 <= n)%nat) -> (k < length S)%nat -> (1 <= j <= nth k S 0)%nat ->
  locate S (waypoint_sample S k + j) = (k, j).
Proof.
  induction S as [|n S IH]; intros k j P Hk Hj; [simpl in Hk; lia|]. destruct k as [|k].
  - unfold waypoint_sample. cbn. cbn in Hj. destruct (Nat.leb_spec j n); [reflexivity|lia].
  - change (waypoint_sample (n :: S) (Datatypes.S k)) with (n + waypoint_sample S k)%nat. cbn [locate].
    destruct (Nat.leb_spec (n + waypoint_sample S k + j) n); [lia|].
    replace (n + waypoint_sample S k + j - n)%nat with (waypoint_sample S k + j)%nat by lia.
    rewrite IH; [reflexivity|intros; apply P; right; assumption|simpl in Hk; lia|exact Hj].
Qed.
Lemma locate_start : forall S, locate S 0 = (0, 0)%nat.
Proof. intros [|n S]; reflexivity. Qed.
Lemma sample_in_leg : forall S i, (1 <= i <= last_sample S)%nat ->
  exists k j, (k < length S)%nat /\ (1 <= j <= nth k S 0)%nat /\ i = (waypoint_sample S k + j)%nat.
Proof.
  induction S as [|n S IH]; intros i Hi; [unfold last_sample in Hi; simpl in Hi; lia|].
  change (last_sample (n :: S)) with (n + last_sample S)%nat in Hi.
  destruct (le_lt_dec i n) as [L|L].
  - exists 0%nat, i. simpl. unfold waypoint_sample. simpl. lia.
  - destruct (IH (i - n)%nat ltac:(lia)) as (k & j & Hk & Hj & E). exists (Datatypes.S k), j.
    change (waypoint_sample (n :: S) (Datatypes.S k)) with (n + waypoint_sample S k)%nat. simpl. lia.
Qed.
Lemma waypoint_sample_S : forall S k, (k < length S)%nat ->
  waypoint_sample S (Datatypes.S k) = (waypoint_sample S k + nth k S 0)%nat.
Proof.
  induction S as [|n S IH]; intros k Hk; [simpl in Hk; lia|]. destruct k as [|k].
  - unfold waypoint_sample. simpl. lia.
  - change (waypoint_sample (n :: S) (Datatypes.S (Datatypes.S k))) with (n + waypoint_sample S (Datatypes.S k))%nat.
    change (waypoint_sample (n :: S) (Datatypes.S k)) with (n + waypoint_sample S k)%nat.
    rewrite IH by (simpl in Hk; lia). simpl. lia.
Qed.

Lemma sum_zip : forall {A} (f g : A -> R) l, sum (map (fun a => f a + g a) l) = sum (map f l) + sum (map g l).
Proof. intros A f g. induction l as [|a l IH]; simpl; [ring|]. rewrite IH. ring. Qed.
Lemma sum_mul : forall {A} (f : A -> R) c l, sum (map (fun a => c * f a) l) = c * sum (map f l).
Proof. intros A f c. induction l as [|a l IH]; simpl; [ring|]. rewrite IH. ring. Qed.
Lemma sum_all : forall {A} (c : R) (l : list A), sum (map (fun _ => c) l) = INR (length l) * c.
Proof.
  intros A c. induction l as [|a l IH]; [simpl; ring|]. cbn [map sum length]. rewrite IH, S_INR. ring.
Qed.

(** ** The plan as a solution *)
Section Plan.
  Variables (d : drivetrain R) (legs : list (nat * R)) (stops : nat -> stop).
  Hypotheses (Ce : centred d) (Ar : 0 < arms d) (Pm : 0 <= d_mass d) (Pi : 0 <= d_moi d).
  Hypothesis Wt : forall k, (k < length legs)%nat ->
    leg_within d (fst (nth k legs (0%nat, 0))) (snd (nth k legs (0%nat, 0))) (stops k) (stops (S k)).
  Let L := map fst legs.
  Definition leg_n (k : nat) : nat := fst (nth k legs (0%nat, 0)).
  Definition leg_dt (k : nat) : R := snd (nth k legs (0%nat, 0)).
  Definition dx k := o_x (stops (S k)) - o_x (stops k).
  Definition dy k := o_y (stops (S k)) - o_y (stops k).
  Definition da k := o_a (stops (S k)) - o_a (stops k).
  Definition part k j := tent (leg_n k) j / units (leg_n k).
  Definition rate k j := peak (leg_n k) j / (units (leg_n k) * leg_dt k).
  Definition acc k j := slope (leg_n k) j / (units (leg_n k) * (leg_dt k * leg_dt k)).
  Definition lstate (k j : nat) : state :=
    mkState (o_x (stops k) + part k j * dx k) (o_y (stops k) + part k j * dy k)
      (cos (o_a (stops k) + part k j * da k)) (sin (o_a (stops k) + part k j * da k))
      (rate k j * dx k) (rate k j * dy k) (rate k j * da k)
      (acc k j * dx k) (acc k j * dy k) (acc k j * da k).
  Definition lforce (q : state) (md : swerve_module R) : R * R :=
    (d_mass d * q_ax q / INR (length (d_modules d)) - d_moi d * q_al q / arms d * snd (turned q (m_translation md)),
     d_mass d * q_ay q / INR (length (d_modules d)) + d_moi d * q_al q / arms d * fst (turned q (m_translation md))).
  Definition lat (i : nat) : state := let (k, j) := locate L i in lstate k j.
  Definition ldt (i : nat) : R := leg_dt (fst (locate L (S i))).
  Definition each {A} (f : nat -> A) : list A := map f (seq 0 (S (last_sample L))).
  Definition plan : solution R :=
    mkSolution (map ldt (seq 0 (last_sample L)))
      (each (fun i => q_x (lat i))) (each (fun i => q_y (lat i))) (each (fun i => q_c (lat i))) (each (fun i => q_s (lat i)))
      (each (fun i => q_vx (lat i))) (each (fun i => q_vy (lat i))) (each (fun i => q_w (lat i)))
      (each (fun i => q_ax (lat i))) (each (fun i => q_ay (lat i))) (each (fun i => q_al (lat i)))
      (each (fun i => map (fun md => fst (lforce (lat i) md)) (d_modules d)))
      (each (fun i => map (fun md => snd (lforce (lat i) md)) (d_modules d))).

  Lemma len_L : length L = length legs. Proof. apply map_length. Qed.
  Lemma nth_L : forall k, nth k L 0%nat = leg_n k.
  Proof. intros k. unfold L, leg_n. rewrite <- (map_nth fst). reflexivity. Qed.
  Lemma leg_two : forall k, (k < length legs)%nat -> (2 <= leg_n k)%nat.
  Proof. intros k Hk. apply (Wt k Hk). Qed.
  Lemma L_pos : forall n, In n L -> (1 <= n)%nat.
  Proof.
    intros n Hn. destruct (In_nth _ _ 0%nat Hn) as (k & Hk & <-). rewrite len_L in Hk. rewrite nth_L.
    pose proof (leg_two k Hk). lia.
  Qed.
  Lemma leg_unit : forall k, (k < length legs)%nat -> 0 < units (leg_n k).
  Proof. intros k Hk. apply units_pos, leg_two, Hk. Qed.
  Lemma leg_dt_pos : forall k, (k < length legs)%nat -> 0 < leg_dt k.
  Proof. intros k Hk. apply (Wt k Hk). Qed.

  Lemma nth_each : forall {A} (f : nat -> A) z i, (i <= last_sample L)%nat -> nth i (each f) z = f i.
  Proof.
    intros A f z i H. unfold each. rewrite (nth_indep _ z (f 0%nat)) by (rewrite map_length, seq_length; lia).
    rewrite map_nth, seq_nth by lia. reflexivity.
  Qed.
  Lemma plan_sample : forall i, (i <= last_sample L)%nat -> at_sample plan i = lat i.
  Proof.
    intros i H. unfold at_sample, plan. cbn [s_x s_y s_thetacos s_thetasin s_vx s_vy s_omega s_ax s_ay s_alpha].
    rewrite !nth_each by exact H. destruct (lat i). reflexivity.
  Qed.
  Lemma combine_split : forall {A} (f g : A -> R) l, combine (map f l) (map g l) = map (fun a => (f a, g a)) l.
  Proof. intros A f g. induction l as [|a l IH]; simpl; [reflexivity|]. rewrite IH. reflexivity. Qed.
  Lemma plan_forces : forall i, (i <= last_sample L)%nat -> forces plan i = map (lforce (lat i)) (d_modules d).
  Proof.
    intros i H. unfold forces, plan. cbn [s_moduleFX s_moduleFY]. rewrite !nth_each by exact H.
    rewrite combine_split. apply map_ext. intros md. symmetry. apply surjective_pairing.
  Qed.
  Lemma plan_at : forall k j, (k < length legs)%nat -> (1 <= j <= leg_n k)%nat ->
    lat (waypoint_sample L k + j) = lstate k j /\ step_to plan (waypoint_sample L k + j) = leg_dt k /\
    (waypoint_sample L k + j <= last_sample L)%nat.
  Proof.
    intros k j Hk Hj.
    assert (B : (waypoint_sample L k + j <= last_sample L)%nat).
    { pose proof (waypoint_sample_S L k ltac:(rewrite len_L; exact Hk)) as E. rewrite nth_L in E.
      pose proof (waypoint_sample_mono L (S k) (length L) ltac:(rewrite len_L; lia)) as M.
      rewrite (waypoint_sample_past L (length L)) in M by lia. lia. }
    assert (E : locate L (waypoint_sample L k + j) = (k, j)).
    { apply locate_at; [exact L_pos|rewrite len_L; exact Hk|rewrite nth_L; exact Hj]. }
    split; [unfold lat; rewrite E; reflexivity|]. split; [|exact B].
    unfold step_to. cbn [s_dt plan].
    rewrite (nth_indep _ 0 (ldt 0)) by (rewrite map_length, seq_length; lia). rewrite map_nth, seq_nth by lia.
    unfold ldt. replace (S (0 + (waypoint_sample L k + j - 1)))%nat with (waypoint_sample L k + j)%nat by lia.
    rewrite E. reflexivity.
  Qed.

  Lemma part_start : forall k, part k 0 = 0.
  Proof. intros. unfold part. cbn [tent]. unfold Rdiv. ring. Qed.
  Lemma part_end : forall k, (k < length legs)%nat -> part k (leg_n k) = 1.
  Proof. intros k Hk. unfold part. rewrite tent_units. pose proof (leg_unit k Hk). field. lra. Qed.
  Lemma rate_start : forall k, rate k 0 = 0.
  Proof. intros. unfold rate. rewrite peak_start. unfold Rdiv. ring. Qed.
  Lemma rate_end : forall k, rate k (leg_n k) = 0.
  Proof. intros. unfold rate. rewrite peak_end. unfold Rdiv. ring. Qed.

  (** At the stops the robot stands. *)
  Lemma lstate_stands : forall k j, stands (stops k) (lstate k 0) /\
    ((k < length legs)%nat -> j = leg_n k -> stands (stops (S k)) (lstate k j)).
  Proof.
    intros k j. split.
    - unfold stands, heading_is, at_rest, lstate. cbn [q_x q_y q_c q_s q_vx q_vy q_w]. rewrite part_start, rate_start, !Rmult_0_l, !Rplus_0_r. tauto.
    - intros Hk ->. unfold stands, heading_is, at_rest, lstate. cbn [q_x q_y q_c q_s q_vx q_vy q_w].
      rewrite part_end, rate_end, !Rmult_0_l, !Rmult_1_l by exact Hk. unfold dx, dy, da.
      replace (o_a (stops k) + (o_a (stops (S k)) - o_a (stops k))) with (o_a (stops (S k))) by ring.
      repeat split; ring.
  Qed.
  Lemma stop_stands : forall k, (k <= length legs)%nat -> stands (stops k) (lat (waypoint_sample L k)).
  Proof.
    intros k Hk. destruct k as [|k].
    - unfold lat. change (waypoint_sample L 0) with 0%nat. rewrite locate_start. apply lstate_stands. exact 0%nat.
    - pose proof (waypoint_sample_S L k ltac:(rewrite len_L; lia)) as E. rewrite nth_L in E. rewrite E.
      pose proof (leg_two k ltac:(lia)). destruct (plan_at k (leg_n k) ltac:(lia) ltac:(lia)) as (-> & _).
      apply lstate_stands; [lia|reflexivity].
  Qed.
  (** The state before a step, as far as the step looks at it. *)
  Lemma before_step : forall k j, (k < length legs)%nat -> (1 <= j <= leg_n k)%nat ->
    let a := lat (waypoint_sample L k + j - 1) in let b := lstate k (j - 1) in
    q_x a = q_x b /\ q_y a = q_y b /\ q_c a = q_c b /\ q_s a = q_s b /\ q_vx a = q_vx b /\ q_vy a = q_vy b /\ q_w a = q_w b.
  Proof.
    intros k j Hk Hj. cbv zeta. destruct (Nat.eq_dec j 1) as [->|D].
    - replace (waypoint_sample L k + 1 - 1)%nat with (waypoint_sample L k) by lia. change (1 - 1)%nat with 0%nat.
      destruct (stop_stands k ltac:(lia)) as (A1 & A2 & [A3 A4] & [A5 A6] & A7).
      destruct (lstate_stands k 0) as [(B1 & B2 & [B3 B4] & [B5 B6] & B7) _].
      rewrite A1, A2, A3, A4, A5, A6, A7, B1, B2, B3, B4, B5, B6, B7. tauto.
    - replace (waypoint_sample L k + j - 1)%nat with (waypoint_sample L k + (j - 1))%nat by lia.
      destruct (plan_at k (j - 1) Hk ltac:(lia)) as (-> & _). tauto.
  Qed.

  Lemma lstate_unit : forall k j, unit_heading (lstate k j).
  Proof. intros. unfold unit_heading, lstate. cbn [q_c q_s]. apply pyth. Qed.

  Lemma modules_some : 0 < INR (length (d_modules d)).
  Proof.
    apply lt_0_INR. unfold arms in Ar. destruct (d_modules d); [simpl in Ar; lra|simpl; lia].
  Qed.

  (** Forces and torques add up. *)
  Lemma lforce_newton : forall q, unit_heading q -> newton d q (map (lforce q) (d_modules d)).
  Proof.
    intros q U. unfold newton. rewrite !map_map.
    pose proof modules_some as PN. set (n := INR (length (d_modules d))) in *. destruct Ce as [CX CY].
    assert (TX : sum (map (fun md => fst (turned q (m_translation md))) (d_modules d)) = 0).
    { unfold turned. cbn [fst]. erewrite map_ext.
      2:{ intros md. replace (tX (m_translation md) * q_c q - tY (m_translation md) * q_s q)
            with (q_c q * tX (m_translation md) + (- q_s q) * tY (m_translation md)) by ring. reflexivity. }
      rewrite sum_zip, !sum_mul, CX, CY. ring. }
    assert (TY : sum (map (fun md => snd (turned q (m_translation md))) (d_modules d)) = 0).
    { unfold turned. cbn [snd]. erewrite map_ext.
      2:{ intros md. replace (tX (m_translation md) * q_s q + tY (m_translation md) * q_c q)
            with (q_s q * tX (m_translation md) + q_c q * tY (m_translation md)) by ring. reflexivity. }
      rewrite sum_zip, !sum_mul, CX, CY. ring. }
    set (beta := d_moi d * q_al q / arms d).
    split; [|split].
    - erewrite map_ext.
      2:{ intros md. unfold lforce. cbn [fst]. fold beta n.
          replace (d_mass d * q_ax q / n - beta * snd (turned q (m_translation md)))
            with (d_mass d * q_ax q / n + (- beta) * snd (turned q (m_translation md))) by ring. reflexivity. }
      rewrite (sum_zip (fun _ => d_mass d * q_ax q / n) (fun md => - beta * snd (turned q (m_translation md)))), sum_mul, sum_all, TY. fold n. field. lra.
    - erewrite map_ext.
      2:{ intros md. unfold lforce. cbn [snd]. fold beta n. reflexivity. }
      rewrite (sum_zip (fun _ => d_mass d * q_ay q / n) (fun md => beta * fst (turned q (m_translation md)))), sum_mul, sum_all, TX. fold n. field. lra.
    - assert (Z : forall l, combine l (map (lforce q) l) = map (fun md => (md, lforce q md)) l).
      { induction l as [|a l IH]; simpl; [reflexivity|]. rewrite IH. reflexivity. }
      rewrite Z, map_map. cbn [fst snd].
      erewrite map_ext.
      2:{ intros md. 
          assert (E : cross2 (turned q (m_translation md)) (lforce q md) =
            (d_mass d * q_ay q / n * fst (turned q (m_translation md)) + - (d_mass d * q_ax q / n) * snd (turned q (m_translation md)))
            + beta * (arm md * arm md)).
          { unfold arm. pose proof (turned_norm q (m_translation md) U) as T. rewrite <- T.
            destruct (turned q (m_translation md)) as [tx ty] eqn:Et. rewrite norm2_sqr.
            unfold cross2, lforce. rewrite Et. cbn [fst snd]. fold beta n. ring. }
          rewrite E. reflexivity. }
      rewrite (sum_zip (fun md => d_mass d * q_ay q / n * fst (turned q (m_translation md)) + - (d_mass d * q_ax q / n) * snd (turned q (m_translation md)))
                 (fun md => beta * (arm md * arm md))), sum_zip, !sum_mul, TX, TY.
      fold (arms d). unfold beta. field. lra.
  Qed.

  Lemma part_range : forall k j, (k < length legs)%nat -> (j <= leg_n k)%nat -> 0 <= part k j <= 1.
  Proof.
    intros k j Hk Hj. unfold part. pose proof (tent_range (leg_n k) j Hj) as [T1 T2]. pose proof (leg_unit k Hk) as U.
    split; [apply Rmult_le_pos; [exact T1|left; apply Rinv_0_lt_compat, U]|].
    apply Rmult_le_reg_r with (units (leg_n k)); [exact U|]. unfold Rdiv. rewrite Rmult_assoc, Rinv_l by lra. lra.
  Qed.
  Lemma rate_range : forall k j, (k < length legs)%nat -> 0 <= rate k j <= top_rate (leg_n k) (leg_dt k).
  Proof.
    intros k j Hk. unfold rate, top_rate. pose proof (peak_range (leg_n k) j) as [P1 P2].
    pose proof (Rmult_lt_0_compat _ _ (leg_unit k Hk) (leg_dt_pos k Hk)) as U. apply Rinv_0_lt_compat in U.
    split; [apply Rmult_le_pos; lra|]. apply Rmult_le_compat_r; lra.
  Qed.
  Lemma lstate_under_way : forall k j, (k < length legs)%nat -> (j <= leg_n k)%nat ->
    under_way (stops k) (stops (S k)) (top_rate (leg_n k) (leg_dt k)) (lstate k j).
  Proof.
    intros k j Hk Hj. exists (part k j), (rate k j). split; [apply part_range; assumption|].
    split; [apply rate_range; assumption|]. unfold heading_is, lstate, dx, dy, da. cbn. tauto.
  Qed.
  Lemma leg_distance : forall k, dist2 (stop_point (stops k)) (stop_point (stops (S k))) = norm2 (dx k, dy k).
  Proof. intros. rewrite dist2_norm. reflexivity. Qed.

  Lemma lstate_wheels : forall k j, (k < length legs)%nat -> wheels_within d (lstate k j).
  Proof.
    intros k j Hk md Hm. rewrite wheel_ground_norm by apply lstate_unit.
    destruct (Wt k Hk) as (_ & _ & _ & F). cbv zeta in F. destruct (F md Hm) as [B _]. unfold wheel_limit in B.
    fold (leg_n k) (leg_dt k) (da k) in B. rewrite leg_distance in B.
    pose proof (rate_range k j Hk) as [R1 R2].
    eapply Rle_trans; [|exact B]. unfold ground_velocity.
    assert (E : norm2 (turned (lstate k j) (m_translation md)) = arm md) by (apply turned_norm, lstate_unit).
    destruct (turned (lstate k j) (m_translation md)) as [tx ty]. cbn [fst snd].
    unfold lstate. cbn [q_vx q_vy q_w].
    replace (rate k j * dx k - rate k j * da k * ty) with (rate k j * (dx k + da k * (- ty))) by ring.
    replace (rate k j * dy k + rate k j * da k * tx) with (rate k j * (dy k + da k * tx)) by ring.
    rewrite norm2_scale, (Rabs_right (rate k j)) by lra.
    assert (T : norm2 (dx k + da k * - ty, dy k + da k * tx) <= norm2 (dx k, dy k) + Rabs (da k) * arm md).
    { eapply Rle_trans; [apply norm2_triangle|]. rewrite norm2_scale.
      replace (norm2 (- ty, tx)) with (arm md); [lra|]. rewrite <- E. unfold norm2. cbn [fst snd]. f_equal. ring. }
    pose proof (norm2_pos (dx k + da k * - ty, dy k + da k * tx)) as NP.
    rewrite Rmult_comm. apply Rmult_le_compat; lra.
  Qed.
  Lemma lstate_forces : forall k j md, (k < length legs)%nat -> (j <= leg_n k)%nat -> In md (d_modules d) ->
    norm2 (lforce (lstate k j) md) <= force_limit md.
  Proof.
    intros k j md Hk Hj Hm. destruct (Wt k Hk) as (_ & _ & _ & F). cbv zeta in F. destruct (F md Hm) as [_ B].
    fold (leg_n k) (leg_dt k) (da k) in B. rewrite leg_distance in B. eapply Rle_trans; [|exact B].
    pose proof modules_some as PN. set (n := INR (length (d_modules d))) in *.
    assert (E : norm2 (turned (lstate k j) (m_translation md)) = arm md) by (apply turned_norm, lstate_unit).
    unfold lforce. fold n. destruct (turned (lstate k j) (m_translation md)) as [tx ty]. cbn [fst snd].
    unfold lstate. cbn [q_ax q_ay q_al].
    assert (A : Rabs (acc k j) <= / (units (leg_n k) * (leg_dt k * leg_dt k))).
    { unfold acc, Rdiv. rewrite Rabs_mult. pose proof (leg_unit k Hk) as U. pose proof (leg_dt_pos k Hk) as T.
      assert (I : 0 < / (units (leg_n k) * (leg_dt k * leg_dt k))) by (apply Rinv_0_lt_compat; apply Rmult_lt_0_compat; nra).
      rewrite (Rabs_right (/ _)) by lra. rewrite <- (Rmult_1_l (/ _)) at 2. apply Rmult_le_compat_r; [lra|].
      apply slope_range, Hj. }
    replace (d_mass d * (acc k j * dx k) / n - d_moi d * (acc k j * da k) / arms d * ty)
      with (acc k j * (d_mass d / n * dx k + d_moi d * da k / arms d * - ty)) by (field; lra).
    replace (d_mass d * (acc k j * dy k) / n + d_moi d * (acc k j * da k) / arms d * tx)
      with (acc k j * (d_mass d / n * dy k + d_moi d * da k / arms d * tx)) by (field; lra).
    rewrite norm2_scale.
    assert (T : norm2 (d_mass d / n * dx k + d_moi d * da k / arms d * - ty, d_mass d / n * dy k + d_moi d * da k / arms d * tx)
       <= d_mass d * norm2 (dx k, dy k) / n + d_moi d * Rabs (da k) * arm md / arms d).
    { eapply Rle_trans; [apply norm2_triangle|]. rewrite !norm2_scale.
      replace (norm2 (- ty, tx)) with (arm md) by (rewrite <- E; unfold norm2; cbn [fst snd]; f_equal; ring).
      assert (N1 : Rabs (d_mass d / n) = d_mass d / n).
      { apply Rabs_right, Rle_ge. apply Rmult_le_pos; [exact Pm|left; apply Rinv_0_lt_compat, PN]. }
      assert (N2 : Rabs (d_moi d * da k / arms d) = d_moi d * Rabs (da k) / arms d).
      { unfold Rdiv. rewrite !Rabs_mult, Rabs_inv. rewrite (Rabs_right (d_moi d)), (Rabs_right (arms d)) by lra. reflexivity. }
      rewrite N1, N2. right. field. lra. }
    unfold Rdiv at 1. rewrite Rmult_comm. apply Rmult_le_compat; [apply norm2_pos|apply Rabs_pos|exact T|exact A].
  Qed.

  Lemma plan_physics : (0 < length legs)%nat -> forall counts, last_sample counts = last_sample L ->
    obeys_physics turns d counts plan.
  Proof.
    intros Ne counts EL. split; rewrite EL; intros i Hi.
    - cbv zeta. rewrite !plan_sample by lia. destruct (sample_in_leg L i Hi) as (k & j & Hk & Hj & Ei).
      rewrite len_L in Hk. rewrite nth_L in Hj. subst i. destruct (plan_at k j Hk Hj) as (E & Es & _). rewrite E, Es.
      pose proof (before_step k j Hk Hj) as Bf. cbv zeta in Bf. destruct Bf as (B1 & B2 & B3 & B4 & B5 & B6 & B7).
      set (a := lat (waypoint_sample L k + j - 1)) in *. pose proof (leg_unit k Hk) as U. pose proof (leg_dt_pos k Hk) as T.
      assert (P : part k j = part k (j - 1) + rate k j * leg_dt k).
      { unfold part, rate. rewrite (tent_peak (leg_n k) j) by lia. field. lra. }
      assert (Q : rate k j = rate k (j - 1) + acc k j * leg_dt k).
      { unfold rate, acc, slope. field. lra. }
      split; [|split; [|split]].
      + apply (Wt k Hk).
      + unfold moves. rewrite B1, B2. unfold lstate. cbn [q_x q_y q_vx q_vy]. rewrite P. split; ring.
      + unfold turns. rewrite B3, B4. unfold lstate. cbn [q_c q_s q_w].
        replace (o_a (stops k) + part k j * da k) with (o_a (stops k) + part k (j - 1) * da k + rate k j * da k * leg_dt k)
          by (rewrite P; ring).
        rewrite (cos_plus (_ + _) (_ * leg_dt k)), (sin_plus (_ + _) (_ * leg_dt k)). split; ring.
      + unfold accelerates. rewrite B5, B6, B7. unfold lstate. cbn [q_vx q_vy q_w q_ax q_ay q_al]. rewrite Q. repeat split; ring.
    - rewrite plan_sample, plan_forces by lia.
      assert (S : exists k j, (k < length legs)%nat /\ (j <= leg_n k)%nat /\ lat i = lstate k j).
      { destruct i as [|i].
        - exists 0%nat, 0%nat. split; [exact Ne|]. split; [lia|]. unfold lat. rewrite locate_start. reflexivity.
        - destruct (sample_in_leg L (S i) ltac:(lia)) as (k & j & Hk & Hj & Ei). rewrite len_L in Hk. rewrite nth_L in Hj.
          exists k, j. split; [exact Hk|]. split; [lia|]. rewrite Ei. apply (plan_at k j Hk Hj). }
      destruct S as (k & j & Hk & Hj & ->). split; [apply lforce_newton, lstate_unit|]. split; [apply lstate_wheels, Hk|].
      intros md f Hf. 
      assert (Z : forall l, combine l (map (lforce (lstate k j)) l) = map (fun md => (md, lforce (lstate k j) md)) l).
      { induction l as [|x l IH]; simpl; [reflexivity|]. rewrite IH. reflexivity. }
      rewrite Z in Hf. apply in_map_iff in Hf. destruct Hf as (md' & E & Hm). injection E as -> <-.
      apply (lstate_forces k j md Hk Hj Hm).
  Qed.

  Lemma plan_unit : forall i, (i <= last_sample L)%nat -> unit_heading (at_sample plan i).
  Proof.
    intros i Hi. rewrite plan_sample by exact Hi. unfold lat. destruct (locate L i). apply lstate_unit.
  Qed.
  Lemma plan_shaped : forall counts, last_sample counts = last_sample L -> well_shaped counts (length (d_modules d)) plan.
  Proof.
    intros counts E. unfold well_shaped. rewrite E. unfold plan, each.
    cbn [s_dt s_x s_y s_thetacos s_thetasin s_vx s_vy s_omega s_ax s_ay s_alpha s_moduleFX s_moduleFY].
    rewrite !map_length, !seq_length. repeat split; apply Forall_forall; intros r Hr; apply in_map_iff in Hr;
      destruct Hr as (k & <- & _); apply map_length.
  Qed.
  Lemma plan_total : sum (s_dt plan) = total_time legs.
  Proof.
    rewrite <- elapsed_all. replace (length (s_dt plan)) with (waypoint_sample L (length legs)).
    2:{ rewrite waypoint_sample_past by (rewrite len_L; lia). cbn [s_dt plan]. rewrite map_length, seq_length. reflexivity. }
    assert (X : forall k, (k <= length legs)%nat ->
      elapsed plan 0 (waypoint_sample L k) = sum (map (fun l => INR (fst l) * snd l) (firstn k legs))).
    { induction k as [|k IH]; intros Hk; [change (waypoint_sample L 0) with 0%nat; rewrite elapsed_self; reflexivity|].
      rewrite waypoint_sample_S by (rewrite len_L; lia). rewrite nth_L.
      rewrite (elapsed_trans plan 0 (waypoint_sample L k)) by lia. rewrite IH by lia.
      rewrite (elapsed_uniform plan (leg_dt k) (waypoint_sample L k) (leg_n k)); [| |lia].
      - assert (F : firstn (S k) legs = firstn k legs ++ [nth k legs (0%nat, 0)]).
        { clear - Hk. revert k Hk. induction legs as [|l ls IH]; intros k Hk; [simpl in Hk; lia|].
          destruct k as [|k]; [reflexivity|]. cbn [firstn nth app]. f_equal. apply IH. simpl in Hk. lia. }
        rewrite F, map_app, DurationProofs.sum_app. cbn [map sum]. unfold leg_n, leg_dt. ring.
      - intros j Hj. rewrite <- Nat.add_succ_r. apply (plan_at k (S j)); lia. }
    rewrite X by lia. rewrite firstn_all. reflexivity.
  Qed.
End Plan.

Lemma C80_proof : forall asserts h handle d g legs stops f, good_history asserts h -> generator asserts h handle d g ->
  real_wheels d -> centred d -> 0 < arms d -> 0 <= d_mass d -> 0 <= d_moi d ->
  (forall n, In n (counts asserts h) -> (1 <= n)%nat) -> legs <> [] -> subdivide (counts asserts h) legs f ->
  (forall k, (k < length legs)%nat ->
     leg_within d (fst (nth k legs (0%nat, 0))) (snd (nth k legs (0%nat, 0))) (stops k) (stops (S k))) ->
  (forall w c q, (w <= length (counts asserts h))%nat -> In c (wpt_requests [] h w) -> stands (stops (f w)) q -> demands q c) ->
  (forall w c k q, (1 <= w <= length (counts asserts h))%nat -> In c (sgmt_requests [] h w) -> (f (w - 1)%nat <= k < f w)%nat ->
     under_way (stops k) (stops (S k)) (top_rate (fst (nth k legs (0%nat, 0))) (snd (nth k legs (0%nat, 0)))) q -> demands q c) ->
  exists sol, solved g sol /\ sum (s_dt sol) = total_time legs.
Proof.
  intros asserts h handle d g legs stops f GH G W Ce Ar Pm Pi Po Ne (S1 & S2 & S3) Wt Rw Rs.
  set (N := counts asserts h) in *. set (L := map fst legs).
  assert (EL : last_sample N = last_sample L).
  { destruct (S2 (length N) ltac:(lia)) as [_ E]. rewrite S1 in E.
    rewrite (waypoint_sample_past N (length N)) in E by lia. rewrite (waypoint_sample_past (map fst legs)) in E by (rewrite map_length; lia).
    exact E. }
  assert (Ne' : (0 < length legs)%nat) by (destruct legs; [contradiction|simpl; lia]).
  assert (Inc : forall w k j, (w < length N)%nat -> (k < length legs)%nat -> (1 <= j <= leg_n legs k)%nat ->
    (waypoint_sample N w < waypoint_sample L k + j <= waypoint_sample N (S w))%nat -> (f w <= k < f (S w))%nat).
  { intros w k j Hw Hk Hj Hi. destruct (S2 w ltac:(lia)) as [_ E1]. destruct (S2 (S w) ltac:(lia)) as [_ E2].
    fold L in E1, E2. rewrite E1, E2 in Hi.
    pose proof (waypoint_sample_S L k ltac:(unfold L; rewrite map_length; lia)) as E3. unfold L in E3 at 3. rewrite nth_L in E3.
    split.
    - apply Nat.nlt_ge. intros C. pose proof (waypoint_sample_mono L (S k) (f w) ltac:(lia)). lia.
    - apply Nat.nle_gt. intros C. pose proof (waypoint_sample_mono L (f (S w)) k ltac:(lia)). lia. }
  exists (plan d legs stops). split; [|apply (plan_total d legs stops Wt)].
  apply (C15_accepts_proof asserts h handle d g GH G W Po); fold N.
  - apply plan_shaped, EL.
  - intros w k Hw Hk.
    assert (H : forall j, (j < nth w N 0)%nat -> step_to (plan d legs stops) (S (waypoint_sample N w + j)) = snd (nth (f w) legs (0%nat, 0))).
    { intros j Hj. pose proof (waypoint_sample_S N w Hw) as E.
      pose proof (waypoint_sample_mono N (S w) (length N) ltac:(lia)) as M. rewrite (waypoint_sample_past N (length N)) in M by lia.
      destruct (sample_in_leg L (S (waypoint_sample N w + j)) ltac:(lia)) as (k' & j' & Hk' & Hj' & E').
      unfold L in Hk', Hj'. rewrite map_length in Hk'. rewrite nth_L in Hj'.
      pose proof (Inc w k' j' Hw Hk' Hj' ltac:(lia)) as I. rewrite E'. unfold L.
      destruct (plan_at d legs stops Wt k' j' Hk' Hj') as (_ & -> & _). apply (S3 w k' Hw I). }
    rewrite H by exact Hk. specialize (H 0%nat ltac:(lia)). rewrite Nat.add_0_r in H. rewrite H. reflexivity.
  - intros i Hi. rewrite EL in Hi. apply plan_unit. exact Hi.
  - apply plan_physics; assumption.
  - split.
    + intros w c Hw Hc. destruct (S2 w Hw) as [Fw ->]. apply (Rw w c _ Hw Hc).
      rewrite plan_sample.
      * apply (stop_stands d legs stops Wt). exact Fw.
      * pose proof (waypoint_sample_mono (map fst legs) (f w) (length (map fst legs)) ltac:(rewrite map_length; lia)) as M.
        rewrite (waypoint_sample_past (map fst legs) (length (map fst legs))) in M by lia. exact M.
    + intros w c i Hw Hc Hi.
      pose proof (waypoint_sample_mono N w (length N) ltac:(lia)) as M. rewrite (waypoint_sample_past N (length N)) in M by lia.
      destruct (sample_in_leg L i ltac:(lia)) as (k & j & Hk & Hj & E). unfold L in Hk, Hj. rewrite map_length in Hk. rewrite nth_L in Hj.
      pose proof (Inc (w - 1)%nat k j ltac:(lia) Hk Hj) as I. replace (S (w - 1)) with w in I by lia. specialize (I ltac:(rewrite <- E; exact Hi)).
      apply (Rs w c k _ Hw Hc I). unfold L in E. destruct (plan_at d legs stops Wt k j Hk Hj) as (E1 & _ & B).
      rewrite E, plan_sample by exact B. rewrite E1. apply (lstate_under_way d legs stops Wt); [exact Hk|lia].
Qed.
