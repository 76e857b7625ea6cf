(** Enough control intervals make a free way a trajectory (C119). *)
From Coq Require Import List Lia Lra Psatz Reals ZArith.
Import ListNotations.
From Verif Require Import Outcome Num NumR Geometry Expr Constraints Util Builder Guess Generator Trajectory
  Spec SpecBuilder SpecPhysics SpecTrajectory SpecGenerator SpecStep SpecLegs SpecReach Semantics BuilderProofs BuilderHistory HistoryFacts
  BuilderCases GeometryFacts SolutionProofs TrajectoryProofs GeneratorCases LimitProofs StepProofs DurationProofs LegProofs.
Open Scope R_scope.

(** ** A common bound for finitely many things *)
Lemma common_small : forall {A} (P : A -> R -> Prop) (l : list A),
  (forall a x y, In a l -> 0 < y <= x -> P a x -> P a y) -> (forall a, In a l -> exists x, 0 < x /\ P a x) ->
  exists x, 0 < x /\ forall a, In a l -> P a x.
Proof.
  intros A P. induction l as [|a l IH]; intros Dn E; [exists 1; split; [lra|intros a []]|].
  destruct IH as (x & X1 & X2); [intros; eapply Dn; [right|..]; eassumption|intros; apply E; right; assumption|].
  destruct (E a (or_introl eq_refl)) as (y & Y1 & Y2).
  assert (Mp : 0 < Rmin x y) by (apply Rmin_glb_lt; assumption).
  exists (Rmin x y). split; [exact Mp|]. intros b [->|Hb].
  - apply (Dn b y); [left; reflexivity|split; [exact Mp|apply Rmin_r]|exact Y2].
  - apply (Dn b x); [right; exact Hb|split; [exact Mp|apply Rmin_l]|apply X2, Hb].
Qed.
Lemma common_large : forall (P : nat -> nat -> Prop) (L : nat),
  (forall k, (k < L)%nat -> exists m, forall n, (m <= n)%nat -> P k n) ->
  exists m, forall k n, (k < L)%nat -> (m <= n)%nat -> P k n.
Proof.
  intros P. induction L as [|L IH]; intros E; [exists 0%nat; intros; lia|].
  destruct IH as (m & M); [intros; apply E; lia|]. destruct (E L ltac:(lia)) as (m' & M').
  exists (Nat.max m m'). intros k n Hk Hn. destruct (Nat.eq_dec k L) as [->|D]; [apply M'; lia|apply M; lia].
Qed.
Lemma common_large_list : forall {A} (P : A -> nat -> Prop) (l : list A),
  (forall a, In a l -> exists m, forall n, (m <= n)%nat -> P a n) ->
  exists m, forall a n, In a l -> (m <= n)%nat -> P a n.
Proof.
  intros A P. induction l as [|a l IH]; intros E; [exists 0%nat; intros a n []|].
  destruct IH as (m & M); [intros; apply E; right; assumption|]. destruct (E a (or_introl eq_refl)) as (m' & M').
  exists (Nat.max m m'). intros b n [->|Hb] Hn; [apply M'; lia|apply M; [exact Hb|lia]].
Qed.

(** ** A time step the drivetrain allows *)
Lemma step_exists : forall d, driven_wheels d -> exists dt, 0 < dt /\ step_within d dt.
Proof.
  intros d W.
  destruct (common_small (fun (t : swerve_module R * (swerve_module R * swerve_module R)) x =>
     let '(md, (a, b)) := t in
     (tX (m_translation a) <> tX (m_translation b) ->
       x * m_wheelRadius md * m_wheelMaxAngularVelocity md <= Rabs (tX (m_translation a) - tX (m_translation b))) /\
     (tY (m_translation a) <> tY (m_translation b) ->
       x * m_wheelRadius md * m_wheelMaxAngularVelocity md <= Rabs (tY (m_translation a) - tY (m_translation b))))
     (list_prod (d_modules d) (consecutive (d_modules d)))) as (x & X1 & X2).
  - intros (md & a & b) x y Hi Hy [H1 H2]. apply in_prod_iff in Hi. destruct (W md (proj1 Hi)) as (A & B & _).
    assert (y * m_wheelRadius md * m_wheelMaxAngularVelocity md <= x * m_wheelRadius md * m_wheelMaxAngularVelocity md).
    { rewrite !Rmult_assoc. apply Rmult_le_compat_r; [apply Rmult_le_pos; lra|lra]. }
    split; intros D; [specialize (H1 D)|specialize (H2 D)]; lra.
  - intros (md & a & b) Hi. apply in_prod_iff in Hi. destruct (W md (proj1 Hi)) as (A & B & _).
    pose proof (Rmult_lt_0_compat _ _ A B) as AB.
    assert (G : forall g, g <> 0 -> exists x, 0 < x /\ x * m_wheelRadius md * m_wheelMaxAngularVelocity md <= Rabs g).
    { intros g Hg. exists (Rabs g / (m_wheelRadius md * m_wheelMaxAngularVelocity md)). split.
      - apply Rdiv_lt_0_compat; [apply Rabs_pos_lt, Hg|exact AB].
      - right. field. lra. }
    destruct (Req_dec (tX (m_translation a)) (tX (m_translation b))) as [Ex|Ex];
      destruct (Req_dec (tY (m_translation a)) (tY (m_translation b))) as [Ey|Ey].
    + exists 1. split; [lra|]. split; intros D; contradiction.
    + destruct (G (tY (m_translation a) - tY (m_translation b)) ltac:(lra)) as (x & X & H). exists x. split; [exact X|]. split; [intros D; contradiction|intros _; exact H].
    + destruct (G (tX (m_translation a) - tX (m_translation b)) ltac:(lra)) as (x & X & H). exists x. split; [exact X|]. split; [intros _; exact H|intros D; contradiction].
    + destruct (G (tX (m_translation a) - tX (m_translation b)) ltac:(lra)) as (x & X & H).
      destruct (G (tY (m_translation a) - tY (m_translation b)) ltac:(lra)) as (y & Y & H').
      exists (Rmin x y). split; [apply Rmin_glb_lt; assumption|].
      pose proof (Rmin_l x y). pose proof (Rmin_r x y).
      split; intros _; rewrite Rmult_assoc in *; [eapply Rle_trans; [|exact H]|eapply Rle_trans; [|exact H']];
        apply Rmult_le_compat_r; lra.
  - exists x. split; [exact X1|]. split; [lra|]. intros md a b Hm Hab.
    exact (X2 (md, (a, b)) ltac:(apply in_prod; assumption)).
Qed.

(** ** Many intervals make a leg slow *)
Lemma units_large : forall n, (2 <= n)%nat -> INR n * INR n / 8 <= units n.
Proof.
  intros n H. unfold units. pose proof (Nat.div_mod (n * n) 4 ltac:(lia)) as E.
  pose proof (Nat.mod_upper_bound (n * n) 4 ltac:(lia)) as B.
  assert (Q : (n * n <= 8 * (n * n / 4))%nat) by nia.
  apply le_INR in Q. rewrite !mult_INR in Q. simpl (INR 8) in Q. lra.
Qed.
Lemma half_le : forall n, INR (n / 2) <= INR n / 2.
Proof.
  intros n. pose proof (Nat.div_mod n 2 ltac:(lia)) as E.
  assert (Q : (2 * (n / 2) <= n)%nat) by lia. apply le_INR in Q. rewrite mult_INR in Q. simpl (INR 2) in Q. lra.
Qed.
Lemma far_enough : forall x, exists m, (2 <= m)%nat /\ forall n, (m <= n)%nat -> x <= INR n.
Proof.
  intros x. assert (E : exists m, x < INR m).
  { exists (Z.to_nat (up x)). pose proof (archimed x) as [A _]. rewrite INR_IZR_INZ.
    destruct (Z_le_dec 0 (up x)) as [L|L]; [rewrite Z2Nat.id by exact L; lra|].
    assert (IZR (up x) <= 0) by (apply IZR_le; lia). replace (Z.to_nat (up x)) with 0%nat by lia. simpl. lra. }
  destruct E as (m & M). exists (Nat.max 2 m). split; [lia|].
  intros n Hn. assert (Q : (m <= n)%nat) by lia. apply le_INR in Q. lra.
Qed.
(** For every bound, parts per second and per second squared get below it. *)
Lemma slow_enough : forall dt c, 0 < dt -> 0 < c -> exists m, (2 <= m)%nat /\
  forall n, (m <= n)%nat -> 0 <= top_rate n dt <= c /\ 0 < / (units n * (dt * dt)) <= c.
Proof.
  intros dt c Hdt Hc. destruct (far_enough (4 / (dt * c) + 8 / (dt * dt * c))) as (m & M1 & M2).
  exists m. split; [exact M1|]. intros n Hn. specialize (M2 n Hn).
  pose proof (units_pos n ltac:(lia)) as U. pose proof (units_large n ltac:(lia)) as UL.
  assert (N2 : 2 <= INR n) by (apply (le_INR 2 n); lia).
  assert (A : 0 < 4 / (dt * c)) by (apply Rdiv_lt_0_compat; [lra|apply Rmult_lt_0_compat; lra]).
  assert (B : 0 < 8 / (dt * dt * c)) by (apply Rdiv_lt_0_compat; [lra|repeat apply Rmult_lt_0_compat; lra]).
  assert (P1 : 4 <= INR n * (dt * c)).
  { replace 4 with (4 / (dt * c) * (dt * c)) by (field; lra). apply Rmult_le_compat_r; [nra|lra]. }
  assert (P2 : 8 <= INR n * (dt * dt * c)).
  { replace 8 with (8 / (dt * dt * c) * (dt * dt * c)) at 1 by (field; lra).
    apply Rmult_le_compat_r; [|lra]. left. repeat apply Rmult_lt_0_compat; lra. }
  pose proof (half_le n) as Hf. pose proof (pos_INR (n / 2)) as Hp.
  assert (D1 : 0 < units n * dt) by (apply Rmult_lt_0_compat; assumption).
  assert (D2 : 0 < units n * (dt * dt)) by (apply Rmult_lt_0_compat; nra).
  split; split.
  - unfold top_rate. apply Rmult_le_pos; [exact Hp|left; apply Rinv_0_lt_compat, D1].
  - unfold top_rate. apply Rmult_le_reg_r with (units n * dt); [exact D1|]. unfold Rdiv. rewrite Rmult_assoc, Rinv_l by lra.
    rewrite Rmult_1_r. assert (INR n / 2 <= c * (units n * dt)); [|lra].
    assert (INR n * INR n / 8 * (dt * c) <= units n * (dt * c)) by (apply Rmult_le_compat_r; nra).
    assert (INR n / 8 * 4 <= INR n / 8 * (INR n * (dt * c))) by (apply Rmult_le_compat_l; lra). lra.
  - apply Rinv_0_lt_compat, D2.
  - apply Rmult_le_reg_r with (units n * (dt * dt)); [exact D2|]. rewrite Rinv_l by lra.
    assert (INR n * INR n / 8 * (dt * dt * c) <= units n * (dt * dt * c)).
    { apply Rmult_le_compat_r; [|exact UL]. left. repeat apply Rmult_lt_0_compat; lra. }
    assert (INR n / 8 * 8 <= INR n / 8 * (INR n * (dt * dt * c))) by (apply Rmult_le_compat_l; lra). lra.
Qed.

(** ** Forces for any acceleration *)
Section Push.
  Variable d : drivetrain R.
  Hypothesis Ap : apart d.
  Definition mean (f : swerve_module R -> R) : R := sum (map f (d_modules d)) / INR (length (d_modules d)).
  Definition hub : Translation2 R :=
    mkTr (mean (fun md => tX (m_translation md))) (mean (fun md => tY (m_translation md))).
  Definition shifted (md : swerve_module R) : swerve_module R :=
    mkModule (mkTr (tX (m_translation md) - tX hub) (tY (m_translation md) - tY hub))
      (m_wheelRadius md) (m_wheelMaxAngularVelocity md) (m_wheelMaxTorque md).
  Definition recentred : drivetrain R := mkDrivetrain 1 1 (map shifted (d_modules d)).
  Definition wanted (q : state) : state :=
    mkState (q_x q) (q_y q) (q_c q) (q_s q) (q_vx q) (q_vy q) (q_w q) (d_mass d * q_ax q) (d_mass d * q_ay q)
      (d_moi d * q_al q - cross2 (turned q hub) (d_mass d * q_ax q, d_mass d * q_ay q)).
  Definition push (q : state) (md : swerve_module R) : R * R := lforce recentred (wanted q) (shifted md).

  Lemma some_modules : 0 < INR (length (d_modules d)).
  Proof.
    destruct Ap as (a & _ & Ha & _). apply lt_0_INR. destruct (d_modules d); [destruct Ha|simpl; lia].
  Qed.
  Lemma recentred_centred : centred recentred.
  Proof.
    pose proof some_modules as P. unfold centred, recentred. cbn [d_modules]. rewrite !map_map. cbn [shifted m_translation tX tY].
    split.
    - rewrite (map_ext _ (fun md => tX (m_translation md) + (fun _ => - tX hub) md)) by (intros; ring).
      rewrite sum_zip, sum_all. cbn [hub tX]. unfold mean. field. lra.
    - rewrite (map_ext _ (fun md => tY (m_translation md) + (fun _ => - tY hub) md)) by (intros; ring).
      rewrite sum_zip, sum_all. cbn [hub tY]. unfold mean. field. lra.
  Qed.
  Lemma sum_at_least : forall {A} (f : A -> R) l a, (forall x, 0 <= f x) -> In a l -> f a <= sum (map f l).
  Proof.
    intros A f l a P. induction l as [|b l IH]; intros [].
    - subst. cbn [map sum]. assert (Z : 0 <= sum (map f l)); [|lra]. clear -P. induction l as [|b l IH]; cbn [map sum]; [lra|]. pose proof (P b). lra.
    - cbn [map sum]. pose proof (P b). specialize (IH H). lra.
  Qed.
  Lemma recentred_arms : 0 < arms recentred.
  Proof.
    destruct Ap as (a & b & Ha & Hb & Ne). unfold arms, recentred. cbn [d_modules]. rewrite map_map.
    assert (G : forall md, 0 <= arm (shifted md) * arm (shifted md)) by (intros; apply Rle_0_sqr).
    assert (Z : forall md, In md (d_modules d) -> pt (m_translation md) <> pt hub -> 0 < sum (map (fun md => arm (shifted md) * arm (shifted md)) (d_modules d))).
    { intros md Hm N. eapply Rlt_le_trans; [|apply (sum_at_least _ _ md G Hm)].
      unfold arm. unfold pt. cbn [shifted m_translation tX tY]. rewrite norm2_sqr.
      destruct (Req_dec (tX (m_translation md) - tX hub) 0) as [E|E].
      - destruct (Req_dec (tY (m_translation md) - tY hub) 0) as [E'|E'].
        + exfalso. apply N. unfold pt. f_equal; lra.
        + pose proof (Rsqr_pos_lt _ E'). unfold Rsqr in *. pose proof (Rle_0_sqr (tX (m_translation md) - tX hub)). unfold Rsqr in *. lra.
      - pose proof (Rsqr_pos_lt _ E). unfold Rsqr in *. pose proof (Rle_0_sqr (tY (m_translation md) - tY hub)). unfold Rsqr in *. lra. }
    destruct (Req_dec (tX (m_translation a)) (tX hub)) as [E1|E1].
    2:{ apply (Z a Ha). unfold pt. intros E. apply E1. injection E. auto. }
    destruct (Req_dec (tY (m_translation a)) (tY hub)) as [E2|E2].
    2:{ apply (Z a Ha). unfold pt. intros E. apply E2. injection E. auto. }
    apply (Z b Hb). intros E. apply Ne. rewrite E. unfold pt. congruence.
  Qed.
  Lemma push_newton : forall q, unit_heading q -> newton d q (map (push q) (d_modules d)).
  Proof.
    intros q U. pose proof (lforce_newton recentred recentred_centred recentred_arms (wanted q) U) as (N1 & N2 & N3).
    cbn [recentred d_modules d_mass d_moi wanted q_ax q_ay q_al] in N1, N2, N3. rewrite !map_map in N1, N2. rewrite Rmult_1_l in N1, N2, N3.
    fold recentred (wanted q) in N1, N2, N3.
    assert (Z : forall l, combine (map shifted l) (map (lforce recentred (wanted q)) (map shifted l))
      = map (fun md => (shifted md, push q md)) l).
    { induction l as [|a l IH]; simpl; [reflexivity|]. rewrite IH. reflexivity. }
    rewrite Z, map_map in N3. cbn [fst snd] in N3. clear Z.
    unfold newton. rewrite !map_map. split; [exact N1|]. split; [exact N2|].
    assert (Z : forall l, combine l (map (push q) l) = map (fun md => (md, push q md)) l).
    { induction l as [|a l IH]; simpl; [reflexivity|]. rewrite IH. reflexivity. }
    rewrite Z, map_map. cbn [fst snd].
    rewrite (map_ext _ (fun md => cross2 (turned (wanted q) (m_translation (shifted md))) (push q md) +
      (fst (turned q hub) * snd (push q md) + - snd (turned q hub) * fst (push q md)))).
    2:{ intros md. unfold cross2, turned. cbn [fst snd wanted q_c q_s shifted m_translation tX tY]. ring. }
    rewrite sum_zip, sum_zip, !sum_mul. change (fun a => snd (push q a)) with (fun md => snd (lforce recentred (wanted q) (shifted md))).
    change (fun a => fst (push q a)) with (fun md => fst (lforce recentred (wanted q) (shifted md))).
    rewrite N1, N2, N3. unfold cross2. cbn [fst snd]. ring.
  Qed.

  Lemma abs_norm : forall p, Rabs (fst p) <= norm2 p /\ Rabs (snd p) <= norm2 p.
  Proof.
    intros [x y]. pose proof (norm2_sqr x y) as E. pose proof (norm2_pos (x, y)) as P. cbn [fst snd].
    split; apply Rsqr_incr_0_var; try exact P; rewrite <- Rsqr_abs; unfold Rsqr; nra.
  Qed.
  Lemma norm_abs : forall p, norm2 p <= Rabs (fst p) + Rabs (snd p).
  Proof.
    intros [x y]. cbn [fst snd]. pose proof (Rabs_pos x). pose proof (Rabs_pos y). apply norm2_le; [lra|].
    pose proof (Rsqr_abs x). pose proof (Rsqr_abs y). unfold Rsqr in *. nra.
  Qed.
  (** Hardly any acceleration takes hardly any force. *)
  Lemma push_small : forall md, exists C, 0 <= C /\ forall q, unit_heading q ->
    norm2 (push q md) <= C * (Rabs (q_ax q) + Rabs (q_ay q) + Rabs (q_al q)).
  Proof.
    intros md. pose proof recentred_arms as PA. pose proof some_modules as PN.
    set (N := INR (length (d_modules d))) in *. set (H := norm2 (pt hub)). set (A := arm (shifted md)).
    pose proof (norm2_pos (pt hub)) as PH. fold H in PH. pose proof (norm2_pos (pt (m_translation (shifted md)))) as PM. fold (arm (shifted md)) in PM. fold A in PM.
    pose proof (Rabs_pos (d_mass d)) as P1. pose proof (Rabs_pos (d_moi d)) as P2.
    pose proof (Rinv_0_lt_compat _ PN) as IN. pose proof (Rinv_0_lt_compat _ PA) as IA.
    set (K := Rabs (d_moi d) + Rabs (d_mass d) * H). assert (PK : 0 <= K) by (unfold K; pose proof (Rmult_le_pos _ _ P1 PH); lra).
    set (C1 := Rabs (d_mass d) * / N). set (C2 := K * / arms recentred * A).
    assert (PC1 : 0 <= C1) by (apply Rmult_le_pos; lra).
    assert (PC2 : 0 <= C2) by (apply Rmult_le_pos; [apply Rmult_le_pos; lra|exact PM]).
    exists (2 * (C1 + C2)). split; [lra|]. intros q U.
    set (S := Rabs (q_ax q) + Rabs (q_ay q) + Rabs (q_al q)).
    pose proof (Rabs_pos (q_ax q)) as PX. pose proof (Rabs_pos (q_ay q)) as PY. pose proof (Rabs_pos (q_al q)) as PL.
    assert (PS : 0 <= S) by (unfold S; lra).
    assert (W : Rabs (q_al (wanted q)) <= K * S).
    { cbn [wanted q_al]. unfold cross2. cbn [fst snd].
      destruct (abs_norm (turned q hub)) as [T1 T2]. rewrite (LimitProofs.turned_norm q hub U) in T1, T2. fold H in T1, T2.
      set (tx := fst (turned q hub)) in *. set (ty := snd (turned q hub)) in *.
      eapply Rle_trans; [apply Rabs_triang|]. rewrite Rabs_Ropp.
      assert (E1 : Rabs (d_moi d * q_al q) <= Rabs (d_moi d) * S).
      { rewrite Rabs_mult. apply Rmult_le_compat_l; [exact P2|unfold S; lra]. }
      assert (E2 : Rabs (tx * (d_mass d * q_ay q) - ty * (d_mass d * q_ax q)) <= Rabs (d_mass d) * H * S).
      { eapply Rle_trans; [apply Rabs_triang|]. rewrite Rabs_Ropp, !Rabs_mult.
        assert (Rabs tx * (Rabs (d_mass d) * Rabs (q_ay q)) <= H * (Rabs (d_mass d) * Rabs (q_ay q))) by (apply Rmult_le_compat_r; [apply Rmult_le_pos; lra|exact T1]).
        assert (Rabs ty * (Rabs (d_mass d) * Rabs (q_ax q)) <= H * (Rabs (d_mass d) * Rabs (q_ax q))) by (apply Rmult_le_compat_r; [apply Rmult_le_pos; lra|exact T2]).
        assert (Rabs (d_mass d) * H * (Rabs (q_ax q) + Rabs (q_ay q)) <= Rabs (d_mass d) * H * S) by (apply Rmult_le_compat_l; [apply Rmult_le_pos; lra|unfold S; lra]).
        lra. }
      unfold K. lra. }
    destruct (abs_norm (turned (wanted q) (m_translation (shifted md)))) as [T1 T2].
    rewrite (LimitProofs.turned_norm (wanted q) _ U) in T1, T2. fold (arm (shifted md)) in T1, T2. fold A in T1, T2.
    assert (G : forall a t, Rabs a <= S -> Rabs t <= A ->
      Rabs (1 * (d_mass d * a) / N) + Rabs (1 * q_al (wanted q) / arms recentred * t) <= (C1 + C2) * S).
    { intros a t Ha Ht. unfold Rdiv. rewrite !Rmult_1_l, !Rabs_mult. rewrite (Rabs_right (/ N)), (Rabs_right (/ arms recentred)) by lra.
      assert (Rabs (d_mass d) * Rabs a * / N <= C1 * S).
      { unfold C1. replace (Rabs (d_mass d) * Rabs a * / N) with (Rabs (d_mass d) * / N * Rabs a) by ring.
        apply Rmult_le_compat_l; [exact PC1|exact Ha]. }
      assert (Rabs (q_al (wanted q)) * / arms recentred * Rabs t <= C2 * S).
      { unfold C2. replace (K * / arms recentred * A * S) with (K * S * / arms recentred * A) by ring.
        apply Rmult_le_compat; [apply Rmult_le_pos; [apply Rabs_pos|lra]|apply Rabs_pos| |exact Ht].
        apply Rmult_le_compat_r; [lra|exact W]. }
      lra. }
    eapply Rle_trans; [apply norm_abs|]. unfold push, lforce. cbn [recentred d_modules d_mass d_moi fst snd]. fold recentred.
    rewrite map_length. fold N.
    pose proof (G (q_ax q) _ ltac:(unfold S; lra) T2) as GX. pose proof (G (q_ay q) _ ltac:(unfold S; lra) T1) as GY.
    change (q_ax (wanted q)) with (d_mass d * q_ax q). change (q_ay (wanted q)) with (d_mass d * q_ay q).
    assert (Tr : forall x y, Rabs (x - y) <= Rabs x + Rabs y) by (intros; eapply Rle_trans; [apply Rabs_triang|rewrite Rabs_Ropp; lra]).
    pose proof (Tr (1 * (d_mass d * q_ax q) / N) (1 * q_al (wanted q) / arms recentred * snd (turned (wanted q) (m_translation (shifted md))))).
    pose proof (Rabs_triang (1 * (d_mass d * q_ay q) / N) (1 * q_al (wanted q) / arms recentred * fst (turned (wanted q) (m_translation (shifted md))))).
    lra.
  Qed.
End Push.

(** ** Creeping along *)
Definition light (d : drivetrain R) : drivetrain R := mkDrivetrain 0 0 (d_modules d).
Definition crawl (d : drivetrain R) (legs : list (nat * R)) (stops : nat -> stop) : solution R :=
  let p := plan (light d) legs stops in
  mkSolution (s_dt p) (s_x p) (s_y p) (s_thetacos p) (s_thetasin p) (s_vx p) (s_vy p) (s_omega p) (s_ax p) (s_ay p) (s_alpha p)
    (each legs (fun i => map (fun md => fst (push d (lat legs stops i) md)) (d_modules d)))
    (each legs (fun i => map (fun md => snd (push d (lat legs stops i) md)) (d_modules d))).

Lemma crawl_solved : forall asserts h handle d g legs stops f eps, good_history asserts h -> generator asserts h handle d g ->
  driven_wheels d -> apart d -> (forall n, In n (counts asserts h) -> (1 <= n)%nat) -> legs <> [] ->
  subdivide (counts asserts h) legs f ->
  (forall k, (k < length legs)%nat ->
     leg_within (light d) (fst (nth k legs (0%nat, 0))) (snd (nth k legs (0%nat, 0))) (stops k) (stops (S k))) ->
  (forall k, (k < length legs)%nat -> top_rate (leg_n legs k) (leg_dt legs k) <= eps) ->
  (forall k j, (k < length legs)%nat -> (j <= leg_n legs k)%nat ->
     Rabs (q_ax (lstate legs stops k j)) <= eps /\ Rabs (q_ay (lstate legs stops k j)) <= eps /\
     Rabs (q_al (lstate legs stops k j)) <= eps) ->
  (forall k j md, (k < length legs)%nat -> (j <= leg_n legs k)%nat -> In md (d_modules d) ->
     norm2 (push d (lstate legs stops k j) md) <= force_limit md) ->
  (forall w c q, (w <= length (counts asserts h))%nat -> In c (wpt_requests [] h w) -> pauses (stops (f w)) eps q -> demands q c) ->
  (forall w c k q, (1 <= w <= length (counts asserts h))%nat -> In c (sgmt_requests [] h w) -> (f (w - 1)%nat <= k < f w)%nat ->
     creeps (stops k) (stops (S k)) eps q -> demands q c) ->
  exists sol, solved g sol.
Proof.
  intros asserts h handle d g legs stops f eps GH G W Ap Po Ne (S1 & S2 & S3) Wt Sl Ac Fo Rw Rs.
  set (N := counts asserts h) in *. set (L := map fst legs).
  assert (EL : last_sample N = last_sample L).
  { destruct (S2 (length N) ltac:(lia)) as [_ E]. rewrite S1 in E.
    rewrite (waypoint_sample_past N (length N)) in E by lia. rewrite (waypoint_sample_past (map fst legs)) in E by (rewrite map_length; lia).
    exact E. }
  assert (Ne' : (0 < length legs)%nat) by (destruct legs; [contradiction|simpl; lia]).
  assert (Inc : forall w k j, (w < length N)%nat -> (k < length legs)%nat -> (1 <= j <= leg_n legs k)%nat ->
    (waypoint_sample N w < waypoint_sample L k + j <= waypoint_sample N (S w))%nat -> (f w <= k < f (S w))%nat).
  { intros w k j Hw Hk Hj Hi. destruct (S2 w ltac:(lia)) as [_ E1]. destruct (S2 (S w) ltac:(lia)) as [_ E2].
    fold L in E1, E2. rewrite E1, E2 in Hi.
    pose proof (waypoint_sample_S L k ltac:(unfold L; rewrite map_length; lia)) as E3. unfold L in E3 at 3. rewrite nth_L in E3.
    split.
    - apply Nat.nlt_ge. intros C. pose proof (waypoint_sample_mono L (S k) (f w) ltac:(lia)). lia.
    - apply Nat.nle_gt. intros C. pose proof (waypoint_sample_mono L (f (S w)) k ltac:(lia)). lia. }
  assert (AS : forall i, at_sample (crawl d legs stops) i = at_sample (plan (light d) legs stops) i) by reflexivity.
  assert (ST : forall i, step_to (crawl d legs stops) i = step_to (plan (light d) legs stops) i) by reflexivity.
  assert (LS : forall i, (i <= last_sample L)%nat -> exists k j, (k < length legs)%nat /\ (j <= leg_n legs k)%nat /\ lat legs stops i = lstate legs stops k j).
  { intros [|i] Hi.
    - exists 0%nat, 0%nat. split; [exact Ne'|]. split; [lia|]. unfold lat. rewrite locate_start. reflexivity.
    - destruct (sample_in_leg L (S i) ltac:(lia)) as (k & j & Hk & Hj & Ei). unfold L in Hk, Hj. rewrite map_length in Hk. rewrite nth_L in Hj.
      exists k, j. split; [exact Hk|]. split; [lia|]. rewrite Ei. apply (plan_at (light d) legs stops Wt k j Hk Hj). }
  assert (PW : real_wheels d) by (intros md Hm; destruct (W md Hm) as (A & B & C); lra).
  exists (crawl d legs stops).
  apply (C15_accepts_proof asserts h handle d g GH G PW Po); fold N.
  - pose proof (plan_shaped (light d) legs stops N EL) as Sh. unfold well_shaped in *. rewrite EL in *.
    unfold crawl, plan, each in *. cbn [light d_modules] in Sh.
    cbn [s_dt s_x s_y s_thetacos s_thetasin s_vx s_vy s_omega s_ax s_ay s_alpha s_moduleFX s_moduleFY] in *. unfold L.
    rewrite !map_length, !seq_length in *. repeat split; apply Forall_forall; intros r Hr; apply in_map_iff in Hr;
      destruct Hr as (k & <- & _); apply map_length.
  - intros w k Hw Hk. rewrite !ST.
    assert (H : forall j, (j < nth w N 0)%nat -> step_to (plan (light d) legs stops) (S (waypoint_sample N w + j)) = snd (nth (f w) legs (0%nat, 0))).
    { intros j Hj. pose proof (waypoint_sample_S N w Hw) as E.
      pose proof (waypoint_sample_mono N (S w) (length N) ltac:(lia)) as M. rewrite (waypoint_sample_past N (length N)) in M by lia.
      destruct (sample_in_leg L (S (waypoint_sample N w + j)) ltac:(lia)) as (k' & j' & Hk' & Hj' & E').
      unfold L in Hk', Hj'. rewrite map_length in Hk'. rewrite nth_L in Hj'.
      pose proof (Inc w k' j' Hw Hk' Hj' ltac:(lia)) as I. rewrite E'. unfold L.
      destruct (plan_at (light d) legs stops Wt k' j' Hk' Hj') as (_ & -> & _). apply (S3 w k' Hw I). }
    rewrite H by exact Hk. specialize (H 0%nat ltac:(lia)). rewrite Nat.add_0_r in H. rewrite H. reflexivity.
  - intros i Hi. rewrite EL in Hi. rewrite AS. apply plan_unit. exact Hi.
  - split; rewrite EL; intros i Hi.
    + cbv zeta. rewrite !AS, ST, !plan_sample by (fold L; lia).
      destruct (sample_in_leg L i Hi) as (k & j & Hk & Hj & Ei). unfold L in Hk, Hj.
      rewrite map_length in Hk. rewrite nth_L in Hj. subst i. unfold L.
      destruct (plan_at (light d) legs stops Wt k j Hk Hj) as (E & Es & _). rewrite E, Es.
      pose proof (before_step (light d) legs stops Wt k j Hk Hj) as Bf. cbv zeta in Bf. destruct Bf as (B1 & B2 & B3 & B4 & B5 & B6 & B7).
      set (a := lat legs stops (waypoint_sample (map fst legs) k + j - 1)) in *.
      pose proof (leg_unit (light d) legs stops Wt k Hk) as U. pose proof (leg_dt_pos (light d) legs stops Wt k Hk) as T.
      assert (P : part legs k j = part legs k (j - 1) + rate legs k j * leg_dt legs k).
      { unfold part, rate. rewrite (tent_peak (leg_n legs k) j) by lia. field. lra. }
      assert (Q : rate legs k j = rate legs k (j - 1) + acc legs k j * leg_dt legs k).
      { unfold rate, acc, slope. field. lra. }
      split; [|split; [|split]].
      * apply (Wt k Hk).
      * unfold moves. rewrite B1, B2. unfold lstate. cbn [q_x q_y q_vx q_vy]. rewrite P. split; ring.
      * unfold turns. rewrite B3, B4. unfold lstate. cbn [q_c q_s q_w].
        replace (o_a (stops k) + part legs k j * da stops k) with (o_a (stops k) + part legs k (j - 1) * da stops k + rate legs k j * da stops k * leg_dt legs k)
          by (rewrite P; ring).
        rewrite (cos_plus (_ + _) (_ * leg_dt legs k)), (sin_plus (_ + _) (_ * leg_dt legs k)). split; ring.
      * unfold accelerates. rewrite B5, B6, B7. unfold lstate. cbn [q_vx q_vy q_w q_ax q_ay q_al]. rewrite Q. repeat split; ring.
    + rewrite AS, plan_sample by (fold L; lia).
      assert (FE : forces (crawl d legs stops) i = map (push d (lat legs stops i)) (d_modules d)).
      { unfold forces, crawl. cbn [s_moduleFX s_moduleFY]. rewrite !nth_each by (fold L; lia).
        rewrite combine_split. apply map_ext. intros md. symmetry. apply surjective_pairing. }
      rewrite FE. destruct (LS i ltac:(lia)) as (k & j & Hk & Hj & ->).
      split; [apply push_newton; [exact Ap|apply lstate_unit]|].
      split; [exact (lstate_wheels (light d) legs stops Wt k j Hk)|].
      intros md fo Hf.
      assert (Z : forall l, combine l (map (push d (lstate legs stops k j)) l) = map (fun md => (md, push d (lstate legs stops k j) md)) l).
      { induction l as [|x l IH]; simpl; [reflexivity|]. rewrite IH. reflexivity. }
      rewrite Z in Hf. apply in_map_iff in Hf. destruct Hf as (md' & E & Hm). injection E as -> <-.
      apply (Fo k j md Hk Hj Hm).
  - split.
    + intros w c Hw Hc. destruct (S2 w Hw) as [Fw ->]. apply (Rw w c _ Hw Hc).
      assert (B : (waypoint_sample (map fst legs) (f w) <= last_sample L)%nat).
      { pose proof (waypoint_sample_mono (map fst legs) (f w) (length (map fst legs)) ltac:(rewrite map_length; lia)) as M.
        rewrite (waypoint_sample_past (map fst legs) (length (map fst legs))) in M by lia. exact M. }
      rewrite AS, plan_sample by exact B. split.
      * apply (stop_stands (light d) legs stops Wt). exact Fw.
      * destruct (LS _ B) as (k & j & Hk & Hj & ->). apply Ac; assumption.
    + intros w c i Hw Hc Hi.
      pose proof (waypoint_sample_mono N w (length N) ltac:(lia)) as M. rewrite (waypoint_sample_past N (length N)) in M by lia.
      destruct (sample_in_leg L i ltac:(lia)) as (k & j & Hk & Hj & E). unfold L in Hk, Hj. rewrite map_length in Hk. rewrite nth_L in Hj.
      pose proof (Inc (w - 1)%nat k j ltac:(lia) Hk Hj) as I. replace (S (w - 1)) with w in I by lia. specialize (I ltac:(rewrite <- E; exact Hi)).
      apply (Rs w c k _ Hw Hc I). unfold L in E. destruct (plan_at (light d) legs stops Wt k j Hk Hj) as (E1 & _ & B).
      rewrite AS, E, plan_sample by exact B. rewrite E1. split; [|apply Ac; [exact Hk|lia]].
      destruct (lstate_under_way (light d) legs stops Wt k j Hk ltac:(lia)) as (u & r & A1 & A2 & A3).
      exists u, r. split; [exact A1|]. split; [|exact A3]. specialize (Sl k Hk). lra.
Qed.

(** ** Sharing the intervals of a segment among its legs *)
Fixpoint spread (m : nat) (dt : R) (f : nat -> nat) (w : nat) (ns : list nat) : list (nat * R) :=
  match ns with
  | [] => []
  | n :: ns' => repeat (m, dt) (f (S w) - f w - 1) ++ ((n - (f (S w) - f w - 1) * m)%nat, dt) :: spread m dt f (S w) ns'
  end.
Section Spread.
  Variables (m : nat) (dt : R) (f : nat -> nat).
  Lemma rises : forall (ns : list nat) w, (forall v, (w <= v < w + length ns)%nat -> (f v < f (S v))%nat) ->
    forall j, (j <= length ns)%nat -> (f w + j <= f (w + j))%nat.
  Proof.
    intros ns w F. induction j as [|j IH]; intros Hj; [rewrite !Nat.add_0_r; lia|].
    specialize (IH ltac:(lia)). specialize (F (w + j)%nat ltac:(lia)). rewrite (Nat.add_succ_r w j). lia.
  Qed.
  Lemma spread_length : forall ns w, (forall v, (w <= v < w + length ns)%nat -> (f v < f (S v))%nat) ->
    (length (spread m dt f w ns) + f w = f (w + length ns))%nat.
  Proof.
    induction ns as [|n ns IH]; intros w F; cbn [spread length]; [rewrite Nat.add_0_r; reflexivity|].
    rewrite app_length, repeat_length. cbn [length].
    pose proof (IH (S w) ltac:(intros; apply F; cbn [length]; lia)) as E.
    pose proof (F w ltac:(cbn [length]; lia)). replace (w + S (length ns))%nat with (S w + length ns)%nat by lia. lia.
  Qed.
  Lemma spread_in : forall ns w, (forall v, (w <= v < w + length ns)%nat -> (f v < f (S v))%nat) ->
    (forall n, In n ns -> (f (w + length ns) * m <= n)%nat) ->
    forall l, In l (spread m dt f w ns) -> (m <= fst l)%nat /\ snd l = dt.
  Proof.
    induction ns as [|n ns IH]; intros w F P l Hl; cbn [spread] in Hl; [destruct Hl|].
    apply in_app_iff in Hl. destruct Hl as [Hl|[Hl|Hl]].
    - apply repeat_spec in Hl. subst l. simpl. split; [lia|reflexivity].
    - subst l. cbn [fst snd]. split; [|reflexivity]. specialize (P n (or_introl eq_refl)). cbn [length] in P.
      pose proof (rises ns (S w) ltac:(intros; apply F; cbn [length]; lia) (length ns) ltac:(lia)) as Ri.
      replace (w + S (length ns))%nat with (S w + length ns)%nat in P by lia.
      pose proof (F w ltac:(cbn [length]; lia)) as Fw.
      assert (Q : ((f (S w) - f w) * m <= n)%nat) by (eapply Nat.le_trans; [apply Nat.mul_le_mono_r|exact P]; lia).
      replace ((f (S w) - f w) * m)%nat with ((f (S w) - f w - 1) * m + m)%nat in Q; [lia|].
      replace (f (S w) - f w)%nat with (S (f (S w) - f w - 1)) at 2 by lia. simpl. lia.
    - apply (IH (S w)); [intros; apply F; cbn [length]; lia| |exact Hl].
      intros n' Hn. specialize (P n' (or_intror Hn)). cbn [length] in P.
      replace (S w + length ns)%nat with (w + S (length ns))%nat by lia. exact P.
  Qed.
  Lemma sum_repeat : forall k, list_sum (map fst (repeat (m, dt) k)) = (k * m)%nat.
  Proof. induction k as [|k IH]; [reflexivity|]. cbn [repeat map fst]. change (list_sum (m :: ?l)) with (m + list_sum l)%nat. rewrite IH. simpl. lia. Qed.
  Lemma spread_sample : forall ns w, (forall v, (w <= v < w + length ns)%nat -> (f v < f (S v))%nat) ->
    (forall n, In n ns -> (f (w + length ns) * m <= n)%nat) ->
    forall j, (j <= length ns)%nat -> waypoint_sample ns j = waypoint_sample (map fst (spread m dt f w ns)) (f (w + j) - f w).
  Proof.
    unfold waypoint_sample. induction ns as [|n ns IH]; intros w F P j Hj.
    - simpl in Hj. replace j with 0%nat by lia. rewrite firstn_nil. cbn [spread map]. rewrite firstn_nil. reflexivity.
    - destruct j as [|j]; [rewrite Nat.add_0_r, Nat.sub_diag; reflexivity|].
      pose proof (F w ltac:(cbn [length]; lia)) as Fw.
      assert (F' : forall v, (S w <= v < S w + length ns)%nat -> (f v < f (S v))%nat) by (intros; apply F; cbn [length]; lia).
      pose proof (rises ns (S w) F' j ltac:(cbn [length] in Hj; lia)) as Ri.
      pose proof (rises ns (S w) F' (length ns) ltac:(lia)) as Rl.
      cbn [spread]. set (B := (f (S w) - f w - 1)%nat).
      replace (f (w + S j) - f w)%nat with (B + S (f (S w + j) - f (S w)))%nat.
      2:{ replace (w + S j)%nat with (S w + j)%nat by lia. unfold B. lia. }
      rewrite map_app, (firstn_app _ (map fst (repeat (m, dt) B))), map_length, repeat_length.
      rewrite (firstn_all2 (map fst (repeat (m, dt) B))) by (rewrite map_length, repeat_length; lia).
      replace (B + S (f (S w + j) - f (S w)) - B)%nat with (S (f (S w + j) - f (S w))) by lia.
      cbn [map fst firstn]. rewrite list_sum_app, sum_repeat.
      change (list_sum (?x :: ?l)) with (x + list_sum l)%nat.
      rewrite (IH (S w) F'); [| |cbn [length] in Hj; lia].
      + specialize (P n (or_introl eq_refl)). cbn [length] in P. replace (w + S (length ns))%nat with (S w + length ns)%nat in P by lia.
        assert (Q : (B * m <= n)%nat) by (eapply Nat.le_trans; [apply Nat.mul_le_mono_r|exact P]; unfold B; lia). lia.
      + intros n' Hn. specialize (P n' (or_intror Hn)). cbn [length] in P.
        replace (S w + length ns)%nat with (w + S (length ns))%nat by lia. exact P.
  Qed.
End Spread.

(** ** Enough intervals *)
Lemma scaled_enough : forall dt X b, 0 < dt -> 0 <= X -> 0 < b -> exists m, forall n, (m <= n)%nat ->
  (2 <= n)%nat /\ X * top_rate n dt <= b /\ X * / (units n * (dt * dt)) <= b.
Proof.
  intros dt X b Hdt HX Hb. destruct (slow_enough dt (b / (X + 1)) Hdt) as (m & M1 & M2).
  { apply Rdiv_lt_0_compat; lra. }
  exists m. intros n Hn. split; [lia|]. destruct (M2 n Hn) as [[A1 A2] [B1 B2]].
  assert (C : X * (b / (X + 1)) <= b).
  { replace b with ((X + 1) * (b / (X + 1))) at 2 by (field; lra). apply Rmult_le_compat_r; [|lra].
    left. apply Rdiv_lt_0_compat; lra. }
  split; (eapply Rle_trans; [apply Rmult_le_compat_l; [exact HX|eassumption]|exact C]).
Qed.

Lemma counts_set : forall asserts h ns, good_history asserts h -> good_history asserts (with_counts h ns) /\
  counts asserts (with_counts h ns) = ns /\ waypoint_count (path asserts (with_counts h ns)) = waypoint_count (path asserts h) /\
  last_drivetrain None (with_counts h ns) = last_drivetrain None h /\
  (forall w, wpt_requests [] (with_counts h ns) w = wpt_requests [] h w) /\
  (forall w, sgmt_requests [] (with_counts h ns) w = sgmt_requests [] h w).
Proof.
  intros asserts h ns (G1 & G2 & G3). unfold with_counts, counts, path, good_history. rewrite run_ops_app.
  split; [|split; [|split; [|split; [|split]]]].
  - split; [apply Forall_app; split; [exact G1|constructor; [exact I|constructor]]|].
    split; [apply Forall_app; split; [exact G2|constructor; [exact I|constructor]]|].
    apply all_returned_app. split; [exact G3|]. split; [reflexivity|exact I].
  - reflexivity.
  - reflexivity.
  - rewrite last_drivetrain_app. reflexivity.
  - intros w. rewrite wpt_requests_app. cbn. apply app_nil_r.
  - intros w. rewrite sgmt_requests_app. cbn. apply app_nil_r.
Qed.

Lemma C119_proof : forall asserts h d stops f eps, good_history asserts h -> last_drivetrain None h = Some d ->
  driven_wheels d -> apart d -> (1 <= segment_count (path asserts h))%nat ->
  free_way h (segment_count (path asserts h)) stops f eps ->
  exists m, forall ns, length ns = segment_count (path asserts h) -> (forall n, In n ns -> (m <= n)%nat) ->
    good_history asserts (with_counts h ns) /\
    forall handle, exists g sol, generator asserts (with_counts h ns) handle d g /\ solved g sol.
Proof.
  intros asserts h d stops f eps GH LD W Ap L1 (F0 & Fi & Pe & Rw & Rs).
  set (last := segment_count (path asserts h)) in *.
  destruct (step_exists d W) as (dt & Hdt & SW).
  assert (Enough : exists m, forall k n, (k < f last)%nat -> (m <= n)%nat ->
    (2 <= n)%nat /\ top_rate n dt <= eps /\
    (Rabs (dx stops k) + Rabs (dy stops k) + Rabs (da stops k)) * / (units n * (dt * dt)) <= eps /\
    forall md, In md (d_modules d) ->
      (norm2 (dx stops k, dy stops k) + Rabs (da stops k) * arm md) * top_rate n dt <= wheel_limit md /\
      exists C, (forall q, unit_heading q -> norm2 (push d q md) <= C * (Rabs (q_ax q) + Rabs (q_ay q) + Rabs (q_al q))) /\
        0 <= C /\ C * (Rabs (dx stops k) + Rabs (dy stops k) + Rabs (da stops k)) * / (units n * (dt * dt)) <= force_limit md).
  { apply common_large. intros k Hk.
    pose proof (Rabs_pos (dx stops k)) as PX. pose proof (Rabs_pos (dy stops k)) as PY. pose proof (Rabs_pos (da stops k)) as PA.
    destruct (scaled_enough dt 1 eps Hdt ltac:(lra) Pe) as (m1 & M1).
    destruct (scaled_enough dt (Rabs (dx stops k) + Rabs (dy stops k) + Rabs (da stops k)) eps Hdt ltac:(lra) Pe) as (m2 & M2).
    destruct (common_large_list (fun md n =>
      (norm2 (dx stops k, dy stops k) + Rabs (da stops k) * arm md) * top_rate n dt <= wheel_limit md /\
      exists C, (forall q, unit_heading q -> norm2 (push d q md) <= C * (Rabs (q_ax q) + Rabs (q_ay q) + Rabs (q_al q))) /\
        0 <= C /\ C * (Rabs (dx stops k) + Rabs (dy stops k) + Rabs (da stops k)) * / (units n * (dt * dt)) <= force_limit md) (d_modules d)) as (m3 & M3).
    { intros md Hm. destruct (W md Hm) as (W1 & W2 & W3). destruct (push_small d Ap md) as (C & C1 & C2).
      destruct (scaled_enough dt (norm2 (dx stops k, dy stops k) + Rabs (da stops k) * arm md) (wheel_limit md) Hdt) as (m4 & M4).
      { pose proof (norm2_pos (dx stops k, dy stops k)). pose proof (norm2_pos (pt (m_translation md))). unfold arm.
        assert (0 <= Rabs (da stops k) * norm2 (pt (m_translation md))) by (apply Rmult_le_pos; lra). lra. }
      { unfold wheel_limit. apply Rmult_lt_0_compat; assumption. }
      destruct (scaled_enough dt (C * (Rabs (dx stops k) + Rabs (dy stops k) + Rabs (da stops k))) (force_limit md) Hdt) as (m5 & M5).
      { apply Rmult_le_pos; lra. }
      { unfold force_limit. apply Rdiv_lt_0_compat; assumption. }
      exists (Nat.max m4 m5). intros n Hn. split; [apply M4; lia|]. exists C. split; [exact C2|]. split; [exact C1|apply M5; lia]. }
    exists (Nat.max m1 (Nat.max m2 m3)). intros n Hn. destruct (M1 n ltac:(lia)) as (A1 & A2 & _). rewrite Rmult_1_l in A2.
    destruct (M2 n ltac:(lia)) as (_ & _ & A3). split; [exact A1|]. split; [exact A2|]. split; [exact A3|].
    intros md Hm. apply M3; [exact Hm|lia]. }
  destruct Enough as (m & En). exists (f last * Nat.max 1 m)%nat. set (m' := Nat.max 1 m).
  assert (Fl : (last <= f last)%nat).
  { pose proof (rises f (repeat 0%nat last) 0 ltac:(rewrite repeat_length; intros; apply Fi; lia) last ltac:(rewrite repeat_length; lia)). simpl in H. lia. }
  intros ns Ln Pn. destruct (counts_set asserts h ns GH) as (GH' & Cn & Wc & Dr & Qw & Qs). split; [exact GH'|]. intros handle.
  destruct (generator_exists asserts (with_counts h ns) handle d) as (g & G).
  { rewrite Cn, Wc, Ln. unfold last, segment_count, waypoint_count in *. lia. }
  { rewrite Dr. exact LD. }
  exists g. set (legs := spread m' dt f 0 ns).
  assert (Fi' : forall v, (0 <= v < 0 + length ns)%nat -> (f v < f (S v))%nat) by (intros; apply Fi; lia).
  assert (Pn' : forall n, In n ns -> (f (0 + length ns) * m' <= n)%nat) by (intros n Hn; simpl; rewrite Ln; apply Pn, Hn).
  assert (LL : length legs = f last).
  { pose proof (spread_length m' dt f ns 0 Fi') as E. fold legs in E. simpl in E. rewrite Ln in E. lia. }
  assert (Leg : forall k, (k < length legs)%nat -> (m' <= leg_n legs k)%nat /\ leg_dt legs k = dt).
  { intros k Hk. apply (spread_in m' dt f ns 0 Fi' Pn'). apply nth_In. exact Hk. }
  assert (LD' : forall k, dist2 (stop_point (stops k)) (stop_point (stops (S k))) = norm2 (dx stops k, dy stops k)) by (intros; apply leg_distance).
  assert (K : forall k, (k < length legs)%nat ->
     leg_within (light d) (fst (nth k legs (0%nat, 0))) (snd (nth k legs (0%nat, 0))) (stops k) (stops (S k))).
  { intros k Hk. destruct (Leg k Hk) as [N1 N2]. change (fst (nth k legs (0%nat, 0))) with (leg_n legs k).
    change (snd (nth k legs (0%nat, 0))) with (leg_dt legs k). rewrite N2.
    destruct (En k (leg_n legs k) ltac:(lia) ltac:(unfold m' in N1; lia)) as (E1 & E2 & E3 & E4).
    split; [exact E1|]. split; [exact Hdt|]. split; [exact SW|]. cbv zeta. intros md Hm. rewrite LD'. fold (da stops k).
    destruct (E4 md Hm) as [E5 _]. split; [exact E5|]. cbn [light d_mass d_moi]. unfold Rdiv. rewrite !Rmult_0_l, Rplus_0_l, Rmult_0_l.
    destruct (W md Hm) as (W1 & W2 & W3). unfold force_limit. left. apply Rdiv_lt_0_compat; assumption. }
  assert (Acc : forall k j, (k < length legs)%nat -> (j <= leg_n legs k)%nat ->
    Rabs (acc legs k j) <= / (units (leg_n legs k) * (dt * dt))).
  { intros k j Hk Hj. destruct (Leg k Hk) as [N1 N2]. unfold acc. rewrite N2. unfold Rdiv. rewrite Rabs_mult.
    pose proof (leg_unit (light d) legs stops K k Hk) as U.
    assert (I : 0 < / (units (leg_n legs k) * (dt * dt))) by (apply Rinv_0_lt_compat; apply Rmult_lt_0_compat; nra).
    rewrite (Rabs_right (/ _)) by lra. rewrite <- (Rmult_1_l (/ _)) at 2. apply Rmult_le_compat_r; [lra|].
    apply slope_range, Hj. }
  assert (Bd : forall k j, (k < length legs)%nat -> (j <= leg_n legs k)%nat ->
    let q := lstate legs stops k j in Rabs (q_ax q) + Rabs (q_ay q) + Rabs (q_al q) <=
      (Rabs (dx stops k) + Rabs (dy stops k) + Rabs (da stops k)) * / (units (leg_n legs k) * (dt * dt))).
  { intros k j Hk Hj. cbn [lstate q_ax q_ay q_al]. rewrite !Rabs_mult.
    pose proof (Acc k j Hk Hj) as A. pose proof (Rabs_pos (dx stops k)). pose proof (Rabs_pos (dy stops k)). pose proof (Rabs_pos (da stops k)).
    rewrite <- !Rmult_plus_distr_l, Rmult_comm. apply Rmult_le_compat_l; [lra|exact A]. }
  assert (Sol : exists sol, solved g sol); [|destruct Sol as (sol & Sol); exists sol; split; [exact G|exact Sol]].
  apply (crawl_solved asserts (with_counts h ns) handle d g legs stops f eps GH' G W Ap).
  - rewrite Cn. intros n Hn. specialize (Pn n Hn). assert (1 * 1 <= f last * Nat.max 1 m)%nat by (apply Nat.mul_le_mono; lia). lia.
  - intros E. rewrite E in LL. simpl in LL. lia.
  - rewrite Cn. split; [rewrite Ln; lia|]. split.
    + intros w Hw. split.
      * rewrite LL, <- Ln.
        pose proof (rises f (skipn w ns) w ltac:(rewrite skipn_length; intros; apply Fi; lia) (length ns - w)%nat ltac:(rewrite skipn_length; lia)) as Ri.
        replace (w + (length ns - w))%nat with (length ns) in Ri by lia. lia.
      * rewrite (spread_sample m' dt f ns 0 Fi' Pn' w Hw). rewrite F0. simpl. rewrite Nat.sub_0_r. reflexivity.
    + intros w k Hw Hk. assert (Q : (f (S w) <= f (length ns))%nat).
      { pose proof (rises f (skipn (S w) ns) (S w) ltac:(rewrite skipn_length; intros; apply Fi; lia) (length ns - S w)%nat ltac:(rewrite skipn_length; lia)) as Ri.
        replace (S w + (length ns - S w))%nat with (length ns) in Ri by lia. lia. }
      rewrite Ln in Q. destruct (Leg k ltac:(lia)) as [_ E1]. destruct (Leg (f w) ltac:(lia)) as [_ E2].
      unfold leg_dt in E1, E2. congruence.
  - exact K.
  - intros k Hk. destruct (Leg k Hk) as [N1 N2]. rewrite N2.
    destruct (En k (leg_n legs k) ltac:(lia) ltac:(unfold m' in N1; lia)) as (_ & E2 & _). exact E2.
  - intros k j Hk Hj. destruct (Leg k Hk) as [N1 N2]. pose proof (Bd k j Hk Hj) as B. cbv zeta in B.
    destruct (En k (leg_n legs k) ltac:(lia) ltac:(unfold m' in N1; lia)) as (_ & _ & E3 & _).
    pose proof (Rabs_pos (q_ax (lstate legs stops k j))). pose proof (Rabs_pos (q_ay (lstate legs stops k j))).
    pose proof (Rabs_pos (q_al (lstate legs stops k j))). lra.
  - intros k j md Hk Hj Hm. destruct (Leg k Hk) as [N1 N2]. pose proof (Bd k j Hk Hj) as B. cbv zeta in B.
    destruct (En k (leg_n legs k) ltac:(lia) ltac:(unfold m' in N1; lia)) as (_ & _ & _ & E4).
    destruct (E4 md Hm) as (_ & C & C1 & C2 & C3).
    eapply Rle_trans; [apply C1, lstate_unit|]. eapply Rle_trans; [|exact C3]. rewrite Rmult_assoc. apply Rmult_le_compat_l; assumption.
  - rewrite Cn, Ln. intros w c q Hw Hc. rewrite Qw in Hc. apply Rw; assumption.
  - rewrite Cn, Ln. intros w c k q Hw Hc. rewrite Qs in Hc. apply Rs; assumption.
Qed.

(** ** Tours *)
Definition plain_call (o : op R) : Prop :=
  match o with
  | OSetDrivetrain _ => True
  | OPoseWpt i _ _ _ | OWptConstraint i _ => (i < BuilderFacts.max63)%nat
  | OSgmtConstraint f t _ => (f < t)%nat /\ (t < BuilderFacts.max63)%nat
  | _ => False
  end.
Lemma plain_returned : forall asserts (h : list (op R)) b, BuilderFacts.inv b -> Forall plain_call h ->
  all_returned asserts h b /\
  BuilderFacts.wlen (run_ops asserts h b) = fold_left (fun n o => Nat.max n (needed [] o)) h (BuilderFacts.wlen b).
Proof.
  intros asserts. induction h as [|o h IH]; intros b Hb P; [split; [exact I|reflexivity]|].
  inversion P as [|x y P1 P2]; subst.
  assert (E : snd (run_op asserts o b) = Ok tt /\
    BuilderFacts.wlen (fst (run_op asserts o b)) = Nat.max (BuilderFacts.wlen b) (needed [] o)).
  { destruct o; try contradiction; cbn [run_op needed plain_call] in *.
    - split; [reflexivity|]. rewrite Nat.max_0_r. reflexivity.
    - unfold PoseWpt, bbind.
      destruct (BuilderEffects.WptConstraint_ok index (mkPoseEquality x y heading) b Hb P1) as (b1 & -> & E1).
      pose proof (BuilderEffects.effect_inv _ _ _ _ _ E1 Hb) as I1.
      destruct (BuilderProofs.WptGuess_ok index (pose_xyh x y heading) b1 I1 P1) as (b2 & -> & E2).
      split; [reflexivity|]. cbn [fst]. destruct E2 as (E2 & _). rewrite E2.
      rewrite (BuilderEffects.effect_wlen _ _ _ _ _ E1). lia.
    - destruct (BuilderEffects.WptConstraint_ok index c b Hb P1) as (b1 & -> & E1). split; [reflexivity|].
      apply (BuilderEffects.effect_wlen _ _ _ _ _ E1).
    - destruct P1 as [P1 P3]. destruct (BuilderEffects.SgmtConstraint_ok asserts fromIndex toIndex c b Hb P1 P3) as (b1 & -> & E1). split; [reflexivity|].
      apply (BuilderEffects.effect_wlen _ _ _ _ _ E1). }
  destruct E as [E1 E2]. destruct (IH (fst (run_op asserts o b)) (HistoryFacts.run_op_inv asserts o b Hb) P2) as [I1 I2].
  split; [split; assumption|]. change (run_ops asserts (o :: h) b) with (run_ops asserts h (fst (run_op asserts o b))).
  rewrite I2, E2. reflexivity.
Qed.

Lemma visit_plain : forall ps i, (i + length ps <= BuilderFacts.max63)%nat -> Forall plain_call (visit i ps).
Proof.
  induction ps as [|p ps IH]; intros i H; cbn [visit length] in *; [constructor|].
  repeat (constructor; [cbn [plain_call]; lia|]). apply IH. lia.
Qed.
Lemma visit_needed : forall ps i n, (n <= i)%nat ->
  fold_left (fun n o => Nat.max n (needed [] o)) (visit i ps) n = (if (length ps =? 0)%nat then n else i + length ps)%nat.
Proof.
  induction ps as [|p ps IH]; intros i n H; [reflexivity|]. cbn [visit fold_left needed length]. rewrite IH by lia.
  destruct (length ps =? 0)%nat eqn:E; [apply Nat.eqb_eq in E; rewrite E; cbn [Nat.eqb]; lia|].
  cbn [Nat.eqb]. lia.
Qed.
Lemma tour_facts : forall asserts d v w ps, (2 <= length ps)%nat -> (Z.of_nat (length ps) <= 2 ^ 63)%Z ->
  good_history asserts (tour d v w ps) /\ waypoint_count (path asserts (tour d v w ps)) = length ps /\
  last_drivetrain None (tour d v w ps) = Some d.
Proof.
  intros asserts d v w ps L2 LZ.
  assert (LM : (length ps <= BuilderFacts.max63)%nat).
  { apply Nat2Z.inj_le. rewrite BuilderFacts.max63_Z. exact LZ. }
  assert (Pl : Forall plain_call (tour d v w ps)).
  { unfold tour. constructor; [exact I|]. apply Forall_app. split; [apply visit_plain; lia|].
    repeat (constructor; [split; lia|]). constructor. }
  assert (Pr : Forall proper_request (tour d v w ps)).
  { unfold tour. constructor; [exact I|]. apply Forall_app. split; [|repeat (constructor; [exact I|]); constructor].
    generalize 0%nat. clear. induction ps as [|p ps IH]; intros i; cbn [visit]; [constructor|].
    repeat (constructor; [exact I|]). apply IH. }
  destruct (plain_returned asserts (tour d v w ps) new_builder BuilderFacts.inv_new Pl) as [R1 R2].
  split; [split; [|split; [exact Pr|exact R1]]|split].
  - eapply Forall_impl; [|exact Pl]. intros o Ho. destruct o; try contradiction; cbn [plain_call proper_call] in *.
    + exact I.
    + apply BuilderCases.below63_size, Ho.
    + apply BuilderCases.below63_size, Ho.
    + split; [apply BuilderCases.below63_size; lia|]. split; [apply BuilderCases.below63_size; lia|lia].
  - unfold waypoint_count, path. unfold BuilderFacts.wlen in R2. rewrite R2. unfold tour. cbn [fold_left needed].
    rewrite fold_left_app, visit_needed.
    + destruct (length ps =? 0)%nat eqn:E; [apply Nat.eqb_eq in E; lia|]. cbn [fold_left needed]. lia.
    + cbn. lia.
  - unfold tour. cbn [last_drivetrain]. rewrite last_drivetrain_app. cbn [last_drivetrain].
    generalize 0%nat. clear. induction ps as [|p ps IH]; intros i; cbn [visit last_drivetrain]; [reflexivity|apply IH].
Qed.
Lemma visit_requests : forall ps i bs k c, In c (wpt_requests bs (visit i ps) k) -> (i <= k)%nat /\ (k < i + length ps)%nat /\
  (let p := nth (k - i) ps (mkStop 0 0 0) in
   c = PoseEquality (pose_xyh (o_x p) (o_y p) (o_a p)) \/ c = LinearVelocityMaxMagnitude 0 \/ c = AngularVelocityMaxMagnitude 0).
Proof.
  induction ps as [|p ps IH]; intros i bs k c H; cbn [visit wpt_requests] in H; [destruct H|].
  rewrite !in_app_iff in H. cbn [wpt_request bumper_request] in H. destruct (Nat.eqb_spec k i) as [->|D].
  - rewrite Nat.sub_diag. cbn [length nth]. cbv zeta. split; [lia|]. split; [lia|]. cbn [In] in H.
    destruct H as [[<-|[]]|[[<-|[]]|[[<-|[]]|H]]]; [left; reflexivity|right; left; reflexivity|right; right; reflexivity|].
    apply IH in H. lia.
  - destruct H as [[]|[[]|[[]|H]]]. apply IH in H. destruct H as (H1 & H2 & H3). cbn [length].
    replace (k - i)%nat with (S (k - S i)) by lia. cbn [nth]. split; [lia|]. split; [lia|exact H3].
Qed.
Lemma visit_no_sgmt : forall ps i bs k, @sgmt_requests R _ bs (visit i ps) k = [].
Proof. induction ps as [|p ps IH]; intros i bs k; [reflexivity|]. cbn [visit sgmt_requests sgmt_request app]. apply IH. Qed.
Lemma tour_requests : forall d v w ps k,
  (forall c, In c (wpt_requests [] (tour d v w ps) k) -> (k < length ps)%nat ->
     (let p := nth k ps (mkStop 0 0 0) in c = PoseEquality (pose_xyh (o_x p) (o_y p) (o_a p))) \/
     c = LinearVelocityMaxMagnitude 0 \/ c = AngularVelocityMaxMagnitude 0 \/
     c = LinearVelocityMaxMagnitude v \/ c = AngularVelocityMaxMagnitude w) /\
  (forall c, In c (sgmt_requests [] (tour d v w ps) k) -> c = LinearVelocityMaxMagnitude v \/ c = AngularVelocityMaxMagnitude w).
Proof.
  intros d v w ps k. split; intros c H.
  - intros Hk. unfold tour in H. cbn [wpt_requests wpt_request bumper_request app] in H. rewrite wpt_requests_app, in_app_iff in H.
    destruct H as [H|H].
    + apply visit_requests in H. destruct H as (_ & _ & H). rewrite Nat.sub_0_r in H. cbv zeta in *. tauto.
    + cbn [wpt_requests wpt_request] in H. rewrite !in_app_iff in H. 
      destruct ((0 <=? k) && (k <=? length ps - 1))%nat; cbn [In] in H; intuition.
  - unfold tour in H. cbn [sgmt_requests sgmt_request bumper_request app] in H. rewrite sgmt_requests_app, visit_no_sgmt in H.
    cbn [app sgmt_requests sgmt_request] in H. rewrite !in_app_iff in H.
    destruct ((0 <? k) && (k <=? length ps - 1))%nat; cbn [In] in H; intuition.
Qed.

Lemma C119_tour_proof : forall asserts d v w ps, driven_wheels d -> apart d -> 0 < v -> 0 < w ->
  (2 <= length ps)%nat -> (Z.of_nat (length ps) <= 2 ^ 63)%Z ->
  exists m, forall ns, length ns = (length ps - 1)%nat -> (forall n, In n ns -> (m <= n)%nat) ->
    good_history asserts (with_counts (tour d v w ps) ns) /\
    forall handle, exists g sol, generator asserts (with_counts (tour d v w ps) ns) handle d g /\ solved g sol.
Proof.
  intros asserts d v w ps W Ap Pv Pw L2 LZ.
  destruct (tour_facts asserts d v w ps L2 LZ) as (GH & WC & LD).
  assert (SC : segment_count (path asserts (tour d v w ps)) = (length ps - 1)%nat).
  { unfold segment_count. fold (waypoint_count (path asserts (tour d v w ps))). rewrite WC. reflexivity. }
  set (stops := fun k => nth k ps (mkStop 0 0 0)).
  destruct (common_small (fun k e => e * norm2 (dx stops k, dy stops k) <= v /\ e * Rabs (da stops k) <= w) (seq 0 (length ps)))
    as (eps & E1 & E2).
  { intros k x y _ Hy [H1 H2]. pose proof (norm2_pos (dx stops k, dy stops k)). pose proof (Rabs_pos (da stops k)).
    split; (eapply Rle_trans; [apply Rmult_le_compat_r; [|apply Hy]; assumption|assumption]). }
  { intros k _. pose proof (norm2_pos (dx stops k, dy stops k)) as N. pose proof (Rabs_pos (da stops k)) as A.
    set (D := norm2 (dx stops k, dy stops k)) in *. set (B := Rabs (da stops k)) in *.
    assert (Q : forall X b, 0 <= X -> 0 < b -> 0 < b / (X + 1) /\ b / (X + 1) * X <= b).
    { intros X b HX Hb. assert (P : 0 < b / (X + 1)) by (apply Rdiv_lt_0_compat; lra). split; [exact P|].
      replace b with (b / (X + 1) * (X + 1)) at 2 by (field; lra). apply Rmult_le_compat_l; lra. }
    destruct (Q D v N Pv) as [Q1 Q2]. destruct (Q B w A Pw) as [Q3 Q4].
    exists (Rmin (v / (D + 1)) (w / (B + 1))). split; [apply Rmin_glb_lt; assumption|].
    split; (eapply Rle_trans; [apply Rmult_le_compat_r; [assumption|]|eassumption]); [apply Rmin_l|apply Rmin_r]. }
  rewrite <- SC. apply (C119_proof asserts (tour d v w ps) d stops (fun w => w) eps GH LD W Ap); [rewrite SC; lia|].
  rewrite SC. split; [reflexivity|]. split; [intros; lia|]. split; [exact E1|]. split.
  - intros k c q Hk Hc (Hq & _). destruct Hq as (X & Y & [HC HS] & [V1 V2] & OM).
    destruct (tour_requests d v w ps k) as [T _]. specialize (T c Hc ltac:(lia)). cbv zeta in T. fold (stops k) in T.
    assert (Z : norm2 (q_vx q, q_vy q) = 0).
    { rewrite V1, V2. unfold norm2. cbn [fst snd]. rewrite Rmult_0_l, Rplus_0_l. apply sqrt_0. }
    destruct T as [->|[->|[->|[->| ->]]]]; cbn [demands].
    + split; [exact X|]. split; [exact Y|]. left. split; [exact HC|exact HS].
    + rewrite Z, Rabs_R0. lra.
    + rewrite OM, Rabs_R0. lra.
    + rewrite Z. apply Rabs_pos.
    + rewrite OM, Rabs_R0. lra.
  - intros k c j q Hk Hc Hj ((u & r & Hu & Hr & X & Y & H & V1 & V2 & OM) & _).
    destruct (tour_requests d v w ps k) as [_ T]. specialize (T c Hc).
    destruct (E2 j ltac:(apply in_seq; lia)) as [D1 D2]. fold (dx stops j) in V1. fold (dy stops j) in V2. fold (da stops j) in OM.
    destruct T as [->| ->]; cbn [demands].
    + rewrite V1, V2, norm2_scale, (Rabs_right r), (Rabs_right v) by lra.
      eapply Rle_trans; [apply Rmult_le_compat_r; [apply norm2_pos|apply Hr]|exact D1].
    + rewrite OM, Rabs_mult, (Rabs_right r) by lra.
      eapply Rle_trans; [apply Rmult_le_compat_r; [apply Rabs_pos|apply Hr]|exact D2].
Qed.

(** ** All modules at the centre *)
Lemma C119_centre_proof : forall asserts d v w p p' n handle g sol,
  (forall md, In md (d_modules d) -> pt (m_translation md) = (0, 0)) -> d_moi d <> 0 -> sin (o_a p' - o_a p) <> 0 ->
  generator asserts (with_counts (tour d v w [p; p']) [n]) handle d g -> ~ solved g sol.
Proof.
  intros asserts d v w p p' n handle g sol Ce Mo Si G Sv.
  destruct (tour_facts asserts d v w [p; p'] ltac:(simpl; lia) ltac:(simpl; lia)) as (GH & _ & _).
  destruct (counts_set asserts _ [n] GH) as (GH' & Cn & _ & _ & Qw & _).
  destruct (solved_motion asserts _ handle d g sol G Sv) as (M & Nw). rewrite Cn in M, Nw.
  destruct (solved_requests asserts _ handle d g sol GH' G Sv) as (Rq & _). rewrite Cn in Rq.
  change (last_sample [n]) with (n + 0)%nat in *. rewrite Nat.add_0_r in M, Nw.
  assert (Al : forall i, (i <= n)%nat -> q_al (at_sample sol i) = 0).
  { intros i Hi. destruct (Nw i Hi) as (_ & _ & T).
    assert (Z : forall l, (forall mf, In mf l -> In (fst mf) (d_modules d)) ->
      sum (map (fun mf => cross2 (turned (at_sample sol i) (m_translation (fst mf))) (snd mf)) l) = 0).
    { induction l as [|mf l IH]; intros Hl; [reflexivity|]. cbn [map sum]. rewrite IH by (intros; apply Hl; right; assumption).
      specialize (Ce (fst mf) (Hl mf (or_introl eq_refl))). unfold pt in Ce. injection Ce as C1 C2.
      unfold cross2, turned. cbn [fst snd]. rewrite C1, C2. ring. }
    rewrite Z in T.
    - symmetry in T. apply Rmult_integral in T. destruct T; [contradiction|assumption].
    - intros [md f] Hf. apply in_combine_l in Hf. exact Hf. }
  assert (R0 : forall c, In c (wpt_requests [] (tour d v w [p; p']) 0) -> demands (at_sample sol 0) c).
  { intros c Hc. apply (Rq 0%nat c ltac:(simpl; lia)). rewrite Qw. exact Hc. }
  assert (R1 : forall c, In c (wpt_requests [] (tour d v w [p; p']) 1) -> demands (at_sample sol n) c).
  { intros c Hc. replace n with (waypoint_sample [n] 1) by (unfold waypoint_sample; simpl; lia). apply (Rq 1%nat c ltac:(simpl; lia)). rewrite Qw. exact Hc. }
  pose proof (R0 (PoseEquality (pose_xyh (o_x p) (o_y p) (o_a p))) ltac:(left; reflexivity)) as (_ & _ & H0).
  pose proof (R1 (PoseEquality (pose_xyh (o_x p') (o_y p') (o_a p'))) ltac:(left; reflexivity)) as (_ & _ & H1).
  pose proof (R0 (AngularVelocityMaxMagnitude 0) ltac:(right; right; left; reflexivity)) as W0. cbn [demands] in W0.
  change (rCos (pRot (pose_xyh (o_x p) (o_y p) (o_a p)))) with (cos (o_a p)) in H0.
  change (rSin (pRot (pose_xyh (o_x p) (o_y p) (o_a p)))) with (sin (o_a p)) in H0.
  change (rCos (pRot (pose_xyh (o_x p') (o_y p') (o_a p')))) with (cos (o_a p')) in H1.
  change (rSin (pRot (pose_xyh (o_x p') (o_y p') (o_a p')))) with (sin (o_a p')) in H1.
  assert (Om : forall i, (i <= n)%nat -> q_w (at_sample sol i) = 0 /\
    ((q_c (at_sample sol i) = cos (o_a p) /\ q_s (at_sample sol i) = sin (o_a p)) \/
     (q_c (at_sample sol i) = - cos (o_a p) /\ q_s (at_sample sol i) = - sin (o_a p)))).
  { induction i as [|i IH]; intros Hi.
    - split; [|exact H0]. revert W0. unfold Rabs. destruct (Rcase_abs _); lra.
    - destruct (IH ltac:(lia)) as [I1 I2]. destruct (M (S i) ltac:(lia)) as (_ & _ & T & (_ & _ & A)).
      replace (S i - 1)%nat with i in T, A by lia. rewrite I1, (Al (S i) Hi) in A.
      assert (E : q_w (at_sample sol (S i)) = 0) by lra. split; [exact E|].
      unfold turns_up_to_half in T. cbv zeta in T. rewrite E, Rmult_0_l, cos_0, sin_0 in T. clear -I2 T.
      set (a := at_sample sol i) in *. set (b := at_sample sol (S i)) in *.
      pose proof (sin2_cos2 (o_a p)) as U. unfold Rsqr in U. set (c := cos (o_a p)) in *. set (s := sin (o_a p)) in *.
      assert (K : forall x y, q_c b * c + q_s b * s = x -> q_s b * c - q_c b * s = y -> y = 0 -> q_c b = x * c /\ q_s b = x * s).
      { intros x y K1 K2 K3. split.
        - transitivity (q_c b * (s * s + c * c)); [rewrite U; ring|].
          replace (x * c) with (x * c - y * s) by (rewrite K3; ring). rewrite <- K1, <- K2. ring.
        - transitivity (q_s b * (s * s + c * c)); [rewrite U; ring|].
          replace (x * s) with (x * s + y * c) by (rewrite K3; ring). rewrite <- K1, <- K2. ring. }
      destruct I2 as [[I3 I4]|[I3 I4]]; rewrite I3, I4 in T; destruct T as [[T1 T2]|[T1 T2]].
      + destruct (K 1 0) as [K1 K2]; [lra|lra|lra|]. left. split; lra.
      + destruct (K (-1) 0) as [K1 K2]; [lra|lra|lra|]. right. split; lra.
      + destruct (K (-1) 0) as [K1 K2]; [lra|lra|lra|]. right. split; lra.
      + destruct (K 1 0) as [K1 K2]; [lra|lra|lra|]. left. split; lra. }
  destruct (Om n ltac:(lia)) as [_ E]. apply Si. rewrite sin_minus.
  destruct E as [[E1 E2]|[E1 E2]], H1 as [[F1 F2]|[F1 F2]]; rewrite E1 in F1; rewrite E2 in F2.
  - rewrite <- F1, <- F2. ring.
  - replace (cos (o_a p')) with (- cos (o_a p)) by lra. replace (sin (o_a p')) with (- sin (o_a p)) by lra. ring.
  - replace (cos (o_a p')) with (- cos (o_a p)) by lra. replace (sin (o_a p')) with (- sin (o_a p)) by lra. ring.
  - replace (cos (o_a p')) with (cos (o_a p)) by lra. replace (sin (o_a p')) with (sin (o_a p)) by lra. ring.
Qed.

(** ** Cases *)
Lemma detour_case : driven_wheels lopsided /\ apart lopsided /\ ~ centred lopsided /\
  forall asserts, good_history asserts detour /\ last_drivetrain None detour = Some lopsided /\
  segment_count (path asserts detour) = 1%nat /\ free_way detour 1 detour_stops (fun w => (2 * w)%nat) 1 /\
  ~ demands (mkState 0 0 1 0 0 0 0 0 0 0) (PointPoint (mkTr 0 0) (mkTr 0 0) 1).
Proof.
  split; [intros md [<-|[<-|[<-|[]]]]; simpl; lra|].
  split.
  { exists (mkModule (mkTr 1 0) (1 / 25) 70 2), (mkModule (mkTr 0 1) (1 / 25) 70 2).
    split; [left; reflexivity|]. split; [right; left; reflexivity|]. unfold pt. simpl. intros E. injection E. lra. }
  split; [intros [E _]; simpl in E; lra|]. intros asserts.
  assert (M2 : (2 <= BuilderFacts.max63)%nat) by (apply Nat2Z.inj_le; rewrite BuilderFacts.max63_Z; simpl; lia).
  assert (Pl : Forall plain_call detour) by (repeat (constructor; [simpl; lia|]); constructor).
  destruct (plain_returned asserts detour new_builder BuilderFacts.inv_new Pl) as [R1 R2].
  assert (D : forall x y, 1 <= x * x + y * y -> Rabs 1 <= dist2 (x, y) (0, 0)).
  { intros x y H. rewrite Rabs_R1, dist2_norm. cbn [fst snd]. rewrite <- sqrt_1. unfold norm2. cbn [fst snd]. apply sqrt_le_1_alt. lra. }
  split; [|split; [reflexivity|split; [|split]]].
  - split; [|split; [repeat (constructor; [exact I|]); constructor|exact R1]].
    eapply Forall_impl; [|exact Pl]. intros o Ho. destruct o; try contradiction; cbn [plain_call proper_call] in *.
    + exact I.
    + apply BuilderCases.below63_size, Ho.
    + apply BuilderCases.below63_size, Ho.
    + split; [apply BuilderCases.below63_size; lia|]. split; [apply BuilderCases.below63_size; lia|lia].
  - unfold segment_count, path. unfold BuilderFacts.wlen in R2. rewrite R2. reflexivity.
  - split; [reflexivity|]. split; [intros; lia|]. split; [lra|]. split.
    + intros w c q Hw Hc (Hq & _). destruct Hq as (X & Y & [HC HS] & _).
      assert (E : w = 0%nat \/ w = 1%nat) by lia. destruct E as [-> | ->]; cbn in Hc, X, Y, HC, HS.
      * destruct Hc as [<-|[<-|[]]].
        -- cbn [demands pose_xyh]. split; [exact X|]. split; [exact Y|]. left. split; [exact HC|exact HS].
        -- cbn [demands]. unfold placed, pt. cbn [tX tY]. rewrite X, Y.
           match goal with |- _ <= dist2 (?a, ?b) _ => replace a with (-2) by ring; replace b with 0 by ring end. apply D. lra.
      * destruct Hc as [<-|[<-|[]]].
        -- cbn [demands pose_xyh]. split; [exact X|]. split; [exact Y|]. left. split; [exact HC|exact HS].
        -- cbn [demands]. unfold placed, pt. cbn [tX tY]. rewrite X, Y.
           match goal with |- _ <= dist2 (?a, ?b) _ => replace a with 2 by ring; replace b with 0 by ring end. apply D. lra.
    + intros w c k q Hw Hc Hk ((u & r & Hu & _ & X & Y & _) & _).
      assert (w = 1%nat) as -> by lia. cbn in Hc. destruct Hc as [<-|[]]. cbn [demands].
      unfold placed, pt. cbn [tX tY].
      match goal with |- _ <= dist2 (?a, ?b) _ => replace a with (q_x q) by ring; replace b with (q_y q) by ring end.
      assert (E : k = 0%nat \/ k = 1%nat) by lia. destruct E as [-> | ->]; cbn in X, Y; rewrite X, Y; apply D; nra.
  - cbn [demands]. unfold placed, pt. cbn [tX tY q_x q_y q_c q_s]. rewrite Rabs_R1, dist2_norm. unfold norm2. cbn [fst snd].
    match goal with |- ~ _ <= sqrt ?x => replace x with 0 by ring end. rewrite sqrt_0. lra.
Qed.
Lemma hub_case : driven_wheels hub_robot /\ (forall md, In md (d_modules hub_robot) -> pt (m_translation md) = (0, 0)) /\
  d_moi hub_robot <> 0 /\ sin (o_a (mkStop 0 0 (PI / 2)) - o_a (mkStop 0 0 0)) <> 0 /\
  forall asserts n handle, exists g, generator asserts (with_counts (tour hub_robot 1 1 [mkStop 0 0 0; mkStop 0 0 (PI / 2)]) [n]) handle hub_robot g.
Proof.
  split; [intros md [<-|[]]; simpl; lra|]. split; [intros md [<-|[]]; reflexivity|]. split; [simpl; lra|].
  split; [cbn [o_a]; rewrite Rminus_0_r, sin_PI2; lra|]. intros asserts n handle.
  destruct (tour_facts asserts hub_robot 1 1 [mkStop 0 0 0; mkStop 0 0 (PI / 2)] ltac:(simpl; lia) ltac:(simpl; lia)) as (GH & WC & LD).
  destruct (counts_set asserts _ [n] GH) as (_ & Cn & Wc & Dr & _).
  apply generator_exists; [rewrite Cn, Wc, WC; simpl; lia|rewrite Dr; exact LD].
Qed.
Lemma tour_case : exists m, forall ns, length ns = 2%nat -> (forall n, In n ns -> (m <= n)%nat) ->
  good_history true (with_counts (tour lopsided (1 / 10) (1 / 10) [mkStop 0 0 0; mkStop 1000 0 100; mkStop 0 (-5) 0]) ns) /\
  forall handle, exists g sol,
    generator true (with_counts (tour lopsided (1 / 10) (1 / 10) [mkStop 0 0 0; mkStop 1000 0 100; mkStop 0 (-5) 0]) ns) handle lopsided g /\
    solved g sol.
Proof.
  destruct detour_case as (W & A & _).
  apply (C119_tour_proof true lopsided (1 / 10) (1 / 10) [mkStop 0 0 0; mkStop 1000 0 100; mkStop 0 (-5) 0] W A); simpl; (lra || lia).
Qed.
