(** Robots on which rounding shows. *)
From Coq Require Import List Lia Lra Psatz Reals SpecFloat.
Import ListNotations.
From Flocq Require Import Core BinarySingleNaN.
From Verif Require Import Outcome Num NumR NumF64 Geometry Expr Constraints Util Builder Guess Generator
  Spec SpecBuilder SpecPhysics SpecTrajectory SpecGenerator SpecDouble SpecRounding
  DoubleFacts DoubleProofs DoubleGuess RoundingFacts RoundingProofs RoundingClaims.
Local Open Scope R_scope.

(** The double 2^e. *)
Definition two_to (e : Z) : f64 := S754_finite false 4503599627370496 (e - 52).
Lemma two_to_real e : real (two_to e) = powerRZ 2 e.
Proof. unfold two_to. rewrite lit_pow. rewrite Rmult_1_l. f_equal. lia. Qed.
(** Two modules, one metre ahead of and behind the centre, with wheels of 1 m
    that turn at up to 4 rad/s with up to 1 N m. *)
Definition axle (x : f64) : swerve_module f64 := mkModule (mkTr x fzero) (two_to 0) (two_to 2) (two_to 0).
Definition twin : drivetrain f64 := mkDrivetrain (two_to 0) (two_to 0) [axle (two_to 0); axle (SFopp (two_to 0))].
Definition glide (c : constraint f64) : list (op f64) :=
  [OSetDrivetrain twin; OWptConstraint 0 c; OWptInitialGuessPoint 1 (mkPose (mkTr (two_to 0) fzero) (mkRot (two_to 0) fzero));
   OControlIntervalCounts [1%nat]].
(** A quarter of a second at a constant velocity. *)
Definition steady (vx vy : R) : solution R :=
  mkSolution [/ 4] [0; vx / 4] [0; vy / 4] [1; 1] [0; 0] [vx; vx] [vy; vy] [0; 0] [0; 0] [0; 0] [0; 0] [[0; 0]; [0; 0]] [[0; 0]; [0; 0]].

Lemma small_within k x : (10 <= k)%Z -> is_double x -> finite x -> Rabs (real x) <= 4 -> within k x.
Proof.
  intros K D F B. split; [exact D|]. split; [exact F|]. apply Rle_trans with (1 := B). rewrite <- pow2.
  apply Rle_trans with (bpow radix2 2); [simpl; lra|]. apply bpow_le. lia.
Qed.
Lemma axle_ordinary x : is_double x -> finite x -> Rabs (real x) <= 4 -> ordinary_module (axle x).
Proof.
  intros D F B. unfold ordinary_module, axle, documented. cbn [m_translation m_wheelRadius m_wheelMaxAngularVelocity m_wheelMaxTorque tX tY l_speed l_force].
  rewrite !two_to_real. split; [apply small_within; try assumption; lia|]. split; [apply small_within; [lia|reflexivity|exact Logic.I|]|].
  { simpl. rewrite Rabs_R0. lra. }
  split; [split; [vm_compute; reflexivity|exact Logic.I]|]. split; [split; [vm_compute; reflexivity|exact Logic.I]|].
  split; [split; [vm_compute; reflexivity|exact Logic.I]|].
  assert (L : 4 <= powerRZ 2 500) by (apply Rle_trans with (powerRZ 2 2); [simpl; lra|rewrite <- !pow2; apply bpow_le; lia]).
  replace (powerRZ 2 0) with 1 by reflexivity. replace (powerRZ 2 2) with 4 by (simpl; ring). repeat split; lra.
Qed.
Lemma twin_ordinary : ordinary_drivetrain twin.
Proof.
  split; [split; [vm_compute; reflexivity|exact Logic.I]|]. split; [split; [vm_compute; reflexivity|exact Logic.I]|].
  cbn [twin d_modules]. constructor; [|constructor; [|constructor]]; (apply axle_ordinary; [vm_compute; reflexivity|exact Logic.I|]).
  - rewrite two_to_real. replace (powerRZ 2 0) with 1 by reflexivity. rewrite Rabs_R1. lra.
  - rewrite real_opp, two_to_real. replace (powerRZ 2 0) with 1 by reflexivity. rewrite Rabs_Ropp, Rabs_R1. lra.
Qed.
Section Glide.
  Variables (fcos fsin : f64 -> f64) (fatan2 fhypot : f64 -> f64 -> f64) (asserts : bool) (c : constraint f64).
  Let A := Arith_f64 fcos fsin fatan2 fhypot.
  Lemma glide_counts : @counts f64 A Dbl_f64 asserts (glide c) = [1%nat].
  Proof. destruct asserts; vm_compute; reflexivity. Qed.
  Lemma glide_at w : @wpt_requests f64 A [] (glide c) w = if (w =? 0)%nat then [c] else [].
  Proof. destruct w as [|[|w]]; reflexivity. Qed.
  Lemma glide_to w : @sgmt_requests f64 A [] (glide c) w = [].
  Proof. destruct w as [|[|w]]; reflexivity. Qed.
  Lemma glide_path : ordinary_constraint fcos c -> exists g, ordinary_path fcos fsin fatan2 fhypot asserts (glide c) 0 twin g.
  Proof.
    intros O. destruct (history_generator fcos fsin fatan2 fhypot asserts (glide c) twin) as (g & s0 & G & _).
    { apply Nat.ltb_lt. destruct asserts; vm_compute; reflexivity. }
    { destruct asserts; vm_compute; reflexivity. }
    exists g. split; [exact G|]. split; [repeat (constructor; [vm_compute; try exact Logic.I; auto|]); constructor|]. split; [destruct asserts; vm_compute; auto|].
    split; [intros n; fold A; rewrite glide_counts; intros [<-|[]]; lia|]. split; [exact twin_ordinary|].
    intros w k. fold A. rewrite glide_at, glide_to. destruct (w =? 0)%nat; cbn [In]; intros H; [|tauto].
    destruct H as [[<-|[]]|[]]. exact O.
  Qed.
  Lemma glide_fits l vx vy : (forall md, In md (d_modules twin) -> norm2 (vx, vy) <= l_speed l md /\ 0 <= l_force l md) ->
    1 <= l_gap l (two_to 0) (SFopp (two_to 0)) -> demands_up_to fcos l (mkState 0 0 1 0 vx vy 0 0 0 0) c ->
    fits fcos fsin fatan2 fhypot asserts (glide c) l twin (steady vx vy).
  Proof.
    intros M G D. unfold fits. fold A. rewrite glide_counts. split; [|split; [|split]].
    - unfold well_shaped. cbn. repeat constructor.
    - intros s k Hs Hk. destruct s as [|s]; cbn in Hs, Hk; [|lia]. destruct k; [reflexivity|lia].
    - split.
      + intros i Hi. replace i with 1%nat by (cbn in Hi; lia). cbv zeta.
        unfold step_to, at_sample, steady. cbn [nth Nat.sub s_dt s_x s_y s_thetacos s_thetasin s_vx s_vy s_omega s_ax s_ay s_alpha].
        split; [lra|]. split.
        * intros md m1 m2 Hmd Hp. assert (E : / 4 * real (m_wheelRadius md) * real (m_wheelMaxAngularVelocity md) = 1).
          { destruct Hmd as [<-|[<-|[]]]; cbn [axle m_wheelRadius m_wheelMaxAngularVelocity]; rewrite !two_to_real;
              replace (powerRZ 2 0) with 1 by reflexivity; replace (powerRZ 2 2) with 4 by (simpl; ring); lra. }
          rewrite E. destruct Hp as [Hp|[]]. injection Hp as <- <-. cbn [axle m_translation tX tY]. split; [intros _; exact G|].
          intros H. exfalso. apply H. reflexivity.
        * unfold moves, turns_up_to_half, accelerates. cbn [q_x q_y q_c q_s q_vx q_vy q_w q_ax q_ay q_al].
          cbv zeta. rewrite !Rmult_0_l, cos_0, sin_0. split; [split; lra|]. split; [left; split; lra|]. repeat split; lra.
      + intros i Hi. cbn in Hi.
        assert (E : at_sample (steady vx vy) i = mkState (nth i [0; vx / 4] 0) (nth i [0; vy / 4] 0) 1 0 vx vy 0 0 0 0 /\ forces (steady vx vy) i = [(0, 0); (0, 0)])
          by (destruct i as [|[|i]]; [split; reflexivity|split; reflexivity|lia]).
        destruct E as (-> & ->). split; [|split].
        * unfold newton. cbn [real_drivetrain twin d_mass d_moi d_modules map combine sum fold_right fst snd q_ax q_ay q_al turned cross2].
          unfold cross2. cbn [fst snd]. repeat split; ring.
        * intros md H. destruct (M md H) as (B & _). unfold wheel_velocity. cbn [q_c q_s q_vx q_vy q_w].
          replace (vx * 1 + vy * 0 - _) with vx by ring. replace (vy * 1 - vx * 0 + _) with vy by ring. exact B.
        * intros md f H. destruct (M md (in_combine_l _ _ _ _ H)) as (_ & B).
          assert (f = (0, 0)) as -> by (apply in_combine_r in H; destruct H as [<-|[<-|[]]]; reflexivity).
          unfold norm2. cbn [fst snd]. rewrite Rmult_0_l, Rplus_0_l, sqrt_0. exact B.
    - split.
      + intros w k Hw Hk. rewrite glide_at in Hk. destruct w as [|w]; [|destruct Hk]. destruct Hk as [<-|[]].
        replace (at_sample _ _) with (mkState 0 0 1 0 vx vy 0 0 0 0) by reflexivity. exact D.
      + intros w k i _ Hk. rewrite glide_to in Hk. destruct Hk.
  Qed.
End Glide.
Lemma twin_computed : l_gap computed (two_to 0) (SFopp (two_to 0)) = 2 /\
  forall md, In md (d_modules twin) -> l_speed computed md = 4 /\ l_force computed md = 1.
Proof.
  split.
  - unfold computed. cbn [l_gap]. assert (E : f64_sub (two_to 0) (SFopp (two_to 0)) = two_to 1) by (vm_compute; reflexivity).
    rewrite E, two_to_real. simpl. rewrite Rabs_pos_eq; lra.
  - assert (E1 : f64_mul (f64_mul (two_to 0) (two_to 2)) (f64_mul (two_to 0) (two_to 2)) = two_to 4) by (vm_compute; reflexivity).
    assert (E2 : f64_mul (f64_div (two_to 0) (two_to 0)) (f64_div (two_to 0) (two_to 0)) = two_to 0) by (vm_compute; reflexivity).
    intros md [<-|[<-|[]]]; unfold computed, axle; cbn [l_speed l_force m_wheelRadius m_wheelMaxAngularVelocity m_wheelMaxTorque];
      rewrite E1, E2, !two_to_real; replace (powerRZ 2 4) with (4 * 4) by (simpl; ring); replace (powerRZ 2 0) with (1 * 1) by (simpl; ring);
      rewrite !sqrt_square by lra; split; reflexivity.
Qed.
Lemma twin_documented : l_gap documented (two_to 0) (SFopp (two_to 0)) = 2 /\
  forall md, In md (d_modules twin) -> l_speed documented md = 4 /\ l_force documented md = 1.
Proof.
  split.
  - unfold documented. cbn [l_gap]. rewrite real_opp, two_to_real. simpl. rewrite Rabs_pos_eq; lra.
  - intros md [<-|[<-|[]]]; unfold documented, axle; cbn [l_speed l_force m_wheelRadius m_wheelMaxAngularVelocity m_wheelMaxTorque];
      rewrite !two_to_real; replace (powerRZ 2 0) with 1 by reflexivity; replace (powerRZ 2 2) with 4 by (simpl; ring); split; lra.
Qed.

(** ** A limit rounded up *)
(** 1 + 3 * 2^-28; its square in doubles is 1 + 6 * 2^-28 + 2^-52. *)
Definition odd_limit : f64 := S754_finite false (4503599627370496 + 50331648) (-52).
Definition odd_square : f64 := S754_finite false (4503599627370496 + 100663296 + 1) (-52).
Lemma odd_real : real odd_limit = 1 + 3 * / 2 ^ 28 /\ real odd_square = 1 + 6 * / 2 ^ 28 + / 2 ^ 52 /\ f64_mul odd_limit odd_limit = odd_square.
Proof. split; [|split; [|vm_compute; reflexivity]]; unfold real; simpl; field. Qed.
Lemma rounded_up : forall fcos fsin fatan2 fhypot asserts, exists m g sol,
  ordinary_path fcos fsin fatan2 fhypot asserts (glide (LinearVelocityMaxMagnitude m)) 0 twin g /\ 0 < real m /\
  solved (over_reals g) sol /\ real m < norm2 (q_vx (at_sample sol 0), q_vy (at_sample sol 0)).
Proof.
  intros fcos fsin fatan2 fhypot asserts. destruct odd_real as (M & S & E). exists odd_limit.
  assert (P : 0 < / 2 ^ 28 < / 1000000) by (simpl; lra).
  destruct (glide_path fcos fsin fatan2 fhypot asserts (LinearVelocityMaxMagnitude odd_limit)) as (g & O).
  { apply small_within; [lia|vm_compute; reflexivity|exact Logic.I|]. rewrite M, Rabs_pos_eq; lra. }
  set (v := sqrt (real odd_square)).
  assert (V : 0 <= v) by apply sqrt_pos.
  assert (V2 : v * v = real odd_square) by (apply sqrt_sqrt; rewrite S; assert (0 < / 2 ^ 52) by (simpl; lra); lra).
  assert (NV : norm2 (v, 0) = v) by (unfold norm2; cbn [fst snd]; rewrite Rmult_0_l, Rplus_0_r; apply sqrt_square, V).
  exists g, (steady v 0). split; [exact O|]. split; [rewrite M; lra|]. split.
  - apply (computed_exact _ _ _ _ _ _ _ _ _ O). destruct twin_computed as (G & T). apply glide_fits.
    + intros md H. destruct (T md H) as (-> & ->). split; [|lra]. rewrite NV.
      apply Rsqr_incr_0_var; [|lra]. unfold Rsqr. rewrite V2, S. assert (/ 2 ^ 52 < 1) by (simpl; lra). lra.
    + rewrite G. lra.
    + cbn [demands_up_to q_vx q_vy computed l_max]. rewrite E, NV. apply Rle_refl.
  - unfold at_sample, steady. cbn [nth s_vx s_vy q_vx q_vy]. rewrite NV, M.
    apply Rsqr_incrst_0; [|lra|exact V]. unfold Rsqr. rewrite V2, S. 
    replace (/ 2 ^ 52) with (16 * (/ 2 ^ 28 * / 2 ^ 28)) by (simpl; field). nra.
Qed.

(** ** Rounded directions *)
Definition ncos64 (x : f64) : f64 := nearest (cos (real x)).
Definition nsin64 (x : f64) : f64 := nearest (sin (real x)).
Lemma small_cos a : 0 <= a <= 1 -> 1 - a ^ 2 / 2 <= cos a <= 1 - a ^ 2 / 2 + a ^ 4 / 24.
Proof.
  intros (L & H). destruct (pre_cos_bound a 0 ltac:(lra) ltac:(lra)) as (B1 & B2).
  unfold cos_approx, cos_term in B1, B2. simpl in B1, B2. split; [eapply Rle_trans; [|exact B1]|eapply Rle_trans; [exact B2|]];
    apply Req_le; field.
Qed.
Lemma small_sin a : 0 <= a <= 1 -> a - a ^ 3 / 6 <= sin a <= a.
Proof.
  intros (L & H). destruct (pre_sin_bound a 0 ltac:(lra) ltac:(lra)) as (B1 & _).
  unfold sin_approx, sin_term in B1. simpl in B1. split; [eapply Rle_trans; [|exact B1]; apply Req_le; field|].
  destruct (Req_dec a 0) as [->|N]; [rewrite sin_0; lra|]. left. apply sin_lt_x. lra.
Qed.
Lemma power_format e : (-1074 <= e)%Z -> generic_format radix2 (SpecFloat.fexp 53 1024) (bpow radix2 e).
Proof. intros H. apply generic_format_bpow. unfold SpecFloat.fexp, SpecFloat.emin. lia. Qed.
(** What lies less than half a place below a power of two rounds to it. *)
Lemma rounds_to_power e y : (-1000 <= e)%Z -> bpow radix2 e - bpow radix2 (e - 54) < y <= bpow radix2 e -> rnd y = bpow radix2 e.
Proof.
  intros He (L & H). pose proof (power_format e ltac:(lia)) as G. apply Rle_antisym.
  - rewrite <- (round_generic radix2 (SpecFloat.fexp 53 1024) ZnearestE _ G). apply rnd_le, H.
  - unfold rnd. apply round_N_ge_midp; [typeclasses eauto|exact G|].
    rewrite pred_bpow. replace (SpecFloat.fexp 53 1024 e) with (e - 53)%Z by (unfold SpecFloat.fexp, SpecFloat.emin; lia).
    replace (bpow radix2 (e - 53)) with (2 * bpow radix2 (e - 54)); [lra|].
    replace (e - 53)%Z with (1 + (e - 54))%Z by lia. rewrite bpow_plus. reflexivity.
Qed.
Lemma rounds_up_to y : 1 - 2 * bpow radix2 (-53) - bpow radix2 (-54) < y < 1 - bpow radix2 (-53) - bpow radix2 (-54) ->
  rnd y = 1 - 2 * bpow radix2 (-53).
Proof.
  replace (bpow radix2 (-54)) with (bpow radix2 (-53) / 2) by (simpl; lra). set (u := bpow radix2 (-53)).
  assert (U : 0 < u < / 1000000) by (unfold u; simpl; lra). intros (L & H).
  set (f := 1 - 2 * u).
  assert (E : f = F2R (Float radix2 (2 ^ 53 - 2) (-53))) by (unfold f, u, F2R; simpl; lra).
  assert (G : generic_format radix2 (SpecFloat.fexp 53 1024) f).
  { rewrite E. apply generic_format_F2R. intros _. rewrite <- E. unfold cexp.
    assert (M : mag_val radix2 f (mag radix2 f) = 0%Z).
    { apply mag_unique. change (bpow radix2 0) with 1. change (bpow radix2 (0 - 1)) with (/ 2). rewrite Rabs_pos_eq by (unfold f; lra). unfold f. lra. }
    rewrite M. unfold SpecFloat.fexp, SpecFloat.emin. lia. }
  assert (UL : ulp radix2 (SpecFloat.fexp 53 1024) f = u).
  { rewrite ulp_neq_0 by (unfold f; lra). unfold cexp.
    assert (M : mag_val radix2 f (mag radix2 f) = 0%Z).
    { apply mag_unique. change (bpow radix2 0) with 1. change (bpow radix2 (0 - 1)) with (/ 2). rewrite Rabs_pos_eq by (unfold f; lra). unfold f. lra. }
    rewrite M. reflexivity. }
  assert (S : succ radix2 (SpecFloat.fexp 53 1024) f = 1 - u) by (rewrite succ_eq_pos by (unfold f; lra); rewrite UL; unfold f; ring).
  apply Rle_antisym; unfold rnd.
  - apply round_N_le_midp; [typeclasses eauto|exact G|]. rewrite S. unfold f. lra.
  - apply round_N_ge_midp; [typeclasses eauto|exact G|].
    assert (pred radix2 (SpecFloat.fexp 53 1024) f <= f - u); [|unfold f in *; lra].
    rewrite <- UL. rewrite pred_eq_pos by (unfold f; lra). unfold pred_pos.
    destruct (Req_bool_spec f (bpow radix2 (mag radix2 f - 1))) as [B|B]; [|lra].
    exfalso. assert (M : mag_val radix2 f (mag radix2 f) = 0%Z).
    { apply mag_unique. change (bpow radix2 0) with 1. change (bpow radix2 (0 - 1)) with (/ 2). rewrite Rabs_pos_eq by (unfold f; lra). unfold f. lra. }
    rewrite M in B. change (bpow radix2 (0 - 1)) with (/ 2) in B. unfold f in B. lra.
Qed.
(** The angle 2^-27: its cosine rounds to 1 and its sine to 2^-27. *)
Lemma bend_rounds : real (ncos64 (two_to (-27))) = 1 /\ real (nsin64 (two_to (-27))) = powerRZ 2 (-27).
Proof.
  unfold ncos64, nsin64. rewrite two_to_real. rewrite <- pow2. set (a := bpow radix2 (-27)).
  assert (P : 0 < a) by apply bpow_gt_0. assert (L : a <= / 1000) by (unfold a; simpl; lra).
  pose proof (small_cos a ltac:(lra)) as C. pose proof (small_sin a ltac:(lra)) as S. split.
  - destruct (nearest_rnd (cos a)) as (_ & _ & ->); [apply Rabs_le; pose proof (COS_bound a); lra|].
    change 1 with (bpow radix2 0). apply rounds_to_power; [lia|]. split.
    + apply Rlt_le_trans with (2 := proj1 C). replace (0 - 54)%Z with (-27 + -27)%Z by lia. rewrite bpow_plus. fold a.
      change (bpow radix2 0) with 1. nra.
    + change (bpow radix2 0) with 1. apply COS_bound.
  - destruct (nearest_rnd (sin a)) as (_ & _ & ->); [apply Rabs_le; pose proof (SIN_bound a); lra|].
    unfold a at 2. apply rounds_to_power; [lia|]. fold a. split; [|apply S].
    apply Rlt_le_trans with (2 := proj1 S). replace (-27 - 54)%Z with (-27 + (-27 + -27))%Z by lia. rewrite !bpow_plus. fold a.
    assert (0 < a * (a * a)) by (repeat apply Rmult_lt_0_compat; exact P).
    replace (a ^ 3 / 6) with (a * (a * a) / 6) by field. lra.
Qed.
(** The angle 5 * 2^-28: the rounded cosine and sine make a vector shorter than 1. *)
Definition lean : f64 := S754_finite false (5 * 2 ^ 50) (-78).
Lemma lean_rounds : real (ncos64 lean) ^ 2 + real (nsin64 lean) ^ 2 < 1.
Proof.
  assert (E : real lean = 5 * bpow radix2 (-28)) by (unfold real, lean; simpl; lra).
  unfold ncos64, nsin64. rewrite E. set (b := bpow radix2 (-28)). set (a := 5 * b).
  assert (P : 0 < b < / 1000000) by (unfold b; simpl; lra).
  assert (U : bpow radix2 (-53) = 8 * (b * b)) by (unfold b; simpl; lra).
  assert (U' : bpow radix2 (-54) = 4 * (b * b)) by (unfold b; simpl; lra).
  pose proof (small_cos a ltac:(unfold a; lra)) as C. pose proof (small_sin a ltac:(unfold a; lra)) as S.
  assert (BB : 0 < b * b < / 1000000) by nra.
  assert (B4 : 0 <= b ^ 4 <= b * b / 1000000) by (replace (b ^ 4) with (b * b * (b * b)) by ring; nra).
  destruct (nearest_rnd (cos a)) as (_ & _ & ->); [apply Rabs_le; pose proof (COS_bound a); lra|].
  destruct (nearest_rnd (sin a)) as (_ & _ & ->); [apply Rabs_le; pose proof (SIN_bound a); lra|].
  rewrite (rounds_up_to (cos a)).
  2: { rewrite U, U'. unfold a in C |- *. replace ((5 * b) ^ 2) with (25 * (b * b)) in C by ring. replace ((5 * b) ^ 4) with (625 * b ^ 4) in C by ring. lra. }
  assert (S1 : 0 <= rnd (sin a)).
  { rewrite <- rnd_0. apply rnd_le. unfold a in *. replace ((5 * b) ^ 3) with (125 * (b * (b * b))) in S by ring. nra. }
  assert (S2 : rnd (sin a) <= a).
  { assert (D : is_double lean) by (vm_compute; reflexivity). destruct (to_B lean D) as (x & Ex).
    assert (RA : rnd a = a) by (unfold a, b; rewrite <- E, Ex, real_B; apply rnd_B).
    rewrite <- RA. apply rnd_le. rewrite RA. apply S. }
  rewrite U. unfold a in *. assert (rnd (sin (5 * b)) ^ 2 <= 25 * (b * b)) by nra.
  nra.
Qed.
(** Paths whose first waypoint asks for a direction, with a correctly rounded cosine and sine. *)
Definition heading_for (a : f64) : constraint f64 := LinearVelocityDirection (mkRot (ncos64 a) (nsin64 a)).
Lemma heading_ordinary a : ordinary_constraint ncos64 (heading_for a).
Proof.
  split; cbn [rCos rSin]; [destruct (nearest_rnd (cos (real a))) as (D & F & _)|destruct (nearest_rnd (sin (real a))) as (D & F & _)];
    try (split; assumption); apply Rabs_le; [pose proof (COS_bound (real a))|pose proof (SIN_bound (real a))]; lra.
Qed.
Lemma first_demand fatan2 fhypot asserts a g sol :
  ordinary_path ncos64 nsin64 fatan2 fhypot asserts (glide (heading_for a)) 0 twin g -> solved (over_reals g) sol ->
  demands_up_to ncos64 computed (at_sample sol 0) (heading_for a).
Proof.
  intros O Sv. apply (computed_exact _ _ _ _ _ _ _ _ _ O) in Sv. destruct Sv as (_ & _ & _ & M & _).
  rewrite glide_counts in M. specialize (M 0%nat (heading_for a) ltac:(cbn; lia)). rewrite glide_at in M. apply M. left. reflexivity.
Qed.
Lemma steady_solved fatan2 fhypot asserts a g vx vy : vx ^ 2 + vy ^ 2 <= 4 ->
  ordinary_path ncos64 nsin64 fatan2 fhypot asserts (glide (heading_for a)) 0 twin g ->
  (vx * real (ncos64 a) + vy * real (nsin64 a)) ^ 2 = vx ^ 2 + vy ^ 2 -> solved (over_reals g) (steady vx vy).
Proof.
  intros B O D. apply (computed_exact _ _ _ _ _ _ _ _ _ O). destruct twin_computed as (G & T). apply glide_fits; [|rewrite G; lra|exact D].
  intros md H. destruct (T md H) as (-> & ->). split; [|lra]. unfold norm2. cbn [fst snd].
  apply Rle_trans with (sqrt (4 * 4)); [apply sqrt_le_1_alt; nra|rewrite sqrt_square; lra].
Qed.
Lemma must_stop : forall fatan2 fhypot asserts, exists a g, number a /\
  ordinary_path ncos64 nsin64 fatan2 fhypot asserts (glide (heading_for a)) 0 twin g /\
  (exists sol, solved (over_reals g) sol) /\
  forall sol, solved (over_reals g) sol -> q_vx (at_sample sol 0) = 0 /\ q_vy (at_sample sol 0) = 0.
Proof.
  intros fatan2 fhypot asserts. destruct (glide_path ncos64 nsin64 fatan2 fhypot asserts (heading_for lean) (heading_ordinary lean)) as (g & O).
  exists lean, g. split; [split; [vm_compute; reflexivity|exact Logic.I]|]. split; [exact O|]. split.
  - exists (steady 0 0). apply (steady_solved fatan2 fhypot asserts lean); [lra|exact O|ring].
  - intros sol Sv. pose proof (first_demand _ _ _ _ _ _ O Sv) as D. apply direction_cases in D.
    unfold size2 in D. cbn [rCos rSin] in D. pose proof lean_rounds. destruct D as [D|[(E & _)|(E & _)]]; [exact D|lra|lra].
Qed.
Lemma must_miss : forall fatan2 fhypot asserts, exists a g, number a /\
  ordinary_path ncos64 nsin64 fatan2 fhypot asserts (glide (heading_for a)) 0 twin g /\
  (exists sol, solved (over_reals g) sol /\ q_vx (at_sample sol 0) = 1 /\ q_vy (at_sample sol 0) = 0) /\
  forall sol k, solved (over_reals g) sol -> q_vx (at_sample sol 0) = k * cos (real a) -> q_vy (at_sample sol 0) = k * sin (real a) -> k = 0.
Proof.
  intros fatan2 fhypot asserts. set (a := two_to (-27)).
  destruct (glide_path ncos64 nsin64 fatan2 fhypot asserts (heading_for a) (heading_ordinary a)) as (g & O).
  destruct bend_rounds as (EC & ES). fold a in EC, ES.
  exists a, g. split; [split; [vm_compute; reflexivity|exact Logic.I]|]. split; [exact O|]. split.
  - exists (steady 1 0). split; [|split; reflexivity]. apply (steady_solved fatan2 fhypot asserts a); [lra|exact O|]. rewrite EC. ring.
  - intros sol k Sv X Y. pose proof (first_demand _ _ _ _ _ _ O Sv) as D. cbn [demands_up_to heading_for rCos rSin] in D.
    rewrite X, Y, EC, ES in D. unfold a in D. rewrite two_to_real in D. rewrite <- pow2 in D. set (e := bpow radix2 (-27)) in *.
    assert (P : 0 < e < / 1000) by (unfold e; simpl; lra).
    pose proof (small_cos e ltac:(lra)) as C. pose proof (small_sin e ltac:(lra)) as S. pose proof (sin2_cos2 e) as T. unfold Rsqr in T.
    assert (Q : k ^ 2 * ((cos e + sin e * e) ^ 2 - 1) = 0).
    { transitivity ((k * cos e * 1 + k * sin e * e) ^ 2 - k ^ 2 * (sin e * sin e + cos e * cos e)); [rewrite T; ring|]. rewrite D. ring. }
    assert (G : 1 < cos e + sin e * e).
    { assert ((e - e ^ 3 / 6) * e <= sin e * e) by (apply Rmult_le_compat_r; lra).
      assert (0 < e * e < / 1000) by nra. assert (e ^ 3 * e <= e * e * / 1000) by (replace (e ^ 3 * e) with (e * e * (e * e)) by ring; nra). nra. }
    apply Rmult_integral in Q. destruct Q as [Q|Q]; [|nra].
    destruct (Req_dec k 0) as [Z|N]; [exact Z|]. exfalso. apply (pow_nonzero k 2) in N. contradiction.
Qed.

(** ** A path within both limits *)
Lemma less_near x : 1 <= x <= 4 -> 9 / 10 * x <= less x.
Proof.
  intros B. unfold less. destruct (Req_EM_T x 0); [lra|]. pose proof roundoff_small. assert (/ 2 ^ 530 <= / 2 ^ 20).
  { apply Rinv_le_contravar; [apply pow_lt; lra|]. apply Rle_pow; [lra|lia]. }
  assert (/ 2 ^ 20 <= / 1000) by (simpl; lra). nra.
Qed.
Lemma brisk_case : forall fcos fsin fatan2 fhypot asserts, exists g sol,
  let h := glide (LinearVelocityMaxMagnitude (two_to 1)) in
  ordinary_path fcos fsin fatan2 fhypot asserts h 0 twin g /\ q_vx (at_sample sol 0) = 1 /\ q_vy (at_sample sol 0) = 1 /\
  fits fcos fsin fatan2 fhypot asserts h (stricter documented) twin sol /\ solved (over_reals g) sol /\
  fits fcos fsin fatan2 fhypot asserts h (looser documented) twin sol.
Proof.
  intros fcos fsin fatan2 fhypot asserts.
  destruct (glide_path fcos fsin fatan2 fhypot asserts (LinearVelocityMaxMagnitude (two_to 1))) as (g & O).
  { apply small_within; [lia|vm_compute; reflexivity|exact Logic.I|]. rewrite two_to_real. simpl. rewrite Rabs_pos_eq; lra. }
  assert (NV : norm2 (1, 1) <= 17 / 10).
  { unfold norm2. cbn [fst snd]. apply Rle_trans with (sqrt (17 / 10 * (17 / 10))); [apply sqrt_le_1_alt; lra|rewrite sqrt_square; lra]. }
  assert (F : fits fcos fsin fatan2 fhypot asserts (glide (LinearVelocityMaxMagnitude (two_to 1))) (stricter documented) twin (steady 1 1)).
  { destruct twin_documented as (G & T). pose proof (less_near 1 ltac:(lra)). pose proof (less_near 2 ltac:(lra)). pose proof (less_near 4 ltac:(lra)).
    apply glide_fits; unfold stricter; cbn [l_gap l_speed l_force].
    - intros md H'. destruct (T md H') as (-> & ->). split; lra.
    - rewrite G. lra.
    - cbn [demands_up_to q_vx q_vy l_max documented]. rewrite two_to_real. simpl (powerRZ 2 1). rewrite Rmult_1_r, Rabs_pos_eq by lra. lra. }
  pose proof (stricter_enough _ _ _ _ _ _ _ _ _ O _ F) as Sv.
  exists g, (steady 1 1). cbv zeta. split; [exact O|]. split; [reflexivity|]. split; [reflexivity|]. split; [exact F|]. split; [exact Sv|].
  exact (within_looser _ _ _ _ _ _ _ _ _ O _ Sv).
Qed.
Lemma exact_case : exact_angles (fun x => x) (PoseEquality (mkPose (mkTr (two_to 1) fzero) (mkRot fzero (two_to 0)))) /\
  demands (mkState 2 0 0 (-1) 0 0 0 0 0 0) (real_constraint (PoseEquality (mkPose (mkTr (two_to 1) fzero) (mkRot fzero (two_to 0))))).
Proof.
  split.
  - unfold exact_angles, exact_rotation. cbn [pRot rCos rSin]. rewrite two_to_real. simpl. ring.
  - unfold demands, real_constraint, real_point, real_rotation. cbn [pRot pTr rCos rSin tX tY q_x q_y q_c q_s]. rewrite !two_to_real. simpl.
    split; [ring|]. split; [reflexivity|]. right. split; ring.
Qed.
Lemma tiny_case : forall fcos fsin fatan2 fhypot asserts, exists g sol,
  let h := glide (LinearVelocityMaxMagnitude (two_to (-540))) in
  ordinary_path fcos fsin fatan2 fhypot asserts h 0 twin g /\ solved (over_reals g) sol /\
  0 < real (two_to (-540)) /\ Rabs (real (two_to (-540))) <= powerRZ 2 (-538) /\
  In (LinearVelocityMaxMagnitude (two_to (-540))) (@wpt_requests f64 (Arith_f64 fcos fsin fatan2 fhypot) [] h 0).
Proof.
  intros fcos fsin fatan2 fhypot asserts. set (m := two_to (-540)).
  assert (R : real m = bpow radix2 (-540)) by (unfold m; rewrite two_to_real; symmetry; apply pow2).
  assert (P : 0 < real m) by (rewrite R; apply bpow_gt_0).
  assert (B : forall k, (-540 <= k)%Z -> Rabs (real m) <= powerRZ 2 k).
  { intros k H. rewrite Rabs_pos_eq by lra. rewrite R, <- pow2. apply bpow_le, H. }
  assert (W : within 500 m) by (split; [vm_compute; reflexivity|]; split; [exact Logic.I|apply B; lia]).
  destruct (glide_path fcos fsin fatan2 fhypot asserts (LinearVelocityMaxMagnitude m) W) as (g & O).
  exists g, (steady 0 0). cbv zeta. split; [exact O|]. split; [|split; [exact P|split; [apply B; lia|left; reflexivity]]].
  apply (computed_exact _ _ _ _ _ _ _ _ _ O). destruct twin_computed as (G & T).
  assert (Z : norm2 (0, 0) = 0) by (unfold norm2; cbn [fst snd]; rewrite Rmult_0_l, Rplus_0_l; apply sqrt_0).
  apply glide_fits; [|rewrite G; lra|].
  - intros md H. destruct (T md H) as (-> & ->). split; lra.
  - cbn [demands_up_to q_vx q_vy computed l_max]. rewrite Z. apply sqrt_pos.
Qed.
Lemma direction_case : size2 (mkRot fzero (two_to 0)) = 1 /\ 1 < size2 (mkRot (two_to 0) (two_to (-27))) /\
  demands_up_to (fun x => x) computed (mkState 0 0 1 0 0 (-3) 0 0 0 0) (LinearVelocityDirection (mkRot fzero (two_to 0))) /\
  demands_up_to (fun x => x) computed (mkState 0 0 1 0 5 0 0 0 0 0) (LinearVelocityDirection (mkRot (two_to 0) (two_to (-27)))).
Proof.
  unfold size2. cbn [demands_up_to rCos rSin q_vx q_vy]. rewrite !two_to_real. replace (powerRZ 2 0) with 1 by reflexivity.
  assert (0 < powerRZ 2 (-27)) by (apply powerRZ_lt; lra). replace (real fzero) with 0 by reflexivity. repeat split; try ring; nra.
Qed.
