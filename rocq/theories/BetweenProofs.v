(** Constraints between samples (C117). *)
From Coq Require Import List Lia Lra Psatz Reals ZArith.
Import ListNotations.
From Verif Require Import Outcome Num NumR Geometry Expr Constraints Util Builder Guess Generator Trajectory
  Spec SpecBuilder SpecPhysics SpecTrajectory SpecGenerator SpecStep SpecObstacle SpecDrive SpecBetween Semantics
  BuilderFacts BuilderHistory ConstraintFacts GeneratorFacts GeneratorProofs HistoryFacts SolutionProofs TrajectoryProofs
  GeneratorCases LimitProofs ObstacleProofs OrderProofs StepProofs DurationProofs DashProofs PartsCases.
Open Scope R_scope.

Lemma Rabs_le_inv : forall x m, Rabs x <= m -> - m <= x <= m.
Proof. intros x m. unfold Rabs. destruct (Rcase_abs x); lra. Qed.
Lemma mix_norm : forall t x y x' y' m, 0 <= t <= 1 -> norm2 (x, y) <= m -> norm2 (x', y') <= m ->
  norm2 (mix t x x', mix t y y') <= m.
Proof.
  intros t x y x' y' m Ht A B. unfold mix.
  replace (x + t * (x' - x)) with ((1 - t) * x + t * x') by ring.
  replace (y + t * (y' - y)) with ((1 - t) * y + t * y') by ring.
  eapply Rle_trans; [apply norm2_triangle|]. rewrite !norm2_scale, !Rabs_right by lra. nra.
Qed.

(** The angle between equal or opposite headings is not a small one. *)
Lemma sin_zero_small : forall x, Rabs x <= 2 -> sin x = 0 -> x = 0.
Proof.
  intros x B S. pose proof PI2_3_2 as P. assert (P2 : 2 < PI) by lra.
  destruct (Rtotal_order x 0) as [N|[E|Q]]; [|exact E|].
  - exfalso. assert (0 < sin (- x)) by (apply sin_gt_0; apply Rabs_le_inv in B; lra). rewrite sin_neg in H. lra.
  - exfalso. assert (0 < sin x) by (apply sin_gt_0; apply Rabs_le_inv in B; lra). lra.
Qed.

Lemma pose_kept : forall a b dt t q (p : Pose2 R), unit_rot (pRot p) -> turns a b dt -> Rabs (q_w b * dt) <= 2 -> between a b dt t q ->
  demands a (PoseEquality p) -> demands b (PoseEquality p) -> demands q (PoseEquality p).
Proof.
  intros a b dt t q p Un [TC TS] Sm (Ht & EX & EY & EC & ES & _) (AX & AY & AH) (BX & BY & BH). simpl.
  assert (Z : q_w b * dt = 0).
  { apply sin_zero_small; [exact Sm|]. unfold unit_rot in Un.
    set (u := q_w b * dt) in *. set (c := rCos (pRot p)) in *. set (s := rSin (pRot p)) in *.
    assert (X : q_s b * q_c a - q_c b * q_s a = sin u * (q_c a * q_c a + q_s a * q_s a)) by (rewrite TC, TS; ring).
    clear - X Un AH BH.
    assert (U : q_c a * q_c a + q_s a * q_s a = 1) by (destruct AH as [[E1 E2]|[E1 E2]]; rewrite E1, E2; lra).
    rewrite U in X. destruct AH as [[E1 E2]|[E1 E2]]; destruct BH as [[E3 E4]|[E3 E4]]; rewrite E1, E2, E3, E4 in X; lra. }
  split; [rewrite EX, AX, BX; unfold mix; ring|]. split; [rewrite EY, AY, BY; unfold mix; ring|].
  rewrite EC, ES, Z, Rmult_0_r, cos_0, sin_0.
  replace (q_c a * 1 - q_s a * 0) with (q_c a) by ring. replace (q_c a * 0 + q_s a * 1) with (q_s a) by ring. exact AH.
Qed.

Lemma smooth_kept : forall a b dt t q c, between a b dt t q ->
  smooth_kind c -> demands a c -> demands b c -> demands q c.
Proof.
  intros a b dt t q c Bt K Da Db. pose proof Bt as (Ht & EX & EY & EC & ES & VX & VY & EW & AX & AY & _).
  destruct c; simpl in K; try contradiction.
  - simpl in *. rewrite EW. unfold mix. apply Rabs_le. apply Rabs_le_inv in Da, Db. split; nra.
  - simpl in *. rewrite AX, AY. apply mix_norm; assumption.
  - simpl in *. destruct Da as (k & -> & ->) in VX, VY. destruct Db as (l & -> & ->) in VX, VY.
    exists (mix t k l). rewrite VX, VY. unfold mix. split; ring.
  - simpl in *. rewrite VX, VY. apply mix_norm; assumption.
  - simpl in *. destruct Da as [A1 A2]. destruct Db as [B1 B2]. rewrite EX, EY, A1, A2, B1, B2. unfold mix. split; ring.
Qed.

Lemma facing_kept : forall a b dt t q f tol, 0 <= cos tol -> q_w b = 0 -> turns a b dt -> between a b dt t q ->
  demands a (PointAt f tol) -> demands b (PointAt f tol) -> demands q (PointAt f tol).
Proof.
  intros a b dt t q [fx fy] tol Ct Zw [TC TS] (Ht & EX & EY & EC & ES & _) Da Db. cbn [demands] in *.
  rewrite Zw, Rmult_0_l in *. rewrite ?Rmult_0_r, cos_0, sin_0 in *.
  assert (C1 : q_c q = q_c a) by lra. assert (S1 : q_s q = q_s a) by lra.
  assert (C2 : q_c b = q_c a) by lra. assert (S2 : q_s b = q_s a) by lra.
  rewrite C1, S1. rewrite C2, S2 in Db. rewrite !dist2_norm in *. unfold pt in *. cbn [fst snd tX tY] in *. rewrite EX, EY.
  unfold mix.
  pose proof (norm2_triangle ((1 - t) * (fx - q_x a)) ((1 - t) * (fy - q_y a)) (t * (fx - q_x b)) (t * (fy - q_y b))) as T.
  rewrite !norm2_scale, !Rabs_right in T by lra.
  match type of T with norm2 (?x, ?y) <= _ => match goal with |- context [norm2 (?x', ?y')] =>
    replace x' with x by ring; replace y' with y by ring end end.
  apply (Rmult_le_compat_l _ _ _ Ct) in T. eapply Rle_trans; [exact T|].
  apply (Rmult_le_compat_l (1 - t)) in Da; [|lra]. apply (Rmult_le_compat_l t) in Db; [|lra]. lra.
Qed.

(** ** Facing a target while turning *)
Lemma cone_turned : forall c s wx wy tol u, c * c + s * s = 1 -> 0 <= tol -> tol + Rabs u <= PI ->
  cos tol * norm2 (wx, wy) <= c * wx + s * wy ->
  cos (tol + Rabs u) * norm2 (wx, wy) <= (c * cos u - s * sin u) * wx + (c * sin u + s * cos u) * wy.
Proof.
  intros c s wx wy tol u U T0 T1 H. set (n := norm2 (wx, wy)) in *. set (D := c * wx + s * wy) in *. set (E := c * wy - s * wx).
  assert (Nn : 0 <= n) by apply norm2_pos.
  assert (Sq : D * D + E * E = n * n).
  { unfold n, norm2. cbn [fst snd]. rewrite sqrt_sqrt by nra. unfold D, E.
    transitivity ((c * c + s * s) * (wx * wx + wy * wy)); [ring|rewrite U; ring]. }
  replace ((c * cos u - s * sin u) * wx + (c * sin u + s * cos u) * wy) with (D * cos u + E * sin u) by (unfold D, E; ring).
  pose proof (Rabs_pos u) as Au.
  assert (Ub : D * cos (Rabs u) - Rabs E * sin (Rabs u) <= D * cos u + E * sin u).
  { assert (Sp : 0 <= sin (Rabs u)) by (apply sin_ge_0; lra).
    destruct (Rcase_abs u) as [L|L].
    - rewrite (Rabs_left u) in * by lra. rewrite cos_neg, sin_neg in *. pose proof (Rle_abs E). nra.
    - rewrite (Rabs_right u) in * by lra. pose proof (Rle_abs (- E)) as Q. rewrite Rabs_Ropp in Q. nra. }
  eapply Rle_trans; [|exact Ub]. destruct (Rle_lt_or_eq_dec 0 n Nn) as [Np|Z].
  2:{ rewrite <- Z, Rmult_0_l in Sq. assert (D = 0) by nra. assert (E = 0) by nra. rewrite <- Z, H0, H1, Rabs_R0. lra. }
  assert (Dn : -1 <= D / n <= 1).
  { assert (D * D <= n * n) by nra. split; [apply (Rmult_le_reg_r n); [lra|]|apply (Rmult_le_reg_r n); [lra|]];
    unfold Rdiv; rewrite Rmult_assoc, Rinv_l by lra; nra. }
  set (phi := acos (D / n)). pose proof (acos_bound (D / n)) as B. fold phi in B.
  assert (Cp : n * cos phi = D) by (unfold phi; rewrite cos_acos by exact Dn; field; lra).
  assert (Sp : n * sin phi = Rabs E).
  { assert (0 <= sin phi) by (apply sin_ge_0; lra). pose proof (Rabs_pos E) as Ae.
    assert (Q : (n * sin phi) * (n * sin phi) = Rabs E * Rabs E).
    { rewrite <- Rabs_mult, Rabs_right by nra. pose proof (sin2_cos2 phi) as P. unfold Rsqr in P.
      replace (E * E) with (n * n - D * D) by lra. rewrite <- Cp. 
      replace (n * n) with (n * n * (sin phi * sin phi + cos phi * cos phi)) by (rewrite P; ring). ring. }
    assert (0 <= n * sin phi) by (apply Rmult_le_pos; lra). nra. }
  rewrite <- Cp, <- Sp. replace (n * cos phi * cos (Rabs u) - n * sin phi * sin (Rabs u)) with (cos (phi + Rabs u) * n) by (rewrite cos_plus; ring).
  apply Rmult_le_compat_r; [lra|].
  assert (Le : phi <= tol).
  { destruct (Rle_or_lt phi tol) as [L|L]; [exact L|]. exfalso.
    pose proof (cos_decreasing_1 tol phi T0 ltac:(lra) ltac:(lra) ltac:(lra) L) as X. rewrite <- Cp in H. nra. }
  destruct (Rle_lt_or_eq_dec _ _ Le) as [L|L]; [|rewrite L; lra].
  apply Rlt_le, cos_decreasing_1; lra.
Qed.
Lemma facing_turned : forall a b dt t q f tol, 0 <= tol -> unit_heading a -> turns a b dt -> between a b dt t q ->
  tol + Rmax t (1 - t) * Rabs (q_w b * dt) <= PI / 2 ->
  demands a (PointAt f tol) -> demands b (PointAt f tol) -> demands q (PointAt f (tol + Rmax t (1 - t) * Rabs (q_w b * dt))).
Proof.
  intros a b dt t q [fx fy] tol T0 Ua [TC TS] (Ht & EX & EY & EC & ES & _) Lt Da Db. cbn [demands] in *.
  pose proof PI_RGT_0 as Pp. set (u := q_w b * dt) in *. set (sg := tol + Rmax t (1 - t) * Rabs u) in *.
  pose proof (Rabs_pos u) as Au.
  assert (Ub : q_c b * q_c b + q_s b * q_s b = 1).
  { unfold unit_heading in Ua. rewrite TC, TS. pose proof (sin2_cos2 u) as P. unfold Rsqr in P.
    transitivity ((q_c a * q_c a + q_s a * q_s a) * (sin u * sin u + cos u * cos u)); [ring|rewrite Ua, P; ring]. }
  assert (Wa : tol + Rabs (t * u) <= sg).
  { unfold sg. rewrite Rabs_mult, (Rabs_right t) by lra. pose proof (Rmax_l t (1 - t)). nra. }
  assert (Wb : tol + Rabs (- ((1 - t) * u)) <= sg).
  { unfold sg. rewrite Rabs_Ropp, Rabs_mult, (Rabs_right (1 - t)) by lra. pose proof (Rmax_r t (1 - t)). nra. }
  assert (Mono : forall x, 0 <= x <= sg -> cos sg <= cos x).
  { intros x Hx. destruct (Req_dec x sg) as [->|Nq]; [lra|]. apply Rlt_le, cos_decreasing_1; lra. }
  rewrite !dist2_norm in *. unfold pt in *. cbn [fst snd tX tY] in *.
  pose proof (cone_turned _ _ _ _ tol (t * u) Ua T0 ltac:(lra) Da) as Ca.
  pose proof (cone_turned _ _ _ _ tol (- ((1 - t) * u)) Ub T0 ltac:(lra) Db) as Cb.
  pose proof (Rabs_pos (t * u)). pose proof (Rabs_pos (- ((1 - t) * u))).
  assert (Hc : q_c b * cos (- ((1 - t) * u)) - q_s b * sin (- ((1 - t) * u)) = q_c q).
  { rewrite TC, TS, EC. replace (t * u) with (u + - ((1 - t) * u)) by ring. rewrite (cos_plus u), (sin_plus u). ring. }
  assert (Hs : q_c b * sin (- ((1 - t) * u)) + q_s b * cos (- ((1 - t) * u)) = q_s q).
  { rewrite TC, TS, ES. replace (t * u) with (u + - ((1 - t) * u)) by ring. rewrite (cos_plus u), (sin_plus u). ring. }
  rewrite Hc, Hs in Cb. rewrite <- EC, <- ES in Ca.
  pose proof (norm2_pos (fx - q_x a, fy - q_y a)) as Na. pose proof (norm2_pos (fx - q_x b, fy - q_y b)) as Nb.
  pose proof (Mono (tol + Rabs (t * u)) ltac:(lra)) as Ma. pose proof (Mono (tol + Rabs (- ((1 - t) * u))) ltac:(lra)) as Mb.
  apply (Rmult_le_compat_r _ _ _ Na) in Ma. apply (Rmult_le_compat_r _ _ _ Nb) in Mb.
  assert (Cs : 0 <= cos sg) by (apply cos_ge_0; lra).
  rewrite EX, EY. unfold mix.
  pose proof (norm2_triangle ((1 - t) * (fx - q_x a)) ((1 - t) * (fy - q_y a)) (t * (fx - q_x b)) (t * (fy - q_y b))) as T.
  rewrite !norm2_scale, !Rabs_right in T by lra.
  match type of T with norm2 (?x, ?y) <= _ => match goal with |- context [norm2 (?x', ?y')] =>
    replace x' with x by ring; replace y' with y by ring end end.
  apply (Rmult_le_compat_l _ _ _ Cs) in T. eapply Rle_trans; [exact T|].
  assert (Fa : cos sg * norm2 (fx - q_x a, fy - q_y a) <= q_c q * (fx - q_x a) + q_s q * (fy - q_y a)) by lra.
  assert (Fb : cos sg * norm2 (fx - q_x b, fy - q_y b) <= q_c q * (fx - q_x b) + q_s q * (fy - q_y b)) by lra.
  apply (Rmult_le_compat_l (1 - t)) in Fa; [|lra]. apply (Rmult_le_compat_l t) in Fb; [|lra]. lra.
Qed.

(** ** Points of the robot *)
Lemma half_sin : forall u, 1 - cos u = 2 * (sin (u / 2) * sin (u / 2)).
Proof. intros u. replace u with (2 * (u / 2)) at 1 by field. rewrite cos_2a_sin. ring. Qed.
Lemma sin_sqr : forall x, sin x * sin x <= x * x.
Proof.
  intros x. destruct (Rle_dec (Rabs x) 1) as [L|L].
  - assert (P : forall y, 0 <= y <= 1 -> sin y * sin y <= y * y).
    { intros y Hy. assert (0 <= sin y) by (apply sin_ge_0; pose proof PI2_3_2; lra).
      destruct (Req_dec y 0) as [->|N]; [rewrite sin_0; lra|].
      pose proof (sin_lt_x y ltac:(lra)). nra. }
    destruct (Rle_dec 0 x) as [G|G].
    + rewrite Rabs_right in L by lra. apply P. lra.
    + rewrite Rabs_left in L by lra. specialize (P (- x) ltac:(lra)). rewrite sin_neg in P. lra.
  - assert (1 < Rabs x) by lra. assert (1 <= x * x).
    { replace (x * x) with (Rabs x * Rabs x) by (rewrite <- Rabs_mult; apply Rabs_right; nra). nra. }
    pose proof (SIN_bound x). nra.
Qed.
(** A point turned by the angle [u] moves by at most its distance times [u]. *)
Lemma turn_chord : forall c s px py u, c * c + s * s = 1 ->
  norm2 (px * (c * cos u - s * sin u) - py * (c * sin u + s * cos u) - (px * c - py * s),
         px * (c * sin u + s * cos u) + py * (c * cos u - s * sin u) - (px * s + py * c))
    <= norm2 (px, py) * Rabs u.
Proof.
  intros c s px py u U.
  apply norm2_le; [apply Rmult_le_pos; [apply norm2_pos|apply Rabs_pos]|].
  replace (norm2 (px, py) * Rabs u * (norm2 (px, py) * Rabs u)) with ((norm2 (px, py) * norm2 (px, py)) * (u * u)).
  2:{ assert (E : Rabs u * Rabs u = u * u) by (rewrite <- Rabs_mult; apply Rabs_right; nra).
      rewrite <- E. ring. }
  rewrite norm2_sqr.
  set (C := cos u). set (S := sin u).
  assert (CS : C * C + S * S = 1) by (unfold C, S; pose proof (sin2_cos2 u) as X; unfold Rsqr in X; lra).
  match goal with |- ?l <= _ => assert (E : l = (px * px + py * py) * ((c * c + s * s) * ((C * C + S * S) + 1 - 2 * C))) by ring end.
  rewrite E, U, CS. replace (1 * (1 + 1 - 2 * C)) with (2 * (1 - C)) by ring. unfold C. rewrite half_sin.
  pose proof (sin_sqr (u / 2)) as Q. apply Rmult_le_compat_l; [nra|]. lra.
Qed.
Lemma point_moves : forall a b dt t q p, unit_heading a -> turns a b dt -> between a b dt t q ->
  let L := dist2 (position a) (position b) + norm2 (pt p) * Rabs (q_w b * dt) in
  dist2 (placed a p) (placed q p) <= t * L /\ dist2 (placed q p) (placed b p) <= (1 - t) * L.
Proof.
  intros a b dt t q [px py] U [TC TS] (Ht & EX & EY & EC & ES & _) L.
  unfold unit_heading in U. set (u := q_w b * dt) in *. set (c := q_c a) in *. set (s := q_s a) in *.
  assert (Pl : forall r, placed r (mkTr px py) = (q_x r + (px * q_c r - py * q_s r), q_y r + (px * q_s r + py * q_c r))) by reflexivity.
  assert (Db : dist2 (position a) (position b) = norm2 (q_x b - q_x a, q_y b - q_y a)) by (rewrite dist2_norm; reflexivity).
  unfold L. rewrite Db. change (pt (mkTr px py)) with (px, py). split.
  - rewrite dist2_norm, !Pl. cbn [fst snd]. rewrite EX, EY, EC, ES. fold c s. unfold mix.
    pose proof (turn_chord c s px py (t * u) U) as B.
    match type of B with norm2 (?x, ?y) <= _ =>
      pose proof (norm2_triangle (t * (q_x b - q_x a)) (t * (q_y b - q_y a)) x y) as T end.
    match goal with |- norm2 (?x, ?y) <= _ => match type of T with norm2 (?x', ?y') <= _ =>
      replace x with x' by ring; replace y with y' by ring end end.
    eapply Rle_trans; [exact T|]. rewrite norm2_scale, (Rabs_right t) by lra.
    rewrite Rabs_mult, (Rabs_right t) in B by lra. lra.
  - rewrite dist2_norm, !Pl. cbn [fst snd]. rewrite EX, EY, EC, ES, TC, TS. fold c s. unfold mix.
    set (c' := c * cos (t * u) - s * sin (t * u)). set (s' := c * sin (t * u) + s * cos (t * u)).
    assert (U' : c' * c' + s' * s' = 1).
    { unfold c', s'. pose proof (sin2_cos2 (t * u)) as X. unfold Rsqr in X.
      replace (_ + _) with ((c * c + s * s) * (sin (t * u) * sin (t * u) + cos (t * u) * cos (t * u))) by ring. rewrite U, X. ring. }
    assert (EC' : c * cos u - s * sin u = c' * cos ((1 - t) * u) - s' * sin ((1 - t) * u)).
    { replace u with (t * u + (1 - t) * u) at 1 2 by ring. rewrite cos_plus, sin_plus. unfold c', s'. ring. }
    assert (ES' : c * sin u + s * cos u = c' * sin ((1 - t) * u) + s' * cos ((1 - t) * u)).
    { replace u with (t * u + (1 - t) * u) at 1 2 by ring. rewrite cos_plus, sin_plus. unfold c', s'. ring. }
    rewrite EC', ES'.
    pose proof (turn_chord c' s' px py ((1 - t) * u) U') as B.
    match type of B with norm2 (?x, ?y) <= _ =>
      pose proof (norm2_triangle ((1 - t) * (q_x b - q_x a)) ((1 - t) * (q_y b - q_y a)) x y) as T end.
    match goal with |- norm2 (?x, ?y) <= _ => match type of T with norm2 (?x', ?y') <= _ =>
      replace x with x' by ring; replace y with y' by ring end end.
    eapply Rle_trans; [exact T|]. rewrite norm2_scale, (Rabs_right (1 - t)) by lra.
    rewrite Rabs_mult, (Rabs_right (1 - t)) in B by lra. lra.
Qed.
Lemma point_clear : forall a b dt t q p o k, unit_heading a -> turns a b dt -> between a b dt t q ->
  k <= dist2 (placed a p) o -> k <= dist2 (placed b p) o ->
  k - (dist2 (position a) (position b) + norm2 (pt p) * Rabs (q_w b * dt)) / 2 <= dist2 (placed q p) o.
Proof.
  intros a b dt t q p o k U T Bt Ka Kb. pose proof (point_moves a b dt t q p U T Bt) as [A B]. cbv zeta in A, B.
  set (L := dist2 (position a) (position b) + norm2 (pt p) * Rabs (q_w b * dt)) in *.
  pose proof (dist2_tri (placed a p) (placed q p) o) as T1.
  pose proof (dist2_tri (placed b p) (placed q p) o) as T2.
  assert (Sy : dist2 (placed b p) (placed q p) = dist2 (placed q p) (placed b p)).
  { unfold dist2. f_equal. ring. }
  rewrite Sy in T2. destruct Bt as (Ht & _).
  assert (P : 0 <= L).
  { unfold L. assert (0 <= dist2 (position a) (position b)) by apply sqrt_pos.
    assert (0 <= norm2 (pt p) * Rabs (q_w b * dt)) by (apply Rmult_le_pos; [apply norm2_pos|apply Rabs_pos]). lra. }
  destruct (Rle_dec t (1/2)).
  - assert (t * L <= L / 2) by nra. lra.
  - assert ((1 - t) * L <= L / 2) by nra. lra.
Qed.

(** Outline points are fixed points of the robot. *)
Lemma placed_along : forall q a b t, along (placed q a) (placed q b) t = placed q (mkTr (fst (along (pt a) (pt b) t)) (snd (along (pt a) (pt b) t))).
Proof. intros q [ax ay] [bx b_y] t. unfold along, placed, pt. cbn [fst snd tX tY]. f_equal; ring. Qed.
Lemma outline_point : forall ps rho p q, (forall c, In c ps -> norm2 (pt c) <= rho) -> on_outline (placed q) ps p ->
  exists c, norm2 (pt c) <= rho /\ p = placed q c /\ forall q', on_outline (placed q') ps (placed q' c).
Proof.
  intros ps rho p q W [(c & Hc & ->)|(a & b & Hab & t & Ht & ->)].
  - exists c. split; [apply W; exact Hc|]. split; [reflexivity|]. intros q'. left. exists c. split; [exact Hc|reflexivity].
  - pose proof (outline_ends _ _ _ Hab) as [Ia Ib].
    exists (mkTr (fst (along (pt a) (pt b) t)) (snd (along (pt a) (pt b) t))). split.
    + destruct a as [ax ay], b as [bx b_y]. pose proof (W _ Ia) as A. pose proof (W _ Ib) as B.
      unfold pt, along in *. cbn [fst snd tX tY] in *. apply (mix_norm t ax ay bx b_y rho Ht A B).
    + split; [apply placed_along|]. intros q'. right. exists a, b. split; [exact Hab|]. exists t. split; [exact Ht|].
      symmetry. apply placed_along.
Qed.
Lemma outlines_clear : forall a b dt t q bu o e rho, unit_heading a -> turns a b dt -> between a b dt t q ->
  within_radius bu rho -> outlines_apart a bu o e -> outlines_apart b bu o e ->
  outlines_apart q bu o (e - (dist2 (position a) (position b) + rho * Rabs (q_w b * dt)) / 2).
Proof.
  intros a b dt t q bu o e rho U T Bt W Oa Ob p z Hp Hz.
  destruct (outline_point _ rho p q W Hp) as (c & Hc & -> & Hon).
  pose proof (point_clear a b dt t q c z e U T Bt (Oa _ _ (Hon a) Hz) (Ob _ _ (Hon b) Hz)) as X.
  assert (norm2 (pt c) * Rabs (q_w b * dt) <= rho * Rabs (q_w b * dt)) by (apply Rmult_le_compat_r; [apply Rabs_pos|exact Hc]).
  lra.
Qed.

(** ** Plans *)
Lemma range_met : forall asserts h handle d g sol f t c i, good_history asserts h -> generator asserts h handle d g -> solved g sol ->
  In (OSgmtConstraint f t c) h -> (f <= length (counts asserts h))%nat ->
  (waypoint_sample (counts asserts h) f <= i <= waypoint_sample (counts asserts h) t)%nat -> demands (at_sample sol i) c.
Proof.
  intros asserts h handle d g sol f t c i GH Gn Sv Ho Hf Hi.
  assert (Hft : (f < t)%nat).
  { destruct GH as (P & _). rewrite Forall_forall in P. exact (proj2 (proj2 (P _ Ho))). }
  pose proof (solved_requests asserts h handle d g sol GH Gn Sv) as [M1 M2].
  refine (proj1 (range_demands (counts asserts h) sol f t c Hft) _ Hf i Hi). split.
  - intros w Hw Hft'. apply (M1 w); [exact Hw|]. apply (in_history_wpt h _ w _ Ho). intros bs. cbn [wpt_request].
    rewrite (proj2 (Nat.leb_le f w)), (proj2 (Nat.leb_le w t)) by lia. left. reflexivity.
  - intros w j Hw Hft' Hj. apply (M2 w); [exact Hw| |exact Hj].
    apply in_split in Ho. destruct Ho as (h1 & h2 & ->). apply in_sgmt_requests. exists h1, (OSgmtConstraint f t c), h2.
    split; [reflexivity|]. cbn [sgmt_request].
    rewrite (proj2 (Nat.ltb_lt f w)), (proj2 (Nat.leb_le w t)) by lia. left. reflexivity.
Qed.

Lemma range_end : forall N t, (waypoint_sample N t <= last_sample N)%nat.
Proof.
  intros N t. destruct (le_lt_dec (length N) t); [rewrite waypoint_sample_past by assumption; lia|].
  rewrite <- (waypoint_sample_past N (length N) (le_n _)). apply waypoint_sample_mono. lia.
Qed.

Lemma C117_smooth_proof : forall asserts h handle d g sol, good_history asserts h -> generator asserts h handle d g -> solved g sol ->
  let N := counts asserts h in forall f t c, In (OSgmtConstraint f t c) h -> (f <= length N)%nat -> smooth_kind c ->
  forall i, (waypoint_sample N f < i <= waypoint_sample N t)%nat ->
  forall share q, between (at_sample sol (i - 1)) (at_sample sol i) (step_to sol i) share q -> demands q c.
Proof.
  intros asserts h handle d g sol GH G Sv N f t c Ho Hf K i Hi share q Bt.
  apply (smooth_kept _ _ _ _ _ c Bt K); apply (range_met asserts h handle d g sol f t c); try assumption; fold N; lia.
Qed.

Lemma C117_pose_proof : forall asserts h handle d g sol, good_history asserts h -> generator asserts h handle d g -> solved g sol ->
  real_wheels d -> forall s, spacing d s ->
  let N := counts asserts h in forall f t p, In (OSgmtConstraint f t (PoseEquality p)) h -> (f <= length N)%nat ->
  forall i, (waypoint_sample N f < i <= waypoint_sample N t)%nat ->
  turns (at_sample sol (i - 1)) (at_sample sol i) (step_to sol i) ->
  forall share q, between (at_sample sol (i - 1)) (at_sample sol i) (step_to sol i) share q -> demands q (PoseEquality p).
Proof.
  intros asserts h handle d g sol GH G Sv W s Sp N f t p Ho Hf i Hi T share q Bt.
  assert (Un : unit_rot (pRot p)).
  { destruct GH as (_ & P & _). rewrite Forall_forall in P. exact (P _ Ho). }
  pose proof (range_end N t) as L.
  pose proof (proj1 (C74_proof asserts h handle d g sol G Sv W i ltac:(fold N; lia)) s Sp) as Sm.
  apply (pose_kept _ _ _ _ _ p Un T Sm Bt); apply (range_met asserts h handle d g sol f t (PoseEquality p)); try assumption; fold N; lia.
Qed.

Lemma C117_facing_proof : forall asserts h handle d g sol, good_history asserts h -> generator asserts h handle d g -> solved g sol ->
  let N := counts asserts h in forall f t target tol, In (OSgmtConstraint f t (PointAt target tol)) h -> (f <= length N)%nat ->
  0 <= cos tol -> forall i, (waypoint_sample N f < i <= waypoint_sample N t)%nat ->
  turns (at_sample sol (i - 1)) (at_sample sol i) (step_to sol i) -> q_w (at_sample sol i) = 0 ->
  forall share q, between (at_sample sol (i - 1)) (at_sample sol i) (step_to sol i) share q -> demands q (PointAt target tol).
Proof.
  intros asserts h handle d g sol GH G Sv N f t target tol Ho Hf Ct i Hi T Z share q Bt.
  apply (facing_kept _ _ _ _ _ target tol Ct Z T Bt); apply (range_met asserts h handle d g sol f t (PointAt target tol)); try assumption; fold N; lia.
Qed.

Lemma C117_turning_proof : forall asserts h handle d g sol, good_history asserts h -> generator asserts h handle d g -> solved g sol ->
  let N := counts asserts h in forall f t target tol, In (OSgmtConstraint f t (PointAt target tol)) h -> (f <= length N)%nat ->
  0 <= tol -> forall i, (waypoint_sample N f < i <= waypoint_sample N t)%nat ->
  let a := at_sample sol (i - 1) in let b := at_sample sol i in unit_heading a -> turns a b (step_to sol i) ->
  forall share q, between a b (step_to sol i) share q ->
  let wider := tol + Rmax share (1 - share) * Rabs (q_w b * step_to sol i) in
  wider <= PI / 2 -> demands q (PointAt target wider).
Proof.
  intros asserts h handle d g sol GH G Sv N f t target tol Ho Hf Ct i Hi a b U T share q Bt wider Lw.
  apply (facing_turned a b _ _ _ target tol Ct U T Bt Lw); apply (range_met asserts h handle d g sol f t (PointAt target tol)); try assumption; fold N; lia.
Qed.

Lemma turned_unit : forall a b dt, turns a b dt -> unit_heading a -> unit_heading b.
Proof.
  intros a b dt [C S] U. unfold unit_heading in *. rewrite C, S.
  pose proof (sin2_cos2 (q_w b * dt)) as X. unfold Rsqr in X.
  replace (_ + _) with ((q_c a * q_c a + q_s a * q_s a) * (sin (q_w b * dt) * sin (q_w b * dt) + cos (q_w b * dt) * cos (q_w b * dt))) by ring.
  rewrite U, X. ring.
Qed.

Lemma C117_clear_proof : forall asserts h handle d g sol, generator asserts h handle d g -> solved g sol ->
  real_wheels d -> centred d -> forall s, spacing d s ->
  forall i, (1 <= i <= last_sample (counts asserts h))%nat ->
  let a := at_sample sol (i - 1) in let b := at_sample sol i in unit_heading a -> turns a b (step_to sol i) ->
  forall share q, between a b (step_to sol i) share q ->
  (forall p o k, k <= dist2 (placed a p) o -> k <= dist2 (placed b p) o ->
     k - (s / 2 + norm2 (pt p)) <= dist2 (placed q p) o) /\
  (forall bu o e rho, 0 <= rho -> within_radius bu rho -> outlines_apart a bu o e -> outlines_apart b bu o e ->
     outlines_apart q bu o (e - (s / 2 + rho))).
Proof.
  intros asserts h handle d g sol G Sv W Ce s Sp i Hi a b U T share q Bt.
  pose proof (C72_proof asserts h handle d g sol G Sv W Ce s Sp i Hi (turned_unit a b _ T U)) as D. fold a b in D.
  pose proof (proj1 (C74_proof asserts h handle d g sol G Sv W i Hi) s Sp) as Sm. fold b in Sm. split.
  - intros p o k Ka Kb. pose proof (point_clear a b _ share q p o k U T Bt Ka Kb) as X.
    pose proof (norm2_pos (pt p)). assert (norm2 (pt p) * Rabs (q_w b * step_to sol i) <= norm2 (pt p) * 2) by (apply Rmult_le_compat_l; lra).
    lra.
  - intros bu o e rho Pr Wr Oa Ob p z Hp Hz.
    pose proof (outlines_clear a b _ share q bu o e rho U T Bt Wr Oa Ob p z Hp Hz) as X.
    assert (rho * Rabs (q_w b * step_to sol i) <= rho * 2) by (apply Rmult_le_compat_l; lra). lra.
Qed.

(** ** Cases: a dash in one interval *)
Definition dashing (c : constraint R) : list (op R) := dash cart 1 1 ++ [OSgmtConstraint 0 1 c].
Definition dashed : solution R := dash_solution cart 1 1.
Lemma dashing_counts : forall asserts c, counts asserts (dashing c) = [1%nat].
Proof. destruct asserts; reflexivity. Qed.
Lemma dashing_good : forall asserts c, proper_constraint c -> good_history asserts (dashing c).
Proof.
  intros asserts c P. destruct (dash_good cart 1 1 asserts) as (A & B & C). unfold dashing. split; [|split].
  - apply Forall_app. split; [exact A|]. constructor; [|constructor]. repeat split; try apply Z.ltb_lt; try reflexivity. lia.
  - apply Forall_app. split; [exact B|]. constructor; [exact P|constructor].
  - destruct asserts; repeat split; reflexivity.
Qed.
Lemma dashed_start : at_sample dashed 0 = mkState 0 0 1 0 0 0 0 0 0 0.
Proof.
  unfold dashed. rewrite dash_sample by lia. unfold dash_state. rewrite cart_dash_time, cart_thrust. simpl. f_equal; field.
Qed.
Lemma dashed_finish : at_sample dashed 1 = mkState 1 0 1 0 2 0 0 4 0 0.
Proof.
  unfold dashed. rewrite dash_sample by lia. unfold dash_state. rewrite cart_dash_time, cart_thrust. simpl. f_equal; field.
Qed.
Lemma dashed_step : step_to dashed 1 = 1/2.
Proof. unfold dashed. rewrite (dash_step cart 1 1) by lia. rewrite cart_dash_time. simpl. field. Qed.
Lemma dashing_solved : forall asserts c, proper_constraint c ->
  demands (at_sample dashed 0) c -> demands (at_sample dashed 1) c ->
  exists g, generator asserts (dashing c) 7 cart g /\ solved g dashed.
Proof.
  intros asserts c P D0 D1.
  destruct (dash_generator cart 1 1 asserts 7) as [g G].
  destruct (generator_exists asserts (dashing c) 7 cart) as [g' G'];
    [destruct asserts; apply Nat.ltb_lt; reflexivity|reflexivity|].
  destruct (dash_solved cart 1 1 cart_can_dash asserts 7 g G) as (env & F & E).
  pose proof (dash_good cart 1 1 asserts) as Gd. pose proof (dashing_good asserts c P) as Gd'.
  assert (X : dash cart 1 1 ++ [] = dash cart 1 1) by apply app_nil_r.
  destruct (C14_proof asserts (dash cart 1 1) 0 1 c [] 7 cart g g' env dashed Gd') as [E' Q]; rewrite ?X; try assumption.
  - destruct asserts; apply Nat.ltb_lt; reflexivity.
  - exists g'. split; [exact G'|]. exists env. split; [|exact E']. apply Q. split; [exact F|]. rewrite X, dash_counts.
    intros _ i Hi. change (waypoint_sample [1%nat] 0) with 0%nat in Hi. change (waypoint_sample [1%nat] 1) with 1%nat in Hi.
    assert (i = 0 \/ i = 1)%nat as [-> | ->] by lia; assumption.
Qed.
(** Halfway through the dash. *)
Definition halfway : state := mkState (1/2) 0 1 0 1 0 0 2 0 0.
Lemma halfway_between : between (at_sample dashed 0) (at_sample dashed 1) (step_to dashed 1) (1/2) halfway.
Proof.
  rewrite dashed_start, dashed_finish, dashed_step. unfold between, mix, halfway. cbn [q_x q_y q_c q_s q_vx q_vy q_w q_ax q_ay q_al].
  rewrite Rmult_0_l, Rmult_0_r, cos_0, sin_0. repeat split; lra.
Qed.

Lemma C117_refuted_proof :
  ~ forall asserts h handle d g sol, good_history asserts h -> generator asserts h handle d g -> solved g sol ->
  let N := counts asserts h in forall f t c, In (OSgmtConstraint f t c) h -> (f <= length N)%nat ->
  forall i, (waypoint_sample N f < i <= waypoint_sample N t)%nat ->
  forall share q, between (at_sample sol (i - 1)) (at_sample sol i) (step_to sol i) share q -> demands q c.
Proof.
  intros H. set (c := PointPoint (mkTr 0 0) (mkTr (1/2) 0) (1/2)).
  assert (N0 : forall x, norm2 (x, 0) = Rabs x).
  { intros x. unfold norm2. simpl. rewrite Rmult_0_l, Rplus_0_r. apply sqrt_Rsqr_abs. }
  destruct (dashing_solved true c I) as (g & G & Sv).
  - rewrite dashed_start. unfold c, demands, placed, pt. rewrite dist2_norm. cbn [q_x q_y q_c q_s tX tY fst snd].
    match goal with |- _ <= norm2 (?x, ?y) => replace y with 0 by ring; replace x with (1/2) by lra || replace x with (-(1/2)) by lra end.
    rewrite N0, ?Rabs_Ropp. lra.
  - rewrite dashed_finish. unfold c, demands, placed, pt. rewrite dist2_norm. cbn [q_x q_y q_c q_s tX tY fst snd].
    match goal with |- _ <= norm2 (?x, ?y) => replace y with 0 by ring; replace x with (-(1/2)) by lra || replace x with (1/2) by lra end.
    rewrite N0, ?Rabs_Ropp. lra.
  - pose proof (H true (dashing c) 7%Z cart g dashed (dashing_good true c I) G Sv 0%nat 1%nat c) as X. cbv zeta in X.
    rewrite dashing_counts in X. specialize (X ltac:(apply in_or_app; right; left; reflexivity) ltac:(simpl; lia) 1%nat ltac:(unfold waypoint_sample; simpl; lia) (1/2) halfway halfway_between).
    unfold c, demands, placed, pt, halfway in X. rewrite dist2_norm in X. cbn [q_x q_y q_c q_s tX tY fst snd] in X.
    match type of X with _ <= norm2 (?x, ?y) => replace x with 0 in X by ring; replace y with 0 in X by ring end.
    rewrite N0, Rabs_R0, Rabs_right in X by lra. lra.
Qed.

(** A robot told to keep its pose. *)
Definition keeping : list (op R) := idle [1; 1]%nat ++ [OSgmtConstraint 0 1 (PoseEquality (pose_xyh 0 0 0))].
Lemma keeping_good : good_history true keeping.
Proof.
  destruct (idle_good true [1; 1]%nat) as (A & B & C). unfold keeping. split; [|split].
  - apply Forall_app. split; [exact A|]. constructor; [|constructor]. repeat split; try apply Z.ltb_lt; try reflexivity. lia.
  - apply Forall_app. split; [exact B|]. constructor; [|constructor]. unfold proper_request, proper_constraint, unit_rot.
    simpl. rewrite cos_0, sin_0. ring.
  - repeat split; reflexivity.
Qed.
Lemma keeping_solved : exists g, generator true keeping 0 cart g /\ solved g idle_solution.
Proof.
  destruct (idle_generator true [1; 1]%nat ltac:(simpl; lia)) as [g G].
  destruct (generator_exists true keeping 0 cart) as [g' G']; [apply Nat.ltb_lt; reflexivity|reflexivity|].
  destruct (idle_solved true g G) as (env & F & E).
  assert (X : idle [1; 1]%nat ++ [] = idle [1; 1]%nat) by apply app_nil_r.
  destruct (C14_proof true (idle [1; 1]%nat) 0 1 (PoseEquality (pose_xyh 0 0 0)) [] 0 cart g g' env idle_solution keeping_good) as [E' Q]; rewrite ?X; try assumption.
  - apply idle_good.
  - apply Nat.ltb_lt; reflexivity.
  - exists g'. split; [exact G'|]. exists env. split; [|exact E']. apply Q. split; [exact F|]. rewrite X.
    change (counts true (idle [1; 1]%nat)) with [1; 1]%nat.
    intros _ i Hi. change (waypoint_sample [1; 1]%nat 0) with 0%nat in Hi. change (waypoint_sample [1; 1]%nat 1) with 1%nat in Hi.
    assert (i = 0 \/ i = 1)%nat as [-> | ->] by lia; unfold demands, at_sample, idle_solution; simpl; rewrite cos_0, sin_0; lra.
Qed.
Lemma cart_spacing : spacing cart 2.
Proof.
  split; [lra|]. exists (wheel 1 1), (wheel (-1) (-1)). split; [left; reflexivity|]. left. simpl. rewrite Rabs_right; lra.
Qed.

(** The ride, looking out for a point beside its end. *)
Definition beacon : constraint R := PointAt (mkTr 2 1) (PI / 3).
Definition watching : list (op R) := ride ++ [OSgmtConstraint 0 1 beacon].
Definition mid_ride : state := mkState (1/4) 0 (cos (1/4)) (sin (1/4)) (1/2) 0 1 1 0 0.
Lemma watching_good : good_history true watching.
Proof.
  destruct (ride_good true) as (A & B & C). unfold watching. split; [|split].
  - apply Forall_app. split; [exact A|]. constructor; [|constructor]. repeat split; try apply Z.ltb_lt; try reflexivity. lia.
  - apply Forall_app. split; [exact B|]. constructor; [exact I|constructor].
  - repeat split; reflexivity.
Qed.
Lemma watching_solved : exists g, generator true watching 7 cart g /\ solved g ride_solution.
Proof.
  destruct (ride_case true) as (g & Gd & G & W & Pos & (env & F & E)).
  destruct (generator_exists true watching 7 cart) as [g' G']; [apply Nat.ltb_lt; reflexivity|reflexivity|].
  assert (X : ride ++ [] = ride) by apply app_nil_r.
  destruct (C14_proof true ride 0 1 beacon [] 7 cart g g' env ride_solution watching_good) as [E' Q]; rewrite ?X; try assumption.
  - apply Nat.ltb_lt; reflexivity.
  - exists g'. split; [exact G'|]. exists env. split; [|exact E']. apply Q. split; [exact F|]. rewrite X.
    rewrite ride_counts. intros _ i Hi. change (waypoint_sample [2]%nat 0) with 0%nat in Hi. change (waypoint_sample [2]%nat 1) with 2%nat in Hi.
    pose proof PI2_3_2 as P3. pose proof PI_4 as P4.
    assert (N2 : forall x y m, 0 <= m -> x * x + y * y <= m * m -> norm2 (x, y) <= m) by exact norm2_le.
    unfold beacon, demands. rewrite dist2_norm, cos_PI3. unfold pt. cbn [fst snd tX tY].
    assert (i = 0 \/ i = 1 \/ i = 2)%nat as [->|[->| ->]] by lia; unfold at_sample, ride_solution;
      cbn [q_x q_y q_c q_s s_x s_y s_thetacos s_thetasin nth].
    + rewrite cos_0, sin_0. assert (norm2 (2 - 0, 1 - 0) <= 4) by (apply N2; lra). lra.
    + assert (norm2 (2 - 1/2, 1 - 0) <= 2) by (apply N2; lra).
      assert (0 <= sin (1/2)) by (apply sin_ge_0; lra).
      assert (8/10 <= cos (1/2)). { destruct (pre_cos_bound (1/2) 0 ltac:(lra) ltac:(lra)) as (B & _). unfold cos_approx, sum_f_R0, cos_term in B. simpl in B. lra. }
      lra.
    + assert (norm2 (2 - 1, 1 - 0) <= 2) by (apply N2; lra).
      assert (0 <= sin 1) by (apply sin_ge_0; lra). assert (0 <= cos 1) by (apply cos_ge_0; lra).
      pose proof (sin2_cos2 1) as P. unfold Rsqr in P. nra.
Qed.
Lemma watching_between : between (at_sample ride_solution 0) (at_sample ride_solution 1) (step_to ride_solution 1) (1/2) mid_ride.
Proof.
  unfold between, mix, at_sample, step_to, ride_solution, mid_ride.
  cbn [q_x q_y q_c q_s q_vx q_vy q_w q_ax q_ay q_al s_dt s_x s_y s_thetacos s_thetasin s_vx s_vy s_omega s_ax s_ay s_alpha nth Nat.sub].
  replace (1 / 2 * (1 * (1 / 2))) with (1/4) by lra. rewrite cos_0, sin_0. repeat split; lra.
Qed.
