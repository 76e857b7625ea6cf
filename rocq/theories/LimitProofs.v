(** Consequences of the problem for accelerations and speeds: C58. *)
From Coq Require Import List Lia Lra Psatz Reals ZArith.
Import ListNotations.
From Verif Require Import Outcome Num NumR Geometry Expr Constraints Util Builder Guess Generator Trajectory
  Spec SpecBuilder SpecPhysics SpecTrajectory SpecGenerator Semantics
  UtilFacts GeometryFacts BuilderFacts BuilderHistory ConstraintFacts GuessFacts GeneratorFacts SeedFacts FeasibleFacts
  GeneratorProofs HistoryFacts SolutionProofs TrajectoryProofs GeneratorCases.
Local Open Scope nat_scope.
Open Scope R_scope.

(** ** Lengths in the plane *)
Lemma norm2_pos : forall v, 0 <= norm2 v.
Proof. intros. apply sqrt_pos. Qed.
Lemma norm2_sqr : forall x y, norm2 (x, y) * norm2 (x, y) = x * x + y * y.
Proof. intros. unfold norm2. cbn [fst snd]. apply sqrt_sqrt. nra. Qed.
Lemma cauchy : forall a b c e, a * c + b * e <= norm2 (a, b) * norm2 (c, e).
Proof.
  intros a b c e.
  destruct (Rle_lt_dec (a * c + b * e) 0) as [L|L].
  - pose proof (Rmult_le_pos _ _ (norm2_pos (a, b)) (norm2_pos (c, e))). lra.
  - apply Rsqr_incr_0_var; [|apply Rmult_le_pos; apply norm2_pos]. unfold Rsqr.
    replace (norm2 (a, b) * norm2 (c, e) * (norm2 (a, b) * norm2 (c, e)))
      with ((norm2 (a, b) * norm2 (a, b)) * (norm2 (c, e) * norm2 (c, e))) by ring.
    rewrite !norm2_sqr.
    replace ((a * a + b * b) * (c * c + e * e)) with ((a * c + b * e) * (a * c + b * e) + (a * e - b * c) * (a * e - b * c)) by ring.
    pose proof (Rle_0_sqr (a * e - b * c)) as P. unfold Rsqr in P. lra.
Qed.
Lemma norm2_triangle : forall a b c e, norm2 (a + c, b + e) <= norm2 (a, b) + norm2 (c, e).
Proof.
  intros a b c e. apply norm2_le.
  - pose proof (norm2_pos (a, b)). pose proof (norm2_pos (c, e)). lra.
  - pose proof (cauchy a b c e). pose proof (norm2_sqr a b). pose proof (norm2_sqr c e). nra.
Qed.
Lemma norm2_scale : forall k x y, norm2 (k * x, k * y) = Rabs k * norm2 (x, y).
Proof.
  intros k x y. unfold norm2. cbn [fst snd].
  replace (k * x * (k * x) + k * y * (k * y)) with (k * k * (x * x + y * y)) by ring.
  rewrite sqrt_mult_alt by nra. f_equal. apply sqrt_Rsqr_abs.
Qed.
Lemma cross_bound : forall u f, Rabs (cross2 u f) <= norm2 u * norm2 f.
Proof.
  intros [a b] [c e]. unfold cross2. cbn [fst snd].
  pose proof (cauchy (- b) a c e). pose proof (cauchy b (- a) c e).
  assert (E1 : norm2 (- b, a) = norm2 (a, b)) by (unfold norm2; cbn [fst snd]; f_equal; ring).
  assert (E2 : norm2 (b, - a) = norm2 (a, b)) by (unfold norm2; cbn [fst snd]; f_equal; ring).
  rewrite E1 in *. rewrite E2 in *. apply Rabs_le. lra.
Qed.
Lemma turned_norm : forall s p, unit_heading s -> norm2 (turned s p) = norm2 (pt p).
Proof.
  intros s [x y] U. unfold unit_heading in U. unfold norm2, turned, pt. cbn [fst snd tX tY]. f_equal.
  transitivity ((x * x + y * y) * (q_c s * q_c s + q_s s * q_s s)); [ring|]. rewrite U. ring.
Qed.

(** ** Sums *)
Lemma norm2_sum : forall fs : list (R * R),
  norm2 (sum (map fst fs), sum (map snd fs)) <= sum (map norm2 fs).
Proof.
  induction fs as [|[x y] fs IH]; cbn [map sum fst snd].
  - apply norm2_le; lra.
  - eapply Rle_trans; [apply norm2_triangle|]. lra.
Qed.
Lemma abs_sum : forall l, Rabs (sum l) <= sum (map Rabs l).
Proof.
  induction l as [|x l IH]; cbn [map sum]; [rewrite Rabs_R0; lra|].
  eapply Rle_trans; [apply Rabs_triang|]. lra.
Qed.
Lemma sum_le_map : forall {A} (f g : A -> R) l, (forall a, In a l -> f a <= g a) -> sum (map f l) <= sum (map g l).
Proof.
  induction l as [|a l IH]; intros H; cbn [map sum]; [lra|].
  pose proof (H a (or_introl eq_refl)). assert (sum (map f l) <= sum (map g l)) by (apply IH; intros; apply H; right; assumption).
  lra.
Qed.
Lemma combine_fst : forall {A B C} (f : A -> C) (l : list A) (r : list B), length l = length r ->
  map (fun ab => f (fst ab)) (combine l r) = map f l.
Proof.
  induction l as [|a l IH]; intros [|b r] L; try discriminate; [reflexivity|].
  cbn [combine map fst]. f_equal. apply IH. injection L. auto.
Qed.
Lemma combine_snd : forall {A B C} (f : B -> C) (l : list A) (r : list B), length l = length r ->
  map (fun ab => f (snd ab)) (combine l r) = map f r.
Proof.
  induction l as [|a l IH]; intros [|b r] L; try discriminate; [reflexivity|].
  cbn [combine map snd]. f_equal. apply IH. injection L. auto.
Qed.

Lemma forces_length : forall N m sol i, well_shaped N m sol -> (i <= last_sample N)%nat ->
  length (forces sol i) = m.
Proof.
  intros N m sol i (_ & _ & _ & _ & _ & _ & _ & _ & _ & _ & _ & LX & LY & FX & FY) Hi.
  unfold forces. rewrite combine_length. rewrite Forall_forall in FX, FY.
  rewrite (FX (nth i (s_moduleFX sol) [])), (FY (nth i (s_moduleFY sol) [])); [apply Nat.min_id| |];
    apply nth_In; lia.
Qed.
Lemma solved_shape : forall asserts h handle d g sol, generator asserts h handle d g -> solved g sol ->
  well_shaped (counts asserts h) (length (d_modules d)) sol.
Proof.
  intros asserts h handle d g sol G (env & _ & E).
  destruct (C25_proof asserts h handle d g env G) as (sol' & E' & W). rewrite E in E'. injection E' as <-. exact W.
Qed.

Lemma newton_limits : forall d s fs, length fs = length (d_modules d) -> newton d s fs -> forces_within d fs ->
  Rabs (d_mass d) * norm2 (q_ax s, q_ay s) <= sum (map force_limit (d_modules d)) /\
  (unit_heading s ->
   Rabs (d_moi d) * Rabs (q_al s) <= sum (map (fun md => arm md * force_limit md) (d_modules d))).
Proof.
  intros d s fs L (N1 & N2 & N3) F. split.
  - rewrite <- norm2_scale, <- N1, <- N2. eapply Rle_trans; [apply norm2_sum|].
    rewrite <- (combine_snd norm2 (d_modules d) fs) by (symmetry; exact L).
    rewrite <- (combine_fst force_limit (d_modules d) fs) by (symmetry; exact L).
    apply sum_le_map. intros [md f] Hin. cbn [fst snd]. apply F. exact Hin.
  - intros U. rewrite <- Rabs_mult, <- N3. eapply Rle_trans; [apply abs_sum|]. rewrite map_map.
    rewrite <- (combine_fst (fun md => arm md * force_limit md) (d_modules d) fs) by (symmetry; exact L).
    apply sum_le_map. intros [md f] Hin. cbn [fst snd]. eapply Rle_trans; [apply cross_bound|].
    rewrite turned_norm by exact U. apply Rmult_le_compat_l; [apply norm2_pos|]. apply F. exact Hin.
Qed.

Lemma C58_proof : forall asserts h handle d g sol, generator asserts h handle d g -> solved g sol ->
  real_wheels d -> forall i, (i <= last_sample (counts asserts h))%nat ->
  let q := at_sample sol i in
  (0 < d_mass d -> norm2 (q_ax q, q_ay q) <= sum (map force_limit (d_modules d)) / d_mass d) /\
  (0 < d_moi d -> unit_heading q ->
   Rabs (q_al q) <= sum (map (fun md => arm md * force_limit md) (d_modules d)) / d_moi d).
Proof.
  intros asserts h handle d g sol G Sv W i Hi q.
  destruct (solved_physics asserts h handle d g sol G Sv W) as [_ P]. destruct (P i Hi) as (Nw & _ & Fo).
  pose proof (forces_length _ _ sol i (solved_shape asserts h handle d g sol G Sv) Hi) as L.
  destruct (newton_limits d (at_sample sol i) (forces sol i) L Nw Fo) as [B1 B2].
  split.
  - intros Pm. rewrite (Rabs_right (d_mass d)) in B1 by lra.
    apply (Rmult_le_reg_l (d_mass d)); [exact Pm|].
    replace (d_mass d * (sum (map force_limit (d_modules d)) / d_mass d)) with (sum (map force_limit (d_modules d)))
      by (field; lra). exact B1.
  - intros Pm U. specialize (B2 U). rewrite (Rabs_right (d_moi d)) in B2 by lra.
    apply (Rmult_le_reg_l (d_moi d)); [exact Pm|].
    replace (d_moi d * (sum (map (fun md => arm md * force_limit md) (d_modules d)) / d_moi d))
      with (sum (map (fun md => arm md * force_limit md) (d_modules d))) by (field; lra). exact B2.
Qed.

(** Without a pinned heading the bound on the angular acceleration fails: a
    heading vector of length two doubles every lever arm. *)
Lemma C58_refuted_proof : ~ (forall asserts h handle d g sol, good_history asserts h ->
  generator asserts h handle d g -> real_wheels d -> solved g sol -> 0 < d_moi d ->
  forall i, (i <= last_sample (counts asserts h))%nat ->
  Rabs (q_al (at_sample sol i)) <= sum (map (fun md => arm md * force_limit md) (d_modules d)) / d_moi d).
Proof.
  intros H. destruct (proj2 stay_generator) as [g G].
  pose proof (H true hover 0%Z cart g _ (proj2 stay_good) G cart_wheels
    (hover_solved g 2 (1/2) 0 0 0 (-2) G ltac:(lra) ltac:(lra) ltac:(lra) ltac:(lra) ltac:(lra) ltac:(lra))
    ltac:(simpl; lra) 0%nat ltac:(lia)) as B.
  cbn [at_sample staying s_alpha nth q_al cart d_modules d_moi map sum wheel] in B.
  unfold arm, force_limit, wheel, pt in B. cbn [m_translation m_wheelMaxTorque m_wheelRadius tX tY] in B.
  rewrite Rabs_right in B by lra.
  assert (norm2 (1, 1) <= 3/2) by (apply norm2_le; lra).
  assert (norm2 (-1, -1) <= 3/2) by (apply norm2_le; lra).
  lra.
Qed.

(** ** Speed of the robot *)
Lemma sum_const_plus : forall {A} (f : A -> R) k c l,
  sum (map (fun a => c + k * f a) l) = INR (length l) * c + k * sum (map f l).
Proof.
  induction l as [|a l IH]; [simpl; ring|]. cbn [map sum length]. rewrite IH, S_INR. ring.
Qed.
Lemma speed_limit_proof : forall asserts h handle d g sol, generator asserts h handle d g -> solved g sol ->
  real_wheels d -> centred d -> forall i, (i <= last_sample (counts asserts h))%nat ->
  let q := at_sample sol i in unit_heading q ->
  INR (length (d_modules d)) * norm2 (q_vx q, q_vy q) <= sum (map wheel_limit (d_modules d)).
Proof.
  intros asserts h handle d g sol G Sv W [CX CY] i Hi q U.
  destruct (solved_physics asserts h handle d g sol G Sv W) as [_ P]. destruct (P i Hi) as (_ & Wh & _). fold q in Wh.
  set (ms := d_modules d) in *.
  set (vs := map (fun md => wheel_velocity q (m_translation md)) ms).
  assert (EX : sum (map fst vs) = INR (length ms) * (q_vx q * q_c q + q_vy q * q_s q)).
  { unfold vs. rewrite map_map. unfold wheel_velocity. cbn [fst].
    rewrite (map_ext _ (fun md => (q_vx q * q_c q + q_vy q * q_s q) + (- q_w q) * tY (m_translation md)))
      by (intros; ring).
    rewrite (sum_const_plus (fun md => tY (m_translation md))). rewrite CY. ring. }
  assert (EY : sum (map snd vs) = INR (length ms) * (q_vy q * q_c q - q_vx q * q_s q)).
  { unfold vs. rewrite map_map. unfold wheel_velocity. cbn [snd].
    rewrite (map_ext _ (fun md => (q_vy q * q_c q - q_vx q * q_s q) + q_w q * tX (m_translation md)))
      by (intros; ring).
    rewrite (sum_const_plus (fun md => tX (m_translation md))). rewrite CX. ring. }
  assert (B : norm2 (sum (map fst vs), sum (map snd vs)) <= sum (map wheel_limit ms)).
  { eapply Rle_trans; [apply norm2_sum|]. unfold vs. rewrite map_map. apply sum_le_map.
    intros md Hin. apply Wh. exact Hin. }
  rewrite EX, EY, norm2_scale in B. rewrite Rabs_right in B by (apply Rle_ge, pos_INR).
  assert (E : norm2 (q_vx q * q_c q + q_vy q * q_s q, q_vy q * q_c q - q_vx q * q_s q) = norm2 (q_vx q, q_vy q)).
  { unfold norm2. cbn [fst snd]. f_equal. unfold unit_heading in U.
    transitivity ((q_vx q * q_vx q + q_vy q * q_vy q) * (q_c q * q_c q + q_s q * q_s q)); [ring|]. rewrite U. ring. }
  rewrite E in B. exact B.
Qed.
