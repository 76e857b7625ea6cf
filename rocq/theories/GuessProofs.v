(** Proofs of C04-C06. *)
From Coq Require Import List Lia Lra Psatz.
Import ListNotations.
From Verif Require Import Outcome Num NumR Geometry Constraints Util Builder Guess Spec SpecBuilder SpecGuess
  UtilFacts GeometryFacts GeometryProofs BuilderFacts BuilderProofs BuilderHistory GuessFacts.
Local Open Scope nat_scope.

Section Any.
  Context {K : Type} {HA : Arith K} {HD : Dbl K}.

  (** What CalculateInitialGuess does on every reachable builder. *)
  Lemma guess_outcome : forall (b : builder K), inv b ->
    (b_guess b = [] /\ CalculateInitialGuess b = Undef EmptyAccess) \/
    (0 < length (b_guess b) <= length (b_counts b) /\ CalculateInitialGuess b = Throw OutOfRange) \/
    (length (b_counts b) < length (b_guess b) /\
     CalculateInitialGuess b = Ok (guess_result (b_guess b) (b_counts b))).
  Proof.
    intros b (I1 & I2 & I3). rewrite Forall_forall in I2. unfold CalculateInitialGuess.
    destruct (b_guess b) as [|g0 gs] eqn:E.
    - left. split; [reflexivity|]. unfold GenerateLinearInitialGuess.
      rewrite GetIndex_ok by lia. reflexivity.
    - right. rewrite <- E in *. assert (0 < length (b_guess b)) by (rewrite E; simpl; lia).
      destruct (le_lt_dec (length (b_guess b)) (length (b_counts b))).
      + left. split; [lia|]. apply GenerateLinearInitialGuess_throw; [rewrite E; discriminate|assumption|assumption].
      + right. split; [assumption|]. apply GenerateLinearInitialGuess_ok; assumption.
  Qed.

  Lemma guess_result_fields : forall guess counts,
    s_x (guess_result guess counts) = pX (first_pose guess) ::
      flat_map (fun '(p, q, n) => Linspace (pX p) (pX q) n) (all_legs guess counts) /\
    s_y (guess_result guess counts) = pY (first_pose guess) ::
      flat_map (fun '(p, q, n) => Linspace (pY p) (pY q) n) (all_legs guess counts) /\
    s_thetacos (guess_result guess counts) = rCos (pRot (first_pose guess)) ::
      flat_map (fun '(p, q, n) => map ncos (AngleLinspace (rot_radians (pRot p)) (rot_radians (pRot q)) n))
        (all_legs guess counts) /\
    s_thetasin (guess_result guess counts) = rSin (pRot (first_pose guess)) ::
      flat_map (fun '(p, q, n) => map nsin (AngleLinspace (rot_radians (pRot p)) (rot_radians (pRot q)) n))
        (all_legs guess counts) /\
    s_dt (guess_result guess counts) = repeat (guess_dt counts) (1 + list_sum counts).
  Proof. intros. unfold guess_result. rewrite append_legs_fields. repeat split; reflexivity. Qed.

  Lemma guess_result_lengths : forall guess counts, length counts < length guess ->
    (forall l, In l guess -> l <> []) ->
    let s := guess_result guess counts in
    length (s_x s) = 1 + list_sum counts /\ length (s_y s) = 1 + list_sum counts /\
    length (s_thetacos s) = 1 + list_sum counts /\ length (s_thetasin s) = 1 + list_sum counts /\
    length (s_dt s) = 1 + list_sum counts.
  Proof.
    intros guess counts L NE s. subst s.
    destruct (guess_result_fields guess counts) as (-> & -> & -> & -> & ->).
    rewrite repeat_length. cbn [length].
    rewrite (flat_legs_length (fun p q n => Linspace (pX p) (pX q) n)) by (intros; apply Linspace_length).
    rewrite (flat_legs_length (fun p q n => Linspace (pY p) (pY q) n)) by (intros; apply Linspace_length).
    rewrite (flat_legs_length (fun p q n => map ncos (AngleLinspace (rot_radians (pRot p)) (rot_radians (pRot q)) n)))
      by (intros; rewrite map_length; apply AngleLinspace_length).
    rewrite (flat_legs_length (fun p q n => map nsin (AngleLinspace (rot_radians (pRot p)) (rot_radians (pRot q)) n)))
      by (intros; rewrite map_length; apply AngleLinspace_length).
    rewrite all_legs_sum by assumption. repeat split; reflexivity.
  Qed.

  Lemma C04_proof : forall asserts (h : list (op K)) sol,
    let b := run_ops asserts h new_builder in
    CalculateInitialGuess b = Ok sol ->
    let total := 1 + list_sum (GetControlIntervalCounts b) in
    length (s_x sol) = total /\ length (s_y sol) = total /\
    length (s_thetacos sol) = total /\ length (s_thetasin sol) = total /\
    length (s_dt sol) = total.
  Proof.
    intros asserts h sol b E total.
    assert (I : inv b) by (apply run_ops_inv; apply inv_new).
    destruct (guess_outcome b I) as [[_ G]|[[_ G]|[L G]]]; rewrite G in E; try discriminate.
    injection E as <-. apply guess_result_lengths; [assumption|].
    destruct I as (_ & I2 & _). rewrite Forall_forall in I2. assumption.
  Qed.

  Lemma C04_outcomes : forall asserts (h : list (op K)),
    let b := run_ops asserts h new_builder in
    let counts := length (GetControlIntervalCounts b) in
    let waypoints := waypoint_count b in
    (waypoints = 0 -> CalculateInitialGuess b = Undef EmptyAccess) /\
    (0 < waypoints <= counts -> CalculateInitialGuess b = Throw OutOfRange) /\
    (counts < waypoints -> exists sol, CalculateInitialGuess b = Ok sol).
  Proof.
    intros asserts h b counts waypoints.
    assert (I : inv b) by (apply run_ops_inv; apply inv_new).
    assert (W : length (b_guess b) = waypoints) by (destruct I as (I1 & _); exact I1).
    unfold counts, GetControlIntervalCounts.
    destruct (guess_outcome b I) as [[E G]|[[L G]|[L G]]]; rewrite G.
    - rewrite E in W. simpl in W. repeat split; intros; try reflexivity; lia.
    - repeat split; intros; try reflexivity; lia.
    - repeat split; intros; try lia. eexists; reflexivity.
  Qed.
End Any.

Open Scope R_scope.

Lemma last_app1 : forall {A} (l : list A) a d, last (l ++ [a]) d = a.
Proof. intros. apply last_last. Qed.

Lemma sgmt_guesses_0 : forall (h : list (op R)), sgmt_guesses h 0 = [].
Proof. induction h as [|o h IH]; [reflexivity|]. simpl. rewrite IH. destruct o; reflexivity. Qed.

Section History.
  Variables (asserts : bool) (h : list (op R)) (sol : solution R).
  Hypothesis Hp : Forall proper_call h.
  Hypothesis Hr : all_returned asserts h new_builder.
  Let b := run_ops asserts h new_builder.
  Hypothesis Hg : CalculateInitialGuess b = Ok sol.
  Let counts := GetControlIntervalCounts b.

  Lemma hist_inv : inv b.
  Proof. apply run_ops_inv; apply inv_new. Qed.

  Lemma hist_ok : (length counts < length (b_guess b))%nat /\ sol = guess_result (b_guess b) counts.
  Proof.
    destruct (guess_outcome b hist_inv) as [[_ G]|[[_ G]|[L G]]]; rewrite G in Hg; try discriminate.
    injection Hg as <-. split; [exact L|reflexivity].
  Qed.
  Lemma hist_nonempty : forall l, In l (b_guess b) -> l <> [].
  Proof. destruct hist_inv as (_ & I2 & _). rewrite Forall_forall in I2. exact I2. Qed.

  Lemma hist_guess : forall i, (i < length (b_guess b))%nat ->
    nth i (b_guess b) [] = sgmt_guesses h i ++ [last_guess zero_pose h i].
  Proof.
    intros i Hi. apply nth_error_nth. apply C12_proof; try assumption.
    unfold waypoint_count. destruct hist_inv as (I1 & _). unfold wlen in I1. fold b. lia.
  Qed.

  Lemma hist_points : forall s, (s < length counts)%nat -> seg_points (b_guess b) (S s) = route h (S s).
  Proof.
    intros s Hs. destruct hist_ok as [L _]. unfold seg_points, route.
    replace (S s - 1)%nat with s by lia.
    rewrite !hist_guess by lia. rewrite last_app1. reflexivity.
  Qed.

  Lemma hist_first : first_pose (b_guess b) = last_guess zero_pose h 0.
  Proof.
    destruct hist_ok as [L _]. unfold first_pose. rewrite hist_guess by lia.
    rewrite sgmt_guesses_0. reflexivity.
  Qed.

  Lemma route_len : forall w, (length (route h w) - 1 = length (sgmt_guesses h w) + 1)%nat.
  Proof. intros. unfold route. simpl. rewrite app_length. simpl. lia. Qed.

  Lemma C05_start : s_x sol <> [] /\
    nth 0 (s_x sol) 0 = pX (last_guess zero_pose h 0) /\
    nth 0 (s_y sol) 0 = pY (last_guess zero_pose h 0) /\
    nth 0 (s_thetacos sol) 0 = rCos (pRot (last_guess zero_pose h 0)) /\
    nth 0 (s_thetasin sol) 0 = rSin (pRot (last_guess zero_pose h 0)).
  Proof.
    destruct hist_ok as [L Hsol]. rewrite Hsol.
    destruct (guess_result_fields (b_guess b) counts) as (-> & -> & -> & -> & _).
    cbn [nth]. rewrite hist_first. repeat split. discriminate.
  Qed.

  Lemma C05_proof : forall s j i, (s < length counts)%nat ->
    let pts := route h (S s) in
    let n := nth s counts 0%nat in
    let g := (length pts - 1)%nat in
    (j < g)%nat ->
    let len := (reached_after n g (S j) - reached_after n g j)%nat in
    (1 <= i <= len)%nat ->
    let at_sample := (segment_start counts s + reached_after n g j + i)%nat in
    let p := nth j pts zero_pose in
    let q := nth (S j) pts zero_pose in
    nth at_sample (s_x sol) 0 = pX p + INR i * (pX q - pX p) / INR len /\
    nth at_sample (s_y sol) 0 = pY p + INR i * (pY q - pY p) / INR len /\
    (forall a a', angle_of p a -> angle_of q a' ->
       exists turn, principal turn /\ same_direction turn (a' - a) /\
         nth at_sample (s_thetacos sol) 0 = cos (a + INR i * turn / INR len) /\
         nth at_sample (s_thetasin sol) 0 = sin (a + INR i * turn / INR len)).
  Proof.
    intros s j i Hs pts n g Hj len Hi at_sample p q.
    destruct hist_ok as [L Hsol].
    assert (E := hist_points s Hs). change (route h (S s)) with pts in E.
    assert (D1 : nth j pts pose_default = p).
    { apply nth_indep. unfold g in Hj. lia. }
    assert (D2 : nth (S j) pts pose_default = q).
    { apply nth_indep. unfold g in Hj. lia. }
    rewrite Hsol.
    destruct (guess_result_fields (b_guess b) counts) as (-> & -> & -> & -> & _).
    assert (X := fun (B : Type) (f : Pose2 R -> Pose2 R -> nat -> list B) x0 d Hf =>
      leg_nth f (b_guess b) counts s j i x0 d Hf L hist_nonempty Hs).
    cbv zeta in X. rewrite E in X. fold n g in X. rewrite D1, D2 in X.
    change (knot n g (S j) - knot n g j)%nat with len in X.
    change (list_sum (firstn s counts) + knot n g j + i)%nat with at_sample in X.
    split; [|split].
    - rewrite (X R (fun p q n => Linspace (pX p) (pX q) n));
        [|intros; apply Linspace_length|assumption|assumption].
      destruct (C02_proof (pX p) (pX q) len) as (_ & F & _). apply F. assumption.
    - rewrite (X R (fun p q n => Linspace (pY p) (pY q) n));
        [|intros; apply Linspace_length|assumption|assumption].
      destruct (C02_proof (pY p) (pY q) len) as (_ & F & _). apply F. assumption.
    - intros a a' [Ac As] [Bc Bs].
      rewrite (X R (fun p q n => map ncos (AngleLinspace (rot_radians (pRot p)) (rot_radians (pRot q)) n)));
        [|intros; rewrite map_length; apply AngleLinspace_length|assumption|assumption].
      rewrite (X R (fun p q n => map nsin (AngleLinspace (rot_radians (pRot p)) (rot_radians (pRot q)) n)));
        [|intros; rewrite map_length; apply AngleLinspace_length|assumption|assumption].
      destruct (C03_proof (rot_radians (pRot p)) (rot_radians (pRot q)) len)
        as (LEN & turn & P1 & P2 & _ & P3 & _).
      assert (Ra : exists k, rot_radians (pRot p) = a + 2 * IZR k * PI).
      { unfold rot_radians. cbn [natan2 Arith_R]. rewrite As, Ac. apply Ratan2_angle. }
      assert (Rb : exists k, rot_radians (pRot q) = a' + 2 * IZR k * PI).
      { unfold rot_radians. cbn [natan2 Arith_R]. rewrite Bs, Bc. apply Ratan2_angle. }
      destruct Ra as [ka Ra]. destruct Rb as [kb Rb].
      exists turn. split; [assumption|]. split.
      + destruct P2 as [k P2]. exists (k + kb - ka)%Z. rewrite minus_IZR, plus_IZR. rewrite P2, Ra, Rb. ring.
      + assert (I1 : (i - 1 < length (AngleLinspace (rot_radians (pRot p)) (rot_radians (pRot q)) len))%nat)
          by (rewrite LEN; lia).
        rewrite (nth_indep _ 0 (ncos 0)) by (rewrite map_length; exact I1). rewrite map_nth.
        rewrite (nth_indep (map nsin _) 0 (nsin 0)) by (rewrite map_length; exact I1). rewrite map_nth.
        rewrite P3 by assumption. rewrite Ra. cbn [ncos nsin Arith_R].
        replace (a + 2 * IZR ka * PI + INR i * turn / INR len)
          with (a + INR i * turn / INR len + 2 * IZR ka * PI) by ring.
        rewrite cos_2kPI, sin_2kPI. split; reflexivity.
  Qed.

  Lemma C05_hit : forall s j, (s < length counts)%nat ->
    let pts := route h (S s) in
    let n := nth s counts 0%nat in
    let g := (length pts - 1)%nat in
    (j < g)%nat -> (reached_after n g j < reached_after n g (S j))%nat ->
    let at_sample := (segment_start counts s + reached_after n g (S j))%nat in
    let q := nth (S j) pts zero_pose in
    nth at_sample (s_x sol) 0 = pX q /\ nth at_sample (s_y sol) 0 = pY q /\
    ((exists a, angle_of (nth j pts zero_pose) a) -> (exists a, angle_of q a) ->
      nth at_sample (s_thetacos sol) 0 = rCos (pRot q) /\
      nth at_sample (s_thetasin sol) 0 = rSin (pRot q)).
  Proof.
    intros s j Hs pts n g Hj Hk at_sample q.
    pose proof (C05_proof s j (reached_after n g (S j) - reached_after n g j) Hs Hj) as P.
    cbv zeta in P. fold pts n g q in P.
    specialize (P ltac:(lia)).
    replace (segment_start counts s + reached_after n g j + (reached_after n g (S j) - reached_after n g j))%nat
      with at_sample in P by (unfold at_sample; lia).
    set (len := (reached_after n g (S j) - reached_after n g j)%nat) in *.
    assert (NZ : INR len <> 0) by (apply not_0_INR; unfold len; lia).
    destruct P as (-> & -> & Ph). split; [field; assumption|]. split; [field; assumption|].
    intros [a Ha] [a' Ha']. destruct (Ph a a' Ha Ha') as (turn & _ & [k T] & -> & ->).
    destruct Ha' as [-> ->].
    replace (a + INR len * turn / INR len) with (a' + 2 * IZR k * PI)
      by (rewrite T; field; assumption).
    rewrite cos_2kPI, sin_2kPI. split; reflexivity.
  Qed.

  Lemma C06_proof : (forall p, In (OWptInitialGuessPoint 0 p) h -> unit_rot (pRot p)) ->
    forall i, (i < length (s_thetacos sol))%nat ->
      nth i (s_thetacos sol) 0 * nth i (s_thetacos sol) 0 +
      nth i (s_thetasin sol) 0 * nth i (s_thetasin sol) 0 = 1.
  Proof.
    intros U i Hi. destruct hist_ok as [L Hsol]. rewrite Hsol. rewrite Hsol in Hi.
    destruct (guess_result_fields (b_guess b) counts) as (_ & _ & EC & ES & _). rewrite EC, ES. rewrite EC in Hi.
    destruct i as [|i].
    - cbn [nth]. rewrite hist_first. change (unit_rot (pRot (last_guess zero_pose h 0))).
      assert (G : forall l d, unit_rot (pRot d) ->
        (forall p, In (OWptInitialGuessPoint 0 p) l -> unit_rot (pRot p)) ->
        unit_rot (pRot (last_guess d l 0))).
      { induction l as [|o l IH]; intros d Hd Hl; [exact Hd|]. cbn [last_guess].
        apply IH; [|intros; apply Hl; right; assumption].
        destruct o; cbn [wpt_guess]; try exact Hd.
        - destruct (Nat.eqb_spec 0 index); [|exact Hd]. unfold unit_rot. cbn. apply pyth.
        - destruct (Nat.eqb_spec 0 index); [|exact Hd]. unfold unit_rot. cbn. apply pyth.
        - destruct (Nat.eqb_spec 0 wptIndex) as [<-|]; [|exact Hd]. apply Hl. left. reflexivity. }
      apply G; [unfold unit_rot; cbn; apply pyth|assumption].
    - cbn [nth length] in *. apply Nat.succ_lt_mono in Hi.
      set (C := flat_map _ _) in *. set (S' := flat_map _ _).
      assert (CS : C = map (@ncos R _) (flat_map (fun '(p, q, n) =>
                 AngleLinspace (rot_radians (pRot p)) (rot_radians (pRot q)) n) (all_legs (b_guess b) counts))).
      { unfold C. rewrite map_flat_map. apply flat_map_ext. intros [[? ?] ?]. reflexivity. }
      assert (SS : S' = map (@nsin R _) (flat_map (fun '(p, q, n) =>
                 AngleLinspace (rot_radians (pRot p)) (rot_radians (pRot q)) n) (all_legs (b_guess b) counts))).
      { unfold S'. rewrite map_flat_map. apply flat_map_ext. intros [[? ?] ?]. reflexivity. }
      rewrite CS, SS. rewrite CS, map_length in Hi.
      rewrite (nth_indep _ 0 (ncos 0)) by (rewrite map_length; exact Hi). rewrite map_nth.
      rewrite (nth_indep (map nsin _) 0 (nsin 0)) by (rewrite map_length; exact Hi). rewrite map_nth.
      cbn [ncos nsin Arith_R]. apply pyth.
  Qed.
End History.
