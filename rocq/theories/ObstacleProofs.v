(** Proofs of C40. *)
From Coq Require Import Reals Lra Lia List ZArith.
Import ListNotations.
From Verif Require Import Outcome Num NumR Geometry Expr Constraints Builder Generator Spec SpecBuilder SpecPhysics
  SpecTrajectory SpecGenerator SpecObstacle UtilFacts BuilderFacts BuilderEffects BuilderProofs BuilderHistory HistoryFacts
  SolutionProofs SegmentFacts.
Open Scope R_scope.

(** ** Outlines *)
Lemma consecutive_ends : forall {A} (ps : list A) a b, In (a, b) (consecutive ps) -> In a ps /\ In b ps.
Proof.
  intros A ps a b H. unfold consecutive in H. split; [exact (in_combine_l _ _ _ _ H)|].
  apply in_combine_r in H. destruct ps; [exact H|right; exact H].
Qed.
Lemma outline_ends : forall (ps : list (Translation2 R)) a b, In (a, b) (outline ps) -> In a ps /\ In b ps.
Proof.
  intros ps a b H. unfold outline, outline_from in H. apply in_app_or in H. destruct H as [H|H].
  - exact (consecutive_ends ps a b H).
  - destruct (3 <=? length ps) eqn:E; [|destruct H]. apply Nat.leb_le in E. destruct H as [H|[]]. injection H as <- <-.
    split; apply nth_In; lia.
Qed.
Lemma corner_on_edge : forall (ps : list (Translation2 R)) c, (2 <= length ps)%nat -> In c ps ->
  exists a b, In (a, b) (outline ps) /\ (c = a \/ c = b).
Proof.
  intros ps c L H. destruct ps as [|p ps]; [destruct H|]. destruct ps as [|p' ps]; [simpl in L; lia|].
  assert (G : forall l p p', In c (p :: p' :: l) -> exists a b, In (a, b) (consecutive (p :: p' :: l)) /\ (c = a \/ c = b)).
  { induction l as [|x l IH]; intros q q' I.
    - exists q, q'. split; [left; reflexivity|]. destruct I as [<-|[<-|[]]]; auto.
    - destruct I as [<-|I]; [exists q, q'; split; [left; reflexivity|left; reflexivity]|].
      destruct (IH q' x I) as (a & b & J & K). exists a, b. split; [right; exact J|exact K]. }
  destruct (G ps p p' H) as (a & b & I & E). exists a, b. split; [|exact E].
  unfold outline, outline_from. apply in_or_app. left. exact I.
Qed.
Lemma endpoint_l : forall a b, on_segment a b a.
Proof. intros a b. exists 0. split; [lra|]. symmetry. apply along_0. Qed.
Lemma endpoint_r : forall a b, on_segment a b b.
Proof. intros a b. exists 1. split; [lra|]. symmetry. apply along_1. Qed.

Lemma outline_edges : forall f (ps : list (Translation2 R)) p, (2 <= length ps)%nat -> on_outline f ps p ->
  exists a b, In (a, b) (outline ps) /\ on_segment (f a) (f b) p.
Proof.
  intros f ps p L [(c & H & ->)|H]; [|exact H].
  destruct (corner_on_edge ps c L H) as (a & b & I & [-> | ->]); exists a, b; split; try exact I;
    [apply endpoint_l|apply endpoint_r].
Qed.

(** ** One bumper, one obstacle, one state *)
Lemma in_pair_edges : forall d bu ob oe a b q, In (a, b) (outline bu) -> In q ob ->
  In (LinePoint a b q d) (pair_constraints d bu ob oe).
Proof.
  intros d bu ob oe a b q H I. unfold pair_constraints. apply in_or_app. left. apply in_flat_map. exists q.
  split; [exact I|]. apply in_map_iff. exists (a, b). split; [reflexivity|exact H].
Qed.
Lemma in_pair_corners : forall d bu ob oe r a b, length ob <> 1%nat -> In r bu -> In (a, b) oe ->
  In (PointLine r a b d) (pair_constraints d bu ob oe).
Proof.
  intros d bu ob oe r a b L I H. unfold pair_constraints. apply in_or_app. right. apply in_flat_map. exists r.
  split; [exact I|]. destruct ob as [|? [|? ?]]; try (exfalso; apply L; reflexivity);
    apply in_map_iff; exists (a, b); (split; [reflexivity|exact H]).
Qed.
Lemma in_pair_points : forall d bu q oe r, In r bu -> In (PointPoint r q d) (pair_constraints d bu [q] oe).
Proof.
  intros d bu q oe r I. unfold pair_constraints. apply in_or_app. right. apply in_flat_map. exists r.
  split; [exact I|left; reflexivity].
Qed.

Lemma pair_apart : forall s (bu o : obstacle R) d,
  (forall c, In c (pair_constraints d (o_points bu) (o_points o) (outline (o_points o))) -> demands s c) ->
  length (o_points bu) <> 1%nat \/ length (o_points o) <> 1%nat ->
  touching s bu o \/ outlines_apart s bu o (sqrt (Rabs d)).
Proof.
  intros s bu o d H N.
  destruct (Classical_Prop.classic (touching s bu o)) as [T|T]; [left; exact T|]. right.
  intros p q Hp Hq.
  set (B := o_points bu) in *. set (O := o_points o) in *.
  assert (EC : forall a b c, In (a, b) (outline B) -> In c O -> clear_of_segment (placed s a) (placed s b) (pt c) (sqrt (Rabs d))).
  { intros a b c I J. exact (proj2 (H _ (in_pair_edges d B O (outline O) a b c I J))). }
  destruct (Nat.eq_dec (length O) 1) as [L1|L1].
  - (* a point obstacle, a bumper with edges *)
    destruct O as [|c [|? ?]] eqn:EO; try discriminate L1.
    assert (Eq : q = pt c).
    { destruct Hq as [(c' & [<-|[]] & ->)|(a & b & I & _)]; [reflexivity|]. destruct I. }
    subst q. destruct (Nat.eq_dec (length B) 0) as [L0|L0].
    + exfalso. destruct B; [|discriminate]. destruct Hp as [(c' & [] & _)|(a & b & [] & _)].
    + destruct (outline_edges (placed s) B p ltac:(simpl in N; lia) Hp) as (a & b & I & S).
      apply (EC a b c I (or_introl eq_refl)). exact S.
  - assert (CE : forall r a b, In r B -> In (a, b) (outline O) -> clear_of_segment (pt a) (pt b) (placed s r) (sqrt (Rabs d))).
    { intros r a b I J. exact (proj2 (H _ (in_pair_corners d B O (outline O) r a b L1 I J))). }
    destruct (Nat.eq_dec (length O) 0) as [L0|L0].
    { exfalso. destruct O; [|discriminate]. destruct Hq as [(c' & [] & _)|(a & b & [] & _)]. }
    destruct (outline_edges pt O q ltac:(lia) Hq) as (c & e & J & Sq).
    destruct Hp as [(r & I & ->)|(a & b & I & Sp)].
    + rewrite dist2_sym. apply (CE r c e I J). exact Sq.
    + destruct (outline_ends B a b I) as [Ia Ib]. destruct (outline_ends O c e J) as [Jc Je].
      destruct (segments_apart (placed s a) (placed s b) (pt c) (pt e) (sqrt (Rabs d))
        (EC a b c I Jc) (EC a b e I Je) (CE a c e Ia J) (CE b c e Ib J)) as [(x & X1 & X2)|G].
      * exfalso. apply T. exists x. split; right; [exists a, b|exists c, e]; (split; assumption).
      * apply G; assumption.
Qed.

Lemma pair_points_apart : forall s (bu o : obstacle R) d,
  (forall c, In c (pair_constraints d (o_points bu) (o_points o) (outline (o_points o))) -> demands s c) ->
  length (o_points bu) = 1%nat -> length (o_points o) = 1%nat ->
  outlines_apart s bu o (Rabs d).
Proof.
  intros s bu o d H N M p q Hp Hq.
  destruct (o_points bu) as [|r [|? ?]]; try discriminate N. destruct (o_points o) as [|c [|? ?]]; try discriminate M.
  destruct Hp as [(r' & [<-|[]] & ->)|(a & b & [] & _)]. destruct Hq as [(c' & [<-|[]] & ->)|(a & b & [] & _)].
  apply (H (PointPoint r c d)). apply in_pair_points. left. reflexivity.
Qed.

(** ** From the history to the demands *)
Lemma in_actual : forall (bs1 : list (obstacle R)) bu bs2 o c,
  (length (o_points o) = 1%nat -> Forall (fun b => length (o_points b) <> 1%nat) bs1) ->
  (length (o_points o) = length (o_points bu) \/ (length (o_points o) < 3)%nat) ->
  In c (pair_constraints (o_safetyDistance bu + o_safetyDistance o) (o_points bu) (o_points o) (outline (o_points o))) ->
  In c (actual_obstacle (bs1 ++ bu :: bs2) o).
Proof.
  intros bs1 bu bs2 o c S M I. induction bs1 as [|b bs1 IH].
  - cbn [app actual_obstacle]. apply in_or_app. left.
    replace (outline_from (length (o_points bu) - 1) (o_points o)) with (outline (o_points o)); [exact I|].
    unfold outline. destruct M as [M|M]; [rewrite M; reflexivity|].
    unfold outline_from. rewrite (proj2 (Nat.leb_gt 3 (length (o_points o)))) by lia. reflexivity.
  - cbn [app actual_obstacle]. apply in_or_app. right.
    replace ((length (o_points b) =? 1)%nat && (length (o_points o) =? 1)%nat)%bool with false.
    + apply IH. intros E. specialize (S E). inversion S. assumption.
    + symmetry. apply Bool.andb_false_iff. rewrite !Nat.eqb_neq.
      destruct (Nat.eq_dec (length (o_points o)) 1) as [E|E]; [left|right; exact E].
      specialize (S E). inversion S. assumption.
Qed.

Lemma obstacle_demands : forall asserts h1 call h2 handle d g sol o i c,
  good_history asserts (h1 ++ call :: h2) -> generator asserts (h1 ++ call :: h2) handle d g -> solved g sol ->
  avoids (counts asserts (h1 ++ call :: h2)) call o i ->
  In c (actual_obstacle (flat_map bumper_request h1) o) -> demands (at_sample sol i) c.
Proof.
  intros asserts h1 call h2 handle d g sol o i c GH Gn Sv A I.
  pose proof (solved_requests asserts _ handle d g sol GH Gn Sv) as [M1 M2].
  assert (W : forall w, In c (wpt_request (flat_map bumper_request h1) call w) -> In c (wpt_requests [] (h1 ++ call :: h2) w)).
  { intros w J. apply in_wpt_requests. exists h1, call, h2. split; [reflexivity|exact J]. }
  assert (S : forall w, In c (sgmt_request (flat_map bumper_request h1) call w) -> In c (sgmt_requests [] (h1 ++ call :: h2) w)).
  { intros w J. apply in_sgmt_requests. exists h1, call, h2. split; [reflexivity|exact J]. }
  destruct call; cbn [avoids] in A; try contradiction.
  - destruct A as (-> & Hw & ->). apply (M1 index); [exact Hw|]. apply W. cbn [wpt_request].
    rewrite Nat.eqb_refl. exact I.
  - destruct A as (-> & Hf & Hi).
    assert (Hft : (fromIndex < toIndex)%nat).
    { destruct GH as (P & _). apply Forall_app in P. destruct P as [_ P]. inversion P; subst.
      match goal with H : proper_call _ |- _ => apply H end. }
    refine (proj1 (range_demands (counts asserts _) sol fromIndex toIndex c Hft) _ Hf i Hi). split.
    + intros w Hl Hw. apply (M1 w c Hl). apply W. cbn [wpt_request].
      rewrite (proj2 (Nat.leb_le fromIndex w)), (proj2 (Nat.leb_le w toIndex)) by lia. exact I.
    + intros w j Hl Hw Hj. apply (M2 w c j Hl); [|exact Hj]. apply S. cbn [sgmt_request].
      rewrite (proj2 (Nat.ltb_lt fromIndex w)), (proj2 (Nat.leb_le w toIndex)) by lia. exact I.
Qed.

Lemma C40_partial_proof : forall asserts h1 call h2 handle d g sol o i bs1 bu bs2,
  good_history asserts (h1 ++ call :: h2) -> generator asserts (h1 ++ call :: h2) handle d g -> solved g sol ->
  avoids (counts asserts (h1 ++ call :: h2)) call o i ->
  flat_map bumper_request h1 = bs1 ++ bu :: bs2 ->
  (length (o_points o) = 1%nat -> Forall (fun b => length (o_points b) <> 1%nat) bs1) ->
  (length (o_points o) = length (o_points bu) \/ (length (o_points o) < 3)%nat) ->
  let s := at_sample sol i in
  let D := Rabs (o_safetyDistance bu + o_safetyDistance o) in
  if (length (o_points bu) =? 1)%nat && (length (o_points o) =? 1)%nat
  then outlines_apart s bu o D
  else touching s bu o \/ outlines_apart s bu o (sqrt D).
Proof.
  intros asserts h1 call h2 handle d g sol o i bs1 bu bs2 GH Gn Sv A EB S M s D.
  assert (H : forall c, In c (pair_constraints (o_safetyDistance bu + o_safetyDistance o) (o_points bu) (o_points o)
                               (outline (o_points o))) -> demands s c).
  { intros c I. apply (obstacle_demands asserts h1 call h2 handle d g sol o i c GH Gn Sv A). rewrite EB.
    apply in_actual; assumption. }
  destruct (_ && _)%bool eqn:E.
  - apply andb_prop in E. rewrite !Nat.eqb_eq in E. apply pair_points_apart; tauto.
  - apply Bool.andb_false_iff in E. rewrite !Nat.eqb_neq in E. apply pair_apart; tauto.
Qed.

Lemma C40_safe_proof : forall asserts h1 call h2 handle d g sol o i bs1 bu bs2,
  good_history asserts (h1 ++ call :: h2) -> generator asserts (h1 ++ call :: h2) handle d g -> solved g sol ->
  avoids (counts asserts (h1 ++ call :: h2)) call o i ->
  flat_map bumper_request h1 = bs1 ++ bu :: bs2 ->
  (length (o_points o) = 1%nat -> Forall (fun b => length (o_points b) <> 1%nat) bs1) ->
  (length (o_points o) = length (o_points bu) \/ (length (o_points o) < 3)%nat) ->
  0 <= o_safetyDistance bu + o_safetyDistance o <= 1 ->
  touching (at_sample sol i) bu o \/
  outlines_apart (at_sample sol i) bu o (o_safetyDistance bu + o_safetyDistance o).
Proof.
  intros asserts h1 call h2 handle d g sol o i bs1 bu bs2 GH Gn Sv A EB S M H.
  pose proof (C40_partial_proof asserts h1 call h2 handle d g sol o i bs1 bu bs2 GH Gn Sv A EB S M) as P. cbv zeta in P.
  rewrite Rabs_pos_eq in P by lra. set (D := o_safetyDistance bu + o_safetyDistance o) in *.
  assert (Q : D <= sqrt D).
  { apply (Rle_trans _ (sqrt (D * D))); [rewrite sqrt_square by lra; lra|]. apply sqrt_le_1_alt. nra. }
  destruct (_ && _)%bool; [right; exact P|]. destruct P as [P|P]; [left; exact P|right].
  intros p q Hp Hq. specialize (P p q Hp Hq). lra.
Qed.

(** ** Short sides *)
Lemma dist2_along : forall a b t, 0 <= t <= 1 ->
  dist2 (along a b t) a = t * dist2 a b /\ dist2 (along a b t) b = (1 - t) * dist2 a b.
Proof.
  intros [ax ay] [bx by_] t Ht. unfold dist2, along; cbn [fst snd].
  split.
  - rewrite <- (sqrt_square t) at 5 by lra. rewrite <- sqrt_mult_alt by nra. f_equal. ring.
  - rewrite <- (sqrt_square (1 - t)) at 1 by lra. rewrite <- sqrt_mult_alt by nra. f_equal. ring.
Qed.
Lemma crossing_long : forall a b p e, on_segment a b p -> e <= dist2 p a -> e <= dist2 p b -> 2 * e <= dist2 a b.
Proof.
  intros a b p e (t & Ht & ->) H1 H2. destruct (dist2_along a b t Ht) as [E1 E2]. rewrite E1 in H1. rewrite E2 in H2. lra.
Qed.

Lemma touching_long : forall s (bu o : obstacle R) d,
  (forall c, In c (pair_constraints d (o_points bu) (o_points o) (outline (o_points o))) -> demands s c) ->
  length (o_points bu) <> 1%nat -> length (o_points o) <> 1%nat -> touching s bu o ->
  (exists a b, In (a, b) (outline (o_points bu)) /\ 2 * sqrt (Rabs d) <= dist2 (placed s a) (placed s b)) /\
  (exists a b, In (a, b) (outline (o_points o)) /\ 2 * sqrt (Rabs d) <= dist2 (pt a) (pt b)).
Proof.
  intros s bu o d H LB LO (p & HB & HO).
  set (B := o_points bu) in *. set (O := o_points o) in *.
  assert (NB : forall (l : list (Translation2 R)) f, on_outline f l p -> length l <> 1%nat -> (2 <= length l)%nat).
  { intros l f Hl Ne. destruct l as [|x [|y l]]; [|exfalso; apply Ne; reflexivity|simpl; lia].
    destruct Hl as [(c & [] & _)|(a & b & [] & _)]. }
  destruct (outline_edges _ B p (NB _ _ HB LB) HB) as (a & b & I & S).
  destruct (outline_edges _ O p (NB _ _ HO LO) HO) as (c & e & J & T).
  destruct (outline_ends B a b I) as [Ia Ib]. destruct (outline_ends O c e J) as [Jc Je].
  split; [exists a, b; split; [exact I|]|exists c, e; split; [exact J|]].
  - apply (crossing_long _ _ p); [exact S| |].
    + exact (proj2 (H _ (in_pair_corners d B O (outline O) a c e LO Ia J)) p T).
    + exact (proj2 (H _ (in_pair_corners d B O (outline O) b c e LO Ib J)) p T).
  - apply (crossing_long _ _ p); [exact T| |].
    + exact (proj2 (H _ (in_pair_edges d B O (outline O) a b c I Jc)) p S).
    + exact (proj2 (H _ (in_pair_edges d B O (outline O) a b e I Je)) p S).
Qed.

Lemma C40_short_proof : forall asserts h1 call h2 handle d g sol o i bs1 bu bs2,
  good_history asserts (h1 ++ call :: h2) -> generator asserts (h1 ++ call :: h2) handle d g -> solved g sol ->
  avoids (counts asserts (h1 ++ call :: h2)) call o i ->
  flat_map bumper_request h1 = bs1 ++ bu :: bs2 ->
  (length (o_points o) = length (o_points bu) \/ (length (o_points o) < 3)%nat) ->
  length (o_points bu) <> 1%nat -> length (o_points o) <> 1%nat ->
  let s := at_sample sol i in
  let D := Rabs (o_safetyDistance bu + o_safetyDistance o) in
  (forall a b, In (a, b) (outline (o_points bu)) -> dist2 (placed s a) (placed s b) < 2 * sqrt D) \/
  (forall a b, In (a, b) (outline (o_points o)) -> dist2 (pt a) (pt b) < 2 * sqrt D) ->
  outlines_apart s bu o (sqrt D).
Proof.
  intros asserts h1 call h2 handle d g sol o i bs1 bu bs2 GH Gn Sv A EB M LB LO s D Sh.
  assert (H : forall c, In c (pair_constraints (o_safetyDistance bu + o_safetyDistance o) (o_points bu) (o_points o)
                               (outline (o_points o))) -> demands s c).
  { intros c I. apply (obstacle_demands asserts h1 call h2 handle d g sol o i c GH Gn Sv A). rewrite EB.
    apply in_actual; try assumption. intros; contradiction. }
  destruct (pair_apart s bu o _ H (or_introl LB)) as [T|T]; [|exact T]. exfalso.
  destruct (touching_long s bu o _ H LB LO T) as [(a & b & I & L) (c & e & J & L')].
  fold D in L, L'. destruct Sh as [Sh|Sh]; [specialize (Sh a b I)|specialize (Sh c e J)]; lra.
Qed.
