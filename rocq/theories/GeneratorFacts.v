(** Closed form of the constructed optimisation problem, for every number type. *)
From Coq Require Import List Lia.
Import ListNotations.
From Verif Require Import Outcome Num Geometry Expr Constraints Util Builder Guess Generator SpecBuilder
  UtilFacts BuilderFacts BuilderHistory GuessFacts GuessProofs.
Local Close Scope R_scope.
Local Close Scope Q_scope.
Local Close Scope num_scope.
Local Open Scope nat_scope.

(** ** Lists *)
Lemma upd_mid : forall {A} (l1 : list A) a l2 f, upd (l1 ++ a :: l2) (length l1) f = l1 ++ f a :: l2.
Proof. induction l1; intros; simpl; [reflexivity|]. f_equal. apply IHl1. Qed.
Lemma upd_at_mid : forall {A} (l1 : list A) a l2 i f, length l1 = i ->
  upd_at (l1 ++ a :: l2) i f = Ok (l1 ++ f a :: l2).
Proof.
  intros A l1 a l2 i f <-. unfold upd_at.
  rewrite (proj2 (Nat.ltb_lt _ _)) by (rewrite app_length; simpl; lia).
  rewrite upd_mid. reflexivity.
Qed.
Lemma repeat_S_app : forall {A} (a : A) n, repeat a (S n) = a :: repeat a n.
Proof. reflexivity. Qed.
Lemma map_seq_S : forall {A} (f : nat -> A) n, map f (seq 0 (S n)) = map f (seq 0 n) ++ [f n].
Proof. intros. rewrite seq_S, map_app. reflexivity. Qed.
Lemma at_map_seq : forall {A} (f : nat -> A) n i, i < n -> at_ (map f (seq 0 n)) i = Ok (f i).
Proof.
  intros. unfold at_. rewrite nth_error_map_seq.
  rewrite (proj2 (Nat.ltb_lt _ _)) by assumption. reflexivity.
Qed.
Lemma idx_map_seq : forall {A} (f : nat -> A) n i, i < n -> idx (map f (seq 0 n)) i = Ok (f i).
Proof.
  intros. unfold idx. rewrite nth_error_map_seq.
  rewrite (proj2 (Nat.ltb_lt _ _)) by assumption. reflexivity.
Qed.
Lemma fold_left_flat : forall {A B} (g : A -> list B) l acc,
  fold_left (fun acc a => acc ++ g a) l acc = acc ++ flat_map g l.
Proof.
  induction l; intros; simpl; [rewrite app_nil_r; reflexivity|].
  rewrite IHl, app_assoc. reflexivity.
Qed.

Section Layout.
  Context {K : Type} {HA : Arith K} {HD : Dbl K}.

  (** ** The decision variables *)
  (** State quantity [q] (0..9: x y cos sin vx vy omega ax ay alpha) of sample
      [i], force components of module [j], time step of segment [s]. *)
  Definition width (m : nat) : nat := 10 + 2 * m.
  Definition sv (m q i : nat) : expr K := EVar (i * width m + q).
  Definition fxv (m i j : nat) : expr K := EVar (i * width m + (10 + 2 * j)).
  Definition fyv (m i j : nat) : expr K := EVar (i * width m + (11 + 2 * j)).
  Definition dtv (T m s : nat) : expr K := EVar (T * width m + s).

  Definition force_rows (f : nat -> nat -> expr K) (n m : nat) : list (list (expr K)) :=
    map (fun i => map (f i) (seq 0 m)) (seq 0 n).

  (** The variables after [n] of [T] samples and [s] segments. *)
  Definition layout_upto (T m n s : nat) : vars K :=
    mkVars (map (sv m 0) (seq 0 n)) (map (sv m 1) (seq 0 n)) (map (sv m 2) (seq 0 n))
      (map (sv m 3) (seq 0 n)) (map (sv m 4) (seq 0 n)) (map (sv m 5) (seq 0 n))
      (map (sv m 6) (seq 0 n)) (map (sv m 7) (seq 0 n)) (map (sv m 8) (seq 0 n))
      (map (sv m 9) (seq 0 n))
      (force_rows (fxv m) n m ++ repeat [] (T - n))
      (force_rows (fyv m) n m ++ repeat [] (T - n))
      (map (dtv T m) (seq 0 s)).
  Definition layout (T m s : nat) : vars K :=
    mkVars (map (sv m 0) (seq 0 T)) (map (sv m 1) (seq 0 T)) (map (sv m 2) (seq 0 T))
      (map (sv m 3) (seq 0 T)) (map (sv m 4) (seq 0 T)) (map (sv m 5) (seq 0 T))
      (map (sv m 6) (seq 0 T)) (map (sv m 7) (seq 0 T)) (map (sv m 8) (seq 0 T))
      (map (sv m 9) (seq 0 T)) (force_rows (fxv m) T m) (force_rows (fyv m) T m)
      (map (dtv T m) (seq 0 s)).
  Lemma layout_full : forall T m s, layout_upto T m T s = layout T m s.
  Proof. intros. unfold layout_upto. rewrite Nat.sub_diag. simpl repeat. rewrite !app_nil_r. reflexivity. Qed.

  Definition with_nvars (p : problem K) (n : nat) : problem K :=
    mkProblem n (pr_cons p) (pr_obj p) (pr_vals p).

  Lemma alloc_modules_ok : forall i k (Fx Fy Fx2 Fy2 : list (list (expr K))) p base x y c s vx vy om ax ay al dt,
    length Fx = i -> length Fy = i -> pr_nvars p = base ->
    foldM (alloc_module i) (seq 0 k)
      (mkVars x y c s vx vy om ax ay al (Fx ++ [] :: Fx2) (Fy ++ [] :: Fy2) dt, p)
    = Ok (mkVars x y c s vx vy om ax ay al
            (Fx ++ map (fun j => EVar (base + 2 * j)) (seq 0 k) :: Fx2)
            (Fy ++ map (fun j => EVar (base + (1 + 2 * j))) (seq 0 k) :: Fy2) dt,
          with_nvars p (base + 2 * k)).
  Proof.
    intros i k Fx Fy Fx2 Fy2 p base x y c s vx vy om ax ay al dt LX LY NB. induction k as [|k IH].
    - simpl. rewrite Nat.add_0_r, <- NB. destruct p; reflexivity.
    - rewrite seq_S, foldM_app, IH. cbn [obind foldM Nat.add].
      unfold alloc_module at 1. cbn [pr_decvar v_x v_y v_cos v_sin v_vx v_vy v_omega v_ax v_ay v_alpha v_Fx v_Fy v_dt].
      rewrite upd_at_mid by assumption. cbn [obind].
      rewrite upd_at_mid by assumption. cbn [obind].
      unfold with_nvars. cbn [pr_nvars pr_cons pr_obj pr_vals].
      rewrite !map_app. cbn [map].
      replace (base + 2 * S k) with (S (S (base + 2 * k))) by lia.
      replace (base + S (2 * k)) with (S (base + 2 * k)) by lia. reflexivity.
  Qed.

  Lemma alloc_sample_eq : forall m i (v : vars K) n cs o vals,
    alloc_sample m i (v, mkProblem n cs o vals)
    = foldM (alloc_module i) (seq 0 m)
        (mkVars (v_x v ++ [EVar n]) (v_y v ++ [EVar (S n)]) (v_cos v ++ [EVar (S (S n))])
           (v_sin v ++ [EVar (S (S (S n)))]) (v_vx v ++ [EVar (S (S (S (S n))))])
           (v_vy v ++ [EVar (S (S (S (S (S n)))))]) (v_omega v ++ [EVar (S (S (S (S (S (S n))))))])
           (v_ax v ++ [EVar (S (S (S (S (S (S (S n)))))))])
           (v_ay v ++ [EVar (S (S (S (S (S (S (S (S n))))))))])
           (v_alpha v ++ [EVar (S (S (S (S (S (S (S (S (S n)))))))))])
           (v_Fx v) (v_Fy v) (v_dt v),
         mkProblem (S (S (S (S (S (S (S (S (S (S n)))))))))) cs o vals).
  Proof. reflexivity. Qed.

  Lemma force_rows_S : forall f n m, force_rows f (S n) m = force_rows f n m ++ [map (f n) (seq 0 m)].
  Proof. intros. unfold force_rows. rewrite map_seq_S. reflexivity. Qed.
  Lemma force_rows_length : forall f n m, length (force_rows f n m) = n.
  Proof. intros. unfold force_rows. rewrite map_length, seq_length. reflexivity. Qed.

  Lemma alloc_samples_ok : forall T m p, pr_nvars p = 0 ->
    alloc_samples T m p = Ok (layout T m 0, with_nvars p (T * width m)).
  Proof.
    intros T m p P0. unfold alloc_samples.
    assert (G : forall n, n <= T ->
      foldM (alloc_sample m) (seq 0 n)
        (mkVars [] [] [] [] [] [] [] [] [] [] (repeat [] T) (repeat [] T) [], p)
      = Ok (layout_upto T m n 0, with_nvars p (n * width m))).
    { induction n as [|n IH]; intros Hn.
      - simpl. unfold layout_upto. rewrite Nat.sub_0_r. destruct p; cbn in P0; subst; reflexivity.
      - rewrite seq_S, foldM_app, IH by lia. cbn [obind foldM Nat.add].
        unfold with_nvars at 1. rewrite alloc_sample_eq. unfold layout_upto.
        cbn [v_x v_y v_cos v_sin v_vx v_vy v_omega v_ax v_ay v_alpha v_Fx v_Fy v_dt].
        replace (T - n) with (S (T - S n)) by lia. rewrite !repeat_S_app.
        erewrite alloc_modules_ok;
          [|apply force_rows_length|apply force_rows_length|cbn [pr_nvars]; reflexivity].
        cbn [obind pr_cons pr_obj pr_vals]. unfold with_nvars. cbn [pr_cons pr_obj pr_vals].
        rewrite !map_seq_S, !force_rows_S.
        rewrite <- !app_assoc. cbn [app].
        unfold sv. rewrite Nat.add_0_r.
        replace (S n * width m) with (S (S (S (S (S (S (S (S (S (S (n * width m)))))))))) + 2 * m)
          by (unfold width; lia).
        unfold fxv, fyv.
        replace (n * width m + 1) with (S (n * width m)) by lia.
        replace (n * width m + 2) with (S (S (n * width m))) by lia.
        replace (n * width m + 3) with (S (S (S (n * width m)))) by lia.
        replace (n * width m + 4) with (S (S (S (S (n * width m))))) by lia.
        replace (n * width m + 5) with (S (S (S (S (S (n * width m)))))) by lia.
        replace (n * width m + 6) with (S (S (S (S (S (S (n * width m))))))) by lia.
        replace (n * width m + 7) with (S (S (S (S (S (S (S (n * width m)))))))) by lia.
        replace (n * width m + 8) with (S (S (S (S (S (S (S (S (n * width m))))))))) by lia.
        replace (n * width m + 9) with (S (S (S (S (S (S (S (S (S (n * width m)))))))))) by lia.
        rewrite (map_ext (fun j => EVar (S (S (S (S (S (S (S (S (S (S (n * width m)))))))))) + 2 * j))
                   (fun j => EVar (n * width m + (10 + 2 * j)))) by (intros; f_equal; lia).
        rewrite (map_ext (fun j => EVar (S (S (S (S (S (S (S (S (S (S (n * width m)))))))))) + (1 + 2 * j)))
                   (fun j => EVar (n * width m + (11 + 2 * j)))) by (intros; f_equal; lia).
        reflexivity. }
    rewrite G by lia. rewrite layout_full. reflexivity.
  Qed.

  (** ** Recording constraints *)
  Lemma subject_app : forall (p : problem K) a b, pr_subject (pr_subject p a) b = pr_subject p (a ++ b).
  Proof. intros. unfold pr_subject. cbn. rewrite app_assoc. reflexivity. Qed.
  Lemma subject_nil : forall p : problem K, pr_subject p [] = p.
  Proof. intros []. unfold pr_subject. cbn. rewrite app_nil_r. reflexivity. Qed.
  Lemma foldM_subject : forall {A} (f : A -> problem K -> outcome (problem K)) (g : A -> list (ccons K)) l p,
    (forall a p, In a l -> f a p = Ok (pr_subject p (g a))) ->
    foldM f l p = Ok (pr_subject p (flat_map g l)).
  Proof.
    induction l as [|a l IH]; intros p Hf; simpl.
    - rewrite subject_nil. reflexivity.
    - rewrite Hf by (left; reflexivity). simpl. rewrite IH by (intros; apply Hf; right; assumption).
      rewrite subject_app. reflexivity.
  Qed.
  Lemma fold_subject : forall {A} (g : A -> list (ccons K)) l p,
    fold_left (fun p a => pr_subject p (g a)) l p = pr_subject p (flat_map g l).
  Proof.
    induction l as [|a l IH]; intros p; simpl; [rewrite subject_nil; reflexivity|].
    rewrite IH, subject_app. reflexivity.
  Qed.

  (** ** minWidth *)
  Definition pair_width (w : option K) (ab : swerve_module K * swerve_module K) : option K :=
    let '(a, b) := ab in
    width_min (width_min w (nabs (nsub (tX (m_translation a)) (tX (m_translation b)))))
      (nabs (nsub (tY (m_translation a)) (tY (m_translation b)))).
  Definition width_of (ms : list (swerve_module K)) : option K :=
    fold_left pair_width (consecutive ms) None.

  Lemma at_mid : forall {A} (l1 : list A) a l2, at_ (l1 ++ a :: l2) (length l1) = Ok a.
  Proof. intros. unfold at_. rewrite nth_error_app2 by lia. rewrite Nat.sub_diag. reflexivity. Qed.

  Lemma minWidth_ok : forall ms, minWidth ms = Ok (width_of ms).
  Proof.
    intros ms. unfold minWidth, width_of.
    assert (G : forall l pre a w, ms = pre ++ a :: l ->
      foldM (width_step ms) (seq (S (length pre)) (length l)) w
      = Ok (fold_left pair_width (consecutive (a :: l)) w)).
    { induction l as [|b l IH]; intros pre a w E; [reflexivity|].
      cbn [length seq foldM]. unfold width_step at 1.
      replace (S (length pre) - 1) with (length pre) by lia.
      assert (A1 : at_ ms (length pre) = Ok a) by (rewrite E; apply at_mid).
      assert (A2 : at_ ms (S (length pre)) = Ok b).
      { rewrite E. replace (pre ++ a :: b :: l) with ((pre ++ [a]) ++ b :: l) by (rewrite <- app_assoc; reflexivity).
        replace (S (length pre)) with (length (pre ++ [a])) by (rewrite app_length; simpl; lia). apply at_mid. }
      rewrite A1. cbn [obind]. rewrite A2. cbn [obind].
      replace (S (S (length pre))) with (S (length (pre ++ [a]))) by (rewrite app_length; simpl; lia).
      rewrite (IH (pre ++ [a]) b) by (rewrite E, <- app_assoc; reflexivity).
      reflexivity. }
    destruct ms as [|a l]; [reflexivity|].
    replace (length (a :: l) - 1) with (length l) by (simpl; lia).
    apply (G l []). reflexivity.
  Qed.

  (** ** The constraints of each phase *)
  Section Phases.
    Variables (T m S0 : nat) (N : list nat).
    Notation lay := (layout T m S0).

    (** Time step constraints of segment [s]. *)
    Definition step_cons (ms : list (swerve_module K)) (s : nat) : list (ccons K) :=
      map (width_cons (width_of ms) (dtv T m s)) ms.

    Definition pos (i : nat) : Translation2 (expr K) := mkTr (sv m 0 i) (sv m 1 i).
    Definition heading (i : nat) : Rotation2 (expr K) := mkRot (sv m 2 i) (sv m 3 i).
    Definition vel (i : nat) : Translation2 (expr K) := mkTr (sv m 4 i) (sv m 5 i).
    Definition acc (i : nat) : Translation2 (expr K) := mkTr (sv m 7 i) (sv m 8 i).

    (** Kinematics between samples [i-1] and [i] of segment [s]. *)
    Definition kin_cons (s i : nat) : list (ccons K) :=
      tr_eq (tr_add (pos (i - 1)) (tr_scale (vel i) (dtv T m s))) (pos i) ++
      rot_eq true true (rot_sub (heading i) (heading (i - 1)))
        (rot_angle (nmul (sv m 6 i) (dtv T m s))) ++
      tr_eq (tr_add (vel (i - 1)) (tr_scale (acc i) (dtv T m s))) (vel i) ++
      [CEq (nadd (sv m 6 (i - 1)) (nmul (sv m 9 i) (dtv T m s))) (sv m 6 i)].

    (** First sample of segment [s], minus one: the sample of waypoint [s]. *)
    Definition start (s : nat) : nat := list_sum (firstn s N).

    Definition module0 : swerve_module K := mkModule (mkTr (nlit 0) (nlit 0)) (nlit 0) (nlit 0) (nlit 0).

    Definition tau_net (ms : list (swerve_module K)) (i : nat) : expr K :=
      fold_left (fun tau j =>
        nadd tau (tr_cross (tr_rotateBy (tr_map EConst (m_translation (nth j ms module0))) (heading i))
                    (mkTr (fxv m i j) (fyv m i j)))) (seq 0 (length ms)) (nlit 0).

    Definition power_cons (ms : list (swerve_module K)) (i j : nat) : list (ccons K) :=
      let md := nth j ms module0 in
      let v := tr_rotateBy (vel i) (rot_neg (heading i)) in
      let w := mkTr (nsub (tX v) (nmul (EConst (tY (m_translation md))) (sv m 6 i)))
                    (nadd (tY v) (nmul (EConst (tX (m_translation md))) (sv m 6 i))) in
      let vmax := nmul (m_wheelRadius md) (m_wheelMaxAngularVelocity md) in
      let fmax := ndiv (m_wheelMaxTorque md) (m_wheelRadius md) in
      [CLe (tr_sqnorm w) (EConst (nmul vmax vmax));
       CLe (tr_sqnorm (mkTr (fxv m i j) (fyv m i j))) (EConst (nmul fmax fmax))].

    Definition dyn_cons (d : drivetrain K) (i : nat) : list (ccons K) :=
      flat_map (power_cons (d_modules d) i) (seq 0 (length (d_modules d))) ++
      [CEq (fold_left nadd (map (fxv m i) (seq 0 m)) (nlit 0)) (nmul (EConst (d_mass d)) (sv m 7 i));
       CEq (fold_left nadd (map (fyv m i) (seq 0 m)) (nlit 0)) (nmul (EConst (d_mass d)) (sv m 8 i));
       CEq (tau_net (d_modules d) i) (nmul (EConst (d_moi d)) (sv m 9 i))].

    (** One requested constraint at sample [i]. *)
    Definition applied (i : nat) (c : constraint K) : list (ccons K) :=
      Apply (mkPose (pos i) (heading i)) (vel i) (sv m 6 i) (acc i) c.

    Definition objective : expr K :=
      fold_left (fun t s => nadd t (nmul (dtv T m s) (EConst (nofZ (to_i32 (Z.of_nat (nth s N 0)))))))
        (seq 0 (length N)) (nlit 0).

    Lemma alloc_dt_ok : forall (ms : list (swerve_module K)) p, pr_nvars p = T * width m ->
      forall n, foldM (alloc_dt (width_of ms) ms) (seq 0 n) (layout T m 0, p)
      = Ok (layout T m n, pr_subject (with_nvars p (T * width m + n)) (flat_map (step_cons ms) (seq 0 n))).
    Proof.
      intros ms p P0. induction n as [|n IH].
      - simpl. rewrite subject_nil, Nat.add_0_r, <- P0. destruct p; reflexivity.
      - rewrite seq_S, foldM_app, IH. cbn [obind foldM Nat.add].
        unfold alloc_dt. cbn [pr_decvar pr_subject with_nvars pr_nvars pr_cons pr_obj pr_vals].
        rewrite (fold_subject (fun md => [width_cons (width_of ms) (EVar (T * width m + n)) md])).
        rewrite flat_map_app. unfold layout.
        cbn [v_x v_y v_cos v_sin v_vx v_vy v_omega v_ax v_ay v_alpha v_Fx v_Fy v_dt].
        rewrite (map_seq_S (dtv T m) n).
        unfold pr_subject, with_nvars. cbn [pr_nvars pr_cons pr_obj pr_vals].
        replace (T * width m + S n) with (S (T * width m + n)) by lia.
        rewrite <- app_assoc. cbn [flat_map]. rewrite app_nil_r.
        change (step_cons ms n) with (map (width_cons (width_of ms) (EVar (T * width m + n))) ms).
        replace (flat_map (fun md => [width_cons (width_of ms) (EVar (T * width m + n)) md]) ms)
          with (map (width_cons (width_of ms) (EVar (T * width m + n))) ms); [reflexivity|].
        generalize (width_of ms). intros w. clear.
        induction ms as [|b l' IH']; [reflexivity|]. simpl. rewrite <- IH'. reflexivity.
    Qed.

    (** Seeding values. *)
    Definition set_vals (p : problem K) (f : nat -> K) : problem K :=
      mkProblem (pr_nvars p) (pr_cons p) (pr_obj p) f.

    Lemma obj_ok : forall p, length N <= S0 -> exists vals,
      foldM (obj_step lay N) (seq 0 (length N)) (nlit 0, p)
      = Ok (objective, set_vals (pr_subject p (map (fun s => CGe (dtv T m s) (nlit 0)) (seq 0 (length N)))) vals) /\
      (forall s, s < length N -> vals (T * width m + s) = ndiv (nlit 5) (nofnat (nth s N 0))) /\
      (forall v, v < T * width m -> vals v = pr_vals p v).
    Proof.
      intros p L.
      assert (G : forall n, n <= length N -> exists vals,
        foldM (obj_step lay N) (seq 0 n) (nlit 0, p)
        = Ok (fold_left (fun t s => nadd t (nmul (dtv T m s) (EConst (nofZ (to_i32 (Z.of_nat (nth s N 0)))))))
                (seq 0 n) (nlit 0),
              set_vals (pr_subject p (map (fun s => CGe (dtv T m s) (nlit 0)) (seq 0 n))) vals) /\
        (forall s, s < n -> vals (T * width m + s) = ndiv (nlit 5) (nofnat (nth s N 0))) /\
        (forall v, v < T * width m -> vals v = pr_vals p v)).
      { induction n as [|n IH]; intros Hn.
        - exists (pr_vals p). simpl. rewrite subject_nil.
          split; [destruct p; reflexivity|]. split; [intros; lia|reflexivity].
        - destruct IH as (vals & E & V1 & V2); [lia|].
          exists (fun w => if w =? T * width m + n then ndiv (nlit 5) (nofnat (nth n N 0)) else vals w).
          rewrite seq_S, foldM_app, E. cbn [obind foldM Nat.add].
          unfold obj_step. cbn [v_dt layout].
          rewrite at_map_seq by lia. cbn [obind]. rewrite (at_ok N n 0) by lia. cbn [obind].
          unfold dtv at 4. cbn [pr_setvalue].
          rewrite fold_left_app, map_app. cbn [fold_left map].
          split; [|split].
          + unfold set_vals, pr_subject. cbn [pr_nvars pr_cons pr_obj pr_vals].
            rewrite <- app_assoc. reflexivity.
          + intros s Hs. destruct (Nat.eqb_spec (T * width m + s) (T * width m + n)) as [X|X].
            * replace s with n by lia. reflexivity.
            * apply V1. lia.
          + intros v Hv. destruct (Nat.eqb_spec v (T * width m + n)) as [X|X]; [lia|]. apply V2. assumption. }
      apply G. lia.
    Qed.

    Hypothesis HT : T = 1 + list_sum N.
    Hypothesis HS : length N = S0.

    Lemma start_lt : forall s k, s < length N -> k < nth s N 0 -> 1 + start s + k < T.
    Proof.
      intros s k Hs Hk. unfold start.
      pose proof (list_sum_firstn_S N s). pose proof (list_sum_firstn_le N (S s)). lia.
    Qed.

    Ltac ats := repeat (rewrite at_map_seq by lia; cbn [obind]).

    Lemma kin_sample_ok : forall s k p, s < length N -> k < nth s N 0 ->
      kin_sample lay N (S s) (dtv T m s) k p = Ok (pr_subject p (kin_cons s (1 + start s + k))).
    Proof.
      intros s k p Hs Hk. pose proof (start_lt s k Hs Hk). unfold kin_sample.
      rewrite GetIndex_S by lia. cbn [obind]. fold (start s).
      unfold layout; cbn [v_x v_y v_cos v_sin v_vx v_vy v_omega v_ax v_ay v_alpha v_Fx v_Fy v_dt]. ats.
      rewrite !subject_app. unfold kin_cons, pos, vel, acc, heading.
      rewrite <- ?app_assoc. reflexivity.
    Qed.

    Lemma kin_ok : forall p,
      foldM (kin_segment lay N) (seq 1 (length N)) p
      = Ok (pr_subject p (flat_map (fun s => flat_map (fun k => kin_cons s (1 + start s + k)) (seq 0 (nth s N 0)))
              (seq 0 (length N)))).
    Proof.
      intros p.
      rewrite (foldM_subject _ (fun w => flat_map (fun k => kin_cons (w - 1) (1 + start (w - 1) + k))
                                            (seq 0 (nth (w - 1) N 0)))).
      - rewrite <- seq_shift, !flat_map_concat_map, map_map.
        do 3 f_equal. apply map_ext. intros w. replace (S w - 1) with w by lia. reflexivity.
      - intros w q Hw. apply in_seq in Hw. unfold kin_segment.
        rewrite (at_ok N (w - 1) 0) by lia. cbn [obind]. cbn [v_dt layout]. ats.
        replace w with (S (w - 1)) at 1 by lia.
        apply foldM_subject. intros k q' Hk. apply in_seq in Hk.
        apply kin_sample_ok; lia.
    Qed.

    Lemma nth_at : forall {A} (l : list A) i d, i < length l -> at_ l i = Ok (nth i l d).
    Proof. intros. apply at_ok. assumption. Qed.

    Lemma at_row : forall (f : nat -> nat -> expr K) i, i < T ->
      at_ (force_rows f T m) i = Ok (map (f i) (seq 0 m)).
    Proof. intros. unfold force_rows. apply (at_map_seq (fun i => map (f i) (seq 0 m))). assumption. Qed.

    Lemma dyn_ok : forall d p, length (d_modules d) = m ->
      foldM (dyn_sample lay (Some d)) (seq 0 T) p = Ok (pr_subject p (flat_map (dyn_cons d) (seq 0 T))).
    Proof.
      intros d p Hm. apply foldM_subject. intros i q Hi. apply in_seq in Hi. unfold dyn_sample.
      unfold layout; cbn [v_x v_y v_cos v_sin v_vx v_vy v_omega v_ax v_ay v_alpha v_Fx v_Fy v_dt]. ats.
      rewrite at_row by lia. cbn [obind]. rewrite at_row by lia. cbn [obind].
      rewrite (foldM_ok _ (fun tau j =>
        nadd tau (tr_cross (tr_rotateBy (tr_map EConst (m_translation (nth j (d_modules d) module0))) (heading i))
                    (mkTr (fxv m i j) (fyv m i j))))).
      2:{ intros j tau Hj. apply in_seq in Hj. unfold tau_step.
          rewrite (at_ok (d_modules d) j module0) by lia. cbn [obind]. ats. reflexivity. }
      cbn [obind]. ats.
      rewrite (foldM_subject _ (power_cons (d_modules d) i)).
      2:{ intros j q' Hj. apply in_seq in Hj. unfold power_step.
          rewrite (at_ok (d_modules d) j module0) by lia. cbn [obind]. ats. rewrite subject_app. reflexivity. }
      cbn [obind]. ats. rewrite !subject_app. unfold dyn_cons, tau_net.
      rewrite <- ?app_assoc. reflexivity.
    Qed.

    Lemma dyn_none : forall p, m = 0 ->
      foldM (dyn_sample lay None) (seq 0 T) p = Undef Uninitialized.
    Proof.
      intros p Hm. replace (seq 0 T) with (0 :: seq 1 (list_sum N)) by (rewrite HT; reflexivity).
      cbn [foldM]. unfold dyn_sample at 1.
      unfold layout; cbn [v_x v_y v_cos v_sin v_vx v_vy v_omega v_ax v_ay v_alpha v_Fx v_Fy v_dt]. ats.
      rewrite at_row by lia. cbn [obind]. rewrite at_row by lia. cbn [obind].
      cbn [length seq foldM obind]. ats. reflexivity.
    Qed.

    Lemma apply_at_ok : forall c i p, i < T -> apply_at lay c i p = Ok (pr_subject p (applied i c)).
    Proof.
      intros c i p Hi. unfold apply_at.
      unfold layout; cbn [v_x v_y v_cos v_sin v_vx v_vy v_omega v_ax v_ay v_alpha v_Fx v_Fy v_dt]. ats.
      reflexivity.
    Qed.

    Lemma start_le : forall s, start s < T.
    Proof. intros. unfold start. pose proof (list_sum_firstn_le N s). lia. Qed.

    Lemma wpt_ok : forall wpts p, length N < length wpts ->
      foldM (wpt_constraints lay N wpts) (seq 0 (1 + length N)) p
      = Ok (pr_subject p (flat_map (fun w =>
          flat_map (applied (start w)) (match nth_error wpts w with Some x => waypointConstraints x | None => [] end))
          (seq 0 (1 + length N)))).
    Proof.
      intros wpts p L. apply foldM_subject. intros w q Hw. apply in_seq in Hw. unfold wpt_constraints.
      unfold at_. destruct (nth_error wpts w) as [x|] eqn:E; [|apply nth_error_None in E; lia].
      cbn [obind]. apply foldM_subject. intros c q' _.
      replace (w + 1) with (S w) by lia. rewrite GetIndex_S by lia. cbn [obind].
      match goal with |- apply_at _ _ ?i _ = _ => replace i with (start w) by (unfold start; lia) end.
      apply apply_at_ok, start_le.
    Qed.

    Lemma sgmt_ok : forall wpts p, length N < length wpts ->
      foldM (sgmt_constraints lay N wpts) (seq 0 (length N)) p
      = Ok (pr_subject p (flat_map (fun s =>
          flat_map (fun c => flat_map (fun i => applied i c) (seq (1 + start s) (nth s N 0)))
            (match nth_error wpts (S s) with Some x => segmentConstraints x | None => [] end))
          (seq 0 (length N)))).
    Proof.
      intros wpts p L. apply foldM_subject. intros s q Hs. apply in_seq in Hs. unfold sgmt_constraints.
      replace (s + 1) with (S s) by lia. unfold at_.
      destruct (nth_error wpts (S s)) as [x|] eqn:E; [|apply nth_error_None in E; lia].
      cbn [obind]. apply foldM_subject. intros c q' _.
      rewrite GetIndex_S by lia. cbn [obind].
      replace (s + 2) with (S (S s)) by lia. rewrite GetIndex_S by lia. cbn [obind].
      rewrite list_sum_firstn_S. fold (start s).
      match goal with |- foldM _ (seq ?a ?l) _ = _ =>
        replace l with (nth s N 0) by lia; replace a with (1 + start s) by lia end.
      apply foldM_subject.
      intros i q'' Hi. apply in_seq in Hi. apply apply_at_ok.
      pose proof (list_sum_firstn_S N s). pose proof (list_sum_firstn_le N (S s)). unfold start in *. lia.
    Qed.
  End Phases.
End Layout.
