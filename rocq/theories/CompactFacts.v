(** Minima over closed and bounded sets of assignments. *)
From Coq Require Import List Lia Lra Psatz Reals Classical.
Import ListNotations.
From Verif Require Import Spec SpecPhysics SpecTrajectory.
Open Scope R_scope.

(** ** Cluster points *)
Lemma inf_exists : forall (E : R -> Prop) b, (exists x, E x) -> (forall x, E x -> b <= x) ->
  exists m, (forall x, E x -> m <= x) /\ forall e, 0 < e -> exists x, E x /\ x < m + e.
Proof.
  intros E b (x0 & E0) L.
  destruct (completeness (fun y => E (- y))) as (s & U & Least).
  - exists (- b). intros y Hy. specialize (L _ Hy). lra.
  - exists (- x0). rewrite Ropp_involutive. exact E0.
  - exists (- s). split.
    + intros x Hx. assert (- x <= s) by (apply U; rewrite Ropp_involutive; exact Hx). lra.
    + intros e He. apply NNPP. intros N. assert (s <= s - e); [|lra]. apply Least. intros y Hy.
      apply Rnot_lt_le. intros C. apply N. exists (- y). split; [exact Hy|lra].
Qed.

(** A decreasing family of sets bounded in one coordinate. *)
Lemma cluster_one : forall {X} (A : R -> X -> Prop) (f : X -> R) B,
  (forall e e' x, 0 < e <= e' -> A e x -> A e' x) -> (forall e, 0 < e -> exists x, A e x) ->
  (forall x, A 1 x -> Rabs (f x) <= B) ->
  exists l, forall e, 0 < e -> exists x, A e x /\ Rabs (f x - l) < e.
Proof.
  intros X A f B Mono NE Bd.
  (* the suprema of lower bounds *)
  set (low := fun y => exists e, 0 < e <= 1 /\ forall x, A e x -> y <= f x).
  destruct (completeness low) as (l & U & Least).
  - exists B. intros y (e & He & Hy). destruct (NE e) as (x & Hx); [lra|]. specialize (Hy x Hx).
    pose proof (Bd x (Mono e 1 x He Hx)) as Q. pose proof (Rle_abs (f x)). lra.
  - exists (- B). exists 1. split; [lra|]. intros x Hx. specialize (Bd x Hx). pose proof (Rle_abs (- f x)). rewrite Rabs_Ropp in *. lra.
  - exists l. intros e He.
    assert (exists y, low y /\ l - e < y) as (y & (e1 & He1 & Hy) & Ly).
    { apply NNPP. intros N. assert (l <= l - e); [|lra]. apply Least. intros y Hy. apply Rnot_lt_le. intros C. apply N. exists y. auto. }
    set (e2 := Rmin e e1). assert (H2 : 0 < e2 /\ e2 <= e /\ e2 <= e1).
    { unfold e2. split; [apply Rmin_glb_lt; lra|]. split; [apply Rmin_l|apply Rmin_r]. }
    assert (exists x, A e2 x /\ f x < l + e) as (x & Hx & Fx).
    { apply NNPP. intros N. assert (l + e <= l); [|lra]. apply U. exists e2. split; [lra|].
      intros x Hx. apply Rnot_lt_le. intros C. apply N. exists x. auto. }
    exists x. split; [apply (Mono e2); [lra|exact Hx]|].
    assert (y <= f x) by (apply Hy; apply (Mono e2); [lra|exact Hx]). apply Rabs_def1; lra.
Qed.

Lemma cluster : forall n (A : R -> (nat -> R) -> Prop),
  (forall e e' x, 0 < e <= e' -> A e x -> A e' x) -> (forall e, 0 < e -> exists x, A e x) ->
  (forall v, (v < n)%nat -> exists B, forall x, A 1 x -> Rabs (x v) <= B) ->
  exists l : nat -> R, forall e, 0 < e -> exists x, A e x /\ forall v, (v < n)%nat -> Rabs (x v - l v) < e.
Proof.
  induction n as [|n IH]; intros A Mono NE Bd.
  - exists (fun _ => 0). intros e He. destruct (NE e He) as (x & Hx). exists x. split; [exact Hx|]. intros v Hv. lia.
  - destruct (IH A Mono NE) as (l & L); [intros v Hv; apply Bd; lia|].
    destruct (Bd n ltac:(lia)) as (B & HB).
    destruct (cluster_one (fun e x => A e x /\ forall v, (v < n)%nat -> Rabs (x v - l v) < e) (fun x => x n) B) as (ln & Ln).
    + intros e e' x He (Hx & C). split; [apply (Mono e); assumption|]. intros v Hv. specialize (C v Hv). lra.
    + exact L.
    + intros x (Hx & _). apply HB, Hx.
    + exists (fun v => if Nat.eqb v n then ln else l v). intros e He. destruct (Ln e He) as (x & (Hx & C) & Cn).
      exists x. split; [exact Hx|]. intros v Hv. destruct (Nat.eqb_spec v n) as [->|Nv]; [exact Cn|]. apply C. lia.
Qed.

(** ** Continuous functions and closed sets *)
Section Topology.
  (** Only the first [n] variables matter. *)
  Variable n : nat.
  Definition close (e : R) (a b : nat -> R) : Prop := forall v, (v < n)%nat -> Rabs (b v - a v) < e.
  Definition cont (f : (nat -> R) -> R) : Prop :=
    forall a e, 0 < e -> exists d, 0 < d /\ forall b, close d a b -> Rabs (f b - f a) < e.
  Definition closed (P : (nat -> R) -> Prop) : Prop :=
    forall a, (forall e, 0 < e -> exists b, close e a b /\ P b) -> P a.

  Lemma close_le e e' a b : e <= e' -> close e a b -> close e' a b.
  Proof. intros L C v Hv. specialize (C v Hv). lra. Qed.

  Lemma cont_ext f g : (forall a, f a = g a) -> cont g -> cont f.
  Proof. intros E C a e He. destruct (C a e He) as (d & D & H). exists d. split; [exact D|]. intros b Hb. rewrite !E. auto. Qed.
  Lemma cont_const k : cont (fun _ => k).
  Proof. intros a e He. exists 1. split; [lra|]. intros b _. rewrite Rminus_eq_0, Rabs_R0. exact He. Qed.
  Lemma cont_var v : (v < n)%nat -> cont (fun a => a v).
  Proof. intros Hv a e He. exists e. split; [exact He|]. intros b Hb. apply Hb, Hv. Qed.
  Lemma cont_plus f g : cont f -> cont g -> cont (fun a => f a + g a).
  Proof.
    intros F G a e He. destruct (F a (e / 2) ltac:(lra)) as (d1 & D1 & H1). destruct (G a (e / 2) ltac:(lra)) as (d2 & D2 & H2).
    exists (Rmin d1 d2). split; [apply Rmin_glb_lt; assumption|]. intros b Hb.
    specialize (H1 b (close_le _ _ _ _ (Rmin_l _ _) Hb)). specialize (H2 b (close_le _ _ _ _ (Rmin_r _ _) Hb)).
    replace (f b + g b - (f a + g a)) with ((f b - f a) + (g b - g a)) by ring.
    pose proof (Rabs_triang (f b - f a) (g b - g a)). lra.
  Qed.
  Lemma cont_opp f : cont f -> cont (fun a => - f a).
  Proof.
    intros F a e He. destruct (F a e He) as (d & D & H). exists d. split; [exact D|]. intros b Hb.
    replace (- f b - - f a) with (- (f b - f a)) by ring. rewrite Rabs_Ropp. auto.
  Qed.
  Lemma cont_minus f g : cont f -> cont g -> cont (fun a => f a - g a).
  Proof. intros F G. apply (cont_plus f (fun a => - g a) F (cont_opp g G)). Qed.
  Lemma cont_real (h : R -> R) f : continuity h -> cont f -> cont (fun a => h (f a)).
  Proof.
    intros C F a e He. destruct (C (f a) e He) as (d & D & H). destruct (F a d D) as (d' & D' & H').
    exists d'. split; [exact D'|]. intros b Hb. specialize (H' b Hb).
    destruct (Req_dec (f a) (f b)) as [E|N]; [rewrite E, Rminus_eq_0, Rabs_R0; exact He|].
    apply (H (f b)). split; [split; [exact I|exact N]|exact H'].
  Qed.
  Lemma cont_sqr f : cont f -> cont (fun a => f a * f a).
  Proof.
    intros F. apply (cont_real (fun x => x * x) f); [|exact F]. apply (continuity_mult id id); apply derivable_continuous, derivable_id.
  Qed.
  Lemma cont_mult f g : cont f -> cont g -> cont (fun a => f a * g a).
  Proof.
    intros F G. apply (cont_ext _ (fun a => / 4 * ((f a + g a) * (f a + g a) - (f a - g a) * (f a - g a)))); [intros; field|].
    apply (cont_real (fun x => / 4 * x)); [apply continuity_scal, derivable_continuous, derivable_id|].
    apply cont_minus; apply cont_sqr; [apply cont_plus|apply cont_minus]; assumption.
  Qed.
  Lemma cont_cos f : cont f -> cont (fun a => cos (f a)).
  Proof. apply cont_real, continuity_cos. Qed.
  Lemma cont_sin f : cont f -> cont (fun a => sin (f a)).
  Proof. apply cont_real, continuity_sin. Qed.
  Lemma cont_abs f : cont f -> cont (fun a => Rabs (f a)).
  Proof. apply cont_real, Rcontinuity_abs. Qed.
  Lemma cont_sqrt f : (forall a, 0 <= f a) -> cont f -> cont (fun a => sqrt (f a)).
  Proof.
    intros P F a e He. destruct (F a (e * e) ltac:(nra)) as (d & D & H). exists d. split; [exact D|]. intros b Hb. specialize (H b Hb).
    pose proof (sqrt_pos (f a)) as A. pose proof (sqrt_pos (f b)) as B.
    pose proof (sqrt_sqrt (f a) (P a)) as EA. pose proof (sqrt_sqrt (f b) (P b)) as EB.
    set (u := sqrt (f a)) in *. set (w := sqrt (f b)) in *. rewrite <- EA, <- EB in H. apply Rabs_def2 in H.
    apply Rabs_def1; apply Rnot_le_lt; intros C; nra.
  Qed.
  Lemma cont_norm2 f g : cont f -> cont g -> cont (fun a => norm2 (f a, g a)).
  Proof.
    intros F G. unfold norm2. cbn [fst snd]. apply cont_sqrt; [intros; nra|]. apply cont_plus; apply cont_sqr; assumption.
  Qed.
  Lemma cont_sum {X} (l : list X) (f : X -> (nat -> R) -> R) : (forall x, In x l -> cont (f x)) ->
    cont (fun a => sum (map (fun x => f x a) l)).
  Proof.
    induction l as [|x l IH]; intros C; [exact (cont_const 0)|]. cbn [map sum].
    apply cont_plus; [apply C; left; reflexivity|]. apply IH. intros y Hy. apply C. right. exact Hy.
  Qed.

  Lemma closed_ext (P Q : (nat -> R) -> Prop) : (forall a, P a <-> Q a) -> closed Q -> closed P.
  Proof. intros E C a H. apply E, C. intros e He. destruct (H e He) as (b & Hb & Pb). exists b. split; [exact Hb|apply E, Pb]. Qed.
  Lemma closed_true (P : Prop) : closed (fun _ => P).
  Proof. intros a H. destruct (H 1 ltac:(lra)) as (_ & _ & Hp). exact Hp. Qed.
  Lemma closed_and P Q : closed P -> closed Q -> closed (fun a => P a /\ Q a).
  Proof. intros CP CQ a H. split; [apply CP|apply CQ]; intros e He; destruct (H e He) as (b & Hb & Hp & Hq); exists b; auto. Qed.
  Lemma closed_or P Q : closed P -> closed Q -> closed (fun a => P a \/ Q a).
  Proof.
    intros CP CQ a H. destruct (classic (P a)) as [|NP]; [left; assumption|right]. apply CQ. intros e He.
    assert (exists e1, 0 < e1 /\ forall b, close e1 a b -> ~ P b) as (e1 & He1 & N).
    { apply NNPP. intros N. apply NP, CP. intros e1 He1. apply NNPP. intros M. apply N. exists e1. split; [exact He1|].
      intros b Hb Pb. apply M. exists b. auto. }
    destruct (H (Rmin e e1)) as (b & Hb & [Pb|Qb]); [apply Rmin_glb_lt; assumption| |].
    - destruct (N b (close_le _ _ _ _ (Rmin_r _ _) Hb) Pb).
    - exists b. split; [exact (close_le _ _ _ _ (Rmin_l _ _) Hb)|exact Qb].
  Qed.
  Lemma closed_all {X} (P : X -> (nat -> R) -> Prop) : (forall x, closed (P x)) -> closed (fun a => forall x, P x a).
  Proof. intros C a H x. apply C. intros e He. destruct (H e He) as (b & Hb & Hp). exists b. auto. Qed.
  Lemma closed_imp (H : Prop) P : (H -> closed P) -> closed (fun a => H -> P a).
  Proof. intros C a G h. apply C; [exact h|]. intros e He. destruct (G e He) as (b & Hb & Hp). exists b. auto. Qed.
  Lemma closed_le f g : cont f -> cont g -> closed (fun a => f a <= g a).
  Proof.
    intros F G a H. apply Rnot_lt_le. intros C. set (e := (f a - g a) / 2). assert (He : 0 < e) by (unfold e; lra).
    destruct (F a e He) as (d1 & D1 & H1). destruct (G a e He) as (d2 & D2 & H2).
    destruct (H (Rmin d1 d2)) as (b & Hb & L); [apply Rmin_glb_lt; assumption|].
    specialize (H1 b (close_le _ _ _ _ (Rmin_l _ _) Hb)). specialize (H2 b (close_le _ _ _ _ (Rmin_r _ _) Hb)).
    apply Rabs_def2 in H1, H2. unfold e in *. lra.
  Qed.
  Lemma closed_eq f g : cont f -> cont g -> closed (fun a => f a = g a).
  Proof.
    intros F G. apply (closed_ext _ (fun a => f a <= g a /\ g a <= f a)); [intros a; lra|].
    apply closed_and; apply closed_le; assumption.
  Qed.

  (** A continuous function bounded below has a minimum on a closed set on
      which every variable is bounded wherever the function is. *)
  Theorem minimum : forall (P : (nat -> R) -> Prop) J b, closed P -> cont J -> (exists a, P a) -> (forall a, P a -> b <= J a) ->
    (forall M v, (v < n)%nat -> exists B, forall a, P a -> J a <= M -> Rabs (a v) <= B) ->
    exists a, P a /\ forall a', P a' -> J a <= J a'.
  Proof.
    intros P J b CP CJ (a0 & P0) L Bd.
    destruct (inf_exists (fun y => exists a, P a /\ y = J a) b) as (m & Lm & Nm).
    { exists (J a0), a0. auto. }
    { intros y (a & Pa & ->). apply L, Pa. }
    destruct (cluster n (fun e a => P a /\ J a <= m + e)) as (l & Hl).
    - intros e e' a He (Pa & Ja). split; [exact Pa|lra].
    - intros e He. destruct (Nm e He) as (y & (a & Pa & ->) & Y). exists a. split; [exact Pa|lra].
    - intros v Hv. destruct (Bd (m + 1) v Hv) as (B & HB). exists B. intros a (Pa & Ja). apply HB; assumption.
    - assert (Pl : P l).
      { apply CP. intros e He. destruct (Hl e He) as (a & (Pa & _) & C). exists a. split; [exact C|exact Pa]. }
      exists l. split; [exact Pl|].
      assert (Jl : J l <= m).
      { apply Rnot_lt_le. intros C. set (e := (J l - m) / 2). destruct (CJ l e ltac:(unfold e; lra)) as (d & D & Hd).
        destruct (Hl (Rmin d e)) as (a & (_ & Ja) & Ca); [apply Rmin_glb_lt; [assumption|unfold e; lra]|].
        specialize (Hd a (close_le _ _ _ _ (Rmin_l _ _) Ca)). apply Rabs_def2 in Hd. pose proof (Rmin_r d e). unfold e in *. lra. }
      intros a' Pa'. assert (m <= J a') by (apply Lm; exists a'; auto). lra.
  Qed.
End Topology.
