(** Proofs about 64-bit sizes and failing allocations, for C103. *)
From Coq Require Import List ZArith Lia.
Import ListNotations.
From Verif Require Import Outcome Num Geometry Util Builder Guess Generator Sizes SpecBuilder SpecGenerator SpecSizes
  UtilFacts GuessFacts BuilderFacts BuilderHistory GeneratorProofs SeedFacts SessionProofs.
Local Open Scope nat_scope.

(** * Arithmetic *)
Lemma two64_big : (2 ^ 60 + 2 ^ 60 < two64)%Z.
Proof. reflexivity. Qed.
Lemma add64_exact a b : (Z.of_nat (a + b) < two64)%Z -> add64 a b = a + b.
Proof. intros L. unfold add64, to_u64. rewrite Z.mod_small by lia. lia. Qed.
Lemma sub64_exact a b : b <= a -> (Z.of_nat a < two64)%Z -> sub64 a b = a - b.
Proof. intros L M. unfold sub64, to_u64. rewrite Z.mod_small by lia. lia. Qed.
Lemma mul64_exact a b : (Z.of_nat (a * b) < two64)%Z -> mul64 a b = a * b.
Proof. intros L. unfold mul64, to_u64. rewrite Z.mod_small by lia. lia. Qed.
Lemma add64_le a b : add64 a b <= a + b.
Proof.
  unfold add64, to_u64. assert ((Z.of_nat a + Z.of_nat b) mod two64 <= Z.of_nat a + Z.of_nat b)%Z by (apply Z.mod_le; [lia|reflexivity]).
  assert (0 <= (Z.of_nat a + Z.of_nat b) mod two64)%Z by (apply Z.mod_pos_bound; reflexivity). lia.
Qed.
Lemma fold64 N n acc : n <= length N ->
  exists t, foldM (fun w index => x <- at_ N (w - 1) ;; Ok (add64 index x)) (seq 1 n) acc = Ok t /\
    t <= acc + list_sum (firstn n N) /\
    ((Z.of_nat (acc + list_sum (firstn n N)) < two64)%Z -> t = acc + list_sum (firstn n N)).
Proof.
  induction n as [|n IH]; intros L.
  - exists acc. cbn. repeat split; lia.
  - destruct (IH ltac:(lia)) as (t & E & B & X). rewrite seq_S, foldM_app, E. cbn [foldM obind]. rewrite (at_ok N _ 0) by lia. cbn [obind].
    replace (1 + n - 1) with n by lia. eexists. split; [reflexivity|]. rewrite list_sum_firstn_S.
    pose proof (add64_le t (nth n N 0)). split; [lia|]. intros Q. rewrite X by lia. rewrite add64_exact by lia. lia.
Qed.
Lemma GetIndex64_outcome N w k :
  (w <= S (length N) -> exists t, GetIndex64 N w k = Ok t /\ t <= 1 + list_sum (firstn (w - 1) N) + k) /\
  (S (length N) < w -> GetIndex64 N w k = Throw OutOfRange).
Proof.
  split; intros L; unfold GetIndex64.
  - destruct (fold64 N (w - 1) (if 0 <? w then 1 else 0) ltac:(lia)) as (t & E & B & _). cbv zeta. rewrite E. cbn [obind].
    eexists. split; [reflexivity|]. pose proof (add64_le t k). destruct (0 <? w); lia.
  - cbv zeta. replace (w - 1) with (length N + (1 + (w - length N - 2))) by lia. rewrite seq_app, foldM_app.
    destruct (fold64 N (length N) (if 0 <? w then 1 else 0) ltac:(lia)) as (t & E & _). rewrite E. cbn [obind].
    rewrite seq_app. cbn [seq app foldM]. rewrite at_throw by lia. reflexivity.
Qed.
Lemma GetIndex64_exact N w k : (Z.of_nat (1 + list_sum N + k) < two64)%Z -> GetIndex64 N w k = GetIndex N w k.
Proof.
  intros Q. destruct (Nat.le_gt_cases w (S (length N))) as [L|L].
  - rewrite GetIndex_ok by exact L. unfold GetIndex64. cbv zeta.
    pose proof (list_sum_firstn_le N (w - 1)).
    destruct (fold64 N (w - 1) (if 0 <? w then 1 else 0) ltac:(lia)) as (t & E & _ & X). rewrite E. cbn [obind].
    rewrite X by (destruct (0 <? w); lia). rewrite add64_exact by (destruct (0 <? w); lia). destruct w; reflexivity.
  - rewrite GetIndex_throw by exact L. apply GetIndex64_outcome. exact L.
Qed.

(** * Statements that may run out of memory *)
Section Runs.
  Variable ok : nat -> nat -> bool.
  Variable L : nat.
  (** [m] does what [o] says, unless a request for at most [L] doubles is refused. *)
  Definition sim {A} (m : alloc A) (o : outcome A) : Prop := forall k,
    (refused ok L /\ m k = Throw BadAlloc) \/ exists k', m k = (a <- o ;; Ok (a, k')).
  Lemma sim_lift : forall {A} (o : outcome A), sim (alift o) o.
  Proof. intros A o k. right. exists k. reflexivity. Qed.
  Lemma sim_bind : forall {A B} (m : alloc A) o (f : A -> alloc B) g, sim m o -> (forall a, o = Ok a -> sim (f a) (g a)) ->
    sim (abind m f) (obind o g).
  Proof.
    intros A B m o f g M F k. unfold abind. destruct (M k) as [[R E]|[k' E]]; rewrite E.
    - left. split; [exact R|reflexivity].
    - destruct o as [a| | | |]; cbn [obind]; try (right; exists k'; reflexivity). apply (F a eq_refl k').
  Qed.
  Lemma sim_fold : forall {A S} (I : list A -> S -> Prop) (f : A -> S -> alloc S) g l s, I l s ->
    (forall a l s, I (a :: l) s -> sim (f a s) (g a s)) ->
    (forall a l s s', I (a :: l) s -> g a s = Ok s' -> I l s') -> sim (afold f l s) (foldM g l s).
  Proof.
    intros A S I f g. induction l as [|a l IH]; intros s Is F G; cbn [afold foldM]; [apply sim_lift|].
    apply sim_bind; [exact (F a l s Is)|]. intros s' E. apply IH; try assumption. exact (G a l s s' Is E).
  Qed.
  Lemma sim_room n : n <= L -> sim (room ok n) (Ok tt).
  Proof.
    intros Q k. unfold room. destruct (ok k n) eqn:E; [right; exists (S k); reflexivity|]. left. split; [|reflexivity].
    exists k, n. split; assumption.
  Qed.
  Lemma sim_skip : forall {A B} (m : alloc A) a (f : A -> alloc B) o, sim m (Ok a) -> sim (f a) o -> sim (abind m f) o.
  Proof. intros A B m a f o M F. change o with (obind (Ok a) (fun _ : A => o)). apply sim_bind; [exact M|]. intros a' E. injection E as <-. exact F. Qed.
  Lemma sim_push : forall {A} (l : list A) a, length l + 1 <= L -> sim (push ok l a) (Ok (l ++ [a])).
  Proof. intros A l a Q. unfold push. eapply sim_skip; [apply sim_room; exact Q|apply sim_lift]. Qed.
  Lemma sim_append : forall {A} (l m : list A), length l + length m <= L -> sim (append ok l m) (Ok (l ++ m)).
  Proof. intros A l m Q. unfold append. eapply sim_skip; [apply sim_room; exact Q|apply sim_lift]. Qed.
  (** A loop that pushes one element per round. *)
  Lemma sim_pushes : forall {A B} (f : A -> B) l (r : list B), length r + length l <= L ->
    sim (afold (fun a r => push ok r (f a)) l r) (Ok (r ++ map f l)).
  Proof.
    intros A B f. induction l as [|a l IH]; intros r Q; cbn [afold map]; [rewrite app_nil_r; apply sim_lift|].
    cbn [length] in Q. eapply sim_skip; [apply sim_push; lia|]. 
    replace (r ++ f a :: map f l) with ((r ++ [f a]) ++ map f l) by (rewrite <- app_assoc; reflexivity).
    apply IH. rewrite app_length. cbn [length]. lia.
  Qed.
  Lemma sim_pairs : forall {A B} (f g : A -> B) l (r q : list B), length r + length l <= L -> length q + length l <= L ->
    sim (afold (fun a cs => c <% push ok (fst cs) (f a) ;; d <% push ok (snd cs) (g a) ;; alift (Ok (c, d))) l (r, q))
      (Ok (r ++ map f l, q ++ map g l)).
  Proof.
    intros A B f g. induction l as [|a l IH]; intros r q Q1 Q2; cbn [afold map]; [rewrite !app_nil_r; apply sim_lift|].
    cbn [length] in Q1, Q2. eapply sim_skip.
    - cbn [fst snd]. eapply sim_skip; [apply sim_push; lia|]. eapply sim_skip; [apply sim_push; lia|]. apply sim_lift.
    - replace (r ++ f a :: map f l) with ((r ++ [f a]) ++ map f l) by (rewrite <- app_assoc; reflexivity).
      replace (q ++ g a :: map g l) with ((q ++ [g a]) ++ map g l) by (rewrite <- app_assoc; reflexivity).
      apply IH; rewrite app_length; cbn [length]; lia.
  Qed.
End Runs.

Section Guess64.
  Context {K : Type} {HA : Arith K} {HD : Dbl K}.
  Variable ok : nat -> nat -> bool.
  Variable L : nat.
  Lemma sim_Linspace (a b : K) n : n <= L -> sim ok L (Linspace64 ok a b n) (Ok (Linspace a b n)).
  Proof. intros Q. unfold Linspace64, Linspace. cbv zeta. eapply (sim_pushes ok L _ (seq 1 n) []). rewrite seq_length. exact Q. Qed.
  (** All four rows have [n] elements. *)
  Definition rows (n : nat) (s : solution K) : Prop :=
    length (s_x s) = n /\ length (s_y s) = n /\ length (s_thetacos s) = n /\ length (s_thetasin s) = n.
  Lemma rows_leg n p q m s : rows n s -> rows (n + m) (append_leg p q m s).
  Proof.
    intros (A & B & C & D). unfold rows, append_leg. cbn [s_x s_y s_thetacos s_thetasin].
    rewrite !app_length, !map_length, !AngleLinspace_length, !Linspace_length. lia.
  Qed.
  Lemma sim_leg n p q m s : rows n s -> n + m <= L -> sim ok L (append_leg64 ok p q m s) (Ok (append_leg p q m s)).
  Proof.
    intros (A & B & C & D) Q. unfold append_leg64, append_leg. cbv zeta.
    eapply sim_skip; [apply sim_Linspace; lia|]. eapply sim_skip; [apply sim_append; rewrite Linspace_length; lia|].
    eapply sim_skip; [apply sim_Linspace; lia|]. eapply sim_skip; [apply sim_append; rewrite Linspace_length; lia|].
    eapply sim_skip; [apply sim_Linspace; lia|]. 
    eapply sim_skip; [apply sim_pairs; rewrite Linspace_length; lia|]. apply sim_lift.
  Qed.
  Lemma sim_segment n guess counts w s : rows n s -> n + nth (w - 1) counts 0 <= L -> stored guess counts ->
    sim ok L (guess_segment64 ok guess counts w s) (guess_segment guess counts w s) /\
    forall s', guess_segment guess counts w s = Ok s' -> rows (n + nth (w - 1) counts 0) s'.
  Proof.
    intros Rw Q (_ & SC & SG). unfold guess_segment64, guess_segment.
    assert (EN : forall m, at_ counts (w - 1) = Ok m -> nth (w - 1) counts 0 = m /\ in_size_t m).
    { intros m E. unfold at_ in E. destruct (nth_error counts (w - 1)) eqn:E'; [|discriminate]. injection E as <-.
      split; [apply nth_error_nth; exact E'|]. rewrite Forall_forall in SC. apply SC. eapply nth_error_In. exact E'. }
    assert (EH : forall here, at_ guess w = Ok here -> (Z.of_nat (length here) < 2 ^ 60)%Z).
    { intros m E. unfold at_ in E. destruct (nth_error guess w) eqn:E'; [|discriminate]. injection E as <-.
      rewrite Forall_forall in SG. apply SG. eapply nth_error_In. exact E'. }
    assert (ARITH : forall m c, c <> 0 -> (c - 1) * (m / c) <= m).
    { intros m c C. pose proof (Nat.mul_div_le m c C). assert ((c - 1) * (m / c) <= c * (m / c)) by (apply Nat.mul_le_mono_r; lia). lia. }
    assert (LOOP : forall here m j s n, rows n s ->
      forall s', foldM (fun gi s => p <- at_ here (gi - 1) ;; q <- at_ here gi ;; Ok (append_leg p q m s)) (seq 1 j) s = Ok s' -> rows (n + j * m) s').
    { intros here m j s0 n0 R0 s' E.
      assert (G : forall l s n s', rows n s -> foldM (fun gi s => p <- at_ here (gi - 1) ;; q <- at_ here gi ;; Ok (append_leg p q m s)) l s = Ok s' ->
                rows (n + length l * m) s').
      { clear. induction l as [|a l IH]; intros s n s' R E; cbn [foldM length] in *; [injection E as <-; rewrite Nat.add_0_r; exact R|].
        destruct (at_ here (a - 1)) as [p| | | |]; try discriminate. destruct (at_ here a) as [q| | | |]; try discriminate. cbn [obind] in E.
        replace (n + S (length l) * m) with ((n + m) + length l * m) by lia. apply (IH _ _ _ (rows_leg n p q m s R) E). }
      specialize (G _ _ _ _ R0 E). rewrite seq_length in G. exact G. }
    split.
    - apply sim_bind; [apply sim_lift|]. intros N_sgmt E1. destruct (EN _ E1) as [V1 S1]. rewrite V1 in Q.
      apply sim_bind; [apply sim_lift|]. intros here E2. specialize (EH _ E2). cbv zeta.
      apply sim_bind; [apply sim_lift|]. intros ng E3.
      assert (C0 : length here <> 0 /\ ng = N_sgmt / length here).
      { unfold udiv in E3. destruct (length here); [discriminate|]. injection E3 as <-. split; [discriminate|reflexivity]. }
      destruct C0 as [C0 ->]. pose proof (ARITH N_sgmt (length here) C0) as AR.
      assert (DL : N_sgmt / length here <= N_sgmt) by (apply Nat.div_le_upper_bound; [exact C0|]; destruct (length here); [lia|cbn; lia]).
      unfold in_size_t in S1. pose proof two64_big. unfold two64 in *.
      remember (N_sgmt / length here) as g eqn:Eg. clear Eg.
      rewrite (sub64_exact (length here) 1) by (unfold two64; lia).
      rewrite (mul64_exact (length here - 1)) by (unfold two64; lia).
      rewrite (sub64_exact N_sgmt) by (unfold two64; lia).
      apply sim_bind; [apply sim_lift|]. intros prev E4. apply sim_bind; [apply sim_lift|]. intros p E5.
      apply sim_bind; [apply sim_lift|]. intros q E6.
      eapply sim_skip; [apply (sim_leg n); [exact Rw|lia]|].
      pose proof (rows_leg n p q g s Rw) as R1. set (s1 := append_leg p q g s) in *.
      replace (length here - 1 - 1) with (length here - 2) by lia.
      apply sim_bind.
      + apply (sim_fold ok L (fun l s => exists m, rows m s /\ m + length l * g <= n + N_sgmt)).
        * eexists. split; [exact R1|]. rewrite seq_length.
          destruct (length here) as [|[|c]]; [lia|cbn; lia|].
          replace (S (S c) - 2) with c by lia. replace (S (S c) - 1) with (S c) in AR by lia. cbn [Nat.mul] in AR. lia.
        * intros a l s2 (m & R2 & B2). cbn [length] in B2.
          apply sim_bind; [apply sim_lift|]. intros p' _. apply sim_bind; [apply sim_lift|]. intros q' _.
          apply (sim_leg m); [exact R2|]. cbn [Nat.mul] in B2. lia.
        * intros a l s2 s' (m & R2 & B2) E. destruct (at_ here (a - 1)) as [p'| | | |]; try discriminate.
          destruct (at_ here a) as [q'| | | |]; try discriminate. cbn [obind] in E. injection E as <-.
          exists (m + g). split; [apply rows_leg; exact R2|]. cbn [length Nat.mul] in B2. lia.
      + intros s2 E7. pose proof (LOOP _ _ _ _ _ R1 _ E7) as R2. destruct (1 <? length here) eqn:C1; [|apply sim_lift].
        apply Nat.ltb_lt in C1.
        apply sim_bind; [apply sim_lift|]. intros p' _. apply sim_bind; [apply sim_lift|]. intros q' _.
        apply (sim_leg _ _ _ _ _ R2).
        destruct (length here) as [|[|c]]; [lia|lia|]. replace (S (S c) - 2) with c by lia. replace (S (S c) - 1) with (S c) in * by lia.
        cbn [Nat.mul] in *. lia.
    - intros s' E.
      destruct (at_ counts (w - 1)) as [N_sgmt| | | |] eqn:E1; try discriminate. cbn [obind] in E. destruct (EN _ eq_refl) as [V1 S1]. rewrite V1.
      destruct (at_ guess w) as [here| | | |] eqn:E2; try discriminate. cbn [obind] in E.
      destruct (udiv N_sgmt (length here)) as [ng| | | |] eqn:E3; try discriminate. cbn [obind] in E.
      assert (C0 : length here <> 0 /\ ng = N_sgmt / length here).
      { unfold udiv in E3. destruct (length here); [discriminate|]. injection E3 as <-. split; [discriminate|reflexivity]. }
      destruct C0 as [C0 ->]. pose proof (ARITH N_sgmt (length here) C0) as AR.
      assert (G1 : length here = 1 -> N_sgmt / length here = N_sgmt) by (intros ->; apply Nat.div_1_r).
      remember (N_sgmt / length here) as g eqn:Eg. clear Eg.
      destruct (at_ guess (w - 1)) as [prev| | | |]; try discriminate. cbn [obind] in E.
      destruct (back prev) as [p| | | |]; try discriminate. cbn [obind] in E.
      destruct (front here) as [q| | | |]; try discriminate. cbn [obind] in E.
      match type of E with obind (foldM ?f ?l ?x) _ = _ => destruct (foldM f l x) as [s2| | | |] eqn:E7; try discriminate end. cbn [obind] in E.
      pose proof (LOOP _ _ _ _ _ (rows_leg n p q g s Rw) _ E7) as R2.
      destruct (1 <? length here) eqn:C1.
      + apply Nat.ltb_lt in C1. destruct (at_ here (length here - 2)) as [p'| | | |]; try discriminate. cbn [obind] in E.
        destruct (back here) as [q'| | | |]; try discriminate. cbn [obind] in E. injection E as <-.
        match goal with |- rows ?a (append_leg _ _ ?m _) => replace a with (n + g + (length here - 2) * g + m) end.
        * apply rows_leg. exact R2.
        * destruct (length here) as [|[|c]]; [lia|lia|]. replace (S (S c) - 2) with c by lia. replace (S (S c) - 1) with (S c) in * by lia.
          cbn [Nat.mul] in *. lia.
      + apply Nat.ltb_ge in C1. injection E as <-. assert (C2 : length here = 1) by lia. rewrite <- (G1 C2). rewrite C2 in R2. cbn [Nat.sub Nat.mul] in R2.
        rewrite Nat.add_0_r in R2. exact R2.
  Qed.
End Guess64.

(** * The whole guess *)
Section Whole64.
  Context {K : Type} {HA : Arith K} {HD : Dbl K}.
  Variable ok : nat -> nat -> bool.

  Definition set_dt (dt : list K) (s : solution K) : solution K :=
    mkSolution dt (s_x s) (s_y s) (s_thetacos s) (s_thetasin s) (s_vx s) (s_vy s) (s_omega s) (s_ax s) (s_ay s) (s_alpha s)
      (s_moduleFX s) (s_moduleFY s).
  Lemma fold_dt : forall {A} dt (f : A -> solution K -> outcome (solution K)) l s,
    (forall a s, f a (set_dt dt s) = (r <- f a s ;; Ok (set_dt dt r))) ->
    foldM f l (set_dt dt s) = (r <- foldM f l s ;; Ok (set_dt dt r)).
  Proof.
    intros A dt f l. induction l as [|a l IH]; intros s F; cbn [foldM]; [reflexivity|].
    rewrite F. destruct (f a s) as [s'| | | |]; cbn [obind]; try reflexivity. apply IH. exact F.
  Qed.
  Lemma segment_dt dt guess counts w s :
    guess_segment guess counts w (set_dt dt s) = (r <- guess_segment guess counts w s ;; Ok (set_dt dt r)).
  Proof.
    unfold guess_segment. destruct (at_ counts (w - 1)) as [n| | | |]; cbn [obind]; try reflexivity.
    destruct (at_ guess w) as [here| | | |]; cbn [obind]; try reflexivity.
    destruct (udiv n (length here)) as [g| | | |]; cbn [obind]; try reflexivity.
    destruct (at_ guess (w - 1)) as [prev| | | |]; cbn [obind]; try reflexivity.
    destruct (back prev) as [p| | | |]; cbn [obind]; try reflexivity.
    destruct (front here) as [q| | | |]; cbn [obind]; try reflexivity. cbv zeta.
    change (append_leg p q g (set_dt dt s)) with (set_dt dt (append_leg p q g s)). rewrite fold_dt.
    - match goal with |- context[foldM ?f ?l ?x] => destruct (foldM f l x) as [s2| | | |] end; cbn [obind]; try reflexivity.
      destruct (1 <? length here); [|reflexivity].
      destruct (at_ here (length here - 2)) as [p'| | | |]; cbn [obind]; try reflexivity.
      destruct (back here) as [q'| | | |]; cbn [obind]; reflexivity.
    - intros a s0. destruct (at_ here (a - 1)) as [p'| | | |]; cbn [obind]; try reflexivity.
      destruct (at_ here a) as [q'| | | |]; cbn [obind]; reflexivity.
  Qed.

  (** Requests that were met. *)
  Definition met (s : solution K) : Prop := exists j, ok j (length (s_x s)) = true.
  Lemma abind_ok : forall {A B} (m : alloc A) (f : A -> alloc B) k r, abind m f k = Ok r ->
    exists a k', m k = Ok (a, k') /\ f a k' = Ok r.
  Proof. intros A B m f k r E. unfold abind in E. destruct (m k) as [[a k']| | | |] eqn:Em; try discriminate. exists a, k'. split; [reflexivity|exact E]. Qed.
  Lemma room_ok n k r : room ok n k = Ok r -> ok k n = true.
  Proof. unfold room. destruct (ok k n); [reflexivity|discriminate]. Qed.
  Lemma alift_ok : forall {A} (o : outcome A) k a k', alift o k = Ok (a, k') -> o = Ok a.
  Proof. intros A o k a k' E. unfold alift in E. destruct o; try discriminate. injection E as <- _. reflexivity. Qed.
  Lemma leg_met p q n s k s' k' : append_leg64 ok p q n s k = Ok (s', k') -> met s'.
  Proof.
    intros E. unfold append_leg64 in E.
    apply abind_ok in E. destruct E as (xs & k1 & _ & E). apply abind_ok in E. destruct E as (x & k2 & E1 & E).
    apply abind_ok in E. destruct E as (ys & k3 & _ & E). apply abind_ok in E. destruct E as (y & k4 & _ & E).
    apply abind_ok in E. destruct E as (ts & k5 & _ & E). apply abind_ok in E. destruct E as (cs & k6 & _ & E).
    apply alift_ok in E. injection E as <-. unfold met. cbn [s_x].
    unfold append in E1. apply abind_ok in E1. destruct E1 as (u & k7 & E1 & E2). apply room_ok in E1. apply alift_ok in E2. injection E2 as <-.
    exists k1. rewrite app_length. exact E1.
  Qed.
  Lemma afold_met : forall {A} (f : A -> solution K -> alloc (solution K)) l s k s' k',
    (forall a s k s' k', f a s k = Ok (s', k') -> met s') -> met s -> afold f l s k = Ok (s', k') -> met s'.
  Proof.
    intros A f. induction l as [|a l IH]; intros s k s' k' F M E; cbn [afold] in E.
    - apply alift_ok in E. injection E as <-. exact M.
    - apply abind_ok in E. destruct E as (s1 & k1 & E1 & E). exact (IH _ _ _ _ F (F _ _ _ _ _ E1) E).
  Qed.
  Lemma segment_met guess counts w s k s' k' : guess_segment64 ok guess counts w s k = Ok (s', k') -> met s'.
  Proof.
    intros E. unfold guess_segment64 in E. do 6 (apply abind_ok in E; destruct E as (? & ? & _ & E)).
    apply abind_ok in E. destruct E as (s1 & k1 & E1 & E). apply leg_met in E1.
    apply abind_ok in E. destruct E as (s2 & k2 & E2 & E). apply afold_met in E2; [| |exact E1].
    - match type of E with context[if ?b then _ else _] => destruct b end.
      + cbv zeta in E. apply abind_ok in E; destruct E as (? & ? & _ & E). apply abind_ok in E; destruct E as (? & ? & _ & E). exact (leg_met _ _ _ _ _ _ _ E).
      + apply alift_ok in E. injection E as <-. exact E2.
    - intros a s0 k0 s0' k0' Ea. apply abind_ok in Ea; destruct Ea as (? & ? & _ & Ea). apply abind_ok in Ea; destruct Ea as (? & ? & _ & Ea).
      exact (leg_met _ _ _ _ _ _ _ Ea).
  Qed.

  Lemma afold_seq L guess counts : stored guess counts -> 1 + list_sum counts <= L ->
    forall n w s, w + n = length counts + 1 -> 1 <= w -> rows (1 + list_sum (firstn (w - 1) counts)) s ->
    sim ok L (afold (guess_segment64 ok guess counts) (seq w n) s) (foldM (guess_segment guess counts) (seq w n) s) /\
    forall s', foldM (guess_segment guess counts) (seq w n) s = Ok s' -> rows (1 + list_sum counts) s'.
  Proof.
    intros St HL. induction n as [|n IH]; intros w s Ew Hw R; cbn [seq afold foldM].
    - split; [apply sim_lift|]. intros s' E. injection E as <-. replace (w - 1) with (length counts) in R by lia. rewrite firstn_len in R. exact R.
    - assert (B : 1 + list_sum (firstn (w - 1) counts) + nth (w - 1) counts 0 = 1 + list_sum (firstn (S w - 1) counts)).
      { replace (S w - 1) with (S (w - 1)) by lia. rewrite list_sum_firstn_S. lia. }
      pose proof (list_sum_firstn_le counts (S w - 1)).
      destruct (sim_segment ok L _ guess counts w s R ltac:(lia) St) as [S1 S2].
      split.
      + apply sim_bind; [exact S1|]. intros s1 E1. apply IH; [lia|lia|]. rewrite <- B. exact (S2 _ E1).
      + intros s' E. destruct (guess_segment guess counts w s) as [s1| | | |] eqn:E1; try discriminate. cbn [obind] in E.
        refine (proj2 (IH (S w) s1 ltac:(lia) ltac:(lia) _) _ E). rewrite <- B. exact (S2 _ eq_refl).
  Qed.

  Lemma guess64_proof : real_memory ok -> forall guess counts k, stored guess counts ->
    let r := GenerateLinearInitialGuess64 ok guess counts k in
    (refused ok (1 + list_sum counts) /\ r = Throw BadAlloc) \/
    (exists k', r = (a <- GenerateLinearInitialGuess guess counts ;; Ok (a, k'))) /\
      (forall a, GenerateLinearInitialGuess guess counts = Ok a -> (Z.of_nat (1 + list_sum counts) < 2 ^ 60)%Z).
  Proof.
    intros RM guess counts k St r. set (L := 1 + list_sum counts).
    destruct (proj1 (GetIndex64_outcome counts (length counts + 1) 0) ltac:(lia)) as (T & ET & BT).
    replace (length counts + 1 - 1) with (length counts) in BT by lia. rewrite firstn_len in BT.
    set (o := first <- front guess ;; p <- front first ;;
              foldM (guess_segment guess counts) (seq 1 (length counts + 1 - 1))
                (mkSolution (map (fun _ => ndiv (nmul (nofnat (length counts + 1)) (nlit 5)) (nofnat T)) (seq 0 T)) [pX p] [pY p] [rCos (pRot p)] [rSin (pRot p)]
                   [] [] [] [] [] [] [] [])).
    assert (S : sim ok L (GenerateLinearInitialGuess64 ok guess counts) o).
    { unfold GenerateLinearInitialGuess64. cbv zeta. rewrite ET. eapply sim_skip; [apply sim_lift|].
      do 5 (eapply sim_skip; [apply sim_room; lia|]).
      apply sim_bind; [apply sim_lift|]. intros first _. apply sim_bind; [apply sim_lift|]. intros p _.
      do 4 (eapply sim_skip; [apply sim_push; cbn [length]; lia|]).
      eapply sim_skip; [apply (sim_pushes ok L _ (seq 0 T) []); rewrite seq_length; cbn [length]; lia|].
      cbn [app]. apply afold_seq; [exact St|lia|lia|lia|]. repeat split. }
    destruct (S k) as [[R E]|[k' E]]; [left; split; [exact R|exact E]|]. right. fold r in E.
    set (dtm := repeat (ndiv (nmul (nofnat (length counts + 1)) (nlit 5)) (nofnat L)) L).
    set (dt := map (fun _ => ndiv (nmul (nofnat (length counts + 1)) (nlit 5)) (nofnat T)) (seq 0 T)) in o.
    assert (GI : GetIndex counts (length counts + 1) 0 = Ok L).
    { rewrite GetIndex_ok by lia. replace (length counts + 1 =? 0) with false by (symmetry; apply Nat.eqb_neq; lia).
      replace (length counts + 1 - 1) with (length counts) by lia. rewrite firstn_len. f_equal. unfold L. lia. }
    assert (EG : GenerateLinearInitialGuess guess counts = (s <- o ;; Ok (set_dt dtm s))).
    { unfold GenerateLinearInitialGuess, o. cbv zeta. rewrite GI. cbn [obind].
      destruct (front guess) as [first| | | |]; cbn [obind]; try reflexivity. destruct (front first) as [p| | | |]; cbn [obind]; try reflexivity.
      rewrite <- (fold_dt dtm); [reflexivity|]. intros a s. apply segment_dt. }
    destruct o as [s| | | |] eqn:Eo; try (split; [exists k'; rewrite EG; exact E|intros a Ea; rewrite EG in Ea; discriminate]).
    cbn [obind] in E.
    assert (IN : exists j, ok j L = true).
    { pose proof Eo as Eo0. unfold o in Eo0.
      destruct (front guess) as [first| | | |] eqn:Ef; cbn [obind] in Eo0; try discriminate.
      destruct (front first) as [p| | | |] eqn:Ep; cbn [obind] in Eo0; try discriminate.
      match type of Eo0 with foldM _ _ ?x = _ => assert (R0 : rows 1 x) by (repeat split) end.
      pose proof (proj2 (afold_seq L guess counts St ltac:(unfold L; lia) (length counts + 1 - 1) 1 _ ltac:(lia) ltac:(lia) R0) _ Eo0) as RW.
      assert (M : met s); [|destruct M as [j Ej]; destruct RW as (RW & _); rewrite RW in Ej; exists j; exact Ej].
      unfold r in E. unfold GenerateLinearInitialGuess64 in E. cbv zeta in E.
      do 8 (apply abind_ok in E; destruct E as (? & ? & _ & E)).
      apply abind_ok in E; destruct E as (xrow & kx & Ex & E). do 4 (apply abind_ok in E; destruct E as (? & ? & _ & E)).
      refine (afold_met _ _ _ _ _ _ _ _ E); [intros; eapply segment_met; eassumption|].
      unfold push in Ex. apply abind_ok in Ex. destruct Ex as (u & k7 & E1 & E2). apply room_ok in E1. apply alift_ok in E2. injection E2 as <-.
      eexists. cbn [s_x app]. exact E1. }
    destruct IN as [j Ej]. apply RM in Ej.
    split; [|intros a _; exact Ej].
    exists k'. rewrite E, EG. cbn [obind]. f_equal. f_equal.
    assert (HT : T = L).
    { pose proof two64_big. rewrite (GetIndex64_exact counts (length counts + 1) 0), GI in ET; [injection ET as ->; reflexivity|].
      change (1 + list_sum counts + 0) with (L + 0). lia. }
    assert (HD0 : dt = dtm).
    { unfold dt, dtm. rewrite HT. generalize (ndiv (nmul (nofnat (length counts + 1)) (nlit 5)) (nofnat L)). intros v.
      generalize 0. clear. induction L as [|n IH]; intros a; [reflexivity|]. cbn. f_equal. apply IH. }
    rewrite <- HD0. pose proof Eo as Eo0. unfold o in Eo0.
    destruct (front guess) as [first| | | |] eqn:Ef; cbn [obind] in Eo0; try discriminate.
    destruct (front first) as [p| | | |] eqn:Ep; cbn [obind] in Eo0; try discriminate.
    match type of Eo0 with foldM ?f ?l ?x = _ => pose proof (fold_dt dt f l x (fun a s => segment_dt dt guess counts a s)) as Q end.
    match type of Q with foldM _ _ (set_dt dt ?x) = _ => change (set_dt dt x) with x in Q end.
    rewrite Eo0 in Q. cbn [obind] in Q. injection Q as Q. exact Q.
  Qed.
End Whole64.

(** * The constructor *)
Section Construct64.
  Context {K : Type} {HA : Arith K} {HD : Dbl K}.
  Section Small.
    Variable N : list nat.
    Hypothesis HN : (Z.of_nat (1 + list_sum N) < 2 ^ 60)%Z.
    Hypothesis HL : (Z.of_nat (length N) < 2 ^ 60)%Z.
    Lemma index_same w k : (Z.of_nat k < 2 ^ 60)%Z -> GetIndex64 N w k = GetIndex N w k.
    Proof. intros Hk. apply GetIndex64_exact. pose proof two64_big. lia. Qed.
    Lemma kin_same (v : vars K) w p : kin_segment64 v N w p = kin_segment v N w p.
    Proof.
      unfold kin_segment64, kin_segment. destruct (at_ N (w - 1)) as [n| | | |] eqn:En; cbn [obind]; try reflexivity.
      destruct (at_ (v_dt v) (w - 1)) as [dt| | | |]; cbn [obind]; try reflexivity. apply foldM_ext. intros i p' Hi. apply in_seq in Hi.
      unfold kin_sample64, kin_sample. rewrite index_same; [reflexivity|].
      assert (n <= list_sum N); [|lia]. unfold at_ in En. destruct (nth_error N (w - 1)) eqn:E; [|discriminate]. injection En as <-.
      apply nth_error_In in E. clear -E. induction N as [|c l IH]; [contradiction|]. change (list_sum (c :: l)) with (c + list_sum l).
      destruct E as [->|E]; [lia|]. specialize (IH E). lia.
    Qed.
    Lemma wpt_same (v : vars K) wpts w p : w <= length N -> wpt_constraints64 v N wpts w p = wpt_constraints v N wpts w p.
    Proof.
      intros Hw. pose proof two64_big as T64. unfold wpt_constraints64, wpt_constraints. destruct (at_ wpts w) as [q| | | |]; cbn [obind]; try reflexivity.
      apply foldM_ext. intros c p' _. rewrite add64_exact by lia. rewrite index_same by lia.
      rewrite GetIndex_ok by lia. cbn [obind]. rewrite sub64_exact; [reflexivity| |].
      - replace (w + 1 =? 0) with false by (symmetry; apply Nat.eqb_neq; lia). lia.
      - pose proof (list_sum_firstn_le N (w + 1 - 1)). destruct (w + 1 =? 0); lia.
    Qed.
    Lemma sgmt_same (v : vars K) wpts w p : w < length N -> sgmt_constraints64 v N wpts w p = sgmt_constraints v N wpts w p.
    Proof.
      intros Hw. pose proof two64_big as T64. unfold sgmt_constraints64, sgmt_constraints. rewrite !add64_exact by lia.
      destruct (at_ wpts (w + 1)) as [q| | | |]; cbn [obind]; try reflexivity.
      apply foldM_ext. intros c p' _. rewrite !index_same by lia. reflexivity.
    Qed.
  End Small.

  Lemma construct64_proof : forall ok (b : builder K) handle, real_memory ok -> stored (b_guess b) (b_counts b) ->
    construct64 ok b handle = construct b handle \/
    (refused ok (1 + list_sum (b_counts b)) /\ construct64 ok b handle = Throw BadAlloc).
  Proof.
    intros ok b handle RM St. unfold construct64, construct, CalculateInitialGuess. cbv zeta.
    change (GetControlIntervalCounts b) with (b_counts b).
    destruct (guess64_proof ok RM (b_guess b) (b_counts b) 0 St) as [[R E]|[[k' E] B]].
    - right. split; [exact R|]. rewrite E. reflexivity.
    - left. rewrite E. set (G := GenerateLinearInitialGuess (b_guess b) (b_counts b)) in *.
      destruct G as [s0| | | |]; try reflexivity. cbn [obind fst]. specialize (B s0 eq_refl).
      destruct St as (SL & _ & _). pose proof two64_big as T64.
      rewrite add64_exact by lia. rewrite index_same by (try assumption; lia).
      destruct (GetIndex (b_counts b) (1 + length (b_counts b)) 0) as [T| | | |]; cbn [obind]; try reflexivity.
      match goal with |- obind ?x _ = _ => destruct x as [s1| | | |] end; cbn [obind]; try reflexivity.
      match goal with |- obind ?x _ = _ => destruct x as [w| | | |] end; cbn [obind]; try reflexivity.
      match goal with |- obind ?x _ = _ => destruct x as [[v p]| | | |] end; cbn [obind]; try reflexivity.
      match goal with |- obind ?x _ = _ => destruct x as [[T_tot p1]| | | |] end; cbn [obind]; try reflexivity.
      rewrite (foldM_ext (kin_segment64 v (b_counts b)) (kin_segment v (b_counts b))) by (intros; apply kin_same; assumption).
      match goal with |- obind ?x _ = _ => destruct x as [p2| | | |] end; cbn [obind]; try reflexivity.
      match goal with |- obind ?x _ = _ => destruct x as [p3| | | |] end; cbn [obind]; try reflexivity.
      rewrite (foldM_ext (wpt_constraints64 v (b_counts b) (b_waypoints b)) (wpt_constraints v (b_counts b) (b_waypoints b)))
        by (intros a s Ha; apply in_seq in Ha; apply wpt_same; try assumption; lia).
      match goal with |- obind ?x _ = _ => destruct x as [p4| | | |] end; cbn [obind]; try reflexivity.
      rewrite (foldM_ext (sgmt_constraints64 v (b_counts b) (b_waypoints b)) (sgmt_constraints v (b_counts b) (b_waypoints b)))
        by (intros a s Ha; apply in_seq in Ha; apply sgmt_same; try assumption; lia).
      reflexivity.
  Qed.
  Lemma construct64_size : forall ok (b : builder K) handle g, real_memory ok -> stored (b_guess b) (b_counts b) ->
    construct64 ok b handle = Ok g -> (Z.of_nat (1 + list_sum (b_counts b)) < 2 ^ 60)%Z.
  Proof.
    intros ok b handle g RM St E. unfold construct64 in E. cbv zeta in E.
    change (GetControlIntervalCounts b) with (b_counts b) in E.
    destruct (guess64_proof ok RM (b_guess b) (b_counts b) 0 St) as [[R E']|[[k' E'] B]]; rewrite E' in E; [discriminate|].
    destruct (GenerateLinearInitialGuess (b_guess b) (b_counts b)) as [s0| | | |]; try discriminate. apply (B s0). reflexivity.
  Qed.
End Construct64.

(** * Cases *)
Section Cases.
  (** Two segments of [n] intervals each. *)
  Definition two_legs {K} (d : drivetrain K) (z : K) (n : nat) : list (op K) :=
    [OSetDrivetrain d; OPoseWpt 0 z z z; OPoseWpt 1 z z z; OPoseWpt 2 z z z; OControlIntervalCounts [n; n]].
  Context {K : Type} {HA : Arith K} {HD : Dbl K}.
  Lemma legs_path asserts d (z : K) n : exists wpts guess,
    path asserts (two_legs d z n) = mkBuilder wpts (Some d) [] [] guess [n; n] /\ length wpts = 3 /\ length guess = 3 /\
    Forall (fun l => length l = 1) guess.
  Proof.
    exists (b_waypoints (path asserts (two_legs d z n))), (b_guess (path asserts (two_legs d z n))).
    destruct asserts; vm_compute; repeat split; repeat constructor.
  Qed.
  Lemma legs_stored asserts d (z : K) n : in_size_t n ->
    let b := path asserts (two_legs d z n) in stored (b_guess b) (b_counts b).
  Proof.
    intros Hn. destruct (legs_path asserts d z n) as (wp & gs & -> & _ & _ & F). cbn [b_guess b_counts]. split; [reflexivity|].
    split; [repeat constructor; exact Hn|]. eapply Forall_impl; [|exact F]. cbv beta. intros l ->. reflexivity.
  Qed.
  Lemma legs_construct asserts d (z : K) n handle : exists g, construct (path asserts (two_legs d z n)) handle = Ok g.
  Proof.
    pose proof (run_ops_inv_new asserts (two_legs d z n)) as I. fold (path asserts (two_legs d z n)) in I.
    destruct (legs_path asserts d z n) as (wp & gs & E & L1 & L2 & F). 
    destruct (construct_ok (path asserts (two_legs d z n)) handle d I) as (p & C & _).
    - rewrite E. unfold waypoint_count. cbn [b_waypoints b_counts length]. rewrite L1. lia.
    - rewrite E. reflexivity.
    - eexists. exact C.
  Qed.
  Lemma wrapped_case : forall ok, real_memory ok -> forall asserts d (z : K) n handle, Z.of_nat n = (2 ^ 63)%Z ->
    GetIndex64 [n; n] 3 0 = Ok 1 /\ construct64 ok (path asserts (two_legs d z n)) handle = Throw BadAlloc.
  Proof.
    intros ok RM asserts d z n handle Hn.
    assert (Hi : in_size_t n) by (unfold in_size_t; rewrite Hn; reflexivity).
    split.
    - unfold GetIndex64. cbn [Nat.ltb Nat.leb Nat.sub seq foldM at_ nth_error obind]. f_equal.
      unfold add64, to_u64, two64. 
      assert (E1 : Z.to_nat ((Z.of_nat 1 + Z.of_nat n) mod 2 ^ 64) = 1 + n).
      { rewrite Hn. change ((Z.of_nat 1 + 2 ^ 63) mod 2 ^ 64)%Z with (1 + 2 ^ 63)%Z. rewrite <- Hn. lia. }
      rewrite E1. rewrite Nat2Z.inj_add, Hn. reflexivity.
    - destruct (construct64_proof ok (path asserts (two_legs d z n)) handle RM (legs_stored asserts d z n Hi)) as [E|[_ E]]; [|exact E].
      exfalso. destruct (legs_construct asserts d z n handle) as [g C]. rewrite C in E.
      pose proof (construct64_size ok _ handle g RM (legs_stored asserts d z n Hi) E) as B.
      destruct (legs_path asserts d z n) as (wp & gs & Eb & _). rewrite Eb in B. cbn [b_counts list_sum fold_right] in B.
      change (list_sum [n; n]) with (n + (n + 0)) in B. lia.
  Qed.
  Lemma ample_case : forall asserts d (z : K) handle, exists ok g, real_memory ok /\
    stored (b_guess (path asserts (two_legs d z 40))) (b_counts (path asserts (two_legs d z 40))) /\
    construct64 ok (path asserts (two_legs d z 40)) handle = Ok g.
  Proof.
    intros asserts d z handle. exists (fun _ n => (Z.of_nat n <? 2 ^ 60)%Z).
    assert (RM : real_memory (fun _ n => (Z.of_nat n <? 2 ^ 60)%Z)) by (intros k n E; apply Z.ltb_lt in E; exact E).
    assert (Hi : in_size_t 40) by reflexivity.
    destruct (legs_construct asserts d z 40 handle) as [g C]. exists g. split; [exact RM|]. split; [exact (legs_stored asserts d z 40 Hi)|].
    destruct (construct64_proof _ _ handle RM (legs_stored asserts d z 40 Hi)) as [E|[(k & m & B & E) _]]; [rewrite E; exact C|].
    exfalso. apply Z.ltb_ge in E. destruct (legs_path asserts d z 40) as (wp & gs & Eb & _). rewrite Eb in B. cbn in B. lia.
  Qed.
End Cases.
