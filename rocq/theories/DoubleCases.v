(** Concrete doubles for C83 and C84. *)
From Coq Require Import List ZArith Reals SpecFloat Lia Lra.
Import ListNotations.
From Verif Require Import Outcome Num NumF64 Util Builder Trajectory SpecTrajectory SpecDouble DoubleProofs.

(** A solution with the given time steps and everything else zero. *)
Definition still (dts : list f64) : solution f64 :=
  let z := repeat fzero (S (length dts)) in
  let m := repeat [fzero] (S (length dts)) in
  mkSolution dts z z z z z z z z z z m m.
(** 1 s, 2^-60 s; 0.1 s eight times. *)
Definition uneven : list f64 := [f64_lit 1; S754_finite false 4503599627370496 (-112)].
Definition tenths : list f64 := repeat (f64_lit (1 # 10)) 8.
Lemma still_shaped dts : well_shaped [length dts] 1 (still dts).
Proof.
  unfold well_shaped, last_sample, still. cbn [list_sum fold_right s_dt s_x s_y s_thetacos s_thetasin s_vx s_vy s_omega s_ax s_ay s_alpha s_moduleFX s_moduleFY].
  rewrite !repeat_length, Nat.add_0_r. repeat split; apply Forall_forall; intros r Hr; apply repeat_spec in Hr; subst r; reflexivity.
Qed.
Section Libm.
  Variables (fcos fsin : f64 -> f64) (fatan2 fhypot : f64 -> f64 -> f64).
  #[local] Instance A : Arith f64 := Arith_f64 fcos fsin fatan2 fhypot.
  Lemma vanish_proof : exists l p q, HolonomicTrajectory (still uneven) = Ok l /\
    nth_error l 1 = Some p /\ nth_error l 2 = Some q /\ h_timestamp p = h_timestamp q.
  Proof.
    eexists _, _, _. split; [vm_compute; reflexivity|]. split; [reflexivity|]. split; [reflexivity|]. reflexivity.
  Qed.
  Lemma tenths_proof : exists l p, HolonomicTrajectory (still tenths) = Ok l /\ nth_error l 8 = Some p /\
    neqb (h_timestamp p) (f64_lit (8 # 10)) = false /\ finite (h_timestamp p).
  Proof.
    eexists _, _. split; [vm_compute; reflexivity|]. split; [reflexivity|]. split; [vm_compute; reflexivity|exact I].
  Qed.
  Lemma miss_proof : exists v, nth_error (Linspace (f64_lit 0) (f64_lit 1) 49) 48 = Some v /\ flt v (f64_lit 1).
  Proof. exists (S754_finite false 9007199254740991 (-53)). split; vm_compute; reflexivity. Qed.
  Lemma over_proof : exists v, nth_error (Linspace (f64_lit (3 # 10)) (f64_lit (9 # 10)) 1) 0 = Some v /\ flt (f64_lit (9 # 10)) v.
  Proof. exists (S754_finite false 8106479329266894 (-53)). split; vm_compute; reflexivity. Qed.
End Libm.
Lemma all_by (f : f64 -> bool) l : forallb f l = true -> Forall (fun x => f x = true) l.
Proof. intros H. apply Forall_forall. apply forallb_forall, H. Qed.
Lemma uneven_ok : Forall is_double uneven /\ Forall (flt fzero) uneven /\ Forall is_double tenths /\ Forall (fle fzero) tenths.
Proof.
  split; [|split; [|split]]; [apply (all_by (valid_binary 53 1024))|apply (all_by (SFltb fzero))|apply (all_by (valid_binary 53 1024))|apply (all_by (SFleb fzero))];
    vm_compute; reflexivity.
Qed.
Lemma vanish_case : forall fcos fsin fatan2 fhypot, exists (s : solution f64) l p q,
  well_shaped [2%nat] 1 s /\ Forall is_double (s_dt s) /\ Forall (flt fzero) (s_dt s) /\
  @HolonomicTrajectory f64 (Arith_f64 fcos fsin fatan2 fhypot) s = Ok l /\
  nth_error l 1 = Some p /\ nth_error l 2 = Some q /\ h_timestamp p = h_timestamp q.
Proof.
  intros. destruct (vanish_proof fcos fsin fatan2 fhypot) as (l & p & q & E & Hp & Hq & T). exists (still uneven), l, p, q.
  split; [apply (still_shaped uneven)|]. destruct uneven_ok as (A & B & _). auto 10.
Qed.
Lemma tenths_case : forall fcos fsin fatan2 fhypot, exists (s : solution f64) l p, well_shaped [8%nat] 1 s /\
  @HolonomicTrajectory f64 (Arith_f64 fcos fsin fatan2 fhypot) s = Ok l /\
  Forall is_double (s_dt s) /\ Forall (fle fzero) (s_dt s) /\ nth_error l 8 = Some p /\
  finite (h_timestamp p) /\ SFeqb (h_timestamp p) (f64_lit (8 # 10)) = false.
Proof.
  intros. destruct (tenths_proof fcos fsin fatan2 fhypot) as (l & p & E & Hp & Ne & F). exists (still tenths), l, p.
  split; [apply (still_shaped tenths)|]. destruct uneven_ok as (_ & _ & A & B). auto 10.
Qed.
Lemma lit_case : is_double (f64_lit (3 # 10)) /\ is_double (f64_lit (9 # 10)) /\ finite (f64_lit (3 # 10)) /\
  finite (f64_lit (9 # 10)) /\ finite (f64_sub (f64_lit (9 # 10)) (f64_lit (3 # 10))) /\ fle (f64_lit (3 # 10)) (f64_lit (9 # 10)).
Proof. repeat split; vm_compute; reflexivity || exact I. Qed.
