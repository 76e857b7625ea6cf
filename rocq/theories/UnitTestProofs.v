(** The unit tests of the repository: C85. *)
From Coq Require Import List ZArith Reals Lra Lia.
Import ListNotations.
From Verif Require Import Outcome Num NumR NumF64 Geometry Util Builder Guess UnitTests Spec GeometryFacts.

Lemma C85_plain_proof : forall fcos fsin fatan2 fhypot asserts,
  forallb (fun b => b) (@plain_checks f64 (Arith_f64 fcos fsin fatan2 fhypot) Dbl_f64 asserts) = true.
Proof. intros. destruct asserts; vm_compute; reflexivity. Qed.
From Verif Require Import GeometryProofs.
Local Open Scope R_scope.

Lemma radians_in a : - PI < a <= PI -> rot_radians (rot_angle a) = a.
Proof. intros H. destruct C53_proof as (_ & _ & P & _). apply P. exact H. Qed.
Lemma degrees_in a : - PI < a <= PI -> rot_degrees PI (rot_angle a) = a * 180 / PI.
Proof. intros H. destruct C53_proof as (_ & _ & _ & _ & P & _). rewrite P, radians_in by assumption. reflexivity. Qed.
Lemma C85_exact_proof : exact_checks.
Proof.
  pose proof PI_RGT_0 as PP. destruct C51_proof as (_ & Comm & Z & _ & _ & _ & Add & Sub & _).
  assert (Z' : rot_add rot_default (rot_angle (PI / 2)) = rot_angle (PI / 2)) by (rewrite Comm; apply Z).
  unfold exact_checks. rewrite Z', Add, Sub. 
  repeat match goal with |- _ /\ _ => split end.
  - apply tr_ext; cbn; rewrite ?cos_PI4, ?sin_PI4; field; apply Rgt_not_eq, sqrt_lt_R0; lra.
  - apply tr_ext; cbn; rewrite ?cos_PI3, ?sin_PI3; field.
  - apply tr_ext; cbn; rewrite ?cos_PI2, ?sin_PI2; ring.
  - reflexivity.
  - reflexivity.
  - reflexivity.
  - cbn. replace ((6 - 1) * (6 - 1) + (6 - 1) * (6 - 1)) with (5 * 5 * 2) by ring.
    rewrite sqrt_mult, sqrt_square by lra. reflexivity.
  - rewrite degrees_in by lra. field. lra.
  - rewrite degrees_in by lra. field. lra.
  - rewrite radians_in by lra. reflexivity.
  - rewrite radians_in by lra. reflexivity.
  - rewrite radians_in by lra. reflexivity.
  - rewrite degrees_in by lra. field. lra.
  - rewrite degrees_in by lra. field. lra.
  - rewrite degrees_in by lra. field. lra.
  - intros x y. cbn zeta. split; [cbn; ring|]. split; [cbn; ring|].
    change (pRot (pose_rotateBy (pose_xyh x y (PI / 4)) (rot_angle (5 * PI / 180))))
      with (rot_add (rot_angle (PI / 4)) (rot_angle (5 * PI / 180))).
    rewrite Add, !degrees_in by lra. field. lra.
Qed.
