(** /repo/include/trajopt/util/TrajoptUtil.hpp *)
From Coq Require Import List.
Import ListNotations.
From Verif Require Export Outcome Num.
Open Scope num_scope.

(** GetIndex, TrajoptUtil.hpp:21-32.  [size_t] additions are modelled without
    wrap-around: the result is the size of vectors that the caller allocates. *)
Definition GetIndex (N : list nat) (wptIndex sampIndex : nat) : outcome nat :=
  let index := (if 0 <? wptIndex then 1 else 0)%nat in
  index <- foldM (fun w index => n <- at_ N (w - 1) ;; Ok (index + n)%nat)
             (seq 1 (wptIndex - 1)) index ;;
  Ok (index + sampIndex)%nat.

Section Util.
  Context {K : Type} `{Arith K} `{Dbl K}.
  (** Linspace, TrajoptUtil.hpp:34-42.  With [numSamples = 0] the C++ computes
      [delta] by a floating-point division by zero but never uses it. *)
  Definition Linspace (startValue endValue : K) (numSamples : nat) : list K :=
    let delta := (endValue - startValue) / nofnat numSamples in
    map (fun index => startValue + nofnat index * delta) (seq 1 numSamples).

  (** The wrapped difference of AngleLinspace, TrajoptUtil.hpp:46-57. *)
  Definition angle_diff (startValue endValue : K) : K :=
    let diff := endValue - startValue in
    let modulus := nlit 2 * npi in
    let minimumInput := - npi in
    let maximumInput := npi in
    let numMax := ntrunc ((diff - minimumInput) / modulus) in
    let diff := diff - numMax * modulus in
    let numMin := ntrunc ((diff - maximumInput) / modulus) in
    diff - numMin * modulus.

  (** AngleLinspace, TrajoptUtil.hpp:44-60. *)
  Definition AngleLinspace (startValue endValue : K) (numSamples : nat) : list K :=
    Linspace startValue (startValue + angle_diff startValue endValue) numSamples.
End Util.
