(** Specification vocabulary for double arithmetic: which [spec_float]s are
    doubles, and the real number a finite double stands for. *)
From Coq Require Import List ZArith Reals SpecFloat.
Import ListNotations.
From Verif Require Import NumR NumF64 Geometry Builder.
Local Open Scope R_scope.

(** A canonical encoding: a value an IEEE-754 binary64 variable can hold. *)
Definition is_double (x : f64) : Prop := valid_binary 53 1024 x = true.
(** Neither infinite nor NaN. *)
Definition finite (x : f64) : Prop :=
  match x with S754_zero _ | S754_finite _ _ _ => True | _ => False end.
(** The number m * 2^e a finite double stands for. *)
Definition real (x : f64) : R :=
  match x with
  | S754_finite s m e => (if s then -1 else 1) * IZR (Zpos m) * powerRZ 2 e
  | _ => 0
  end.
(** The comparison [a <= b] of C++: false if either is NaN. *)
Definition fle (a b : f64) : Prop := SFleb a b = true.
(** The comparison [a < b] of C++. *)
Definition flt (a b : f64) : Prop := SFltb a b = true.
(** 0.0 *)
Definition fzero : f64 := S754_zero false.
(** Half an ulp of 1: the relative error of one correctly rounded operation. *)
Definition roundoff : R := / 2 ^ 53.
(** The smallest positive double: the spacing of doubles near zero. *)
Definition tiny : R := / 2 ^ 1074.

(** The distances in x and in y between consecutive modules, as the doubles
    |a - b| computed from their coordinates. *)
Definition gap (ms : list (swerve_module f64)) (d : f64) : Prop :=
  exists i a b, nth_error ms i = Some a /\ nth_error ms (S i) = Some b /\
    (d = SFabs (f64_sub (tX (m_translation a)) (tX (m_translation b))) \/
     d = SFabs (f64_sub (tY (m_translation a)) (tY (m_translation b)))).
(** [w] is the least of the distances [G] that are positive and finite; [None]
    if there is none. *)
Definition narrowest (G : f64 -> Prop) (w : option f64) : Prop :=
  match w with
  | None => forall d, G d -> ~ (finite d /\ flt fzero d)
  | Some m => G m /\ finite m /\ flt fzero m /\ forall d, G d -> finite d -> flt fzero d -> fle m d
  end.
(** A module whose coordinates are doubles, NaN and infinities included. *)
Definition placed (md : swerve_module f64) : Prop :=
  is_double (tX (m_translation md)) /\ is_double (tY (m_translation md)).

(** A finite double of size at most 2^k. *)
Definition within (k : Z) (x : f64) : Prop := is_double x /\ finite x /\ Rabs (real x) <= powerRZ 2 k.
(** Library functions that give, for finite arguments, finite results no further
    than 1/2 from the cosine, sine and arc tangent of two arguments. *)
Definition sound_libm (fcos fsin : f64 -> f64) (fatan2 : f64 -> f64 -> f64) : Prop :=
  let close (v : f64) r := is_double v /\ finite v /\ Rabs (real v - r) <= 1 / 2 in
  (forall x, is_double x -> finite x -> close (fcos x) (cos (real x)) /\ close (fsin x) (sin (real x))) /\
  (forall y x, is_double y -> finite y -> is_double x -> finite x -> close (fatan2 y x) (Ratan2 (real y) (real x))).
(** A pose of coordinates and rotation of size at most 2^400. *)
Definition moderate_pose (p : Pose2 f64) : Prop :=
  within 400 (tX (pTr p)) /\ within 400 (tY (pTr p)) /\ within 400 (rCos (pRot p)) /\ within 400 (rSin (pRot p)).
(** A builder call that mentions no other coordinates, and no infinite angle. *)
Definition moderate_call (o : op f64) : Prop :=
  match o with
  | OPoseWpt _ x y a | OTranslationWpt _ x y a => within 400 x /\ within 400 y /\ is_double a /\ finite a
  | OWptInitialGuessPoint _ p => moderate_pose p
  | OSgmtInitialGuessPoints _ ps => Forall moderate_pose ps
  | _ => True
  end.
(** A trajectory of finite numbers only. *)
Definition finite_solution (s : solution f64) : Prop :=
  Forall finite (s_dt s) /\ Forall finite (s_x s) /\ Forall finite (s_y s) /\
  Forall finite (s_thetacos s) /\ Forall finite (s_thetasin s) /\
  Forall finite (s_vx s) /\ Forall finite (s_vy s) /\ Forall finite (s_omega s) /\
  Forall finite (s_ax s) /\ Forall finite (s_ay s) /\ Forall finite (s_alpha s) /\
  Forall (Forall finite) (s_moduleFX s) /\ Forall (Forall finite) (s_moduleFY s).
