(** momentum/math/transform.{h,cpp}: rotation, translation, uniform scale.
    Over R; the double/float conversion of [invScale] (transform.cpp:93) is
    dropped. *)

From Coq Require Import Reals.
From Verif Require Import R3.
Local Open Scope R_scope.

Record tf : Type := TF { rot : quat; trans : vec3; scl : R }.

(** TransformT(), transform.h:45-47. *)
Definition tf_id : tf := TF qid vzero 1.

(** makeRotation / makeTranslation / makeScale, transform.cpp:16-28. *)
Definition tf_rotation (q : quat) : tf := TF q vzero 1.
Definition tf_translation (t : vec3) : tf := TF qid t 1.
Definition tf_scale (s : R) : tf := TF qid vzero s.

(** operator*(TransformT), transform.h:92-99. *)
Definition tf_mul (a b : tf) : tf :=
  TF (qmul (rot a) (rot b))
     (vadd (trans a) (qrot (rot a) (vscale (scl a) (trans b))))
     (scl a * scl b).

(** transformPoint, transform.cpp:77-79; operator*(Vector3), transform.h:108-110. *)
Definition tf_point (a : tf) (p : vec3) : vec3 :=
  vadd (trans a) (qrot (rot a) (vscale (scl a) p)).

(** rotate, transform.cpp:82-84. *)
Definition tf_rotate (a : tf) (v : vec3) : vec3 := qrot (rot a) v.

(** toLinear, transform.h:133-135; the linear part of toAffine3,
    transform.cpp:68-74, and of toMatrix, transform.h:119-125. *)
Definition tf_linear (a : tf) : mat3 := mscale (scl a) (qmat (rot a)).

(** toAffine3, transform.cpp:68-74 (and toMatrix): linear part and translation. *)
Record affine : Type := Aff { alin : mat3; atrans : vec3 }.
Definition tf_affine (a : tf) : affine := Aff (tf_linear a) (trans a).
Definition aff_point (a : affine) (p : vec3) : vec3 := vadd (mvec (alin a) p) (atrans a).
Definition aff_mul (a b : affine) : affine :=
  Aff (mmul (alin a) (alin b)) (vadd (mvec (alin a) (atrans b)) (atrans a)).

(** operator*(Affine3), transform.h:101-106. *)
Definition tf_mul_affine (a : tf) (b : affine) : affine :=
  Aff (mmul (tf_linear a) (alin b))
      (vadd (qrot (rot a) (vscale (scl a) (atrans b))) (trans a)).

(** inverse, transform.cpp:87-95. *)
Definition tf_inv (a : tf) : tf :=
  let invRot := qinv (rot a) in
  let invScale := 1 / scl a in
  TF invRot (vscale (- invScale) (qrot invRot (trans a))) invScale.
