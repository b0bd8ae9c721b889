(** Forward kinematics: momentum/character/joint.h, joint_state.{h,cpp},
    skeleton_state.{h,cpp}. Scalars are reals. *)

From Coq Require Import Reals List Arith.
From Verif Require Import Prelude R3 Transform_model Skeleton_model.
Import ListNotations.
Local Open Scope R_scope.
Local Open Scope outcome_scope.

(** JointT, joint.h:18-34 (the name is not modelled). *)
Record joint : Type := Joint {
  jparent : option nat;      (* parent, kInvalidIndex = None *)
  joffset : vec3;            (* translationOffset *)
  jprerot : quat             (* preRotation *)
}.

Definition skeleton := list joint.
Definition sk_parents (sk : skeleton) : parents := map jparent sk.

(** One joint's 7 parameters: JointVectorT, momentum/math/types.h /
    character/types.h (kParametersPerJoint = 7): tx ty tz rx ry rz scale. *)
Record jparam : Type := JP { jtx : R; jty : R; jtz : R; jrx : R; jry : R; jrz : R; jsc : R }.

(** jointParameters.middleRows<7>(7*jointID), skeleton_state.cpp:96,106-113.
    The size check (skeleton_state.cpp:86-92) keeps the reads in range. *)
Definition jparam_at (params : list R) (j : nat) : jparam :=
  let g k := nth (7 * j + k) params 0 in
  JP (g 0%nat) (g 1%nat) (g 2%nat) (g 3%nat) (g 4%nat) (g 5%nat) (g 6%nat).

(** std::exp2. *)
Definition exp2 (x : R) : R := exp (x * ln 2).

(** JointStateT, joint_state.h:23-43. [js_linear] is the linear part of
    [transformation]; [derivDirty] is not modelled: derivatives are always
    computed (computeDeriv = true). *)
Record jstate : Type := JS {
  js_linear : mat3;          (* transformation.linear() *)
  js_local : tf;             (* localTransform *)
  js_world : tf;             (* transform *)
  js_taxis : mat3;           (* translationAxis *)
  js_raxis : mat3            (* rotationAxis *)
}.

(** JointStateT::set, joint_state.cpp:23-68. The loop over index = 2,1,0 is
    unrolled: q2, q1, q0 are localTransform.rotation before each step. *)
Definition joint_state_set (jt : joint) (p : jparam) (parentState : option jstate) : jstate :=
  let parent := match parentState with Some s => js_world s | None => tf_id end in
  let taxis := match parentState with Some s => js_linear s | None => mid end in
  let ltrans := vadd (joffset jt) (V3 (jtx p) (jty p) (jtz p)) in
  let q2 := jprerot jt in
  let r2 := qrot (qmul (rot parent) q2) ez in
  let q1 := qmul q2 (qaxis (jrz p) ez) in
  let r1 := qrot (qmul (rot parent) q1) ey in
  let q0 := qmul q1 (qaxis (jry p) ey) in
  let r0 := qrot (qmul (rot parent) q0) ex in
  let q := qmul q0 (qaxis (jrx p) ex) in
  let local := TF q ltrans (exp2 (jsc p)) in
  let world := tf_mul parent local in
  JS (alin (tf_affine world)) local world taxis (M3 r0 r1 r2).

(** The loop of SkeletonStateT::set, skeleton_state.cpp:95-114. [acc] holds the
    states of the joints processed so far. A parent that has not been processed
    yet (excluded by the skeleton constructor) is reported as UB; the C++ would
    read a stale entry or, past the end, out of bounds. *)
Fixpoint fk_from (js : list joint) (params : list R) (acc : list jstate) : outcome (list jstate) :=
  match js with
  | [] => Ok acc
  | jt :: rest =>
      let* pst := match jparent jt with
                  | None => Ok None
                  | Some p => let* s := rd acc p in Ok (Some s)
                  end in
      fk_from rest params
        (acc ++ [joint_state_set jt (jparam_at params (length acc)) pst])
  end.

(** SkeletonStateT::set, skeleton_state.cpp:78-118. *)
Definition fk (sk : skeleton) (params : list R) : outcome (list jstate) :=
  if Nat.eqb (length params) (7 * length sk) then fk_from sk params [] else CheckFail.

Definition mcol (m : mat3) (i : nat) : vec3 :=
  match i with 0 => col0 m | 1 => col1 m | _ => col2 m end%nat.

(** getRotationDerivative, joint_state.cpp:71-74 (index in 0..2). *)
Definition get_rotation_derivative (s : jstate) (i : nat) (ref : vec3) : vec3 :=
  vcross (mcol (js_raxis s) i) ref.
(** getTranslationDerivative, joint_state.cpp:77-80. *)
Definition get_translation_derivative (s : jstate) (i : nat) : vec3 := mcol (js_taxis s) i.
(** getScaleDerivative, joint_state.cpp:83-85. *)
Definition get_scale_derivative (s : jstate) (ref : vec3) : vec3 := vscale (ln 2) ref.
