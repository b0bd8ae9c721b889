(** What changing a character should do to its poses (C93-C97). *)

From Coq Require Import Reals List Arith String.
From Verif Require Import Prelude R3 LinAlg Transform_model Skeleton_spec FK_model FK_spec ParamTransform_model ParamTransform_spec
  Locator_model Skin_model Skin_spec CharUtil_model.
Import ListNotations.
Local Open Scope R_scope.

(** A character as the constructors make it: parents first, a bind pose for every joint. *)
Record fc_ok (c : fchar) : Prop := {
  fo_parents : parents_first (map jparent (fc_joints c));
  fo_some : fc_joints c <> [];
  fo_names : List.length (fc_names c) = List.length (fc_joints c);
  fo_inv : List.length (fc_inv c) = List.length (fc_joints c)
}.

(** ** Scaling *)

(** The joint parameters [p'] are [p] with the translations multiplied by [k]. *)
Definition scaled_params (k : R) (p p' : list R) : Prop :=
  List.length p' = List.length p /\
  forall i, nth i p' 0 = (if (i mod 7 <? 3)%nat then k * nth i p 0 else nth i p 0).
(** No joint is translated by its parameters. *)
Definition untranslated (p : list R) : Prop := forall i, (i mod 7 < 3)%nat -> nth i p 0 = 0.

(** Same rotation and scale, [k] times as far from the origin. *)
Definition scaled_state (k : R) (s s' : jstate) : Prop :=
  rot (js_world s') = rot (js_world s) /\ scl (js_world s') = scl (js_world s) /\
  trans (js_world s') = vscale k (trans (js_world s)).

(** ** Moving *)

(** Lengths and orientation are kept. *)
Definition rotation (m : mat3) : Prop :=
  (forall v w, vdot (mvec m v) (mvec m w) = vdot v w) /\ vdot (col0 m) (vcross (col1 m) (col2 m)) = 1.
Definition reflection (m : mat3) : Prop :=
  (forall v w, vdot (mvec m v) (mvec m w) = vdot v w) /\ vdot (col0 m) (vcross (col1 m) (col2 m)) = -1.

(** What is used of the singular values: they are the lengths of the images of three orthonormal
    vectors (the right singular vectors). *)
Definition gives_singular_values (svals : mat3 -> vec3) : Prop :=
  forall m, exists a b c, vdot a a = 1 /\ vdot b b = 1 /\ vdot c c = 1 /\ vdot a b = 0 /\ vdot b c = 0 /\ vdot a c = 0 /\
    vx (svals m) = sqrt (vdot (mvec m a) (mvec m a)) /\
    vy (svals m) = sqrt (vdot (mvec m b) (mvec m b)) /\
    vz (svals m) = sqrt (vdot (mvec m c) (mvec m c)).

(** Only the first joint has no parent. *)
Definition one_root (sk : skeleton) : Prop := forall i j, nth_error sk i = Some j -> jparent j = None -> i = 0%nat.

(** The joint parameters [p'] are [p] with the translation of the first joint rotated. *)
Definition turned_params (m : mat3) (p p' : list R) : Prop :=
  List.length p' = List.length p /\
  V3 (nth 0 p' 0) (nth 1 p' 0) (nth 2 p' 0) = mvec m (V3 (nth 0 p 0) (nth 1 p 0) (nth 2 p 0)) /\
  forall i, (3 <= i)%nat -> nth i p' 0 = nth i p 0.

(** The joint is where the map takes it, with everything fixed to it. *)
Definition moved_state (x : affine) (s s' : jstate) : Prop :=
  (forall v, aff_point (tf_affine (js_world s')) v = aff_point x (aff_point (tf_affine (js_world s)) v)) /\
  scl (js_world s') = scl (js_world s).

(** The influences that count add up to one. *)
Definition full_weight (row : list (nat * R)) : Prop := total (before_zero row) = 1.
