(** C04: transforms form a group and act on points. *)

From Coq Require Import Reals Lra.
From Verif Require Import R3 Transform_model Transform_proofs.
Local Open Scope R_scope.

(** A turn about z, moved and scaled by 3: it satisfies the
    hypotheses (unit quaternion, nonzero scale) used below. *)
Definition ex_tf : tf := TF (Q4 (3/5) 0 0 (4/5)) (V3 1 2 3) 3.
Example ex_tf_ok : qunit (rot ex_tf) /\ scl ex_tf <> 0.
Proof. unfold ex_tf, qunit, qnorm2; cbn. split; lra. Qed.
Example ex_tf_moves : tf_point ex_tf (V3 1 0 0) = V3 (1 - 21/25) (2 + 3*24/25) 3.
Proof. unfold tf_point, ex_tf; cbn [rot trans scl]. vec_unfold. f_equal; lra. Qed.

Theorem transform_compose_acts :
  forall a b p,
  qunit (rot a) /\ scl a <> 0 -> qunit (rot b) /\ scl b <> 0 ->
  tf_point (tf_mul a b) p = tf_point a (tf_point b p).
Proof. exact tf_point_mul. Qed.
Print Assumptions transform_compose_acts.

Theorem transform_mul_assoc :
  forall a b c,
  qunit (rot a) /\ scl a <> 0 -> qunit (rot b) /\ scl b <> 0 -> qunit (rot c) /\ scl c <> 0 ->
  tf_mul a (tf_mul b c) = tf_mul (tf_mul a b) c.
Proof. exact tf_mul_assoc. Qed.
Print Assumptions transform_mul_assoc.

Theorem transform_identity_unit :
  (forall a, tf_mul tf_id a = a) /\ (forall a, tf_mul a tf_id = a).
Proof. exact (conj tf_mul_id_l tf_mul_id_r). Qed.
Print Assumptions transform_identity_unit.

Theorem transform_inverse_two_sided :
  forall a, qunit (rot a) /\ scl a <> 0 ->
  tf_mul a (tf_inv a) = tf_id /\ tf_mul (tf_inv a) a = tf_id.
Proof. exact (fun a H => conj (tf_mul_inv_r a H) (tf_mul_inv_l a H)). Qed.
Print Assumptions transform_inverse_two_sided.

Theorem transform_closed :
  forall a b, qunit (rot a) /\ scl a <> 0 -> qunit (rot b) /\ scl b <> 0 ->
  (qunit (rot (tf_mul a b)) /\ scl (tf_mul a b) <> 0) /\
  (qunit (rot (tf_inv a)) /\ scl (tf_inv a) <> 0).
Proof. exact (fun a b Ha Hb => conj (tf_mul_ok a b Ha Hb) (tf_inv_ok a Ha)). Qed.
Print Assumptions transform_closed.

(** toAffine3 / toMatrix agree with the action on points, also without any
    assumption on the quaternion. *)
Theorem transform_affine_agrees :
  (forall a p, aff_point (tf_affine a) p = tf_point a p) /\
  (forall a b p, aff_point (tf_mul_affine a b) p = tf_point a (aff_point b p)) /\
  (forall a b, qunit (rot a) /\ scl a <> 0 -> qunit (rot b) /\ scl b <> 0 ->
     tf_mul_affine a (tf_affine b) = tf_affine (tf_mul a b)).
Proof. exact (conj tf_affine_point (conj tf_mul_affine_point tf_mul_affine_agrees)). Qed.
Print Assumptions transform_affine_agrees.

(** Distances are multiplied by |scale|. *)
Theorem transform_scales_distance :
  forall a p q, qunit (rot a) ->
  vnorm2 (vsub (tf_point a p) (tf_point a q)) = scl a * scl a * vnorm2 (vsub p q).
Proof. exact tf_point_dist. Qed.
Print Assumptions transform_scales_distance.

(** Without a unit rotation composition does not act as expected: the code
    relies on its callers to keep rotations normalised. *)
Theorem transform_needs_unit_rotation_refuted :
  exists a b p, scl a <> 0 /\ scl b <> 0 /\
    tf_point (tf_mul a b) p <> tf_point a (tf_point b p).
Proof.
  exists (TF (Q4 2 0 0 0) vzero 1), (TF (Q4 0 1 0 0) vzero 1), ey.
  cbn [scl]. split; [lra|]. split; [lra|].
  unfold tf_point, tf_mul; cbn [rot trans scl]. vec_unfold.
  intros H. injection H. intros. lra.
Qed.
Print Assumptions transform_needs_unit_rotation_refuted.
