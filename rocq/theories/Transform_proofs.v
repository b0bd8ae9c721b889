From Coq Require Import Reals Lra.
From Verif Require Import R3 Transform_model.
Local Open Scope R_scope.

Definition tf_ok (a : tf) : Prop := qunit (rot a) /\ scl a <> 0.

Lemma tf_id_ok : tf_ok tf_id.
Proof. split; [apply qunit_id|cbn; lra]. Qed.

Lemma tf_mul_ok a b : tf_ok a -> tf_ok b -> tf_ok (tf_mul a b).
Proof.
  intros [Ha1 Ha2] [Hb1 Hb2]. split; cbn.
  - apply qunit_mul; assumption.
  - apply Rmult_integral_contrapositive_currified; assumption.
Qed.

Lemma tf_inv_ok a : tf_ok a -> tf_ok (tf_inv a).
Proof.
  intros [H1 H2]. split; cbn.
  - rewrite qinv_unit by exact H1. apply qconj_unit. exact H1.
  - unfold Rdiv. rewrite Rmult_1_l. apply Rinv_neq_0_compat. exact H2.
Qed.

Lemma tf_point_mul a b p :
  tf_ok a -> tf_ok b -> tf_point (tf_mul a b) p = tf_point a (tf_point b p).
Proof.
  intros [Ha _] [Hb _]. unfold tf_point, tf_mul; cbn.
  rewrite (qrot_mul _ _ _ Ha Hb), !vscale_add, !qrot_add, !qrot_scale, !vscale_scale.
  rewrite vadd_assoc. reflexivity.
Qed.

Lemma tf_mul_assoc a b c :
  tf_ok a -> tf_ok b -> tf_ok c -> tf_mul a (tf_mul b c) = tf_mul (tf_mul a b) c.
Proof.
  intros [Ha _] [Hb _] _. unfold tf_mul; cbn. f_equal.
  - apply qmul_assoc.
  - rewrite (qrot_mul _ _ _ Ha Hb), !vscale_add, !qrot_add, !qrot_scale, !vscale_scale, vadd_assoc.
    reflexivity.
  - ring.
Qed.

Lemma tf_mul_id_l a : tf_mul tf_id a = a.
Proof.
  destruct a as [q t s]. unfold tf_mul, tf_id; cbn. f_equal.
  - apply qmul_id_l.
  - rewrite qrot_id, vadd_0_l, vscale_1. reflexivity.
  - ring.
Qed.
Lemma tf_mul_id_r a : tf_mul a tf_id = a.
Proof.
  destruct a as [q t s]. unfold tf_mul, tf_id; cbn. f_equal.
  - apply qmul_id_r.
  - rewrite vscale_0_r, qrot_zero, vadd_0_r. reflexivity.
  - ring.
Qed.

Lemma tf_mul_inv_r a : tf_ok a -> tf_mul a (tf_inv a) = tf_id.
Proof.
  intros [H1 H2]. destruct a as [q t s]. cbn in H1, H2.
  unfold tf_mul, tf_inv, tf_id; cbn. rewrite (qinv_unit q H1). f_equal.
  - apply qconj_mul_r. exact H1.
  - rewrite vscale_scale, qrot_scale, <- qrot_mul by (auto using qconj_unit).
    rewrite qconj_mul_r, qrot_id by exact H1.
    replace (s * - (1 / s)) with (-1) by (field; exact H2). vec_ring.
  - field. exact H2.
Qed.
Lemma tf_mul_inv_l a : tf_ok a -> tf_mul (tf_inv a) a = tf_id.
Proof.
  intros [H1 H2]. destruct a as [q t s]. cbn in H1, H2.
  unfold tf_mul, tf_inv, tf_id; cbn. rewrite (qinv_unit q H1). f_equal.
  - apply qconj_mul_l. exact H1.
  - rewrite qrot_scale. vec_ring.
  - field. exact H2.
Qed.

Lemma tf_affine_point a p : aff_point (tf_affine a) p = tf_point a p.
Proof.
  unfold aff_point, tf_affine, tf_point, tf_linear; cbn.
  rewrite mvec_scale, qmat_vec, qrot_scale, vadd_comm. reflexivity.
Qed.

Lemma tf_mul_affine_point a b p :
  aff_point (tf_mul_affine a b) p = tf_point a (aff_point b p).
Proof.
  unfold aff_point, tf_mul_affine, tf_point, tf_linear; cbn.
  rewrite mmul_vec, mvec_scale, qmat_vec, vscale_add, qrot_add, !qrot_scale.
  vec_ring.
Qed.

Lemma tf_mul_affine_agrees a b :
  tf_ok a -> tf_ok b -> tf_mul_affine a (tf_affine b) = tf_affine (tf_mul a b).
Proof.
  intros Ha Hb.
  assert (E : forall v, mvec (mmul (tf_linear a) (tf_linear b)) v = mvec (tf_linear (tf_mul a b)) v).
  { intros v. unfold tf_linear. rewrite mmul_vec, !mvec_scale, !qmat_vec. cbn.
    destruct Ha as [Ha _], Hb as [Hb _].
    rewrite (qrot_mul _ _ _ Ha Hb), qrot_scale, vscale_scale. reflexivity. }
  assert (M : forall m n : mat3, (forall v, mvec m v = mvec n v) -> m = n).
  { intros m n H. pose proof (H ex) as H0. pose proof (H ey) as H1. pose proof (H ez) as H2.
    destruct m as [m0 m1 m2], n as [n0 n1 n2]. f_equal.
    - transitivity (mvec (M3 m0 m1 m2) ex); [vec_ring|]. rewrite H0. vec_ring.
    - transitivity (mvec (M3 m0 m1 m2) ey); [vec_ring|]. rewrite H1. vec_ring.
    - transitivity (mvec (M3 m0 m1 m2) ez); [vec_ring|]. rewrite H2. vec_ring. }
  unfold tf_mul_affine, tf_affine; cbn [alin atrans]. f_equal.
  - apply M. exact E.
  - cbn. apply vadd_comm.
Qed.

(** A transform keeps ratios of distances: squared distances are multiplied by
    scl^2. *)
Lemma tf_point_dist a p q :
  qunit (rot a) ->
  vnorm2 (vsub (tf_point a p) (tf_point a q)) = scl a * scl a * vnorm2 (vsub p q).
Proof.
  intros H.
  replace (vsub (tf_point a p) (tf_point a q)) with (qrot (rot a) (vscale (scl a) (vsub p q))).
  - unfold vnorm2. rewrite qrot_dot by exact H. vec_ring.
  - unfold tf_point. rewrite !qrot_scale, qrot_sub. vec_ring.
Qed.
