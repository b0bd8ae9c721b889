(** Three-dimensional vectors, quaternions and 3x3 matrices over R.

    The operations are those of Eigen that the modelled code uses. Eigen itself
    is not part of the repository; its documented formulas are used:
    quaternion product, [Quaternion::_transformVector] (v + w*uv + vec x uv with
    uv = 2 vec x v), [Quaternion::toRotationMatrix], [Quaternion::inverse]
    (conjugate divided by the squared norm), and the conversion of an
    [AngleAxis] to a quaternion (cos(a/2), sin(a/2) * axis). *)

From Coq Require Import Reals Lra Psatz.
Local Open Scope R_scope.

Record vec3 : Type := V3 { vx : R; vy : R; vz : R }.

Definition vzero : vec3 := V3 0 0 0.
Definition vadd (a b : vec3) : vec3 := V3 (vx a + vx b) (vy a + vy b) (vz a + vz b).
Definition vsub (a b : vec3) : vec3 := V3 (vx a - vx b) (vy a - vy b) (vz a - vz b).
Definition vscale (s : R) (a : vec3) : vec3 := V3 (s * vx a) (s * vy a) (s * vz a).
Definition vdot (a b : vec3) : R := vx a * vx b + vy a * vy b + vz a * vz b.
Definition vcross (a b : vec3) : vec3 :=
  V3 (vy a * vz b - vz a * vy b) (vz a * vx b - vx a * vz b) (vx a * vy b - vy a * vx b).
Definition vnorm2 (a : vec3) : R := vdot a a.
Definition ex : vec3 := V3 1 0 0.
Definition ey : vec3 := V3 0 1 0.
Definition ez : vec3 := V3 0 0 1.

Record quat : Type := Q4 { qw : R; qx : R; qy : R; qz : R }.

Definition qid : quat := Q4 1 0 0 0.
Definition qvec (q : quat) : vec3 := V3 (qx q) (qy q) (qz q).
Definition qnorm2 (q : quat) : R := qw q * qw q + qx q * qx q + qy q * qy q + qz q * qz q.
Definition qunit (q : quat) : Prop := qnorm2 q = 1.
Definition qmul (a b : quat) : quat :=
  Q4 (qw a * qw b - qx a * qx b - qy a * qy b - qz a * qz b)
     (qw a * qx b + qx a * qw b + qy a * qz b - qz a * qy b)
     (qw a * qy b - qx a * qz b + qy a * qw b + qz a * qx b)
     (qw a * qz b + qx a * qy b - qy a * qx b + qz a * qw b).
Definition qconj (q : quat) : quat := Q4 (qw q) (- qx q) (- qy q) (- qz q).
Definition qinv (q : quat) : quat :=
  let n := qnorm2 q in Q4 (qw q / n) (- qx q / n) (- qy q / n) (- qz q / n).

(** Quaternion * vector. *)
Definition qrot (q : quat) (v : vec3) : vec3 :=
  let uv := vscale 2 (vcross (qvec q) v) in
  vadd (vadd v (vscale (qw q) uv)) (vcross (qvec q) uv).

(** Quaternion(AngleAxis(angle, axis)). *)
Definition qaxis (angle : R) (axis : vec3) : quat :=
  Q4 (cos (angle / 2)) (sin (angle / 2) * vx axis) (sin (angle / 2) * vy axis)
     (sin (angle / 2) * vz axis).

(** A 3x3 matrix by its columns. *)
Record mat3 : Type := M3 { col0 : vec3; col1 : vec3; col2 : vec3 }.

Definition mid : mat3 := M3 ex ey ez.
Definition mscale (s : R) (m : mat3) : mat3 :=
  M3 (vscale s (col0 m)) (vscale s (col1 m)) (vscale s (col2 m)).
Definition mvec (m : mat3) (v : vec3) : vec3 :=
  vadd (vadd (vscale (vx v) (col0 m)) (vscale (vy v) (col1 m))) (vscale (vz v) (col2 m)).
Definition mmul (a b : mat3) : mat3 := M3 (mvec a (col0 b)) (mvec a (col1 b)) (mvec a (col2 b)).

(** Quaternion::toRotationMatrix. *)
Definition qmat (q : quat) : mat3 :=
  let tx := 2 * qx q in let ty := 2 * qy q in let tz := 2 * qz q in
  let twx := tx * qw q in let twy := ty * qw q in let twz := tz * qw q in
  let txx := tx * qx q in let txy := ty * qx q in let txz := tz * qx q in
  let tyy := ty * qy q in let tyz := tz * qy q in let tzz := tz * qz q in
  M3 (V3 (1 - (tyy + tzz)) (txy + twz) (txz - twy))
     (V3 (txy - twz) (1 - (txx + tzz)) (tyz + twx))
     (V3 (txz + twy) (tyz - twx) (1 - (txx + tyy))).

(** ** Algebra *)

Ltac vec_destruct :=
  repeat match goal with
  | v : vec3 |- _ => destruct v
  | q : quat |- _ => destruct q
  | m : mat3 |- _ => destruct m
  end.

Ltac vec_unfold :=
  cbv beta iota zeta delta [vadd vsub vscale vdot vcross vnorm2 vzero ex ey ez qid qvec qnorm2 qmul
    qconj qrot mid mscale mvec mmul qmat vx vy vz qw qx qy qz col0 col1 col2] in *.

(** Proves an equality of vectors/quaternions/matrices by [ring] on components. *)
Ltac vec_ring :=
  intros; cbv beta; vec_destruct; vec_unfold;
  repeat match goal with
  | |- @eq vec3 _ _ => f_equal
  | |- @eq quat _ _ => f_equal
  | |- @eq mat3 _ _ => f_equal
  end; ring.

Lemma vadd_comm a b : vadd a b = vadd b a. Proof. vec_ring. Qed.
Lemma vadd_assoc a b c : vadd a (vadd b c) = vadd (vadd a b) c. Proof. vec_ring. Qed.
Lemma vadd_0_l a : vadd vzero a = a. Proof. vec_ring. Qed.
Lemma vadd_0_r a : vadd a vzero = a. Proof. vec_ring. Qed.
Lemma vsub_diag a : vsub a a = vzero. Proof. vec_ring. Qed.
Lemma vscale_add s a b : vscale s (vadd a b) = vadd (vscale s a) (vscale s b). Proof. vec_ring. Qed.
Lemma vscale_scale s t a : vscale s (vscale t a) = vscale (s * t) a. Proof. vec_ring. Qed.
Lemma vscale_1 a : vscale 1 a = a. Proof. vec_ring. Qed.
Lemma vscale_0_l a : vscale 0 a = vzero. Proof. vec_ring. Qed.
Lemma vscale_0_r s : vscale s vzero = vzero. Proof. vec_ring. Qed.

Lemma qmul_assoc a b c : qmul a (qmul b c) = qmul (qmul a b) c. Proof. vec_ring. Qed.
Lemma qmul_id_l a : qmul qid a = a. Proof. vec_ring. Qed.
Lemma qmul_id_r a : qmul a qid = a. Proof. vec_ring. Qed.
Lemma qnorm2_mul a b : qnorm2 (qmul a b) = qnorm2 a * qnorm2 b. Proof. vec_ring. Qed.
Lemma qunit_mul a b : qunit a -> qunit b -> qunit (qmul a b).
Proof. unfold qunit. rewrite qnorm2_mul. intros -> ->. ring. Qed.
Lemma qunit_id : qunit qid. Proof. unfold qunit. vec_unfold. ring. Qed.

Lemma qrot_id v : qrot qid v = v. Proof. vec_ring. Qed.
Lemma qrot_add q a b : qrot q (vadd a b) = vadd (qrot q a) (qrot q b). Proof. vec_ring. Qed.
Lemma qrot_sub q a b : qrot q (vsub a b) = vsub (qrot q a) (qrot q b). Proof. vec_ring. Qed.
Lemma qrot_scale q s a : qrot q (vscale s a) = vscale s (qrot q a). Proof. vec_ring. Qed.
Lemma qrot_zero q : qrot q vzero = vzero. Proof. vec_ring. Qed.

(** The rotation matrix acts as the quaternion does, for every quaternion. *)
Lemma qmat_vec q v : mvec (qmat q) v = qrot q v. Proof. vec_ring. Qed.
Lemma qmat_col0 q : col0 (qmat q) = qrot q ex. Proof. vec_ring. Qed.
Lemma qmat_col1 q : col1 (qmat q) = qrot q ey. Proof. vec_ring. Qed.
Lemma qmat_col2 q : col2 (qmat q) = qrot q ez. Proof. vec_ring. Qed.
Lemma mvec_scale s m v : mvec (mscale s m) v = vscale s (mvec m v). Proof. vec_ring. Qed.
Lemma mmul_vec a b v : mvec (mmul a b) v = mvec a (mvec b v). Proof. vec_ring. Qed.

Lemma qunit_w q : qunit q -> qw q * qw q = 1 - qx q * qx q - qy q * qy q - qz q * qz q.
Proof. unfold qunit, qnorm2. lra. Qed.

(** For unit quaternions the product acts as the composition. *)
Lemma qrot_mul a b v : qunit a -> qunit b -> qrot (qmul a b) v = qrot a (qrot b v).
Proof.
  intros Ha Hb. apply qunit_w in Ha. apply qunit_w in Hb.
  vec_destruct. vec_unfold.
  f_equal; ring [Ha Hb].
Qed.

Lemma qrot_cross q a b : qunit q -> qrot q (vcross a b) = vcross (qrot q a) (qrot q b).
Proof.
  intros H. apply qunit_w in H. vec_destruct. vec_unfold.
  f_equal; ring [H].
Qed.

Lemma qrot_dot q a b : qunit q -> vdot (qrot q a) (qrot q b) = vdot a b.
Proof.
  intros H. apply qunit_w in H. vec_destruct. vec_unfold. ring [H].
Qed.

Lemma qinv_unit q : qunit q -> qinv q = qconj q.
Proof.
  unfold qunit, qinv. intros ->. vec_destruct. unfold qconj; cbn. f_equal; field.
Qed.
Lemma qconj_unit q : qunit q -> qunit (qconj q).
Proof. unfold qunit. intros <-. vec_destruct. vec_unfold. ring. Qed.
Lemma qconj_mul_l q : qunit q -> qmul (qconj q) q = qid.
Proof. intros H. apply qunit_w in H. vec_destruct. vec_unfold. f_equal; ring [H]. Qed.
Lemma qconj_mul_r q : qunit q -> qmul q (qconj q) = qid.
Proof. intros H. apply qunit_w in H. vec_destruct. vec_unfold. f_equal; ring [H]. Qed.

Lemma qaxis_unit a v : vnorm2 v = 1 -> qunit (qaxis a v).
Proof.
  intros H. unfold qunit, qnorm2, qaxis; cbn.
  unfold vnorm2, vdot in H.
  pose proof (sin2_cos2 (a / 2)) as E. unfold Rsqr in E.
  transitivity (cos (a/2) * cos (a/2) + sin (a/2) * sin (a/2) * (vx v * vx v + vy v * vy v + vz v * vz v)); [ring|].
  rewrite H. lra.
Qed.
Lemma ex_unit : vnorm2 ex = 1. Proof. vec_unfold; ring. Qed.
Lemma ey_unit : vnorm2 ey = 1. Proof. vec_unfold; ring. Qed.
Lemma ez_unit : vnorm2 ez = 1. Proof. vec_unfold; ring. Qed.

(** Rotation about a coordinate axis by the half-angle quaternion is the usual
    rotation matrix. *)
Lemma half_angles a :
  cos a = cos (a/2) * cos (a/2) - sin (a/2) * sin (a/2) /\
  sin a = 2 * sin (a/2) * cos (a/2) /\ cos (a/2) * cos (a/2) = 1 - sin (a/2) * sin (a/2).
Proof.
  assert (E : a = 2 * (a / 2)) by field.
  repeat split.
  - rewrite E at 1. apply cos_2a.
  - rewrite E at 1. apply sin_2a.
  - pose proof (sin2_cos2 (a/2)) as G. unfold Rsqr in G. lra.
Qed.

Lemma qrot_axis_x a v :
  qrot (qaxis a ex) v = V3 (vx v) (cos a * vy v - sin a * vz v) (sin a * vy v + cos a * vz v).
Proof.
  destruct (half_angles a) as [-> [-> E]].
  destruct v. unfold qaxis. vec_unfold. f_equal; ring [E].
Qed.
Lemma qrot_axis_y a v :
  qrot (qaxis a ey) v = V3 (cos a * vx v + sin a * vz v) (vy v) (- sin a * vx v + cos a * vz v).
Proof.
  destruct (half_angles a) as [-> [-> E]].
  destruct v. unfold qaxis. vec_unfold. f_equal; ring [E].
Qed.
Lemma qrot_axis_z a v :
  qrot (qaxis a ez) v = V3 (cos a * vx v - sin a * vy v) (sin a * vx v + cos a * vy v) (vz v).
Proof.
  destruct (half_angles a) as [-> [-> E]].
  destruct v. unfold qaxis. vec_unfold. f_equal; ring [E].
Qed.

Lemma vec_ext a b : vx a = vx b -> vy a = vy b -> vz a = vz b -> a = b.
Proof. destruct a, b; cbn. congruence. Qed.
