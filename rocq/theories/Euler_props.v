(** C105: Euler angles and rotation matrices.  C106: rotation vectors and the average of quaternions. *)

From Coq Require Import Bool Reals List Arith Lia Lra Psatz.
From Verif Require Import Prelude LinAlg Rbool R3 Euler_model Euler_spec Euler_proofs.
Import ListNotations.
Local Open Scope R_scope.

(** ** C105: angles to matrices *)

(** Intrinsic angles compose left to right, extrinsic ones right to left. *)
Theorem euler_matrices a :
  euler_xyz_to_matrix a Intrinsic = mmul (rot_x (vx a)) (mmul (rot_y (vy a)) (rot_z (vz a))) /\
  euler_xyz_to_matrix a Extrinsic = mmul (rot_z (vz a)) (mmul (rot_y (vy a)) (rot_x (vx a))) /\
  euler_zyx_to_matrix a Intrinsic = mmul (rot_z (vx a)) (mmul (rot_y (vy a)) (rot_x (vz a))) /\
  euler_zyx_to_matrix a Extrinsic = mmul (rot_x (vz a)) (mmul (rot_y (vy a)) (rot_z (vx a))).
Proof. unfold euler_xyz_to_matrix, euler_zyx_to_matrix. rewrite !xyz_product, !zyx_product. repeat split; reflexivity. Qed.
Print Assumptions euler_matrices.

(** The same for any axes; the quaternion is a unit one and has that matrix. *)
Theorem euler_any_axes a a0 a1 a2 : (a0 < 3)%nat -> (a1 < 3)%nat -> (a2 < 3)%nat ->
  (exists q, euler_to_quaternion a a0 a1 a2 Intrinsic = Ok q /\ qunit q /\ euler_to_matrix a a0 a1 a2 Intrinsic = Ok (qmat q) /\
     qmat q = mmul (rot_axis a0 (vx a)) (mmul (rot_axis a1 (vy a)) (rot_axis a2 (vz a)))) /\
  (exists q, euler_to_quaternion a a0 a1 a2 Extrinsic = Ok q /\ qunit q /\ euler_to_matrix a a0 a1 a2 Extrinsic = Ok (qmat q) /\
     qmat q = mmul (rot_axis a2 (vz a)) (mmul (rot_axis a1 (vy a)) (rot_axis a0 (vx a)))).
Proof.
  intros H0 H1 H2. split.
  - destruct (to_quaternion_ok a a0 a1 a2 H0 H1 H2) as (q & E & U & M). exists q. unfold euler_to_matrix, euler_to_quaternion. rewrite E. auto.
  - destruct (to_quaternion_ok (vreverse a) a2 a1 a0 H2 H1 H0) as (q & E & U & M). exists q. unfold euler_to_matrix, euler_to_quaternion. rewrite E. auto.
Qed.
Print Assumptions euler_any_axes.

(** An axis that is not 0, 1 or 2 is outside of the vector. *)
Theorem euler_axes_needed a a0 a1 a2 c : (3 <= a0)%nat \/ (3 <= a1)%nat \/ (3 <= a2)%nat -> euler_to_matrix a a0 a1 a2 c = UB.
Proof.
  assert (B : forall i, (3 <= i)%nat -> unit_axis i = UB) by (intros i H; destruct i as [|[|[|i]]]; [lia..|reflexivity]).
  assert (D : forall i, unit_axis i = UB \/ exists u, unit_axis i = Ok u).
  { intros i. destruct (le_lt_dec 3 i); [left; apply B; assumption|right; apply unit_axis_ok; assumption]. }
  assert (T : forall v i j k, (3 <= i)%nat \/ (3 <= j)%nat \/ (3 <= k)%nat -> to_quaternion v i j k = UB).
  { intros v i j k H. unfold to_quaternion. destruct (D i) as [-> |[u0 E0]]; [reflexivity|]. rewrite E0. cbn [obind].
    destruct (D j) as [-> |[u1 E1]]; [reflexivity|]. rewrite E1. cbn [obind]. destruct (D k) as [-> |[u2 E2]]; [reflexivity|].
    exfalso. destruct H as [H|[H|H]]; apply B in H; congruence. }
  intros H. unfold euler_to_matrix, euler_to_quaternion. destruct c; rewrite T; intuition reflexivity.
Qed.
Print Assumptions euler_axes_needed.

(** The specialised functions are the general one at their axes. *)
Theorem euler_specialised a c : euler_to_matrix a 0 1 2 c = Ok (euler_xyz_to_matrix a c) /\ euler_to_matrix a 2 1 0 c = Ok (euler_zyx_to_matrix a c).
Proof.
  destruct (euler_any_axes a 0 1 2 ltac:(lia) ltac:(lia) ltac:(lia)) as [(q & _ & _ & E & M) (q' & _ & _ & E' & M')].
  destruct (euler_any_axes a 2 1 0 ltac:(lia) ltac:(lia) ltac:(lia)) as [(r & _ & _ & F & N) (r' & _ & _ & F' & N')].
  destruct (euler_matrices a) as (X & X' & Z & Z'). destruct c; [rewrite E, F, X, Z, M, N|rewrite E', F', X', Z', M', N']; split; reflexivity.
Qed.
Print Assumptions euler_specialised.

(** utility.h:163-168 says that XYZ is also the general function on reversed angles and axes under the same
    convention.  It is under the other one. *)
Theorem euler_reversed a c : euler_to_matrix (vreverse a) 2 1 0 (match c with Intrinsic => Extrinsic | Extrinsic => Intrinsic end) = Ok (euler_xyz_to_matrix a c).
Proof.
  destruct (euler_specialised (vreverse a) (match c with Intrinsic => Extrinsic | Extrinsic => Intrinsic end)) as [_ ->].
  destruct a; destruct c; reflexivity.
Qed.
Print Assumptions euler_reversed.
Theorem euler_reversed_refuted : exists a, forall c, euler_to_matrix (vreverse a) 2 1 0 c <> Ok (euler_xyz_to_matrix a c).
Proof.
  exists (V3 (PI / 2) (PI / 2) 0). intros c. destruct (euler_specialised (vreverse (V3 (PI / 2) (PI / 2) 0)) c) as [_ ->].
  destruct c; unfold euler_zyx_to_matrix, euler_xyz_to_matrix, vreverse, xyz_to_matrix, zyx_to_matrix; cbn; rewrite cos_PI2, sin_PI2, cos_0, sin_0; intros E; injection E; intros; lra.
Qed.
Print Assumptions euler_reversed_refuted.

(** ** C105: matrices to angles *)

(** The angles come back to the matrix exactly unless the sine of the middle angle is within the tolerance of
    1 or -1 without being there. *)
Theorem matrix_angles_matrix tol m c : 0 < tol <= 1 -> rotation m ->
  (let e := match c with Intrinsic => vx (col2 m) | Extrinsic => vz (col0 m) end in
   euler_xyz_to_matrix (matrix_to_euler_xyz tol m c) c = m <-> (-1 + tol < e < 1 - tol) \/ e = 1 \/ e = -1) /\
  (let e := match c with Intrinsic => vz (col0 m) | Extrinsic => vx (col2 m) end in
   euler_zyx_to_matrix (matrix_to_euler_zyx tol m c) c = m <-> (-1 + tol < e < 1 - tol) \/ e = 1 \/ e = -1).
Proof.
  intros T RO.
  assert (RV : forall v, vreverse (vreverse v) = v) by (intros []; reflexivity).
  assert (X : xyz_to_matrix (matrix_to_xyz tol m) = m <-> (-1 + tol < vx (col2 m) < 1 - tol) \/ vx (col2 m) = 1 \/ vx (col2 m) = -1).
  { unfold matrix_to_xyz. destruct (Rltb_spec (vx (col2 m)) (1 - tol)) as [U|U].
    - destruct (Rltb_spec (-1 + tol) (vx (col2 m))) as [L|L].
      + split; [intros _; left; lra|intros _; apply xyz_regular; [exact RO|lra]].
      + split.
        * intros E. right; right. rewrite <- E. unfold xyz_to_matrix; cbn. apply sin_half_mpi.
        * intros H. assert (vx (col2 m) = -1) by lra. apply mclose_00. apply xyz_pole_down; [lra|exact RO|lra].
    - split.
      + intros E. right; left. rewrite <- E. unfold xyz_to_matrix; cbn. apply sin_half_pi.
      + intros H. assert (vx (col2 m) = 1) by lra. apply mclose_00. apply xyz_pole_up; [lra|exact RO|lra]. }
  assert (Z : zyx_to_matrix (matrix_to_zyx tol m) = m <-> (-1 + tol < vz (col0 m) < 1 - tol) \/ vz (col0 m) = 1 \/ vz (col0 m) = -1).
  { unfold matrix_to_zyx. destruct (Rltb_spec (vz (col0 m)) (1 - tol)) as [U|U].
    - destruct (Rltb_spec (-1 + tol) (vz (col0 m))) as [L|L].
      + split; [intros _; left; lra|intros _; apply zyx_regular; [exact RO|lra]].
      + split.
        * intros E. right; right. rewrite <- E. unfold zyx_to_matrix; cbn. rewrite sin_half_pi. ring.
        * intros H. assert (vz (col0 m) = -1) by lra. apply mclose_00. apply zyx_pole_up; [lra|exact RO|lra].
    - split.
      + intros E. right; left. rewrite <- E. unfold zyx_to_matrix; cbn. rewrite sin_half_mpi. ring.
      + intros H. assert (vz (col0 m) = 1) by lra. apply mclose_00. apply zyx_pole_down; [lra|exact RO|lra]. }
  destruct c; unfold euler_xyz_to_matrix, matrix_to_euler_xyz, euler_zyx_to_matrix, matrix_to_euler_zyx; rewrite ?RV; split; assumption.
Qed.
Print Assumptions matrix_angles_matrix.

(** For every rotation no entry of the matrix of the angles is further off than the root of twice the
    tolerance. *)
Theorem matrix_angles_close tol m c : 0 < tol <= 2 / 25 -> rotation m ->
  mclose (sqrt (2 * tol)) (euler_xyz_to_matrix (matrix_to_euler_xyz tol m c) c) m /\
  mclose (sqrt (2 * tol)) (euler_zyx_to_matrix (matrix_to_euler_zyx tol m c) c) m.
Proof.
  intros T RO.
  assert (RV : forall v, vreverse (vreverse v) = v) by (intros []; reflexivity).
  assert (X : mclose (sqrt (2 * tol)) (xyz_to_matrix (matrix_to_xyz tol m)) m).
  { unfold matrix_to_xyz. destruct (Rltb_spec (vx (col2 m)) (1 - tol)) as [U|U]; [destruct (Rltb_spec (-1 + tol) (vx (col2 m))) as [L|L]|].
    - rewrite xyz_regular by (try exact RO; lra). apply mclose_refl, sqrt_pos.
    - apply xyz_pole_down; [lra|exact RO|lra].
    - apply xyz_pole_up; [lra|exact RO|lra]. }
  assert (Z : mclose (sqrt (2 * tol)) (zyx_to_matrix (matrix_to_zyx tol m)) m).
  { unfold matrix_to_zyx. destruct (Rltb_spec (vz (col0 m)) (1 - tol)) as [U|U]; [destruct (Rltb_spec (-1 + tol) (vz (col0 m))) as [L|L]|].
    - rewrite zyx_regular by (try exact RO; lra). apply mclose_refl, sqrt_pos.
    - apply zyx_pole_up; [lra|exact RO|lra].
    - apply zyx_pole_down; [lra|exact RO|lra]. }
  destruct c; unfold euler_xyz_to_matrix, matrix_to_euler_xyz, euler_zyx_to_matrix, matrix_to_euler_zyx; rewrite ?RV; split; assumption.
Qed.
Print Assumptions matrix_angles_close.

(** A rotation of which the angles describe another one, with the tolerance of floats. *)
Theorem matrix_angles_refuted : exists m, rotation m /\ forall c, euler_xyz_to_matrix (matrix_to_euler_xyz (/ 1000000) m c) c <> m.
Proof.
  set (y := asin (1 - / 2000000)). exists (rot_y y).
  assert (S : sin y = 1 - / 2000000) by (apply sin_asin; lra).
  assert (RO : rotation (rot_y y)).
  { pose proof (sin2_cos2 y) as Q. unfold Rsqr in Q. unfold rotation, rot_y, vnorm2, vdot, vcross; cbn. repeat split; [lra..|]. f_equal; ring. }
  split; [exact RO|]. intros c H. pose proof (matrix_angles_matrix (/ 1000000) (rot_y y) c ltac:(lra) RO) as [E _]. cbv zeta in E.
  apply E in H. destruct c; cbn in H; rewrite S in H; lra.
Qed.
Print Assumptions matrix_angles_refuted.

(** Angles in the usual ranges, away from the poles, are found again. *)
Theorem angles_matrix_angles tol a c : 0 < tol -> turn (vx a) -> turn (vz a) -> - (PI / 2) < vy a < PI / 2 -> -1 + tol < sin (vy a) < 1 - tol ->
  matrix_to_euler_xyz tol (euler_xyz_to_matrix a c) c = a /\ matrix_to_euler_zyx tol (euler_zyx_to_matrix a c) c = a.
Proof.
  intros T X Z Y S. destruct c; unfold euler_xyz_to_matrix, matrix_to_euler_xyz, euler_zyx_to_matrix, matrix_to_euler_zyx.
  - split; [apply xyz_back|apply zyx_back]; assumption.
  - rewrite xyz_back, zyx_back by (try assumption; cbn; assumption). destruct a; split; reflexivity.
Qed.
Print Assumptions angles_matrix_angles.

(** The ranges of the angles, for every matrix. *)
Theorem matrix_angles_range tol m c :
  let g v := turn (vx v) /\ quarter (vy v) /\ turn (vz v) in g (matrix_to_euler_xyz tol m c) /\ g (matrix_to_euler_zyx tol m c).
Proof.
  cbv zeta. pose proof PI_RGT_0 as PP.
  assert (X : turn (vx (matrix_to_xyz tol m)) /\ quarter (vy (matrix_to_xyz tol m)) /\ turn (vz (matrix_to_xyz tol m))).
  { unfold matrix_to_xyz. destruct (Rltb _ _); [destruct (Rltb _ _)|]; cbn; (split; [apply atan2_turn || apply turn_0|]); (split; [apply quarter_asin || (unfold quarter; lra)|apply atan2_turn]). }
  assert (Z : turn (vx (matrix_to_zyx tol m)) /\ quarter (vy (matrix_to_zyx tol m)) /\ turn (vz (matrix_to_zyx tol m))).
  { unfold matrix_to_zyx. destruct (Rltb _ _); [destruct (Rltb _ _)|]; cbn; (split; [apply atan2_turn || apply turn_0|]); (split; [apply quarter_asin || (unfold quarter; lra)|apply atan2_turn]). }
  destruct c; cbn; tauto.
Qed.
Print Assumptions matrix_angles_range.

(** With any decomposition into three turns, the general functions are inverse in both conventions. *)
Theorem matrix_angles_general ea m a0 a1 a2 : (a0 < 3)%nat -> (a1 < 3)%nat -> (a2 < 3)%nat ->
  let good i j k := mmul (rot_axis i (vx (ea m i j k))) (mmul (rot_axis j (vy (ea m i j k))) (rot_axis k (vz (ea m i j k)))) = m in
  (good a0 a1 a2 -> euler_to_matrix (matrix_to_euler ea m a0 a1 a2 Intrinsic) a0 a1 a2 Intrinsic = Ok m) /\
  (good a2 a1 a0 -> euler_to_matrix (matrix_to_euler ea m a0 a1 a2 Extrinsic) a0 a1 a2 Extrinsic = Ok m).
Proof.
  intros H0 H1 H2 good. split; intros G.
  - destruct (euler_any_axes (ea m a0 a1 a2) a0 a1 a2 H0 H1 H2) as [(q & _ & _ & E & M) _]. cbn [matrix_to_euler]. rewrite E, M. f_equal. exact G.
  - destruct (euler_any_axes (vreverse (ea m a2 a1 a0)) a0 a1 a2 H0 H1 H2) as [_ (q & _ & _ & E & M)]. cbn [matrix_to_euler]. rewrite E, M. f_equal. exact G.
Qed.
Print Assumptions matrix_angles_general.

(** A quaternion as extrinsic XYZ angles. *)
Theorem quat_angles_partial q : qunit q -> -1 < 2 * (qw q * qy q - qz q * qx q) < 1 ->
  euler_xyz_to_matrix (quat_to_euler q) Extrinsic = qmat q.
Proof.
  intros U B. rewrite <- (zyx_regular (qmat q) (rotation_qmat q U)) at 1.
  - unfold euler_xyz_to_matrix, quat_to_euler, vreverse. f_equal. destruct q as [w x y z]. unfold qmat; cbn. f_equal; f_equal; ring.
  - destruct q as [w x y z]. unfold qmat; cbn in *. lra.
Qed.
Print Assumptions quat_angles_partial.
Theorem quat_angles_refuted : exists q, qunit q /\ euler_xyz_to_matrix (quat_to_euler q) Extrinsic <> qmat q.
Proof.
  exists (Q4 (1 / 2) (1 / 2) (1 / 2) (- (1 / 2))). split; [unfold qunit, qnorm2; cbn; lra|].
  assert (A : atan2 0 0 = 0) by (unfold atan2; rewrite !Rltb_f by lra; reflexivity).
  unfold euler_xyz_to_matrix, quat_to_euler, vreverse, zyx_to_matrix, qmat; cbn.
  replace (2 * (1 / 2 * (1 / 2) + 1 / 2 * - (1 / 2))) with 0 by field. replace (1 - 2 * (1 / 2 * (1 / 2) + 1 / 2 * (1 / 2))) with 0 by field.
  rewrite A, sin_0, cos_0. replace (2 * (1 / 2 * - (1 / 2) + 1 / 2 * (1 / 2))) with 0 by field. replace (1 - 2 * (1 / 2 * (1 / 2) + - (1 / 2) * - (1 / 2))) with 0 by field.
  rewrite A, sin_0, cos_0. intros E. injection E; intros. lra.
Qed.
Print Assumptions quat_angles_refuted.

(** A rotation that meets the hypotheses, angles in the ranges, and decompositions as the general functions
    need them. *)
Example ex_rotation : let q := Q4 (4 / 5) (2 / 5) (2 / 5) (1 / 5) in
  rotation (qmat q) /\ vx (col2 (qmat q)) = 4 / 5 /\ vz (col0 (qmat q)) = - (12 / 25) /\ qunit q /\ -1 < 2 * (qw q * qy q - qz q * qx q) < 1.
Proof. cbv zeta. assert (U : qunit (Q4 (4 / 5) (2 / 5) (2 / 5) (1 / 5))) by (unfold qunit, qnorm2; cbn; lra). repeat split; try (apply rotation_qmat; exact U); try exact U; cbn; lra. Qed.
Example ex_angles : let a := V3 2 1 (-3) in
  turn (vx a) /\ turn (vz a) /\ - (PI / 2) < vy a < PI / 2 /\ -1 + (/ 2 - / 2 * sin 1) < sin (vy a) < 1 - (/ 2 - / 2 * sin 1) /\ 0 < / 2 - / 2 * sin 1.
Proof.
  pose proof PI2_3_2 as P. pose proof (sin_lt_x 1 ltac:(lra)). assert (0 < sin 1) by (apply sin_gt_0; lra). cbn. unfold turn. repeat split; lra.
Qed.
Example ex_decomposition : let ea := fun m i j k => match i with 0%nat => matrix_to_xyz 0 m | _ => matrix_to_zyx 0 m end in
  forall m, rotation m ->
  mmul (rot_axis 0 (vx (ea m 0 1 2)%nat)) (mmul (rot_axis 1 (vy (ea m 0 1 2)%nat)) (rot_axis 2 (vz (ea m 0 1 2)%nat))) = m /\
  mmul (rot_axis 2 (vx (ea m 2 1 0)%nat)) (mmul (rot_axis 1 (vy (ea m 2 1 0)%nat)) (rot_axis 0 (vz (ea m 2 1 0)%nat))) = m.
Proof.
  cbv zeta. intros m RO. cbn [rot_axis]. pose proof (entry_bound m RO) as [B1 B2]. rewrite <- xyz_product, <- zyx_product. split.
  - unfold matrix_to_xyz. destruct (Rltb_spec (vx (col2 m)) (1 - 0)) as [U|U]; [destruct (Rltb_spec (-1 + 0) (vx (col2 m))) as [L|L]|].
    + apply xyz_regular; [exact RO|lra].
    + apply mclose_00. apply xyz_pole_down; [lra|exact RO|lra].
    + apply mclose_00. apply xyz_pole_up; [lra|exact RO|lra].
  - unfold matrix_to_zyx. destruct (Rltb_spec (vz (col0 m)) (1 - 0)) as [U|U]; [destruct (Rltb_spec (-1 + 0) (vz (col0 m))) as [L|L]|].
    + apply zyx_regular; [exact RO|lra].
    + apply mclose_00. apply zyx_pole_up; [lra|exact RO|lra].
    + apply mclose_00. apply zyx_pole_down; [lra|exact RO|lra].
Qed.

(** ** C106: rotation vectors *)

(** A vector of at least 1e-5 turns about its direction by its length, a shorter one not at all. *)
Theorem rotvec_meaning v : qunit (rotvec_to_quat v) /\
  (/ 100000 <= sqrt (vnorm2 v) -> forall x, qrot (rotvec_to_quat v) x = rodrigues v (sqrt (vnorm2 v)) x) /\
  (sqrt (vnorm2 v) < / 100000 -> forall x, qrot (rotvec_to_quat v) x = x).
Proof.
  destruct (Rlt_le_dec (sqrt (vnorm2 v)) (/ 100000)) as [L|L].
  - assert (E : rotvec_to_quat v = qid) by (unfold rotvec_to_quat; rewrite Rltb_t by exact L; reflexivity). rewrite E.
    split; [apply qunit_id|]. split; [intros; lra|]. intros _ x. apply qrot_id.
  - destruct (rotvec_turns v L) as [U Q]. split; [exact U|]. split; [intros _; exact Q|intros; lra].
Qed.
Print Assumptions rotvec_meaning.

(** Through the rotation vector and back a quaternion keeps its rotation and ends with a scalar part that is
    not negative; the vector is no longer than a half turn. *)
Theorem quat_vector_quat_partial q : qunit q -> qw q * qw q <= 1 - / 8388608 ->
  rotvec_to_quat (quat_to_rotvec q) = (if Rltb (qw q) 0 then qneg q else q) /\
  qmat (rotvec_to_quat (quat_to_rotvec q)) = qmat q /\ sqrt (vnorm2 (quat_to_rotvec q)) <= PI.
Proof.
  intros U W. pose proof (rotvec_quat q U W) as E. split; [exact E|]. split; [|apply (rotvec_long q U W)].
  rewrite E. destruct (Rltb (qw q) 0); [|reflexivity]. destruct q. unfold qneg, qmat; cbn. f_equal; f_equal; ring.
Qed.
Print Assumptions quat_vector_quat_partial.

(** A smaller rotation becomes the zero vector; it moves no point by more than 2^-10.5 of its distance. *)
Theorem quat_vector_small q : qunit q -> 1 - / 8388608 < qw q * qw q ->
  quat_to_rotvec q = vzero /\ rotvec_to_quat (quat_to_rotvec q) = qid /\
  forall x, vnorm2 (vsub (qrot q x) x) <= / 2097152 * vnorm2 x.
Proof.
  intros U W. assert (E : quat_to_rotvec q = vzero) by (unfold quat_to_rotvec; rewrite (Rltb_t (1 - / 8388608)) by exact W; reflexivity).
  split; [exact E|]. split.
  - rewrite E. unfold rotvec_to_quat. rewrite Rltb_t; [reflexivity|]. replace (vnorm2 vzero) with 0 by (unfold vnorm2, vdot, vzero; cbn; ring). rewrite sqrt_0. lra.
  - intros x. assert (V : vnorm2 (qvec q) <= / 8388608) by (unfold qunit, qnorm2 in U; unfold vnorm2, vdot, qvec; cbn; lra).
    assert (M : vnorm2 (vsub (qrot q x) x) = 4 * (vnorm2 (qvec q) * vnorm2 x - vdot (qvec q) x * vdot (qvec q) x)).
    { apply qunit_w in U. destruct q, x. vec_unfold. ring [U]. }
    rewrite M. assert (0 <= vnorm2 x) by (destruct x; unfold vnorm2, vdot; cbn; nra). assert (0 <= vnorm2 (qvec q)) by (unfold vnorm2, vdot; nra).
    pose proof (Rle_0_sqr (vdot (qvec q) x)) as SQ. unfold Rsqr in SQ. assert (vnorm2 (qvec q) * vnorm2 x <= / 8388608 * vnorm2 x) by (apply Rmult_le_compat_r; assumption). lra.
Qed.
Print Assumptions quat_vector_small.
Theorem quat_vector_refuted : exists q, qunit q /\ qmat (rotvec_to_quat (quat_to_rotvec q)) <> qmat q.
Proof.
  set (x := / 10000). assert (H : 0 < 1 - x * x) by (unfold x; lra). exists (Q4 (sqrt (1 - x * x)) x 0 0).
  assert (SS : sqrt (1 - x * x) * sqrt (1 - x * x) = 1 - x * x) by (apply sqrt_sqrt; lra).
  assert (U : qunit (Q4 (sqrt (1 - x * x)) x 0 0)) by (unfold qunit, qnorm2; cbn; lra).
  split; [exact U|]. destruct (quat_vector_small _ U ltac:(cbn; rewrite SS; unfold x; lra)) as (_ & -> & _).
  unfold qmat; cbn. intros E. injection E. intros. unfold x in *. lra.
Qed.
Print Assumptions quat_vector_refuted.

(** A vector up to a half turn is found again unless it is very short. *)
Theorem vector_quat_vector_partial v : sqrt (vnorm2 v) <= PI -> / 8388608 <= sin (sqrt (vnorm2 v) / 2) * sin (sqrt (vnorm2 v) / 2) ->
  quat_to_rotvec (rotvec_to_quat v) = v.
Proof. apply quat_rotvec. Qed.
Print Assumptions vector_quat_vector_partial.
Theorem vector_quat_vector_refuted : exists v, / 100000 <= sqrt (vnorm2 v) <= PI /\ quat_to_rotvec (rotvec_to_quat v) <> v.
Proof.
  exists (V3 (/ 10000) 0 0). assert (N : sqrt (vnorm2 (V3 (/ 10000) 0 0)) = / 10000).
  { unfold vnorm2, vdot; cbn. replace (/ 10000 * / 10000 + 0 * 0 + 0 * 0) with (/ 10000 * / 10000) by ring. apply sqrt_square. lra. }
  pose proof PI2_3_2 as P. split; [rewrite N; lra|]. unfold rotvec_to_quat. rewrite N, Rltb_f by lra. unfold quat_to_rotvec. rewrite (Rltb_t (1 - / 8388608)).
  - intros E. apply (f_equal vx) in E. cbn in E. lra.
  - cbn. pose proof (sin2_cos2 (/ 10000 / 2)) as Q. unfold Rsqr in Q. pose proof (sin_le_x (/ 10000 / 2) ltac:(lra)). assert (0 <= sin (/ 10000 / 2)) by (apply sin_ge_0; lra). nra.
Qed.
Print Assumptions vector_quat_vector_refuted.

Example ex_vectors : let q := Q4 (- (4 / 5)) (2 / 5) (2 / 5) (1 / 5) in let v := V3 0 (PI / 2) 0 in
  qunit q /\ qw q * qw q <= 1 - / 8388608 /\ / 100000 <= sqrt (vnorm2 v) <= PI /\ / 8388608 <= sin (sqrt (vnorm2 v) / 2) * sin (sqrt (vnorm2 v) / 2) /\
  1 - / 8388608 < qw qid * qw qid.
Proof.
  cbv zeta. pose proof PI2_3_2 as P.
  assert (N : sqrt (vnorm2 (V3 0 (PI / 2) 0)) = PI / 2).
  { unfold vnorm2, vdot; cbn. replace (0 * 0 + PI / 2 * (PI / 2) + 0 * 0) with (PI / 2 * (PI / 2)) by ring. apply sqrt_square. lra. }
  rewrite N. replace (PI / 2 / 2) with (PI / 4) by field. rewrite sin_PI4.
  split; [unfold qunit, qnorm2; cbn; lra|]. split; [cbn; lra|]. split; [lra|]. split; [|cbn; lra].
  replace (1 / sqrt 2 * (1 / sqrt 2)) with (1 / (sqrt 2 * sqrt 2)) by (field; apply Rgt_not_eq, sqrt_lt_R0; lra). rewrite sqrt_sqrt by lra. lra.
Qed.

(** ** C106: the average *)

(** The average is a unit quaternion, and none agrees better with the given ones.  [top] is the eigenvector
    of the largest eigenvalue. *)
Theorem average_best top q w :
  (forall A, square4 A -> (forall i j, (i < 4)%nat -> (j < 4)%nat -> at4 A i j = moment q w i j) -> top_eigenvector A (top A)) ->
  exists p, quat_average top q w = Ok p /\ qunit p /\ forall p', qunit p' -> agreement q w p' <= agreement q w p.
Proof.
  intros T. set (A := average_matrix (repeat (repeat 0 4) 4) q w).
  destruct (average_form q w (repeat (repeat 0 4) 4) qid zero_symmetric) as [SA _].
  assert (TA : top_eigenvector A (top A)).
  { apply T; [apply SA|]. intros i j Hi Hj. unfold A. rewrite average_entries by (try assumption; apply zero_symmetric).
    replace (at4 (repeat (repeat 0 4) 4) i j) with 0; [ring|]. destruct i as [|[|[|[|i]]]]; try lia; destruct j as [|[|[|[|j]]]]; try lia; reflexivity. }
  destruct TA as [[L U] M]. unfold quat_average. fold A. destruct (top A) as [|x [|y [|z [|t [|]]]]] eqn:E; try discriminate. exists (Q4 t x y z).
  split; [reflexivity|]. split; [unfold qunit, qnorm2; cbn; unfold rsum in U; cbn in U; lra|].
  assert (F : forall p, quad A (coeffs p) = agreement q w p).
  { intros p. unfold A. destruct (average_form q w (repeat (repeat 0 4) 4) p zero_symmetric) as [_ ->]. rewrite quad_zero by reflexivity. ring. }
  intros p' U'. rewrite <- !F. apply M. split; [reflexivity|]. unfold qunit, qnorm2 in U'. unfold coeffs, rsum; cbn. lra.
Qed.
Print Assumptions average_best.

(** The sign of a quaternion does not matter, and neither does that of a weight. *)
Theorem average_signs top q w k : quat_average top (map (fun i => if Nat.eqb i k then qneg (nth i q qid) else nth i q qid) (seq 0 (length q))) w = quat_average top q w.
Proof.
  unfold quat_average. do 2 f_equal. generalize (repeat (repeat 0 4) 4). revert w k. induction q as [|x q IH]; intros w k Q; [reflexivity|].
  cbn [length seq map average_matrix nth]. rewrite <- seq_shift, map_map.
  assert (Sgn : forall b s, outer_add Q (coeffs (if b : bool then qneg x else x)) s = outer_add Q (coeffs x) s).
  { intros [] s; [|reflexivity]. change (coeffs (qneg x)) with (map Ropp (coeffs x)). apply outer_flip. }
  rewrite Sgn. destruct k as [|k].
  - cbn [Nat.eqb nth]. f_equal.
    clear. induction q as [|y q IH]; [reflexivity|]. cbn [length seq map nth]. f_equal. rewrite <- seq_shift, map_map. exact IH.
  - cbn [Nat.eqb nth]. rewrite <- (IH (tl w) k). f_equal.
Qed.
Print Assumptions average_signs.
Theorem average_weight_signs top q w k : quat_average top q (map (fun i => if Nat.eqb i k then - nth i w 1 else nth i w 1) (seq 0 (length w))) = quat_average top q w.
Proof.
  unfold quat_average. do 2 f_equal. generalize (repeat (repeat 0 4) 4). revert w k. induction q as [|x q IH]; intros w k Q; [reflexivity|].
  destruct w as [|s w]; [reflexivity|]. cbn [length seq map average_matrix nth tl]. rewrite <- seq_shift, map_map.
  replace (outer_add Q (coeffs x) (if Nat.eqb 0 k then - s else s)) with (outer_add Q (coeffs x) s) by (destruct (Nat.eqb 0 k); [symmetry; apply outer_flip_weight|reflexivity]).
  destruct k as [|k]; cbn [Nat.eqb nth].
  - f_equal. clear. induction w as [|y w IH]; [reflexivity|]. cbn [length seq map nth]. f_equal. rewrite <- seq_shift, map_map. exact IH.
  - rewrite <- (IH w k). f_equal.
Qed.
Print Assumptions average_weight_signs.

(** An eigenvector as the theorem asks for it. *)
Example ex_average : let q := [qid; Q4 0 1 0 0] in let w := [2] in let top := fun _ : list (list R) => [0; 0; 0; 1] in
  (forall A, square4 A -> (forall i j, (i < 4)%nat -> (j < 4)%nat -> at4 A i j = moment q w i j) -> top_eigenvector A (top A)) /\
  quat_average top q w = Ok qid.
Proof.
  cbv zeta. split; [|reflexivity]. intros A _ H. split; [split; [reflexivity|unfold rsum; cbn; ring]|]. intros y [L U].
  destruct y as [|a [|b [|c [|d [|]]]]]; try discriminate. unfold rsum in U; cbn in U.
  assert (G : forall x, length x = 4%nat -> quad A x = nth 0 x 0 * nth 0 x 0 + 4 * (nth 3 x 0 * nth 3 x 0)).
  { intros x Lx. unfold quad. cbn [map seq]. rewrite !H by lia. unfold moment, weight_at, coeff, rsum; cbn. ring. }
  rewrite !G by reflexivity. cbn. nra.
Qed.
