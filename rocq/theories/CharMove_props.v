(** Property C94: characters moved by a rigid map. *)

From Coq Require Import Bool Reals List Arith Lia Lra Permutation String.
From Verif Require Import Prelude Loops Rbool R3 LinAlg Transform_model Transform_proofs Skeleton_model Skeleton_spec FK_model FK_spec FK_proofs
  ParamTransform_model Skin_model Skin_spec Skin_props Blend_model Locator_model Simplify_model CharUtil_model CharUtil_spec CharScale_props.
Import ListNotations.
Local Open Scope nat_scope.
Local Open Scope R_scope.

(** ** A rotation matrix as a quaternion *)

Lemma square_zero a b c : a * a + b * b + c * c = 0 -> a = 0 /\ b = 0 /\ c = 0.
Proof. intros H. assert (a * a = 0 /\ b * b = 0 /\ c * c = 0) as (A & B & C) by (pose proof (Rle_0_sqr a); pose proof (Rle_0_sqr b); pose proof (Rle_0_sqr c); unfold Rsqr in *; lra).
  apply Rsqr_0_uniq in A, B, C. auto. Qed.

(** Columns are the cross products of the others. *)
Lemma rot_cross a b c : vdot a a = 1 -> vdot b b = 1 -> vdot c c = 1 -> vdot b c = 0 -> vdot a (vcross b c) = 1 -> a = vcross b c.
Proof.
  intros A B C D E. assert (Z : vnorm2 (vsub a (vcross b c)) = 0).
  { transitivity (vdot a a - 2 * vdot a (vcross b c) + (vdot b b * vdot c c - vdot b c * vdot b c)); [vec_destruct; vec_unfold; ring|rewrite A, B, C, D, E; ring]. }
  destruct a as [a1 a2 a3]. remember (vcross b c) as x eqn:X. destruct x as [x1 x2 x3]. unfold vnorm2, vdot, vsub in Z. cbn in Z.
  destruct (square_zero _ _ _ Z) as (P & Q & S). f_equal; lra.
Qed.

Lemma quat_of_mat_ok m : rotation m -> qunit (quat_of_mat m) /\ qmat (quat_of_mat m) = m.
Proof.
  intros [H D]. destruct m as [a b c]. cbn [col0 col1 col2] in D.
  assert (I : forall v w, vdot (mvec (M3 a b c) v) (mvec (M3 a b c) w) = vdot v w) by exact H. clear H.
  assert (C0 : mvec (M3 a b c) ex = a) by apply mvec_unit. assert (C1 : mvec (M3 a b c) ey = b) by apply mvec_unit. assert (C2 : mvec (M3 a b c) ez = c) by apply mvec_unit.
  assert (Haa : vdot a a = 1). { rewrite <- C0, I. vec_unfold. ring. }
  assert (Hbb : vdot b b = 1). { rewrite <- C1, I. vec_unfold. ring. }
  assert (Hcc : vdot c c = 1). { rewrite <- C2, I. vec_unfold. ring. }
  assert (Hab : vdot a b = 0). { rewrite <- C0 at 1. rewrite <- C1 at 2. rewrite I. vec_unfold. ring. }
  assert (Hbc : vdot b c = 0). { rewrite <- C1 at 1. rewrite <- C2 at 2. rewrite I. vec_unfold. ring. }
  assert (Hac : vdot a c = 0). { rewrite <- C0 at 1. rewrite <- C2 at 2. rewrite I. vec_unfold. ring. }
  assert (Xa : a = vcross b c) by (apply rot_cross; assumption).
  assert (Xb : b = vcross c a).
  { apply rot_cross; try assumption. { rewrite <- Hac. vec_destruct; vec_unfold; ring. } { rewrite <- D. vec_destruct; vec_unfold; ring. } }
  assert (Xc : c = vcross a b).
  { apply rot_cross; try assumption. { rewrite <- D. vec_destruct; vec_unfold; ring. } }
  clear I C0 C1 C2. destruct a as [m00 m10 m20], b as [m01 m11 m21], c as [m02 m12 m22]. unfold vdot, vcross in *. cbn [vx vy vz] in *.
  injection Xa as Xa1 Xa2 Xa3. injection Xb as Xb1 Xb2 Xb3. injection Xc as Xc1 Xc2 Xc3.
  (* rows *)
  assert (R00 : m00 * m00 + m01 * m01 + m02 * m02 = 1) by (rewrite Xa1 at 2; rewrite Xb1 at 2; rewrite Xc1 at 2; lra).
  assert (R11 : m10 * m10 + m11 * m11 + m12 * m12 = 1) by (rewrite Xa2 at 2; rewrite Xb2 at 2; rewrite Xc2 at 2; lra).
  assert (R22 : m20 * m20 + m21 * m21 + m22 * m22 = 1) by (rewrite Xa3 at 2; rewrite Xb3 at 2; rewrite Xc3 at 2; lra).
  assert (R01 : m00 * m10 + m01 * m11 + m02 * m12 = 0) by (rewrite Xa2, Xb2, Xc2; ring).
  assert (R02 : m00 * m20 + m01 * m21 + m02 * m22 = 0) by (rewrite Xa3, Xb3, Xc3; ring).
  assert (R12 : m10 * m20 + m11 * m21 + m12 * m22 = 0) by (rewrite Xa3, Xb3, Xc3; ring).
  unfold quat_of_mat, mtrace. cbn [col0 col1 col2 vx vy vz].
  assert (Step : forall s, 0 < s -> exists t u, t = sqrt s /\ u = / 2 / t /\ t * t = s /\ t * u = / 2).
  { intros s Hs. exists (sqrt s), (/ 2 / sqrt s). pose proof (sqrt_lt_R0 s Hs). split; [reflexivity|]. split; [reflexivity|]. split; [apply sqrt_sqrt; lra|field; lra]. }
  (* products with t*t become products with u*u *)
  assert (Up : forall t u x y, t * u = / 2 -> x = y * (t * t) -> x * (u * u) = y / 4).
  { intros t u x y E ->. transitivity (y * ((t * u) * (t * u))); [ring|rewrite E; field]. }
  assert (Half : forall t u x, t * u = / 2 -> t / 2 * (x * u) = x / 4).
  { intros t u x E. transitivity (x * (t * u) / 2); [field|rewrite E; field]. }
  destruct (Rltb_spec 0 (m00 + m11 + m22)) as [T|T]; [|destruct (Rltb_spec (if Rltb m00 m11 then m11 else m00) m22) as [T2|T2]; [|destruct (Rltb_spec m00 m11) as [T1|T1]]].
  - destruct (Step (m00 + m11 + m22 + 1) ltac:(lra)) as (t & u & <- & <- & TT & TU).
    pose proof (Up t u ((m21 - m12) * (m21 - m12)) (1 + m00 - m11 - m22) TU ltac:(rewrite TT; lra)) as Sxx.
    pose proof (Up t u ((m02 - m20) * (m02 - m20)) (1 + m11 - m00 - m22) TU ltac:(rewrite TT; lra)) as Syy.
    pose proof (Up t u ((m10 - m01) * (m10 - m01)) (1 + m22 - m00 - m11) TU ltac:(rewrite TT; lra)) as Szz.
    pose proof (Up t u ((m21 - m12) * (m02 - m20)) (m10 + m01) TU ltac:(rewrite TT; lra)) as Sxy.
    pose proof (Up t u ((m21 - m12) * (m10 - m01)) (m20 + m02) TU ltac:(rewrite TT; lra)) as Sxz.
    pose proof (Up t u ((m02 - m20) * (m10 - m01)) (m21 + m12) TU ltac:(rewrite TT; lra)) as Syz.
    pose proof (Half t u (m21 - m12) TU) as Swx. pose proof (Half t u (m02 - m20) TU) as Swy. pose proof (Half t u (m10 - m01) TU) as Swz.
    split.
    + unfold qunit, qnorm2. cbn [qw qx qy qz]. lra.
    + unfold qmat. cbn [qw qx qy qz]. f_equal; f_equal; lra.
  - assert (T3 : m00 <= m22 /\ m11 <= m22) by (destruct (Rltb_spec m00 m11); lra).
    destruct (Step (m22 - m00 - m11 + 1) ltac:(lra)) as (t & u & <- & <- & TT & TU).
    pose proof (Up t u ((m10 - m01) * (m10 - m01)) (1 + m00 + m11 + m22) TU ltac:(rewrite TT; lra)) as S1.
    pose proof (Up t u ((m02 + m20) * (m02 + m20)) (1 + m00 - m11 - m22) TU ltac:(rewrite TT; lra)) as S2.
    pose proof (Up t u ((m12 + m21) * (m12 + m21)) (1 + m11 - m00 - m22) TU ltac:(rewrite TT; lra)) as S3.
    pose proof (Up t u ((m10 - m01) * (m02 + m20)) (m21 - m12) TU ltac:(rewrite TT; lra)) as S4.
    pose proof (Up t u ((m10 - m01) * (m12 + m21)) (m02 - m20) TU ltac:(rewrite TT; lra)) as S5.
    pose proof (Up t u ((m02 + m20) * (m12 + m21)) (m10 + m01) TU ltac:(rewrite TT; lra)) as S6.
    pose proof (Half t u (m10 - m01) TU) as S7. pose proof (Half t u (m02 + m20) TU) as S8. pose proof (Half t u (m12 + m21) TU) as S9.
    split.
    + unfold qunit, qnorm2. cbn [qw qx qy qz]. lra.
    + unfold qmat. cbn [qw qx qy qz]. f_equal; f_equal; lra.
  - destruct (Rltb_spec m00 m11) as [_|]; [|contradiction].
    destruct (Step (m11 - m22 - m00 + 1) ltac:(lra)) as (t & u & <- & <- & TT & TU).
    pose proof (Up t u ((m02 - m20) * (m02 - m20)) (1 + m00 + m11 + m22) TU ltac:(rewrite TT; lra)) as S1.
    pose proof (Up t u ((m01 + m10) * (m01 + m10)) (1 + m00 - m11 - m22) TU ltac:(rewrite TT; lra)) as S2.
    pose proof (Up t u ((m21 + m12) * (m21 + m12)) (1 + m22 - m00 - m11) TU ltac:(rewrite TT; lra)) as S3.
    pose proof (Up t u ((m02 - m20) * (m01 + m10)) (m21 - m12) TU ltac:(rewrite TT; lra)) as S4.
    pose proof (Up t u ((m02 - m20) * (m21 + m12)) (m10 - m01) TU ltac:(rewrite TT; lra)) as S5.
    pose proof (Up t u ((m01 + m10) * (m21 + m12)) (m02 + m20) TU ltac:(rewrite TT; lra)) as S6.
    pose proof (Half t u (m02 - m20) TU) as S7. pose proof (Half t u (m01 + m10) TU) as S8. pose proof (Half t u (m21 + m12) TU) as S9.
    split.
    + unfold qunit, qnorm2. cbn [qw qx qy qz]. lra.
    + unfold qmat. cbn [qw qx qy qz]. f_equal; f_equal; lra.
  - destruct (Rltb_spec m00 m11) as [|_]; [contradiction|].
    destruct (Step (m00 - m11 - m22 + 1) ltac:(lra)) as (t & u & <- & <- & TT & TU).
    pose proof (Up t u ((m21 - m12) * (m21 - m12)) (1 + m00 + m11 + m22) TU ltac:(rewrite TT; lra)) as S1.
    pose proof (Up t u ((m10 + m01) * (m10 + m01)) (1 + m11 - m00 - m22) TU ltac:(rewrite TT; lra)) as S2.
    pose proof (Up t u ((m20 + m02) * (m20 + m02)) (1 + m22 - m00 - m11) TU ltac:(rewrite TT; lra)) as S3.
    pose proof (Up t u ((m21 - m12) * (m10 + m01)) (m02 - m20) TU ltac:(rewrite TT; lra)) as S4.
    pose proof (Up t u ((m21 - m12) * (m20 + m02)) (m10 - m01) TU ltac:(rewrite TT; lra)) as S5.
    pose proof (Up t u ((m10 + m01) * (m20 + m02)) (m12 + m21) TU ltac:(rewrite TT; lra)) as S6.
    pose proof (Half t u (m21 - m12) TU) as S7. pose proof (Half t u (m10 + m01) TU) as S8. pose proof (Half t u (m20 + m02) TU) as S9.
    split.
    + unfold qunit, qnorm2. cbn [qw qx qy qz]. lra.
    + unfold qmat. cbn [qw qx qy qz]. f_equal; f_equal; lra.
Qed.

Lemma rot_vec m v : rotation m -> qrot (quat_of_mat m) v = mvec m v.
Proof. intros H. destruct (quat_of_mat_ok m H) as [_ E]. rewrite <- qmat_vec, E. reflexivity. Qed.

Lemma sval_one svals m : gives_singular_values svals -> (forall v w, vdot (mvec m v) (mvec m w) = vdot v w) ->
  sval_ok (vx (svals m)) && sval_ok (vy (svals m)) && sval_ok (vz (svals m)) = true.
Proof.
  intros G H. destruct (G m) as (a & b & c & A & B & C & _ & _ & _ & X & Y & Z). rewrite X, Y, Z, !H, A, B, C, sqrt_1.
  unfold sval_ok. destruct (Rltb_spec (99 / 100) 1) as [_|]; [|lra]. destruct (Rltb_spec 1 (101 / 100)) as [_|]; [reflexivity|lra].
Qed.

(** ** The joints *)

Definition mover (x : affine) : tf := TF (quat_of_mat (alin x)) (atrans x) 1.
Lemma mover_point x v : rotation (alin x) -> tf_point (mover x) v = aff_point x v.
Proof. intros H. unfold tf_point, mover, aff_point. cbn [rot trans scl]. rewrite vscale_1, (rot_vec _ _ H). apply vadd_comm. Qed.
Lemma mover_ok x : rotation (alin x) -> tf_ok (mover x).
Proof. intros H. split; cbn; [apply quat_of_mat_ok, H|lra]. Qed.

Lemma transform_inv svals c x : fc_ok c -> gives_singular_values svals -> (forall v w, vdot (mvec (alin x) v) (mvec (alin x) w) = vdot v w) ->
  exists j r c', fc_joints c = j :: r /\ transform_character svals c x = Ok c' /\
  fc_joints c' = Joint (jparent j) (vadd (qrot (quat_of_mat (alin x)) (joffset j)) (atrans x)) (qmul (quat_of_mat (alin x)) (jprerot j)) :: r /\
  fc_names c' = fc_names c /\ fc_pt c' = fc_pt c /\ fc_locs c' = fc_locs c /\ fc_limits c' = fc_limits c /\ fc_caps c' = fc_caps c /\
  fc_inv c' = transform_inverse x (fc_inv c) /\ fc_pose c' = fc_pose c /\ fc_blend c' = fc_blend c /\
  (forall m s, fc_mesh c = Some m -> fc_skin c = Some s -> fc_mesh c' = Some (transform_mesh x m) /\ fc_skin c' = Some s).
Proof.
  intros O G H. unfold transform_character, transform_skeleton. rewrite (sval_one svals _ G H). cbn [negb].
  destruct (fc_joints c) as [|j r] eqn:J; [destruct (fo_some c O J)|]. cbn [obind]. pose proof (fo_inv c O) as L. rewrite J in L.
  assert (N : transform_inverse x (fc_inv c) <> []) by (intros Z; apply map_eq_nil in Z; rewrite Z in L; discriminate).
  rewrite make_ok; [|exact N|unfold transform_inverse; rewrite map_length; exact L].
  eexists j, r, _. split; [reflexivity|]. split; [reflexivity|]. cbn [fc_joints fc_names fc_pt fc_locs fc_limits fc_caps fc_inv fc_mesh fc_skin fc_blend fc_pose].
  repeat split; auto; intros; rewrite H0, ?H1; cbn [option_map]; rewrite ?H1; reflexivity.
Qed.

Lemma jparam_tail p p' i : (forall k, (3 <= k)%nat -> nth k p' 0 = nth k p 0) -> (0 < i)%nat -> jparam_at p' i = jparam_at p i.
Proof. intros H Hi. unfold jparam_at. rewrite !H by lia. reflexivity. Qed.

Lemma moved_worlds svals c x c' p p' sts : fc_ok c -> unit_prerotations (fc_joints c) -> one_root (fc_joints c) -> gives_singular_values svals -> rotation (alin x) ->
  transform_character svals c x = Ok c' -> turned_params (alin x) p p' -> fk (fc_joints c) p = Ok sts ->
  exists sts', fk (fc_joints c') p' = Ok sts' /\ Forall2 (fun s s' => js_world s' = tf_mul (mover x) (js_world s)) sts sts'.
Proof.
  intros O U One G Rot E (Lp & T & Tail) F. destruct (transform_inv svals c x O G (proj1 Rot)) as (j & r & c1 & J & E1 & J1 & _).
  assert (c1 = c') as -> by congruence. clear E1. pose proof (fo_parents c O) as V. fold (sk_parents (fc_joints c)) in V. fold (valid_sk (fc_joints c)) in V.
  rewrite J in *. rewrite J1. destruct (fk_inv _ p sts V F) as [L FS]. set (j' := Joint _ _ _) in *.
  assert (Par : forall i a b, nth_error (j :: r) i = Some a -> nth_error (j' :: r) i = Some b -> jparent b = jparent a).
  { intros [|i] a b Ha Hb; cbn in *; [injection Ha as <-; injection Hb as <-; reflexivity|congruence]. }
  assert (V' : valid_sk (j' :: r)) by exact V.
  destruct (fk_ok (j' :: r) p' V') as (sts' & F' & FS'). { rewrite Lp. exact L. }
  exists sts'. split; [exact F'|]. assert (L1 := proj1 FS). assert (L2 := proj1 FS').
  assert (Pj : jparent j = None).
  { destruct (jparent j) as [q|] eqn:Q; [|reflexivity]. pose proof (valid_sk_parent (j :: r) 0 j q V eq_refl Q). lia. }
  assert (W : forall i s s', nth_error sts i = Some s -> nth_error sts' i = Some s' -> js_world s' = tf_mul (mover x) (js_world s)).
  { intros i. induction (lt_wf i) as [i _ IH]. intros s s' Es Es'.
    assert (Hi : (i < List.length (j :: r))%nat) by (rewrite <- L1; apply nth_error_Some; congruence).
    destruct (fk_states_get _ _ _ _ FS Hi) as (jt & ps & N1 & P1 & S1). destruct (fk_states_get _ _ _ i FS') as (jt' & ps' & N2 & P2 & S2); [exact Hi|].
    rewrite Es in S1. injection S1 as S1. rewrite Es' in S2. injection S2 as S2. subst s s'. rewrite !js_world_set. destruct i as [|i].
    - cbn in N1, N2. injection N1 as <-. injection N2 as <-. cbn [j' jparent] in P2. rewrite Pj in P1, P2. cbn in P1, P2. subst ps ps'. cbn [parent_tf].
      rewrite !tf_mul_id_l. unfold local_tf, tf_mul, mover. cbn [rot trans scl j' jprerot joffset].
      assert (K : forall k, (3 <= k)%nat -> nth k p' 0 = nth k p 0) by exact Tail.
      unfold jparam_at. cbn [jtx jty jtz jrx jry jrz jsc Nat.mul Nat.add]. rewrite (K 3%nat), (K 4%nat), (K 5%nat), (K 6%nat) by lia. f_equal; [|clear - T Rot|ring].
      + rewrite !qmul_assoc. reflexivity.
      + rewrite T, vscale_1, qrot_add, <- !(rot_vec _ _ Rot). set (q := quat_of_mat (alin x)). clearbody q. generalize (qrot q (joffset j)). intros [a1 a2 a3].
        generalize (qrot q (V3 (nth 0 p 0) (nth 1 p 0) (nth 2 p 0))). intros [b1 b2 b3]. destruct (atrans x) as [d1 d2 d3]. unfold vadd. cbn. f_equal; ring.
    - cbn in N1, N2. assert (jt' = jt) as -> by congruence. destruct (jparent jt) as [q|] eqn:Q.
      + destruct P1 as (s & Es1 & ->), P2 as (s' & Es1' & ->). cbn [parent_tf].
        rewrite (IH q) with (s := s); [|apply (valid_sk_parent (j :: r) (S i) jt q V N1 Q)|exact Es1|exact Es1'].
        rewrite (jparam_tail p p' (S i) Tail) by lia.
        symmetry. apply tf_mul_assoc; [apply mover_ok, Rot|apply tf_good_ok, (fk_good _ _ _ V U FS q s Es1)|apply tf_good_ok, local_tf_good, (U (S i) jt N1)].
      + pose proof (One (S i) jt N1 Q). discriminate. }
  assert (Ls : List.length sts = List.length sts') by (rewrite L1, L2; reflexivity). clear - W Ls.
  revert sts' Ls W. induction sts as [|s sts IH]; intros [|s' sts'] L W; try discriminate; constructor.
  - apply (W 0%nat); reflexivity.
  - apply IH; [cbn in L; lia|]. intros i. apply (W (S i)).
Qed.

(** With one root and unit pre-rotations: the pose of the moved character, with the root's translation
    turned as well, is the moved pose. Everything else stays. *)
Theorem transform_pose_partial svals c x p p' sts : fc_ok c -> unit_prerotations (fc_joints c) -> one_root (fc_joints c) ->
  gives_singular_values svals -> rotation (alin x) -> turned_params (alin x) p p' -> fk (fc_joints c) p = Ok sts ->
  exists c' sts', transform_character svals c x = Ok c' /\ fc_names c' = fc_names c /\ fc_pt c' = fc_pt c /\ fc_limits c' = fc_limits c /\
    map jparent (fc_joints c') = map jparent (fc_joints c) /\
    fk (fc_joints c') p' = Ok sts' /\ Forall2 (moved_state x) sts sts'.
Proof.
  intros O U One G Rot T F. destruct (transform_inv svals c x O G (proj1 Rot)) as (j & r & c' & J & E & J' & N & P & _ & Lm & _).
  destruct (moved_worlds svals c x c' p p' sts O U One G Rot E T F) as (sts' & F' & W). exists c', sts'.
  split; [exact E|]. split; [exact N|]. split; [exact P|]. split; [exact Lm|]. split; [rewrite J, J'; reflexivity|]. split; [exact F'|].
  pose proof (fo_parents c O) as V. destruct (fk_inv (fc_joints c) p sts V F) as [_ FS].
  assert (Gd : forall s, In s sts -> tf_ok (js_world s)).
  { intros s Hs. apply In_nth_error in Hs as [k Hk]. apply tf_good_ok. apply (fk_good _ _ _ V U FS k s Hk). }
  clear - W Gd Rot. revert Gd. induction W as [|s s' sts sts' H W IH]; intros Gd; constructor.
  - unfold moved_state. rewrite H. split; [|cbn; ring]. intros v. rewrite !tf_affine_point.
    rewrite tf_point_mul; [|apply mover_ok, Rot|apply Gd; left; reflexivity]. apply mover_point, Rot.
  - apply IH. intros a Ha. apply Gd. right. exact Ha.
Qed.
Print Assumptions transform_pose_partial.

(** So the same parameters give the moved pose if they do not translate the root. *)
Theorem transform_parameters_partial svals c x q p sts : fc_ok c -> unit_prerotations (fc_joints c) -> one_root (fc_joints c) ->
  gives_singular_values svals -> rotation (alin x) -> pt_apply (fc_pt c) q = Ok p -> nth 0 p 0 = 0 -> nth 1 p 0 = 0 -> nth 2 p 0 = 0 -> fk (fc_joints c) p = Ok sts ->
  exists c' sts', transform_character svals c x = Ok c' /\ pt_apply (fc_pt c') q = Ok p /\ fk (fc_joints c') p = Ok sts' /\ Forall2 (moved_state x) sts sts'.
Proof.
  intros O U One G Rot A Z0 Z1 Z2 F. destruct (transform_pose_partial svals c x p p sts O U One G Rot) as (c' & sts' & E & _ & P & _ & _ & F' & M).
  - split; [reflexivity|]. split; [|reflexivity]. rewrite Z0, Z1, Z2. vec_destruct. vec_unfold. f_equal; ring.
  - exact F.
  - exists c', sts'. rewrite P. auto.
Qed.
Print Assumptions transform_parameters_partial.

(** ** What is fixed to the joints *)

Theorem transform_locators svals c x c' sts sts' i l y : fc_ok c -> gives_singular_values svals -> rotation (alin x) -> transform_character svals c x = Ok c' ->
  Forall2 (moved_state x) sts sts' -> nth_error (fc_locs c) i = Some l -> locator_position sts l = Ok y ->
  exists l', nth_error (fc_locs c') i = Some l' /\ locator_position sts' l' = Ok (aff_point x y).
Proof.
  intros O G Rot E F Hi Hy. destruct (transform_inv svals c x O G (proj1 Rot)) as (j & r & c1 & _ & E1 & _ & _ & _ & L & _). assert (c1 = c') as -> by congruence.
  exists l. rewrite L. split; [exact Hi|]. unfold locator_position in *. destruct (lo_parent l) as [p|]; [|discriminate].
  destruct (nth_error sts p) as [s|] eqn:Es; [|unfold rd in Hy; rewrite Es in Hy; discriminate].
  rewrite (rd_some _ _ _ Es) in Hy. cbn [obind] in Hy. injection Hy as <-.
  destruct (forall2_nth _ _ _ _ _ F Es) as (s' & Es' & S & _). rewrite (rd_some _ _ _ Es'). cbn [obind]. f_equal. apply S.
Qed.
Print Assumptions transform_locators.

Theorem transform_capsules svals c x c' caps sts sts' : fc_ok c -> gives_singular_values svals -> rotation (alin x) -> transform_character svals c x = Ok c' ->
  fc_caps c = Some caps -> Forall2 (moved_state x) sts sts' ->
  fc_caps c' = Some caps /\
  forall cap o d r0 r1, In cap caps -> capsule_state sts cap = Ok (o, d, r0, r1) -> capsule_state sts' cap = Ok (aff_point x o, mvec (alin x) d, r0, r1).
Proof.
  intros O G Rot E C F. destruct (transform_inv svals c x O G (proj1 Rot)) as (j & r & c1 & _ & E1 & _ & _ & _ & _ & _ & L & _). assert (c1 = c') as -> by congruence.
  split; [congruence|]. intros cap o d r0 r1 _ H. unfold capsule_state in *. destruct (cap_parent cap) as [p|]; [|discriminate].
  destruct (nth_error sts p) as [s|] eqn:Es; [|unfold rd in H; rewrite Es in H; discriminate].
  rewrite (rd_some _ _ _ Es) in H. cbn [obind] in H. injection H as <- <- <- <-.
  destruct (forall2_nth _ _ _ _ _ F Es) as (s' & Es' & S & Sc). rewrite (rd_some _ _ _ Es'). cbn [obind].
  assert (Q : forall a b c d a' b' c' d' : _, a = a' -> b = b' -> c = c' -> d = d' -> Ok (a, b, c, d) = Ok (a', b', c', d') :> outcome (vec3 * vec3 * R * R))
    by (intros; congruence).
  assert (Lin : forall v, mvec (alin (tf_affine (js_world s'))) v = mvec (alin x) (mvec (alin (tf_affine (js_world s))) v)).
  { intros v. rewrite !(aff_lin _ v), !S. rewrite aff_lin_sub. reflexivity. }
  apply Q; [| |rewrite Sc; reflexivity|rewrite Sc; reflexivity].
  - unfold aff_mul. cbn [atrans]. apply (S (atrans (cap_tf cap))).
  - unfold aff_mul. cbn [alin]. unfold mmul. cbn [col0]. rewrite Lin, mvec_scale_r. reflexivity.
Qed.
Print Assumptions transform_capsules.

(** ** The mesh *)

Lemma for_vertices_each {A B} (f : list influence -> A -> outcome B) skin points : forall order r x, for_vertices order skin points f r = Ok x ->
  forall i row p, In i order -> nth_error skin i = Some row -> nth_error points i = Some p -> exists v, f row p = Ok v.
Proof.
  unfold for_vertices. induction order as [|k order IH]; intros r x E i row p Hi Hr Hp; [destruct Hi|]. cbn [ofold] in E.
  destruct Hi as [->|Hi].
  - rewrite (rd_some _ _ _ Hr), (rd_some _ _ _ Hp) in E. cbn [obind] in E. destruct (f row p) as [v| | | |]; try discriminate. eauto.
  - destruct (rd skin k) as [row0| | | |]; try discriminate. cbn [obind] in E. destruct (rd points k) as [p0| | | |]; try discriminate. cbn [obind] in E.
    destruct (f row0 p0) as [v| | | |]; try discriminate. cbn [obind] in E. destruct (wr r k v) as [r1| | | |]; try discriminate. cbn [obind] in E.
    eapply (IH r1 x E); eauto.
Qed.
Lemma for_vertices_moved {A A' B B'} (g : A -> A') (h : B -> B') (f : list influence -> A -> outcome B) f' skin points order order' r r' x :
  (forall row p v, In row skin -> f row p = Ok v -> f' row (g p) = Ok (h v)) ->
  Permutation order (seq 0 (List.length skin)) -> Permutation order' (seq 0 (List.length skin)) -> List.length skin = List.length points ->
  List.length r = List.length skin -> List.length r' = List.length skin ->
  for_vertices order skin points f r = Ok x -> for_vertices order' skin (map g points) f' r' = Ok (map h x).
Proof.
  intros H P P' L Lr Lr' E.
  assert (Each : forall i row p, nth_error skin i = Some row -> nth_error points i = Some p -> exists v, f row p = Ok v).
  { intros i row p Hr Hp. eapply (for_vertices_each f skin points order r x E); eauto. apply (Permutation_in _ (Permutation_sym P)), in_seq.
    assert (i < List.length skin)%nat by (apply nth_error_Some; congruence). lia. }
  destruct (for_vertices_all f skin points order r P L Lr Each) as (x1 & E1 & L1 & V1). assert (x1 = x) as -> by congruence.
  destruct (for_vertices_all f' skin (map g points) order' r' P') as (x2 & E2 & L2 & V2).
  - rewrite map_length. exact L.
  - exact Lr'.
  - intros i row p Hr Hp. rewrite nth_error_map in Hp. destruct (nth_error points i) as [p0|] eqn:Ep; [|discriminate]. injection Hp as <-.
    destruct (Each i row p0 Hr Ep) as (v & Ev). exists (h v). apply H; [eapply nth_error_In; eauto|exact Ev].
  - rewrite E2. f_equal. apply nth_error_ext_len; [rewrite map_length; congruence|]. intros i Hi.
    destruct (nth_error skin i) as [row|] eqn:Er; [|apply nth_error_None in Er; lia].
    destruct (nth_error points i) as [p|] eqn:Ep; [|apply nth_error_None in Ep; lia].
    destruct (V1 i row p Er Ep) as (v & N1 & F1). destruct (V2 i row (g p) Er) as (v2 & N2 & F2); [rewrite nth_error_map, Ep; reflexivity|].
    rewrite N2, nth_error_map, N1. cbn [option_map]. f_equal. rewrite (H row p v) in F2; [congruence|eapply nth_error_In; eauto|exact F1].
Qed.

Lemma rot_det m : rotation m -> mdet m = 1.
Proof. intros H. apply H. Qed.

(** What a joint does to a moved point is the moved effect. *)
Lemma moved_ts x inv sts sts' : rotation (alin x) -> Forall2 (moved_state x) sts sts' ->
  Forall2 (fun t t' => forall v, aff_point t' (aff_point x v) = aff_point x (aff_point t v))
    (skin_transforms (world_affines sts) inv) (skin_transforms (world_affines sts') (transform_inverse x inv)).
Proof.
  intros Rot F. unfold skin_transforms, transform_inverse, world_affines. revert inv. induction F as [|s s' sts sts' H F IH]; intros inv; [constructor|].
  destruct inv as [|m inv]; [constructor|]. cbn [map combine fst snd]. constructor; [|apply IH]. intros v.
  rewrite !aff_mul_point. rewrite aff_inv_l by (rewrite (rot_det _ Rot); lra). apply H.
Qed.
Lemma moved_lin x t t' : (forall v, aff_point t' (aff_point x v) = aff_point x (aff_point t v)) ->
  forall v, mvec (alin t') (mvec (alin x) v) = mvec (alin x) (mvec (alin t) v).
Proof.
  intros H v. rewrite (aff_lin x v), <- aff_lin_sub, !H, aff_lin_sub, <- aff_lin. reflexivity.
Qed.

Lemma total_cons j w r : total ((j, w) :: r) = w + total r.
Proof. reflexivity. Qed.
Lemma moved_row x ts ts' p n : Forall2 (fun t t' => forall v, aff_point t' (aff_point x v) = aff_point x (aff_point t v)) ts ts' ->
  forall row a b k out, ssd_normal_row ts row p n (a, b) = Ok out ->
  ssd_normal_row ts' row (aff_point x p) (mvec (alin x) n) (vadd (mvec (alin x) a) (vscale k (atrans x)), mvec (alin x) b) =
    Ok (vadd (mvec (alin x) (fst out)) (vscale (k + total (before_zero row)) (atrans x)), mvec (alin x) (snd out)).
Proof.
  intros F. induction row as [|[j w] row IH]; intros a b k out E; cbn [ssd_normal_row before_zero snd] in *.
  - injection E as <-. cbn [fst snd]. replace (k + total []) with k by (unfold total; cbn; ring). reflexivity.
  - unfold Reqb in *. destruct (Req_EM_T w 0) as [Z|Z].
    + injection E as <-. cbn [fst snd]. replace (k + total []) with k by (unfold total; cbn; ring). reflexivity.
    + destruct (nth_error ts j) as [t|] eqn:Et; [|unfold rd in E; rewrite Et in E; discriminate].
      rewrite (rd_some _ _ _ Et) in E. cbn [obind fst snd] in E. destruct (forall2_nth _ _ _ _ _ F Et) as (t' & Et' & T).
      rewrite (rd_some _ _ _ Et'). cbn [obind fst snd]. rewrite total_cons.
      apply (IH _ _ (k + w)) in E.
      assert (Ha : vadd (vadd (mvec (alin x) a) (vscale k (atrans x))) (vscale w (vadd (atrans t') (mvec (alin t') (aff_point x p)))) =
        vadd (mvec (alin x) (vadd a (vscale w (vadd (atrans t) (mvec (alin t) p))))) (vscale (k + w) (atrans x))).
      { replace (vadd (atrans t') (mvec (alin t') (aff_point x p))) with (aff_point t' (aff_point x p)) by (unfold aff_point; apply vadd_comm).
        rewrite T. replace (vadd (atrans t) (mvec (alin t) p)) with (aff_point t p) by (unfold aff_point; apply vadd_comm).
        generalize (aff_point t p). intros y. unfold aff_point. rewrite mvec_add, mvec_scale_r.
        generalize (mvec (alin x) a), (mvec (alin x) y), (atrans x). clear. intros u1 u2 u3. vec_ring. }
      assert (Hb : vadd (mvec (alin x) b) (vscale w (mvec (alin t') (mvec (alin x) n))) = mvec (alin x) (vadd b (vscale w (mvec (alin t) n)))).
      { rewrite (moved_lin x t t' T). rewrite mvec_add, mvec_scale_r. reflexivity. }
      rewrite Ha, Hb. rewrite E. rewrite Rplus_assoc. reflexivity.
Qed.

Lemma rot_normalized m d : rotation m -> normalized (mvec m d) = mvec m (normalized d).
Proof.
  intros H. unfold normalized, vnorm2. rewrite (proj1 H). destruct (Rltb 0 (vdot d d)); [|reflexivity]. rewrite mvec_scale_r. reflexivity.
Qed.
Lemma moved_start x : (vadd (mvec (alin x) vzero) (vscale 0 (atrans x)), mvec (alin x) vzero) = (vzero, vzero).
Proof. destruct x as [m t]. cbn [alin atrans]. assert (mvec m vzero = vzero) as -> by vec_ring. rewrite vscale_0_l, vadd_0_r. reflexivity. Qed.

(** The skinned mesh moves with the character if the influences of every vertex add up to one; the
    order in which the vertices are treated does not matter. *)
Theorem transform_mesh_skinned svals c x c' m skin sts sts' order order' vs : fc_ok c -> gives_singular_values svals -> rotation (alin x) ->
  transform_character svals c x = Ok c' -> fc_mesh c = Some m -> fc_skin c = Some skin -> Forall full_weight skin -> Forall2 (moved_state x) sts sts' ->
  Permutation order (seq 0 (List.length skin)) -> Permutation order' (seq 0 (List.length skin)) ->
  apply_ssd order (fc_inv c) skin (fm_vertices m) (world_affines sts) = Ok vs ->
  exists m', fc_mesh c' = Some m' /\ fc_skin c' = Some skin /\
    apply_ssd order' (fc_inv c') skin (fm_vertices m') (world_affines sts') = Ok (map (aff_point x) vs).
Proof.
  intros O G Rot E M Sk FW F P P' H. destruct (transform_inv svals c x O G (proj1 Rot)) as (j & r & c1 & _ & E1 & _ & _ & _ & _ & _ & _ & I & _ & _ & B).
  assert (c1 = c') as -> by congruence. destruct (B m skin M Sk) as [B1 B2]. exists (transform_mesh x m). split; [exact B1|]. split; [exact B2|].
  unfold apply_ssd in *. rewrite I. cbn [transform_mesh fm_vertices].
  assert (Lw : List.length (world_affines sts') = List.length (world_affines sts)) by (unfold world_affines; rewrite !map_length; symmetry; apply (forall2_len _ _ _ F)).
  assert (Li : List.length (transform_inverse x (fc_inv c)) = List.length (fc_inv c)) by (unfold transform_inverse; apply map_length).
  rewrite Lw, Li, map_length. destruct (negb (List.length (world_affines sts) =? List.length (fc_inv c))%nat); [discriminate|].
  destruct (Nat.eqb_spec (List.length skin) (List.length (fm_vertices m))) as [L|]; [|discriminate]. cbn [negb] in *.
  refine (for_vertices_moved (aff_point x) (aff_point x) _ _ skin (fm_vertices m) order order' _ _ vs _ P P' L _ _ H); [|rewrite repeat_length; congruence..].
  intros row p v Hr Hv. pose proof (proj1 (Forall_forall _ _) FW row Hr) as W. unfold full_weight in W.
  change vzero with (fst (vzero, vzero)) in Hv. rewrite ssd_row_normal in Hv.
  destruct (ssd_normal_row _ row p vzero (vzero, vzero)) as [out| | | |] eqn:Eo; try discriminate. cbn [obind] in Hv. injection Hv as <-.
  apply (moved_row x _ _ p vzero (moved_ts x (fc_inv c) sts sts' Rot F) row vzero vzero 0) in Eo. rewrite moved_start in Eo.
  assert (mvec (alin x) vzero = vzero) as Z by (destruct x as [mm tt]; cbn [alin]; vec_ring). rewrite Z in Eo.
  change vzero with (fst (vzero, vzero)). rewrite ssd_row_normal. cbn [fst]. rewrite Eo. cbn [obind fst]. rewrite W, Rplus_0_l, vscale_1. reflexivity.
Qed.
Print Assumptions transform_mesh_skinned.

(** With normals: they turn with the character. *)
Theorem transform_mesh_normals svals c x c' m skin sts sts' order order' out out' res : fc_ok c -> gives_singular_values svals -> rotation (alin x) ->
  transform_character svals c x = Ok c' -> fc_mesh c = Some m -> fc_skin c = Some skin -> Forall full_weight skin -> Forall2 (moved_state x) sts sts' ->
  Permutation order (seq 0 (List.length skin)) -> Permutation order' (seq 0 (List.length skin)) -> List.length out' = List.length out ->
  apply_ssd_mesh order (fc_inv c) skin (combine (fm_vertices m) (fm_normals m)) (world_affines sts) out = Ok res ->
  exists m', fc_mesh c' = Some m' /\ fc_skin c' = Some skin /\
    apply_ssd_mesh order' (fc_inv c') skin (combine (fm_vertices m') (fm_normals m')) (world_affines sts') out' =
      Ok (map (fun v => (aff_point x (fst v), mvec (alin x) (snd v))) res).
Proof.
  intros O G Rot E M Sk FW F P P' Lo H. destruct (transform_inv svals c x O G (proj1 Rot)) as (j & r & c1 & _ & E1 & _ & _ & _ & _ & _ & _ & I & _ & _ & B).
  assert (c1 = c') as -> by congruence. destruct (B m skin M Sk) as [B1 B2]. exists (transform_mesh x m). split; [exact B1|]. split; [exact B2|].
  cbn [transform_mesh fm_vertices fm_normals].
  assert (C : combine (map (aff_point x) (fm_vertices m)) (map (mvec (alin x)) (fm_normals m)) =
    map (fun v => (aff_point x (fst v), mvec (alin x) (snd v))) (combine (fm_vertices m) (fm_normals m))).
  { clear. generalize (fm_normals m). induction (fm_vertices m) as [|a l IH]; intros [|b l']; try reflexivity. cbn [map combine fst snd]. rewrite IH. reflexivity. }
  rewrite C. unfold apply_ssd_mesh in *. rewrite I. set (mesh := combine _ _) in *. clearbody mesh. clear C.
  assert (Lw : List.length (world_affines sts') = List.length (world_affines sts)) by (unfold world_affines; rewrite !map_length; symmetry; apply (forall2_len _ _ _ F)).
  assert (Li : List.length (transform_inverse x (fc_inv c)) = List.length (fc_inv c)) by (unfold transform_inverse; apply map_length).
  rewrite Lw, Li, map_length, Lo. destruct (negb (List.length (fc_inv c) <=? List.length (world_affines sts))%nat); [discriminate|].
  destruct (Nat.eqb_spec (List.length skin) (List.length mesh)) as [L|]; [|discriminate].
  destruct (Nat.eqb_spec (List.length out) (List.length mesh)) as [L2|]; [|discriminate]. cbn [negb] in *.
  refine (for_vertices_moved _ _ _ _ skin mesh order order' _ _ res _ P P' L _ _ H); [|congruence..].
  intros row [p n] v Hr Hv. cbn [fst snd] in *. pose proof (proj1 (Forall_forall _ _) FW row Hr) as W. unfold full_weight in W.
  destruct (ssd_normal_row _ row p n (vzero, vzero)) as [o| | | |] eqn:Eo; try discriminate. cbn [obind] in Hv. injection Hv as <-.
  apply (moved_row x _ _ p n (moved_ts x (fc_inv c) sts sts' Rot F) row vzero vzero 0) in Eo. rewrite moved_start in Eo.
  rewrite Eo. cbn [obind fst snd]. rewrite W, Rplus_0_l, vscale_1, (rot_normalized _ _ Rot). reflexivity.
Qed.
Print Assumptions transform_mesh_normals.

(** ** What does not move *)

(** The lengths of the columns meet the contract of the singular values. *)
Definition column_lengths (m : mat3) : vec3 :=
  V3 (sqrt (vdot (col0 m) (col0 m))) (sqrt (vdot (col1 m) (col1 m))) (sqrt (vdot (col2 m) (col2 m))).
Lemma column_lengths_ok : gives_singular_values column_lengths.
Proof.
  intros m. exists (V3 1 0 0), (V3 0 1 0), (V3 0 0 1). unfold column_lengths. cbn [vx vy vz].
  assert (mvec m (V3 1 0 0) = col0 m) as -> by vec_ring. assert (mvec m (V3 0 1 0) = col1 m) as -> by vec_ring. assert (mvec m (V3 0 0 1) = col2 m) as -> by vec_ring.
  repeat split; unfold vdot; cbn; ring.
Qed.

Definition half_turn : mat3 := M3 (V3 (-1) 0 0) (V3 0 (-1) 0) (V3 0 0 1).
Definition mirror : mat3 := M3 (V3 (-1) 0 0) (V3 0 1 0) (V3 0 0 1).
Lemma half_turn_ok : rotation half_turn.
Proof. split; [intros [a b c] [d e f]|]; unfold half_turn; vec_unfold; cbn; ring. Qed.
Lemma mid_rotation : rotation mid.
Proof. split; [intros [a b c] [d e f]|]; vec_unfold; cbn; ring. Qed.
Lemma mirror_ok : reflection mirror.
Proof. split; [intros [a b c] [d e f]|]; unfold mirror; vec_unfold; cbn; ring. Qed.

Lemma point_unit o : unit_prerotations (fc_joints (point_char o)).
Proof. intros [|[|i]] j E; cbn in E; try discriminate. injection E as <-. apply qunit_id. Qed.
Lemma point_root o : one_root (fc_joints (point_char o)).
Proof. intros [|[|i]] j E; cbn in E; [reflexivity|discriminate..]. Qed.

(** The same parameters do not give the moved pose if they move the root. *)
Theorem transform_parameters_refuted : forall svals, gives_singular_values svals -> exists c x c' q p sts sts', fc_ok c /\ unit_prerotations (fc_joints c) /\ one_root (fc_joints c) /\
  rotation (alin x) /\ transform_character svals c x = Ok c' /\
  pt_apply (fc_pt c) q = Ok p /\ fk (fc_joints c) p = Ok sts /\ pt_apply (fc_pt c') q = Ok p /\ fk (fc_joints c') p = Ok sts' /\
  ~ Forall2 (moved_state x) sts sts'.
Proof.
  intros svals G. set (c := point_char vzero). set (x := Aff half_turn vzero).
  destruct (transform_inv svals c x (point_ok vzero) G (proj1 half_turn_ok)) as (j & r & c' & J & E & J' & _ & P & _).
  injection J as <- <-. cbn [jparent joffset jprerot] in J'.
  assert (A : pt_apply (fc_pt c) [1] = Ok (1 :: repeat 0 6)).
  { unfold pt_apply. cbn. do 2 f_equal; [ring|]. repeat (f_equal; try ring). }
  exists c, x, c', [1], (1 :: repeat 0 6). eexists _, _. split; [apply point_ok|]. split; [apply point_unit|]. split; [apply point_root|].
  split; [apply half_turn_ok|]. split; [exact E|]. split; [exact A|]. rewrite P, J'.
  split; [apply one_joint_fk; reflexivity|]. split; [exact A|]. split; [reflexivity|].
  intros F. inversion F as [|? ? ? ? (T & _) _]; subst. specialize (T vzero). clear - T. rewrite !js_world_set in T. unfold tf_affine, aff_point in T. cbn [alin atrans] in T.
  assert (Z : forall m v, vadd (mvec m vzero) v = v) by (intros; vec_ring). rewrite !Z in T. cbn [parent_tf] in T. rewrite !tf_mul_id_l in T.
  unfold local_tf in T. cbn [trans joffset] in T. apply (f_equal vx) in T. unfold x, half_turn, jparam_at in T. cbn -[quat_of_mat] in T.
  destruct (quat_of_mat _) as [qw qx qy qz] in T. cbn in T. lra.
Qed.
Print Assumptions transform_parameters_refuted.

(** Only the first joint is moved: a second root stays. *)
Theorem transform_roots_refuted : forall svals, gives_singular_values svals -> exists c x c' p sts sts', fc_ok c /\ unit_prerotations (fc_joints c) /\
  rotation (alin x) /\ transform_character svals c x = Ok c' /\ untranslated p /\
  fk (fc_joints c) p = Ok sts /\ fk (fc_joints c') p = Ok sts' /\ ~ Forall2 (moved_state x) sts sts'.
Proof.
  intros svals G. set (k := Joint None vzero qid).
  set (c := FC ["a"%string; "b"%string] [k; k] (PT [] 14 0 [] (repeat 0 14) (repeat false 14) [] [] [] []) [] [] None None None None None [id_aff; id_aff]).
  set (x := Aff mid (V3 1 0 0)).
  assert (O : fc_ok c). { constructor; try reflexivity; [|discriminate]. intros [|[|[|i]]] q H; discriminate. }
  destruct (transform_inv svals c x O G (proj1 mid_rotation)) as (j & r & c' & J & E & J' & _).
  injection J as <- <-. cbn [k jparent joffset jprerot] in J'.
  set (j0 := Joint None _ _) in J'.
  exists c, x, c', (repeat 0 14), (map (fun i => joint_state_set k (jparam_at (repeat 0 14) i) None) [0; 1]%nat),
    [joint_state_set j0 (jparam_at (repeat 0 14) 0) None; joint_state_set k (jparam_at (repeat 0 14) 1) None]. split; [exact O|]. split. { intros [|[|[|i]]] q H; cbn in H; try discriminate; injection H as <-; apply qunit_id. }
  split; [apply mid_rotation|]. split; [exact E|]. split. { intros i _. destruct (Nat.lt_ge_cases i 14) as [H|H]; [|apply nth_overflow; exact H]. apply nth_repeat. }
  rewrite J'. split; [reflexivity|]. split; [reflexivity|].
  intros F. assert (T : moved_state x (joint_state_set k (jparam_at (repeat 0 14) 1) None) (joint_state_set k (jparam_at (repeat 0 14) 1) None))
    by (inversion F as [|? ? ? ? _ F2]; subst; inversion F2; subst; assumption).
  destruct T as [T _]. specialize (T vzero). clear - T. rewrite !js_world_set in T.
  unfold k in T. cbn [parent_tf] in T. assert (Z : jparam_at (repeat 0 14) 1 = JP 0 0 0 0 0 0 0) by reflexivity. rewrite Z in T.
  rewrite !tf_plain in T. apply (f_equal vx) in T. cbn in T. lra.
Qed.
Print Assumptions transform_roots_refuted.

(** A reflection passes the check of the singular values, but the skinned mesh is not reflected. *)
Theorem transform_reflection_refuted : forall svals, gives_singular_values svals -> exists c x c' p sts sts' m m' skin vs vs', fc_ok c /\ unit_prerotations (fc_joints c) /\
  one_root (fc_joints c) /\ reflection (alin x) /\ transform_character svals c x = Ok c' /\ untranslated p /\ fk (fc_joints c) p = Ok sts /\ fk (fc_joints c') p = Ok sts' /\
  fc_mesh c = Some m /\ fc_mesh c' = Some m' /\ fc_skin c = Some skin /\ fc_skin c' = Some skin /\ Forall full_weight skin /\
  apply_ssd [0%nat] (fc_inv c) skin (fm_vertices m) (world_affines sts) = Ok vs /\
  apply_ssd [0%nat] (fc_inv c') skin (fm_vertices m') (world_affines sts') = Ok vs' /\ vs' <> map (aff_point x) vs.
Proof.
  intros svals G. set (c := point_char vzero). set (x := Aff mirror vzero).
  destruct (transform_inv svals c x (point_ok vzero) G (proj1 mirror_ok)) as (j & r & c' & J & E & J' & _ & _ & _ & _ & _ & I & _ & _ & B).
  injection J as <- <-. cbn [jparent joffset jprerot] in J'. destruct (B _ _ eq_refl eq_refl) as [M S]. cbn [point_char fc_inv c] in I.
  assert (exists w, quat_of_mat mirror = Q4 w 0 0 0) as [w Qw].
  { unfold quat_of_mat, mtrace, mirror. cbn [vx vy vz col0 col1 col2]. destruct (Rltb_spec 0 (-1 + 1 + 1)) as [_|]; [|lra].
    eexists. f_equal; rewrite Rminus_0_r; ring. }
  destruct (point_fk vzero) as (s & F & W).
  set (k := Joint None (vadd (qrot (quat_of_mat (alin x)) vzero) (atrans x)) (qmul (quat_of_mat (alin x)) qid)) in *.
  set (s' := joint_state_set k (jparam_at (repeat 0 7) 0) None).
  assert (F' : fk [k] (repeat 0 7) = Ok [s']) by reflexivity.
  assert (W' : js_world s' = TF (Q4 w 0 0 0) vzero 1).
  { unfold s'. rewrite js_world_set, zero_params. cbn [parent_tf]. rewrite tf_mul_id_l. unfold local_tf, k. cbn [jprerot joffset jtx jty jtz jrx jry jrz jsc alin x atrans].
    rewrite Qw. unfold exp2. rewrite Rmult_0_l, exp_0. unfold qaxis. replace (0 / 2) with 0 by field. rewrite cos_0, sin_0. f_equal; vec_unfold; cbn; f_equal; ring. }
  exists c, x, c', (repeat 0 7), [s], [s'], (FM [V3 1 0 0] [V3 1 0 0]), (transform_mesh x (FM [V3 1 0 0] [V3 1 0 0])), [[(0%nat, 1)]], [V3 1 0 0], [V3 1 0 0].
  split; [apply point_ok|]. split; [apply point_unit|]. split; [apply point_root|]. split; [apply mirror_ok|]. split; [exact E|].
  split. { intros i _. destruct (Nat.lt_ge_cases i 7) as [H|H]; [|apply nth_overflow; exact H]. apply nth_repeat. }
  split; [exact F|]. rewrite J'. split; [exact F'|]. split; [reflexivity|]. split; [exact M|]. split; [reflexivity|]. split; [exact S|].
  split. { constructor; [|constructor]. unfold full_weight. cbn [before_zero snd]. destruct (Req_EM_T 1 0) as [C|_]; [lra|]. unfold total. cbn. ring. }
  assert (Step : forall st inv v y, aff_point (aff_mul (tf_affine (js_world st)) inv) v = y -> apply_ssd [0%nat] [inv] [[(0%nat, 1)]] [v] (world_affines [st]) = Ok [y]).
  { intros st inv v y <-. unfold apply_ssd, world_affines. cbn [map List.length Nat.eqb negb]. unfold for_vertices. cbn [ofold repeat]. unfold rd at 1 2. cbn [nth_error obind].
    unfold skin_transforms. cbn [map combine fst snd ssd_row]. unfold Reqb. destruct (Req_EM_T 1 0) as [C|_]; [lra|]. unfold rd. cbn [nth_error obind].
    unfold wr. cbn [upd obind]. do 2 f_equal. unfold aff_point. generalize (aff_mul (tf_affine (js_world st)) inv). intros [mm tt]. cbn [alin atrans]. vec_ring. }
  split; [|split].
  - cbn [c point_char fc_inv fm_vertices]. apply Step. rewrite W, aff_mul_point. unfold aff_point, tf_affine, tf_linear. cbn [alin atrans rot trans scl]. clear. vec_unfold. cbn. f_equal; ring.
  - rewrite I. cbn [transform_inverse transform_mesh fm_vertices map]. apply Step. rewrite W', aff_mul_point, aff_mul_point.
    rewrite aff_inv_l by (assert (mdet (alin x) = -1) as -> by (unfold mdet, x, mirror; clear; vec_unfold; cbn; ring); lra). unfold aff_point, tf_affine, tf_linear. cbn [alin atrans rot trans scl]. clear. vec_unfold. cbn. f_equal; ring.
  - intros C. injection C. intros _ _ C1. clear - C1. cbn in C1. lra.
Qed.
Print Assumptions transform_reflection_refuted.

(** A case for the theorems: half a turn about z, then away; all parts present. *)
Example transform_case : let x := Aff half_turn (V3 1 2 3) in let c := point_char (V3 1 2 3) in
  fc_ok c /\ unit_prerotations (fc_joints c) /\ one_root (fc_joints c) /\ gives_singular_values column_lengths /\ rotation (alin x) /\
  turned_params (alin x) (5 :: repeat 0 6) (- 5 :: repeat 0 6) /\ (exists sts, fk (fc_joints c) (5 :: repeat 0 6) = Ok sts) /\
  (exists l, fc_locs c = [l] /\ lo_parent l = Some 0%nat) /\ (exists caps, fc_caps c = Some caps) /\ (exists m, fc_mesh c = Some m) /\
  (exists skin, fc_skin c = Some skin /\ Forall full_weight skin /\ Permutation [0%nat] (seq 0 (List.length skin))).
Proof.
  cbv zeta. split; [apply point_ok|]. split; [apply point_unit|]. split; [apply point_root|]. split; [apply column_lengths_ok|]. split; [apply half_turn_ok|].
  split. { split; [reflexivity|]. split; [unfold half_turn; vec_unfold; cbn; f_equal; ring|]. intros [|i] Hi; [lia|]. reflexivity. }
  split; [eexists; apply one_joint_fk; reflexivity|]. split; [eexists; split; reflexivity|]. split; [eexists; reflexivity|]. split; [eexists; reflexivity|].
  eexists. split; [reflexivity|]. split; [|apply Permutation_refl]. constructor; [|constructor]. unfold full_weight. cbn [before_zero snd].
  destruct (Req_EM_T 1 0) as [C|_]; [lra|]. unfold total. cbn. ring.
Qed.
