(** C101: limits that keep a point on an ellipsoid, among limits of the other kinds, for every skeleton,
    parameter transform, pose and list of limits. *)

From Coq Require Import String Bool Reals List Arith Lia Lra Psatz.
From Coquelicot Require Import Coquelicot.
From Verif Require Import Prelude Loops LinAlg Rbool R3 Transform_model Transform_proofs Skeleton_model
  Skeleton_spec FK_model FK_spec FK_proofs FK_deriv_proofs FK_axis_proofs ParamTransform_model
  ParamTransform_spec ParamTransform_proofs Limits_model Limits_spec Limits_proofs Loss_model
  Constraint_model Constraint_spec Constraint_eval_proofs Constraint_proofs Constraint_deriv_proofs Constraint_props
  Skin_model Skin_props CharUtil_model Ellipsoid_model Ellipsoid_spec Ellipsoid_proofs.
Import ListNotations.
Local Open Scope nat_scope.
Local Open Scope R_scope.

(** getError is the penalty in which an ellipsoid limit counts the squared distance of its point to the
    point of the surface on the same ray from the centre. *)
Theorem ellipsoid_error_is_penalty : forall X p q sts Y,
  xlimit_wf X -> pt_wf (xl_pt X) -> parents_first (sk_parents (xl_sk X)) -> unit_prerotations (xl_sk X) ->
  pt_apply (xl_pt X) p = Ok q -> fk (xl_sk X) q = Ok sts ->
  (forall l, In l (xl_limits X) -> ell l <> None -> inverse_maps l /\ radial_point sts l (Y l)) ->
  lx_error X p q sts = Ok (xl_penalty X Y p q sts).
Proof.
  intros X p q sts Y W WP V U Hq Hs HY. pose proof (proj2 (fk_inv _ _ _ V Hs)) as F.
  assert (Lp : length p = pt_cols (xl_pt X)).
  { unfold pt_apply in Hq. destruct (Nat.eqb_spec (length p) (pt_cols (xl_pt X))) as [L|]; [exact L|discriminate]. }
  rewrite (lx_error_ok X W WP V U p q sts Lp (pt_apply_length _ _ _ WP Hq) F). f_equal. unfold xl_penalty. f_equal.
  apply rsum_map_ext. intros l Hl. f_equal. unfold ell_violation2. destruct (ell l) as [[e pj]|] eqn:HE; [|reflexivity].
  destruct (HY l Hl) as [I R]; [congruence|].
  rewrite (radial_projection X W V U q sts F l (Y l) e pj Hl HE I R). reflexivity.
Qed.
Print Assumptions ellipsoid_error_is_penalty.

(** The point of the surface exists, unless the limited point is the centre. *)
Theorem ellipsoid_radial_exists : forall X p q sts l,
  xlimit_wf X -> parents_first (sk_parents (xl_sk X)) -> unit_prerotations (xl_sk X) ->
  pt_apply (xl_pt X) p = Ok q -> fk (xl_sk X) q = Ok sts ->
  In l (xl_limits X) -> ell l <> None -> inverse_maps l ->
  (exists y, radial_point sts l y) <-> ~ at_centre sts l.
Proof.
  intros X p q sts l W V U Hq Hs Hl HN I. pose proof (proj2 (fk_inv _ _ _ V Hs)) as F.
  destruct (ell l) as [[e pj]|] eqn:HE; [|congruence]. split.
  - intros [y Hy] C. destruct (ell_states X W V U q sts F l e pj Hl HE) as (sp & se & E1 & E2 & E3).
    apply (radial_normalized sts l e pj se HE E2 E3 I y Hy).
    apply (image_unit sts l e pj se HE E2 E3 I). exact C.
  - intros C. exists (projection sts l). apply (projection_radial X W V U q sts F l e pj Hl HE I C).
Qed.
Print Assumptions ellipsoid_radial_exists.

(** The error is never negative. It is zero exactly if every limit is met, where an ellipsoid limit is
    met if its point is on the surface or at the centre. *)
Theorem ellipsoid_error_zero_iff : forall X p q sts,
  xlimit_wf X -> pt_wf (xl_pt X) -> parents_first (sk_parents (xl_sk X)) -> unit_prerotations (xl_sk X) ->
  pt_apply (xl_pt X) p = Ok q -> fk (xl_sk X) q = Ok sts ->
  0 < xl_weight X -> (forall l, In l (xl_limits X) -> 0 < lweight (fl_limit l)) ->
  (forall l, In l (xl_limits X) -> ell l <> None -> inverse_maps l) ->
  exists e, lx_error X p q sts = Ok e /\ 0 <= e /\
    (e = 0 <-> forall l, In l (xl_limits X) -> xl_inside X p q sts l).
Proof.
  intros X p q sts W WP V U Hq Hs HW HL HI. pose proof (proj2 (fk_inv _ _ _ V Hs)) as F.
  assert (Lp : length p = pt_cols (xl_pt X)).
  { unfold pt_apply in Hq. destruct (Nat.eqb_spec (length p) (pt_cols (xl_pt X))) as [L|]; [exact L|discriminate]. }
  exists (xl_penalty X (projection sts) p q sts).
  split; [apply (lx_error_ok X W WP V U p q sts Lp (pt_apply_length _ _ _ WP Hq) F)|].
  assert (Z : forall l, In l (xl_limits X) -> 0 <= ell_violation2 X (projection sts) p q sts l /\
    (ell_violation2 X (projection sts) p q sts l = 0 <-> xl_inside X p q sts l)).
  { intros l Hl. apply (lx_inside_zero X W V U p q sts F l Hl). apply HI, Hl. }
  assert (N : forall l, In l (xl_limits X) -> 0 <= lweight (fl_limit l) * ell_violation2 X (projection sts) p q sts l).
  { intros l Hl. destruct (Z l Hl) as [Z1 _]. specialize (HL l Hl). nra. }
  pose proof (rsum_nonneg _ _ N) as P. pose proof (rsum_zero_iff _ _ N) as Q. unfold xl_penalty. split; [nra|]. split.
  - intros H l Hl. apply (proj2 (Z l Hl)). assert (S0 : rsum (map (fun l => lweight (fl_limit l) * ell_violation2 X (projection sts) p q sts l) (xl_limits X)) = 0) by nra.
    pose proof (proj1 Q S0 l Hl). specialize (HL l Hl). nra.
  - intros H. replace (rsum _) with 0; [ring|]. symmetry. apply Q. intros l Hl.
    rewrite (proj2 (proj2 (Z l Hl)) (H l Hl)). ring.
Qed.
Print Assumptions ellipsoid_error_zero_iff.

(** getGradient of an enabled parameter that moves no ellipsoid is the derivative of the penalty with the
    surface points held where they are. *)
Theorem ellipsoid_gradient_frozen : forall X p i q sts Y g,
  xlimit_wf X -> pt_wf (xl_pt X) -> parents_first (sk_parents (xl_sk X)) -> unit_prerotations (xl_sk X) ->
  length p = pt_cols (xl_pt X) -> length g = pt_cols (xl_pt X) -> (i < pt_cols (xl_pt X))%nat -> xl_enabled X i = true ->
  (forall t, pt_apply (xl_pt X) (set_nth p i t) = Ok (q t)) -> (forall t, fk (xl_sk X) (q t) = Ok (sts t)) ->
  (forall l, In l (xl_limits X) -> away_from_range_ends p (ldata (fl_limit l))) ->
  (forall l, In l (xl_limits X) -> unit_weight_if_two_params (fl_limit l)) ->
  (forall l e pj, In l (xl_limits X) -> ell l = Some (e, pj) ->
     inverse_maps l /\ radial_point (sts (nth i p 0)) l (Y l) /\ does_not_move (xl_pt X) (xl_sk X) i e) ->
  exists e g', lx_gradient X p (q (nth i p 0)) (sts (nth i p 0)) g = Ok (e, g') /\
    is_derive (fun t => xl_penalty X Y (set_nth p i t) (q t) (sts t)) (nth i p 0) (nth i g' 0 - nth i g 0).
Proof.
  intros X p i q sts Y g W WP V U Lp Lg Hi EN Hq Hs AW UW HE.
  destruct (lx_grad_loop_ok X W WP V U p i q sts Lp Hi EN Hq Hs Y (xl_limits X)) with (g := g)
    as (er & g' & D & G1 & G2 & G3 & G4 & G5 & G6); [auto| |exact Lg|].
  - intros l Hl. split; [|split; [apply AW, Hl|split; [apply UW, Hl|]]].
    + intros e pj He. destruct (HE l e pj Hl He) as (I & R & D). split; [exact I|]. split; [|left; exact D].
      apply (ellipsoid_radial_exists X (set_nth p i (nth i p 0)) (q (nth i p 0)) (sts (nth i p 0)) l W V U (Hq _) (Hs _) Hl ltac:(congruence) I).
      exists (Y l). exact R.
    + intros HN. destruct (ell l) as [[e pj]|] eqn:He; [|congruence]. apply (HE l e pj Hl He).
  - exists er, g'. split; [exact G1|]. rewrite G3. unfold xl_penalty. apply d_scal. apply G5.
    intros l Hl e pj He. apply (HE l e pj Hl He).
Qed.
Print Assumptions ellipsoid_gradient_frozen.

(** C17. If the ellipsoids are spheres it is the derivative of getError. A sphere may move with the parameter
    if it carries the limited point and is not scaled. *)
Theorem ellipsoid_gradient_is_derivative_partial : forall X p i q sts g,
  xlimit_wf X -> pt_wf (xl_pt X) -> parents_first (sk_parents (xl_sk X)) -> unit_prerotations (xl_sk X) ->
  length p = pt_cols (xl_pt X) -> length g = pt_cols (xl_pt X) -> (i < pt_cols (xl_pt X))%nat -> xl_enabled X i = true ->
  (forall t, pt_apply (xl_pt X) (set_nth p i t) = Ok (q t)) -> (forall t, fk (xl_sk X) (q t) = Ok (sts t)) ->
  (forall l, In l (xl_limits X) -> away_from_range_ends p (ldata (fl_limit l))) ->
  (forall l, In l (xl_limits X) -> unit_weight_if_two_params (fl_limit l)) ->
  (forall l e pj, In l (xl_limits X) -> ell l = Some (e, pj) ->
     inverse_maps l /\ sphere l /\ ~ at_centre (sts (nth i p 0)) l /\ steady (xl_pt X) (xl_sk X) i e pj) ->
  exists F e g', (forall t, lx_error X (set_nth p i t) (q t) (sts t) = Ok (F t)) /\
    lx_gradient X p (q (nth i p 0)) (sts (nth i p 0)) g = Ok (e, g') /\
    is_derive F (nth i p 0) (nth i g' 0 - nth i g 0) /\
    ((forall l, In l (xl_limits X) -> counted (xl_enabled X) (ldata (fl_limit l))) -> e = F (nth i p 0)).
Proof.
  intros X p i q sts g W WP V U Lp Lg Hi EN Hq Hs AW UW HE.
  assert (F : forall t, fk_states (xl_sk X) (q t) (sts t)) by (intros t; apply (fk_inv _ _ _ V (Hs t))).
  destruct (lx_grad_loop_ok X W WP V U p i q sts Lp Hi EN Hq Hs (projection (sts (nth i p 0))) (xl_limits X)) with (g := g)
    as (er & g' & D & G1 & G2 & G3 & G4 & G5 & G6); [auto| |exact Lg|].
  - intros l Hl. split; [|split; [apply AW, Hl|split; [apply UW, Hl|]]].
    + intros e pj He. destruct (HE l e pj Hl He) as (I & _ & C & D). auto.
    + intros HN. destruct (ell l) as [[e pj]|] eqn:He; [|congruence]. destruct (HE l e pj Hl He) as (I & _ & C & D).
      apply (projection_radial X W V U (q (nth i p 0)) (sts (nth i p 0)) (F _) l e pj Hl He I C).
  - exists (fun t => xl_penalty X (projection (sts t)) (set_nth p i t) (q t) (sts t)), er, g'.
    split; [|split; [exact G1|split]].
    + intros t. apply (lx_error_ok X W WP V U _ _ _); [rewrite set_nth_length; exact Lp|apply (pt_apply_length _ _ _ WP (Hq t))|apply F].
    + rewrite G3. unfold xl_penalty. apply d_scal. apply G6. intros l Hl HN.
      destruct (ell l) as [[e pj]|] eqn:He; [|congruence]. apply (HE l e pj Hl He).
    + intros CT. rewrite (G4 CT). unfold xl_penalty. rewrite set_nth_self by lia. reflexivity.
Qed.
Print Assumptions ellipsoid_gradient_is_derivative_partial.

(** C16/C17. The Jacobian: three rows per ellipsoid, |r|^2 is getError, and 2 J^T r is the derivative of
    the penalty with the surface points held, and of getError if the ellipsoids are spheres. *)
Theorem ellipsoid_jacobian_is_derivative_partial : forall X p i q sts,
  xlimit_wf X -> pt_wf (xl_pt X) -> parents_first (sk_parents (xl_sk X)) -> unit_prerotations (xl_sk X) ->
  length p = pt_cols (xl_pt X) -> (i < pt_cols (xl_pt X))%nat -> xl_enabled X i = true -> 0 <= xl_weight X ->
  (forall t, pt_apply (xl_pt X) (set_nth p i t) = Ok (q t)) -> (forall t, fk (xl_sk X) (q t) = Ok (sts t)) ->
  (forall l, In l (xl_limits X) -> away_from_range_ends p (ldata (fl_limit l))) ->
  (forall l, In l (xl_limits X) -> jac_conditions (fl_limit l)) ->
  (forall l e pj, In l (xl_limits X) -> ell l = Some (e, pj) ->
     inverse_maps l /\ ~ at_centre (sts (nth i p 0)) l /\ steady (xl_pt X) (xl_sk X) i e pj) ->
  exists F e rows, (forall t, lx_error X (set_nth p i t) (q t) (sts t) = Ok (F t)) /\
    lx_jacobian X p (q (nth i p 0)) (sts (nth i p 0)) = Ok (e, rows) /\
    length rows = lim_jacobian_size (map fl_limit (xl_limits X)) /\
    (forall row, In row rows -> length (fst row) = pt_cols (xl_pt X)) /\
    e = F (nth i p 0) /\ rsum (map (fun row => snd row * snd row) rows) = e /\
    (forall Y, (forall l, In l (xl_limits X) -> ell l <> None -> radial_point (sts (nth i p 0)) l (Y l)) ->
       (forall l e pj, In l (xl_limits X) -> ell l = Some (e, pj) -> does_not_move (xl_pt X) (xl_sk X) i e) ->
       is_derive (fun t => xl_penalty X Y (set_nth p i t) (q t) (sts t)) (nth i p 0) (2 * jt_r rows i)) /\
    ((forall l, In l (xl_limits X) -> ell l <> None -> sphere l) -> is_derive F (nth i p 0) (2 * jt_r rows i)).
Proof.
  intros X p i q sts W WP V U Lp Hi EN HW Hq Hs AW JC HE.
  assert (F : forall t, fk_states (xl_sk X) (q t) (sts t)) by (intros t; apply (fk_inv _ _ _ V (Hs t))).
  assert (PR : forall l, In l (xl_limits X) -> ell l <> None -> radial_point (sts (nth i p 0)) l (projection (sts (nth i p 0)) l)).
  { intros l Hl HN. destruct (ell l) as [[e pj]|] eqn:He; [|congruence]. destruct (HE l e pj Hl He) as (I & C & D).
    apply (projection_radial X W V U (q (nth i p 0)) (sts (nth i p 0)) (F _) l e pj Hl He I C). }
  assert (LP : forall Y, (forall l, In l (xl_limits X) -> ell l <> None -> radial_point (sts (nth i p 0)) l (Y l)) ->
    forall l, In l (xl_limits X) -> fair X p i sts l /\ away_from_range_ends p (ldata (fl_limit l)) /\
     jac_conditions (fl_limit l) /\ (ell l <> None -> radial_point (sts (nth i p 0)) l (Y l))).
  { intros Y HY l Hl. split; [|split; [apply AW, Hl|split; [apply JC, Hl|apply HY, Hl]]].
    intros e pj He. apply (HE l e pj Hl He). }
  destruct (lx_jac_loop_ok X W WP V U p i q sts Lp Hi EN Hq Hs (projection (sts (nth i p 0))) (xl_limits X) HW ltac:(auto) (LP _ PR))
    as (er & rows & D & G1 & G2 & G3 & G4 & G5 & G6 & G7 & G8).
  exists (fun t => xl_penalty X (projection (sts t)) (set_nth p i t) (q t) (sts t)), er, rows.
  split; [|split; [exact G1|split; [exact G2|split; [exact G3|split; [|split; [exact G5|split]]]]]].
  - intros t. apply (lx_error_ok X W WP V U _ _ _); [rewrite set_nth_length; exact Lp|apply (pt_apply_length _ _ _ WP (Hq t))|apply F].
  - rewrite G4. unfold xl_penalty. rewrite set_nth_self by lia. reflexivity.
  - intros Y HY DM. destruct (lx_jac_loop_ok X W WP V U p i q sts Lp Hi EN Hq Hs Y (xl_limits X) HW ltac:(auto) (LP _ HY))
      as (er' & rows' & D' & H1 & _ & _ & _ & _ & H6 & H7 & _).
    rewrite G1 in H1. injection H1 as <- <-. rewrite H6. unfold xl_penalty. apply d_scal. apply H7.
    intros l Hl e pj He. apply (DM l e pj Hl He).
  - intros RD. rewrite G6. unfold xl_penalty. apply d_scal. apply G8. intros l Hl HN. apply RD; assumption.
Qed.
Print Assumptions ellipsoid_jacobian_is_derivative_partial.

(** On a sphere the radial point is the closest point of the surface. *)
Theorem ellipsoid_closest_partial : forall X p q sts l y u,
  xlimit_wf X -> parents_first (sk_parents (xl_sk X)) -> unit_prerotations (xl_sk X) ->
  pt_apply (xl_pt X) p = Ok q -> fk (xl_sk X) q = Ok sts ->
  In l (xl_limits X) -> ell l <> None -> inverse_maps l -> sphere l -> radial_point sts l y -> vdot u u = 1 ->
  vnorm2 (vsub (limited_point sts l) y) <= vnorm2 (vsub (limited_point sts l) (ell_image sts l u)).
Proof.
  intros X p q sts l y u W V U Hq Hs Hl HN I [r2 SPH] (n & lam & N1 & N2 & N3 & ->) HU.
  pose proof (proj2 (fk_inv _ _ _ V Hs)) as F. destruct (ell l) as [[e pj]|] eqn:HE; [|congruence].
  destruct (ell_states X W V U q sts F l e pj Hl HE) as (sp & se & E1 & E2 & E3).
  rewrite N3, !(image_eq sts l e pj se HE E2), <- !tf_affine_point, !aff_lin_sub.
  assert (K : forall a, vnorm2 (mvec (alin (tf_affine (js_world se))) (mvec (alin (fl_map l)) a)) =
     scl (js_world se) * scl (js_world se) * r2 * vdot a a).
  { intros a. unfold vnorm2. cbn [tf_affine alin]. unfold tf_linear.
    rewrite !mvec_scale, !qmat_vec, vdot_scale_both, qrot_dot, SPH by apply E3. ring. }
  rewrite !K. pose proof (SPH ex ex) as R. assert (R2 : 0 <= r2).
  { replace (vdot ex ex) with 1 in R by (unfold vdot; cbn; ring). rewrite Rmult_1_r in R. rewrite <- R. apply vnorm2_pos. }
  apply Rmult_le_compat_l; [nra|].
  assert (CS : vdot n u <= 1).
  { pose proof (vnorm2_pos (vsub n u)) as Q. revert Q HU N1. destruct n, u. unfold vnorm2, vsub, vdot; cbn. nra. }
  revert CS HU N1. destruct n, u. unfold vsub, vdot; cbn. nra.
Qed.
Print Assumptions ellipsoid_closest_partial.

(** ** Concrete cases *)

(** Two roots; the only parameter moves the second one along x. *)
Definition exe_sk : skeleton := [Joint None vzero qid; Joint None vzero qid].
Definition exe_pt : ptransform := PT ["x"]%string 14 1 [Entry 7 0 1] (repeat 0 14) (repeat true 14) [] [] [] [].
Definition exe_q (x : R) : list R := [0; 0; 0; 0; 0; 0; 0; x; 0; 0; 0; 0; 0; 0].
Definition exe_sts (x : R) : list jstate := [exc_state 0; exc_state x].
(** An ellipsoid on joint 0 with half axes 1, b, 1, for the point (0, y, 0) of joint 1. *)
Definition diag_map (b : R) : affine := Aff (M3 (V3 1 0 0) (V3 0 b 0) (V3 0 0 1)) vzero.
Definition exe_l (b y w : R) : flimit := FL (PLimit (LEllipsoid 0 1) w) (diag_map b) (diag_map (/ b)) (V3 0 y 0).
Definition exe_minmax : flimit := FL (PLimit (LMinMax 0 (-1) 1) 3) (diag_map 1) (diag_map 1) vzero.
Definition exe_X (b y : R) : xlimit_fn :=
  XLim [exe_minmax; exe_l b y 2] 5 (fun _ => true) (repeat true 14) exe_pt exe_sk.

Lemma exe_pt_wf : pt_wf exe_pt.
Proof.
  constructor; try reflexivity; try (intros; contradiction).
  - cbn [exe_pt pt_cols]. unfold kMaxModelParams. lia.
  - intros e H. cbn in H. destruct H as [<-|[]]; cbn; lia.
Qed.
Lemma exe_sk_ok : parents_first (sk_parents exe_sk) /\ unit_prerotations exe_sk.
Proof.
  split; [intros [|[|[|i]]] q H; cbn in H; discriminate|].
  intros [|[|[|i]]] jt H; cbn in H; try discriminate; injection H as <-; unfold qunit, qnorm2; cbn; lra.
Qed.
Lemma exe_apply x : pt_apply exe_pt [x] = Ok (exe_q x).
Proof.
  unfold pt_apply. cbn [exe_pt pt_cols pt_offsets pt_rows List.length Nat.eqb check obind repeat negb].
  unfold mat_vec, row_dot. cbn [pt_rows exe_pt pt_entries map seq erow ecol eval Nat.eqb filter rsum nth vadd_list].
  unfold vadd_list. cbn [map combine fst snd]. unfold exe_q. f_equal. rewrite !Rplus_0_r, Rmult_1_l. reflexivity.
Qed.
Lemma exe_fk x : fk exe_sk (exe_q x) = Ok (exe_sts x).
Proof.
  unfold fk, exe_q. cbn [List.length exe_sk Nat.mul Nat.add Nat.eqb fk_from jparent obind app].
  unfold jparam_at. cbn [Nat.mul Nat.add nth]. rewrite !exc_jss. reflexivity.
Qed.
Lemma exe_wf b y : xlimit_wf (exe_X b y).
Proof.
  constructor; try reflexivity.
  - intros e H _. cbn in H. destruct H as [<-|[]]. reflexivity.
  - intros l H HE. cbn in H. destruct H as [<-|[<-|[]]]; [cbn; lia|discriminate HE].
  - intros l e p H HE. cbn in H. destruct H as [<-|[<-|[]]]; [discriminate HE|]. injection HE as <- <-. cbn. lia.
Qed.
Lemma exe_inverse b y w : b <> 0 -> inverse_maps (exe_l b y w).
Proof.
  intros B. split; intros [u v z]; unfold aff_point, diag_map, mvec, vadd, vscale; cbn; f_equal; field; exact B.
Qed.
Lemma exe_limited b y w x : limited_point (exe_sts x) (exe_l b y w) = V3 x y 0.
Proof. unfold limited_point, world_point, tf_point. lazy -[Rplus Rmult Rminus Ropp]. f_equal; ring. Qed.
Lemma exe_image b y w x u : ell_image (exe_sts x) (exe_l b y w) u = V3 (vx u) (b * vy u) (vz u).
Proof. destruct u. unfold ell_image, world_point, tf_point. lazy -[Rplus Rmult Rminus Ropp]. f_equal; ring. Qed.
Lemma exe_still b y : does_not_move (xl_pt (exe_X b y)) (xl_sk (exe_X b y)) 0 0.
Proof.
  intros ch a k en Hc Ha Hk He Er Ec. cbn in He. destruct He as [<-|[]]. cbn [erow] in Er.
  inversion Hc as [j jt E P|j jt pr ch' E P Hc']; subst; [|cbn in E; injection E as <-; discriminate P].
  destruct Ha as [<-|[]]. lia.
Qed.
Lemma exe_centre b y w x : b <> 0 -> y <> 0 -> ~ at_centre (exe_sts x) (exe_l b y w).
Proof. intros B Y C. unfold at_centre in C. rewrite exe_limited, exe_image in C. apply (f_equal vy) in C. cbn in C. lra. Qed.
Lemma exe_ray b y w x r : 0 < r -> 0 < b -> r * r = x * x + (y / b) * (y / b) ->
  radial_point (exe_sts x) (exe_l b y w) (V3 (x / r) (y / r) 0).
Proof.
  intros Hr Hb E. exists (V3 (x / r) (y / b / r) 0), r. split; [|split; [exact Hr|]].
  - unfold vdot; cbn. replace (x / r * (x / r) + y / b / r * (y / b / r) + 0 * 0) with ((x * x + (y / b) * (y / b)) / (r * r)) by (field; lra).
    rewrite <- E. field. lra.
  - rewrite exe_limited, !exe_image. cbn. split; f_equal; field; lra.
Qed.

(** The hypotheses of the theorems hold for the sphere of radius 1 and the point (4, 3, 0): distance 4. *)
Example exe_error : lx_error (exe_X 1 3) [4] (exe_q 4) (exe_sts 4) = Ok (10 * 5 * (3 * 9 + 2 * (/ 10000 * 16))).
Proof.
  assert (RP : radial_point (exe_sts 4) (exe_l 1 3 2) (V3 (4 / 5) (3 / 5) 0)) by (apply exe_ray; lra).
  rewrite (ellipsoid_error_is_penalty (exe_X 1 3) [4] (exe_q 4) (exe_sts 4) (fun _ => V3 (4 / 5) (3 / 5) 0)
    (exe_wf 1 3) exe_pt_wf (proj1 exe_sk_ok) (proj2 exe_sk_ok) (exe_apply 4) (exe_fk 4)).
  - f_equal. unfold xl_penalty. cbn [exe_X xl_limits xl_weight map rsum]. unfold ell_violation2.
    change (ell exe_minmax) with (@None (nat * nat)). change (ell (exe_l 1 3 2)) with (Some (0%nat, 1%nat)).
    cbv beta iota. rewrite exe_limited. cbn [exe_minmax exe_l fl_limit lweight ldata violation2 xl_enabled xl_active nth].
    rewrite excess2_neg, excess2_pos by lra. unfold vnorm2, vdot; cbn. field.
  - intros l H HN. cbn in H. destruct H as [<-|[<-|[]]]; [cbn in HN; congruence|].
    split; [apply exe_inverse; lra|exact RP].
Qed.
Example exe_hyps :
  (forall l, In l (xl_limits (exe_X 1 3)) -> away_from_range_ends [4] (ldata (fl_limit l))) /\
  (forall l, In l (xl_limits (exe_X 1 3)) -> unit_weight_if_two_params (fl_limit l)) /\
  (forall l, In l (xl_limits (exe_X 1 3)) -> jac_conditions (fl_limit l)) /\
  (forall l, In l (xl_limits (exe_X 1 3)) -> counted (fun _ => true) (ldata (fl_limit l))) /\
  (forall l e pj, In l (xl_limits (exe_X 1 3)) -> ell l = Some (e, pj) ->
     inverse_maps l /\ sphere l /\ ~ at_centre (exe_sts 4) l /\ does_not_move (xl_pt (exe_X 1 3)) (xl_sk (exe_X 1 3)) 0 e /\
     steady (xl_pt (exe_X 1 3)) (xl_sk (exe_X 1 3)) 0 e pj).
Proof.
  split; [|split; [|split; [|split]]].
  - intros l H. cbn in H. destruct H as [<-|[<-|[]]]; exact I.
  - intros l H. cbn in H. destruct H as [<-|[<-|[]]]; exact I.
  - intros l H. cbn in H. destruct H as [<-|[<-|[]]]; split; cbn; try lra; exact I.
  - intros l H. cbn in H. destruct H as [<-|[<-|[]]]; exact I.
  - intros l e pj H HE. cbn in H. destruct H as [<-|[<-|[]]]; [discriminate HE|]. injection HE as <- <-.
    split; [apply exe_inverse; lra|]. split; [|split; [apply exe_centre; lra|split; [|left]; apply (exe_still 1 3)]].
    exists 1. intros [a b c] [d e f]. unfold vdot, mvec; cbn. ring.
Qed.
(** The gradient there: 10 * 5 * (3 * 2 * 3 + 2 * 1e-4 * 2 * 4 * (4/5)). *)
Example exe_gradient : exists e g', lx_gradient (exe_X 1 3) [4] (exe_q 4) (exe_sts 4) [7] = Ok (e, g') /\
  nth 0 g' 0 = 7 + 10 * 5 * (3 * 6 + 2 * (/ 10000 * (2 * 4 * (4 / 5)))).
Proof.
  destruct exe_hyps as (H1 & H2 & _ & _ & H5).
  destruct (ellipsoid_gradient_frozen (exe_X 1 3) [4] 0 exe_q exe_sts (fun _ => V3 (4 / 5) (3 / 5) 0) [7]
    (exe_wf 1 3) exe_pt_wf (proj1 exe_sk_ok) (proj2 exe_sk_ok) eq_refl eq_refl ltac:(cbn; lia) eq_refl exe_apply exe_fk H1 H2)
    as (e & g' & G1 & G2).
  { intros l e pj Hl He. destruct (H5 l e pj Hl He) as (I & _ & _ & D & _). split; [exact I|]. split; [|exact D].
    cbn in Hl. destruct Hl as [<-|[<-|[]]]; [discriminate He|]. apply exe_ray; cbn; lra. }
  exists e, g'. split; [exact G1|]. cbn [nth] in G2.
  assert (D : is_derive (fun t => xl_penalty (exe_X 1 3) (fun _ => V3 (4 / 5) (3 / 5) 0) (set_nth [4] 0 t) (exe_q t) (exe_sts t)) 4
     (10 * 5 * (3 * 6 + 2 * (/ 10000 * (2 * 4 * (4 / 5)))))).
  { apply (is_derive_ext_loc (fun t => 10 * 5 * (3 * ((t - 1) * (t - 1)) + (2 * (/ 10000 * ((t - 4 / 5) * (t - 4 / 5) + (3 - 3 / 5) * (3 - 3 / 5))))))).
    - exists (mkposreal 1 ltac:(lra)). intros t Ht. unfold ball in Ht; cbn in Ht. unfold AbsRing_ball, abs, minus, plus, opp in Ht; cbn in Ht.
      apply Rabs_lt_between in Ht. unfold xl_penalty. cbn [exe_X xl_limits xl_weight map rsum]. unfold ell_violation2.
      change (ell exe_minmax) with (@None (nat * nat)). change (ell (exe_l 1 3 2)) with (Some (0%nat, 1%nat)).
      cbv beta iota. rewrite exe_limited. cbn [exe_minmax exe_l fl_limit lweight ldata violation2 xl_enabled xl_active nth set_nth].
      rewrite excess2_neg, excess2_pos by lra. unfold vnorm2, vdot; cbn. ring.
    - auto_derive; [exact I|]. field. }
  pose proof (is_derive_unique _ _ _ G2) as U1. pose proof (is_derive_unique _ _ _ D) as U2. cbn [nth] in U1. rewrite U1 in U2. lra.
Qed.

(** ** What fails *)

(** The radial point of an ellipsoid that is no sphere need not be the closest point. *)
Theorem ellipsoid_closest_refuted : exists X p q sts l y u,
  xlimit_wf X /\ pt_apply (xl_pt X) p = Ok q /\ fk (xl_sk X) q = Ok sts /\ In l (xl_limits X) /\
  inverse_maps l /\ radial_point sts l y /\ vdot u u = 1 /\
  vnorm2 (vsub (limited_point sts l) (ell_image sts l u)) < vnorm2 (vsub (limited_point sts l) y).
Proof.
  exists (exe_X 2 1), [0], (exe_q 0), (exe_sts 0), (exe_l 2 1 2), (V3 (0 / (1 / 2)) (1 / (1 / 2)) 0), (V3 (4 / 5) (3 / 5) 0).
  split; [apply exe_wf|]. split; [apply exe_apply|]. split; [apply exe_fk|]. split; [right; left; reflexivity|].
  split; [apply exe_inverse; lra|]. split; [apply exe_ray; lra|]. split; [unfold vdot; cbn; field|].
  rewrite exe_limited, exe_image. unfold vnorm2, vdot; cbn. lra.
Qed.
Print Assumptions ellipsoid_closest_refuted.

(** At the centre the point is as far from the surface as it can be and yet there is no error. *)
Theorem ellipsoid_centre_refuted : exists X p q sts l,
  xlimit_wf X /\ pt_apply (xl_pt X) p = Ok q /\ fk (xl_sk X) q = Ok sts /\ In l (xl_limits X) /\ inverse_maps l /\
  0 < xl_weight X * lweight (fl_limit l) /\ (forall u, vdot u u = 1 -> vnorm2 (vsub (limited_point sts l) (ell_image sts l u)) = 1) /\
  lx_error X p q sts = Ok 0.
Proof.
  exists (exe_X 1 0), [0], (exe_q 0), (exe_sts 0), (exe_l 1 0 2).
  split; [apply exe_wf|]. split; [apply exe_apply|]. split; [apply exe_fk|]. split; [right; left; reflexivity|].
  split; [apply exe_inverse; lra|]. split; [cbn; lra|]. split.
  - intros u Hu. rewrite exe_limited, exe_image. revert Hu. destruct u. unfold vnorm2, vdot, vsub; cbn. lra.
  - destruct (ellipsoid_error_zero_iff (exe_X 1 0) [0] (exe_q 0) (exe_sts 0) (exe_wf 1 0) exe_pt_wf (proj1 exe_sk_ok) (proj2 exe_sk_ok)
      (exe_apply 0) (exe_fk 0)) as (e & E & _ & Z).
    + cbn; lra.
    + intros l H. cbn in H. destruct H as [<-|[<-|[]]]; cbn; lra.
    + intros l H HN. cbn in H. destruct H as [<-|[<-|[]]]; [cbn in HN; congruence|apply exe_inverse; lra].
    + rewrite E. f_equal. apply Z. intros l H. cbn in H. destruct H as [<-|[<-|[]]].
      * unfold xl_inside. cbn. lra.
      * right. unfold at_centre. rewrite exe_limited, exe_image. cbn. f_equal. ring.
Qed.
Print Assumptions ellipsoid_centre_refuted.

(** C17. For an ellipsoid that is no sphere the gradient is not the derivative of getError: the movement
    of the surface point is left out. *)
Definition exe_Y (b y : R) : xlimit_fn := XLim [exe_l b y 1] 1 (fun _ => true) (repeat true 14) exe_pt exe_sk.
Lemma exe_Y_wf b y : xlimit_wf (exe_Y b y).
Proof.
  constructor; try reflexivity.
  - intros e H _. cbn in H. destruct H as [<-|[]]. reflexivity.
  - intros l H HE. cbn in H. destruct H as [<-|[]]. discriminate HE.
  - intros l e p H HE. cbn in H. destruct H as [<-|[]]. injection HE as <- <-. cbn. lia.
Qed.
Lemma exe_Y_error x : lx_error (exe_Y 2 6) [x] (exe_q x) (exe_sts x) =
  Ok (10 * (/ 10000 * ((x * x + 36) * ((1 - / sqrt (x * x + 9)) * (1 - / sqrt (x * x + 9)))))).
Proof.
  set (r := sqrt (x * x + 9)). assert (P : 0 < x * x + 9) by nra.
  assert (R0 : 0 < r) by (apply sqrt_lt_R0; exact P). assert (R2 : r * r = x * x + 9) by (apply sqrt_sqrt; lra).
  rewrite (ellipsoid_error_is_penalty (exe_Y 2 6) [x] (exe_q x) (exe_sts x) (fun _ => V3 (x / r) (6 / r) 0)
    (exe_Y_wf 2 6) exe_pt_wf (proj1 exe_sk_ok) (proj2 exe_sk_ok) (exe_apply x) (exe_fk x)).
  - f_equal. unfold xl_penalty. cbn [exe_Y xl_limits xl_weight map rsum]. unfold ell_violation2.
    change (ell (exe_l 2 6 1)) with (Some (0%nat, 1%nat)). cbv beta iota. rewrite exe_limited.
    cbn [exe_l fl_limit lweight]. unfold vnorm2, vdot; cbn. field. lra.
  - intros l H HN. cbn in H. destruct H as [<-|[]]. split; [apply exe_inverse; lra|]. apply exe_ray; try lra; rewrite R2; field.
Qed.
Theorem ellipsoid_gradient_refuted : exists X p i q sts g F d e g',
  xlimit_wf X /\ pt_wf (xl_pt X) /\ parents_first (sk_parents (xl_sk X)) /\ unit_prerotations (xl_sk X) /\
  length p = pt_cols (xl_pt X) /\ (i < pt_cols (xl_pt X))%nat /\ xl_enabled X i = true /\
  (forall t, pt_apply (xl_pt X) (set_nth p i t) = Ok (q t)) /\ (forall t, fk (xl_sk X) (q t) = Ok (sts t)) /\
  (forall l e pj, In l (xl_limits X) -> ell l = Some (e, pj) ->
     inverse_maps l /\ ~ at_centre (sts (nth i p 0)) l /\ does_not_move (xl_pt X) (xl_sk X) i e) /\
  (forall t, lx_error X (set_nth p i t) (q t) (sts t) = Ok (F t)) /\
  lx_gradient X p (q (nth i p 0)) (sts (nth i p 0)) g = Ok (e, g') /\
  is_derive F (nth i p 0) d /\ d <> nth i g' 0 - nth i g 0.
Proof.
  destruct (ellipsoid_gradient_frozen (exe_Y 2 6) [4] 0 exe_q exe_sts (fun _ => V3 (4 / 5) (6 / 5) 0) [0]
    (exe_Y_wf 2 6) exe_pt_wf (proj1 exe_sk_ok) (proj2 exe_sk_ok) eq_refl eq_refl ltac:(cbn; lia) eq_refl exe_apply exe_fk)
    as (e & g' & G1 & G2).
  { intros l H. cbn in H. destruct H as [<-|[]]; exact I. }
  { intros l H. cbn in H. destruct H as [<-|[]]; exact I. }
  { intros l e pj H HE. cbn in H. destruct H as [<-|[]]. injection HE as <- <-.
    split; [apply exe_inverse; lra|]. split; [apply exe_ray; cbn; lra|exact (exe_still 2 6)]. }
  exists (exe_Y 2 6), [4], 0%nat, exe_q, exe_sts, [0],
    (fun x => 10 * (/ 10000 * ((x * x + 36) * ((1 - / sqrt (x * x + 9)) * (1 - / sqrt (x * x + 9)))))),
    (10 * (/ 10000 * (8 * (16 / 25) + 52 * (2 * (4 / 5) * (4 / 125))))), e, g'.
  split; [apply exe_Y_wf|]. split; [apply exe_pt_wf|]. split; [apply exe_sk_ok|]. split; [apply exe_sk_ok|].
  split; [reflexivity|]. split; [cbn; lia|]. split; [reflexivity|]. split; [apply exe_apply|]. split; [apply exe_fk|].
  split; [|split; [apply exe_Y_error|split; [exact G1|]]].
  { intros l e0 pj H HE. cbn in H. destruct H as [<-|[]]. injection HE as <- <-.
    split; [apply exe_inverse; lra|]. split; [apply exe_centre; lra|exact (exe_still 2 6)]. }
  assert (S5 : sqrt (4 * 4 + 9) = 5) by (replace (4 * 4 + 9) with (5 * 5) by ring; apply sqrt_square; lra).
  cbn [nth] in G2 |- *. split.
  - auto_derive; rewrite ?S5; [repeat split; lra|]. field.
  - assert (D : is_derive (fun t => xl_penalty (exe_Y 2 6) (fun _ => V3 (4 / 5) (6 / 5) 0) (set_nth [4] 0 t) (exe_q t) (exe_sts t)) 4
      (10 * (/ 10000 * (2 * (4 - 4 / 5))))).
    { apply (d_ext (fun t => 10 * (/ 10000 * ((t - 4 / 5) * (t - 4 / 5) + (6 - 6 / 5) * (6 - 6 / 5))))).
      - intros t. unfold xl_penalty. cbn [exe_Y xl_limits xl_weight map rsum]. unfold ell_violation2.
        change (ell (exe_l 2 6 1)) with (Some (0%nat, 1%nat)). cbv beta iota. rewrite exe_limited.
        cbn [exe_l fl_limit lweight]. unfold vnorm2, vdot; cbn. ring.
      - auto_derive; [exact I|]. field. }
    pose proof (is_derive_unique _ _ _ G2) as U1. pose proof (is_derive_unique _ _ _ D) as U2. cbn [nth] in U1. rewrite U1 in U2.
    rewrite U2. lra.
Qed.
Print Assumptions ellipsoid_gradient_refuted.

(** C17. If a parameter moves the ellipsoid and the point alike, getError does not change but the gradient
    is that of a point moving past a fixed ellipsoid. *)
Definition exm_sk : skeleton := [Joint None vzero qid; Joint (Some 0%nat) vzero qid].
Definition exm_pt : ptransform := PT ["x"]%string 14 1 [Entry 0 0 1] (repeat 0 14) (repeat true 14) [] [] [] [].
Definition exm_q (x : R) : list R := [x; 0; 0; 0; 0; 0; 0; 0; 0; 0; 0; 0; 0; 0].
Definition exm_child (x : R) : jstate := JS mid (TF qid vzero 1) (TF qid (V3 x 0 0) 1) mid mid.
Definition exm_sts (x : R) : list jstate := [exc_state x; exm_child x].
Definition exm_l : flimit := FL (PLimit (LEllipsoid 1 0) 1) (diag_map 1) (diag_map 1) (V3 2 0 0).
Definition exm_X : xlimit_fn := XLim [exm_l] 1 (fun _ => true) (true :: repeat false 13) exm_pt exm_sk.

Lemma exm_pt_wf : pt_wf exm_pt.
Proof.
  constructor; try reflexivity; try (intros; contradiction).
  - cbn [exm_pt pt_cols]. unfold kMaxModelParams. lia.
  - intros e H. cbn in H. destruct H as [<-|[]]; cbn; lia.
Qed.
Lemma exm_sk_ok : parents_first (sk_parents exm_sk) /\ unit_prerotations exm_sk.
Proof.
  split; [intros [|[|[|i]]] q H; cbn in H; try discriminate; injection H as <-; lia|].
  intros [|[|[|i]]] jt H; cbn in H; try discriminate; injection H as <-; unfold qunit, qnorm2; cbn; lra.
Qed.
Lemma exm_apply x : pt_apply exm_pt [x] = Ok (exm_q x).
Proof.
  unfold pt_apply. cbn [exm_pt pt_cols pt_offsets pt_rows List.length Nat.eqb check obind repeat negb].
  unfold mat_vec, row_dot. cbn [pt_rows exm_pt pt_entries map seq erow ecol eval Nat.eqb filter rsum nth vadd_list].
  unfold vadd_list. cbn [map combine fst snd]. unfold exm_q. f_equal. rewrite !Rplus_0_r, Rmult_1_l. reflexivity.
Qed.
Lemma exm_jss x : joint_state_set (Joint (Some 0%nat) vzero qid) (JP 0 0 0 0 0 0 0) (Some (exc_state x)) = exm_child x.
Proof.
  unfold joint_state_set. cbn [jtx jty jtz jrx jry jrz jsc jprerot joffset js_world js_linear exc_state]. cbv zeta.
  rewrite !qaxis_0, exp2_0, !qmul_id_l.
  unfold tf_affine, tf_mul, tf_id, tf_linear. cbn [rot trans scl alin].
  rewrite !qmul_id_l, !qrot_id, ?vscale_1, Rmult_1_l. change (V3 0 0 0) with vzero. rewrite !vadd_0_l.
  unfold exm_child, mid, ex, ey, ez, vzero, mscale, vscale, vadd. cbn. f_equal; repeat (f_equal; try ring).
Qed.
Lemma exm_fk x : fk exm_sk (exm_q x) = Ok (exm_sts x).
Proof.
  unfold fk, exm_q. cbn [List.length exm_sk Nat.mul Nat.add Nat.eqb fk_from jparent obind app].
  unfold jparam_at. cbn [Nat.mul Nat.add nth]. rewrite exc_jss. cbn [rd nth_error obind fk_from app jparent].  rewrite exm_jss. reflexivity.
Qed.
Lemma exm_wf : xlimit_wf exm_X.
Proof.
  constructor; try reflexivity.
  - intros e H _. cbn in H. destruct H as [<-|[]]. reflexivity.
  - intros l H HE. cbn in H. destruct H as [<-|[]]. discriminate HE.
  - intros l e p H HE. cbn in H. destruct H as [<-|[]]. injection HE as <- <-. cbn. lia.
Qed.
Lemma exm_limited x : limited_point (exm_sts x) exm_l = V3 (x + 2) 0 0.
Proof. unfold limited_point, world_point, tf_point. lazy -[Rplus Rmult Rminus Ropp]. f_equal; ring. Qed.
Lemma exm_image x u : ell_image (exm_sts x) exm_l u = V3 (x + vx u) (vy u) (vz u).
Proof. destruct u. unfold ell_image, world_point, tf_point. lazy -[Rplus Rmult Rminus Ropp]. f_equal; ring. Qed.
Lemma exm_inverse : inverse_maps exm_l.
Proof. split; intros [u v z]; unfold aff_point, diag_map, mvec, vadd, vscale; cbn; f_equal; field. Qed.
Lemma exm_ray x : radial_point (exm_sts x) exm_l (V3 (x + 1) 0 0).
Proof.
  exists (V3 1 0 0), 2. split; [unfold vdot; cbn; ring|]. split; [lra|].
  rewrite exm_limited, !exm_image. cbn. split; f_equal; ring.
Qed.
Lemma exm_diff : ellipsoid_diff (exm_sts 0) exm_l = Ok (V3 1 0 0).
Proof.
  pose proof (proj2 (fk_inv _ _ _ (proj1 exm_sk_ok) (exm_fk 0))) as F.
  destruct (ell_states exm_X exm_wf (proj1 exm_sk_ok) (proj2 exm_sk_ok) (exm_q 0) (exm_sts 0) F exm_l 1 0 (or_introl eq_refl) eq_refl)
    as (sp & se & E1 & E2 & E3).
  rewrite (diff_radial (exm_sts 0) exm_l 1 0 sp se eq_refl E1 E2 E3 exm_inverse _ (exm_ray 0)), exm_limited.
  unfold vsub; cbn. do 2 f_equal; ring.
Qed.

Theorem ellipsoid_moving_refuted : exists X p i q sts g E e g',
  xlimit_wf X /\ pt_wf (xl_pt X) /\ parents_first (sk_parents (xl_sk X)) /\ unit_prerotations (xl_sk X) /\
  length p = pt_cols (xl_pt X) /\ (i < pt_cols (xl_pt X))%nat /\ xl_enabled X i = true /\
  (forall t, pt_apply (xl_pt X) (set_nth p i t) = Ok (q t)) /\ (forall t, fk (xl_sk X) (q t) = Ok (sts t)) /\
  (forall l e pj, In l (xl_limits X) -> ell l = Some (e, pj) ->
     inverse_maps l /\ sphere l /\ ~ at_centre (sts (nth i p 0)) l) /\
  (forall t, lx_error X (set_nth p i t) (q t) (sts t) = Ok E) /\
  lx_gradient X p (q (nth i p 0)) (sts (nth i p 0)) g = Ok (e, g') /\
  nth i g' 0 - nth i g 0 = 2 / 1000.
Proof.
  exists exm_X, [0], 0%nat, exm_q, exm_sts, [0], (10 * (/ 10000)). eexists. eexists.
  split; [apply exm_wf|]. split; [apply exm_pt_wf|]. split; [apply exm_sk_ok|]. split; [apply exm_sk_ok|].
  split; [reflexivity|]. split; [cbn; lia|]. split; [reflexivity|]. split; [apply exm_apply|]. split; [apply exm_fk|].
  split; [|split].
  - intros l e0 pj H HE. cbn in H. destruct H as [<-|[]]. injection HE as <- <-.
    split; [apply exm_inverse|]. split.
    + exists 1. intros [a b c] [d e f]. unfold vdot, mvec; cbn. ring.
    + intros C. unfold at_centre in C. rewrite exm_limited, exm_image in C. apply (f_equal vx) in C. cbn in C. lra.
  - intros t. cbn [set_nth].
    rewrite (ellipsoid_error_is_penalty exm_X [t] (exm_q t) (exm_sts t) (fun _ => V3 (t + 1) 0 0)
      exm_wf exm_pt_wf (proj1 exm_sk_ok) (proj2 exm_sk_ok) (exm_apply t) (exm_fk t)).
    + f_equal. unfold xl_penalty. cbn [exm_X xl_limits xl_weight map rsum]. unfold ell_violation2.
      change (ell exm_l) with (Some (1%nat, 0%nat)). cbv beta iota. rewrite exm_limited.
      cbn [exm_l fl_limit lweight]. unfold vnorm2, vdot; cbn. field.
    + intros l H HN. cbn in H. destruct H as [<-|[]]. split; [apply exm_inverse|apply exm_ray].
  - cbn [nth]. split.
    + unfold lx_gradient. cbn [exm_X xl_limits lx_grad_loop]. unfold lx_grad1.
      change (ldata (fl_limit exm_l)) with (LEllipsoid 1 0). cbv beta iota. rewrite exm_diff.
      lazy -[Rplus Rmult Rminus Ropp Rinv sqrt IZR]. reflexivity.
    + cbn [nth]. field.
Qed.
Print Assumptions ellipsoid_moving_refuted.

(** Swapped, with the sphere on the root and the point on the child, the parameter is steady although it moves
    both, and the gradient is right: nothing is added. *)
Definition exn_l : flimit := FL (PLimit (LEllipsoid 0 1) 1) (diag_map 1) (diag_map 1) (V3 2 0 0).
Definition exn_X : xlimit_fn := XLim [exn_l] 1 (fun _ => true) (true :: repeat false 13) exm_pt exm_sk.
Example exn_steady : steady exm_pt exm_sk 0 0 1 /\ ~ does_not_move exm_pt exm_sk 0 0.
Proof.
  split.
  - right. split.
    + exists [0%nat; 1%nat]. split; [|left; reflexivity].
      apply (chain_child exm_sk 1 (Joint (Some 0%nat) vzero qid) 0 [0%nat]); [reflexivity|reflexivity|].
      apply (chain_root exm_sk 0 (Joint None vzero qid)); reflexivity.
    + intros ch a en _ _ He Er _. cbn in He. destruct He as [<-|[]]. cbn [erow] in Er. lia.
  - intros D. assert (Q : eval (Entry 0 0 1) = 0).
    { apply (D [0%nat] 0%nat 0%nat); try reflexivity; try lia; [|left; reflexivity|left; reflexivity].
      apply (chain_root exm_sk 0 (Joint None vzero qid)); reflexivity. }
    cbn in Q. lra.
Qed.
Example exn_gradient : exists F e g', (forall t, lx_error exn_X [t] (exm_q t) (exm_sts t) = Ok (F t)) /\
  lx_gradient exn_X [0] (exm_q 0) (exm_sts 0) [7] = Ok (e, g') /\ is_derive F 0 (nth 0 g' 0 - 7).
Proof.
  assert (WN : xlimit_wf exn_X).
  { constructor; try reflexivity.
    - intros e H _. cbn in H. destruct H as [<-|[]]. reflexivity.
    - intros l H HE. cbn in H. destruct H as [<-|[]]. discriminate HE.
    - intros l e p H HE. cbn in H. destruct H as [<-|[]]. injection HE as <- <-. cbn. lia. }
  destruct (ellipsoid_gradient_is_derivative_partial exn_X [0] 0 exm_q exm_sts [7] WN exm_pt_wf (proj1 exm_sk_ok) (proj2 exm_sk_ok)
    eq_refl eq_refl ltac:(cbn; lia) eq_refl exm_apply exm_fk) as (F & e & g' & E1 & E2 & E3 & _).
  - intros l H. cbn in H. destruct H as [<-|[]]; exact I.
  - intros l H. cbn in H. destruct H as [<-|[]]; exact I.
  - intros l e pj H HE. cbn in H. destruct H as [<-|[]]. injection HE as <- <-. split; [|split; [|split; [|apply exn_steady]]].
    + apply exm_inverse.
    + exists 1. intros [a b c] [d e f]. unfold vdot, mvec; cbn. ring.
    + intros C. apply (f_equal vx) in C. revert C. lazy -[Rplus Rmult Rminus Ropp IZR]. lra.
  - exists F, e, g'. split; [exact E1|]. split; [exact E2|]. exact E3.
Qed.
