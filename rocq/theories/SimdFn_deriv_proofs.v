From Coq Require Import Bool Reals List Arith Lia Lra Psatz.
From Coquelicot Require Import Coquelicot.
From Verif Require Import Prelude Loops LinAlg Rbool R3 Transform_model Transform_proofs Skeleton_model
  Skeleton_spec FK_model FK_spec FK_proofs FK_deriv_proofs FK_axis_proofs ParamTransform_model
  ParamTransform_spec ParamTransform_proofs Limits_model Limits_spec Limits_proofs Loss_model
  Loss_proofs Constraint_model Constraint_spec Constraint_eval_proofs Constraint_proofs Constraint_deriv_proofs
  SimdStore_model SimdStore_spec SimdStore_proofs Cells_model Cells_proofs SimdFn_model SimdFn_spec SimdFn_proofs
  SimdFn_task_proofs.
Import ListNotations.
Local Open Scope nat_scope.
Local Open Scope R_scope.

Lemma sqnorm_vlist v : sqnorm (vlist v) = vdot v v.
Proof. unfold sqnorm, vlist, vdot. cbn. ring. Qed.
Lemma rdot_vlist a b : rdot (vlist a) (vlist b) = vdot a b.
Proof. unfold rdot, vlist, vdot. cbn. ring. Qed.
Lemma rdot_1 a b : rdot [a] [b] = a * b. Proof. unfold rdot. cbn. ring. Qed.
Lemma sqnorm_1 a : sqnorm [a] = a * a. Proof. unfold sqnorm. cbn. ring. Qed.
Lemma vdot_add_r a b c : vdot a (vadd b c) = vdot a b + vdot a c. Proof. unfold vdot; cbn; ring. Qed.
Lemma vdot_scale_r a s b : vdot a (vscale s b) = s * vdot a b. Proof. unfold vdot; cbn; ring. Qed.
Lemma dot_lin a : linear (fun x => vdot a x).
Proof. split; intros; [apply vdot_add_r|apply vdot_scale_r]. Qed.
Lemma vdot_comm' a b : vdot a b = vdot b a. Proof. unfold vdot; ring. Qed.

(** One joint of the walk. *)
Lemma pos_dof sa C a v q :
  vdot q (joint_velocity sa (jpC C a) v) =
  sumn 7 (fun d => vdot q (if Nat.ltb d 3 then get_translation_derivative sa d
                           else if Nat.ltb d 6 then vcross (mcol (js_raxis sa) (d - 3)) (vsub v (trans (js_world sa)))
                           else vscale (ln 2) (vsub v (trans (js_world sa)))) * C (a * 7 + d)%nat).
Proof.
  unfold joint_velocity. rewrite (linear_vsum _ _ (dot_lin q)). unfold sumn.
  cbn [map rsum seq jpC jtx jty jtz jrx jry jrz jsc Nat.ltb Nat.leb Nat.sub]. rewrite !vdot_scale_r.
  rewrite (Nat.mul_comm a 7). unfold get_rotation_derivative, get_scale_derivative. rewrite !vdot_scale_r. ring.
Qed.
Lemma axis_dof sa C a v q :
  vdot q (axis_velocity sa (jpC C a) v) =
  sumn 7 (fun d => (if Nat.ltb d 3 then 0 else if Nat.ltb d 6 then vdot q (vcross (mcol (js_raxis sa) (d - 3)) v) else 0) * C (a * 7 + d)%nat).
Proof.
  unfold axis_velocity. rewrite (linear_vsum _ _ (dot_lin q)). unfold sumn.
  cbn [map rsum seq jpC jtx jty jtz jrx jry jrz jsc Nat.ltb Nat.leb Nat.sub]. rewrite !vdot_scale_r.
  rewrite (Nat.mul_comm a 7). unfold get_rotation_derivative. ring.
Qed.

Lemma triple_shift a n p t c :
  - vdot a (vcross n (vsub t c)) = vdot n (vcross a (vsub p c)) + vdot (vsub p t) (vcross a n).
Proof. unfold vdot, vcross, vsub; cbn; ring. Qed.

Lemma lane_dof k l s sa C a :
  (k = KPlane -> forall d, (3 <= d < 6)%nat -> C (a * 7 + d)%nat = 0) ->
  sumn 7 (fun d => rdot (lane_res k l s) (lane_jac k l s sa d) * C (a * 7 + d)%nat) =
  match k with
  | KPosition => vdot (vsub (pos_world s l) (ln_target l)) (joint_velocity sa (jpC C a) (pos_world s l))
  | KPlane => (vdot (pos_world s l) (normal_world s l) - ln_dist l) *
      (vdot (normal_world s l) (joint_velocity sa (jpC C a) (pos_world s l)) +
       vdot (pos_world s l) (axis_velocity sa (jpC C a) (normal_world s l)))
  | KNormal => vdot (vsub (pos_world s l) (ln_target l)) (normal_world s l) *
      (vdot (normal_world s l) (joint_velocity sa (jpC C a) (pos_world s l)) +
       vdot (vsub (pos_world s l) (ln_target l)) (axis_velocity sa (jpC C a) (normal_world s l)))
  end.
Proof.
  intros HP. destruct k.
  - rewrite pos_dof. apply sumn_ext. intros d _. unfold lane_res, lane_jac. cbv zeta.
    destruct (Nat.ltb d 3); [|destruct (Nat.ltb d 6)]; rewrite rdot_vlist; reflexivity.
  - rewrite pos_dof, axis_dof, <- sumn_plus, <- sumn_scal. apply sumn_ext. intros d Hd. unfold lane_res, lane_jac. cbv zeta.
    destruct (Nat.ltb_spec d 3); [rewrite rdot_1; ring|]. destruct (Nat.ltb_spec d 6); rewrite rdot_1.
    + rewrite (HP eq_refl d) by lia. ring.
    + rewrite vdot_scale_r. ring.
  - rewrite pos_dof, axis_dof, <- sumn_plus, <- sumn_scal. apply sumn_ext. intros d Hd. unfold lane_res, lane_jac. cbv zeta.
    destruct (Nat.ltb_spec d 3); [rewrite rdot_1; ring|]. destruct (Nat.ltb_spec d 6); rewrite rdot_1.
    + rewrite (triple_shift _ _ (pos_world s l)). ring.
    + rewrite vdot_scale_r. ring.
Qed.

Section Path.
Context (F : simdfn) (st : sstore) (lists : nat -> list (list R)) (en : pset) (W : simd_wf F st lists en)
  (V : valid_sk (sf_sk F)) (U : unit_prerotations (sf_sk F)) (WP : pt_wf (sf_pt F))
  (p : list R) (i : nat) (sts : R -> list jstate)
  (Lp : length p = pt_cols (sf_pt F)) (Hi : (i < pt_cols (sf_pt F))%nat)
  (HS : forall t, state_of (sf_sk F) (sf_pt F) (set_nth p i t) = Ok (sts t)).
Local Notation k := (sf_kind F).
Local Notation n := (ss_n st).
Local Notation t0 := (nth i p 0).
Local Notation C := (fun r => ent_coeff (pt_entries (sf_pt F)) r i).

(** The constraint functions' proofs are about this record. *)
Let E : cfn := CFn (sf_sk F) (sf_pt F) 1 (sf_active F) en (Loss 2 0 TL2) [] 0 0.

Lemma path_len t : length (sts t) = length (sf_sk F).
Proof. exact (path_length E V p i sts HS t). Qed.
Lemma path_linear t j : (j < n)%nat -> js_linear (stt (sts t) j) = tf_linear (js_world (stt (sts t) j)).
Proof.
  intros Hj. eapply js_linear_state; [exact (proj2 (fk_inv _ _ _ V (path_fk E p i sts HS t)))|].
  apply (stt_ok F st lists en W (sts t) (path_len t) j Hj).
Qed.

(** The derivative of the squared residual. *)
Lemma lane_derive_gen j l : (j < n)%nat ->
  is_derive (fun t => sqnorm (lane_res k l (stt (sts t) j))) t0 (2 * rsum (map (fun a => match k with
  | KPosition => vdot (vsub (pos_world (stt (sts t0) j) l) (ln_target l)) (joint_velocity (stt (sts t0) a) (jpC C a) (pos_world (stt (sts t0) j) l))
  | KPlane => (vdot (pos_world (stt (sts t0) j) l) (normal_world (stt (sts t0) j) l) - ln_dist l) *
      (vdot (normal_world (stt (sts t0) j) l) (joint_velocity (stt (sts t0) a) (jpC C a) (pos_world (stt (sts t0) j) l)) +
       vdot (pos_world (stt (sts t0) j) l) (axis_velocity (stt (sts t0) a) (jpC C a) (normal_world (stt (sts t0) j) l)))
  | KNormal => vdot (vsub (pos_world (stt (sts t0) j) l) (ln_target l)) (normal_world (stt (sts t0) j) l) *
      (vdot (normal_world (stt (sts t0) j) l) (joint_velocity (stt (sts t0) a) (jpC C a) (pos_world (stt (sts t0) j) l)) +
       vdot (vsub (pos_world (stt (sts t0) j) l) (ln_target l)) (axis_velocity (stt (sts t0) a) (jpC C a) (normal_world (stt (sts t0) j) l)))
  end) (ch F j))).
Proof.
  intros Hj. set (S := fun t => stt (sts t) j).
  assert (HSt : forall t, nth_error (sts t) j = Some (S t)).
  { intros t. apply (stt_ok F st lists en W (sts t) (path_len t) j Hj). }
  pose proof (ch_ok F st lists en W V j Hj) as Hch.
  set (cc := Constr j 0 (CPosition vzero vzero)).
  pose proof (point_vel E V U WP p i sts Lp Hi HS cc S (ch F j) Hch HSt (ln_offset l)) as PV.
  pose proof (axis_vel E V U WP p i sts Lp Hi HS cc S (ch F j) Hch HSt (ln_normal l)) as AV.
  cbn [cf_pt E] in PV, AV.
  assert (EN : forall t, normal_world (S t) l = act_rot (S t) (ln_normal l)).
  { intros t. unfold normal_world, act_rot. apply qmat_vec. }
  apply (vd_ext _ (fun t => normal_world (S t) l)) in AV; [|intros t; symmetry; apply EN].
  change (fun t => act (S t) (ln_offset l)) with (fun t => pos_world (S t) l) in PV.
  change (act (S t0) (ln_offset l)) with (pos_world (S t0) l) in PV. rewrite <- EN in AV.
  change (fun t => sqnorm (lane_res k l (stt (sts t) j))) with (fun t => sqnorm (lane_res k l (S t))).
  change (stt (sts t0) j) with (S t0).
  assert (HV : forall (pos : bool) q v, vdot q (chain_vel (sts t0) C (ch F j) pos v) =
     rsum (map (fun a => vdot q (vel_of pos (stt (sts t0) a) (jpC C a) v)) (ch F j))).
  { intros pos q v. unfold chain_vel. rewrite (linear_vsum _ _ (dot_lin q)), map_map. apply rsum_map_ext. intros a Ha.
    rewrite (stt_ok F st lists en W (sts t0) (path_len t0) a) by (eapply ch_range; eassumption). reflexivity. }
  clearbody S.
  pose proof (HV true) as HV1. pose proof (HV false) as HV2. unfold vel_of in HV1, HV2. clear HV.
  destruct k.
  - rewrite <- HV1.
    apply (d_ext (fun t => vdot (vsub (pos_world (S t) l) (ln_target l)) (vsub (pos_world (S t) l) (ln_target l)))).
    { intros t. symmetry. apply sqnorm_vlist. }
    assert (DV : is_vderive (fun t => vsub (pos_world (S t) l) (ln_target l)) t0
                   (vsub (chain_vel (sts t0) C (ch F j) true (pos_world (S t0) l)) vzero)).
    { apply (vd_sub (fun t => pos_world (S t) l) (fun _ => ln_target l)); [exact PV|apply vd_const]. }
    rewrite vsub_0_r in DV.
    eapply d_eq; [apply (vd_dot _ _ _ _ _ DV DV)|]. cbv beta. rewrite (vdot_comm' (chain_vel _ _ _ _ _)). ring.
  - rewrite rsum_map_scal, rsum_map_plus, <- HV1, <- HV2.
    apply (d_ext (fun t => (vdot (pos_world (S t) l) (normal_world (S t) l) - ln_dist l) *
                           (vdot (pos_world (S t) l) (normal_world (S t) l) - ln_dist l))).
    { intros t. symmetry. apply sqnorm_1. }
    assert (DV : is_derive (fun t => vdot (pos_world (S t) l) (normal_world (S t) l) - ln_dist l) t0
      (vdot (chain_vel (sts t0) C (ch F j) true (pos_world (S t0) l)) (normal_world (S t0) l) +
       vdot (pos_world (S t0) l) (chain_vel (sts t0) C (ch F j) false (normal_world (S t0) l)) - 0)).
    { apply (d_minus (fun t => vdot (pos_world (S t) l) (normal_world (S t) l)) (fun _ => ln_dist l));
        [apply vd_dot; assumption|apply d_const]. }
    eapply d_eq; [apply (d_mult _ _ _ _ _ DV DV)|]. cbv beta. rewrite (vdot_comm' (chain_vel _ _ _ true _)). ring.
  - rewrite rsum_map_scal, rsum_map_plus, <- HV1, <- HV2.
    apply (d_ext (fun t => vdot (vsub (pos_world (S t) l) (ln_target l)) (normal_world (S t) l) *
                           vdot (vsub (pos_world (S t) l) (ln_target l)) (normal_world (S t) l))).
    { intros t. symmetry. apply sqnorm_1. }
    assert (DV : is_vderive (fun t => vsub (pos_world (S t) l) (ln_target l)) t0
                   (vsub (chain_vel (sts t0) C (ch F j) true (pos_world (S t0) l)) vzero)).
    { apply (vd_sub (fun t => pos_world (S t) l) (fun _ => ln_target l)); [exact PV|apply vd_const]. }
    rewrite vsub_0_r in DV.
    pose proof (vd_dot _ _ _ _ _ DV AV) as DD.
    eapply d_eq; [apply (d_mult _ _ _ _ _ DD DD)|]. cbv beta. rewrite (vdot_comm' (chain_vel _ _ _ true _)). ring.
Qed.

Lemma lane_derive j l : (j < n)%nat ->
  (k = KPlane -> forall a d, In a (ch F j) -> (3 <= d < 6)%nat -> C (a * 7 + d)%nat = 0) ->
  is_derive (fun t => sqnorm (lane_res k l (stt (sts t) j))) t0
    (2 * rsum (map (fun a => sumn 7 (fun d =>
       rdot (lane_res k l (stt (sts t0) j)) (lane_jac k l (stt (sts t0) j) (stt (sts t0) a) d) * C (a * 7 + d)%nat)) (ch F j))).
Proof.
  intros Hj HP.
  rewrite (rsum_map_ext _ (fun a => match k with
  | KPosition => vdot (vsub (pos_world (stt (sts t0) j) l) (ln_target l)) (joint_velocity (stt (sts t0) a) (jpC C a) (pos_world (stt (sts t0) j) l))
  | KPlane => (vdot (pos_world (stt (sts t0) j) l) (normal_world (stt (sts t0) j) l) - ln_dist l) *
      (vdot (normal_world (stt (sts t0) j) l) (joint_velocity (stt (sts t0) a) (jpC C a) (pos_world (stt (sts t0) j) l)) +
       vdot (pos_world (stt (sts t0) j) l) (axis_velocity (stt (sts t0) a) (jpC C a) (normal_world (stt (sts t0) j) l)))
  | KNormal => vdot (vsub (pos_world (stt (sts t0) j) l) (ln_target l)) (normal_world (stt (sts t0) j) l) *
      (vdot (normal_world (stt (sts t0) j) l) (joint_velocity (stt (sts t0) a) (jpC C a) (pos_world (stt (sts t0) j) l)) +
       vdot (vsub (pos_world (stt (sts t0) j) l) (ln_target l)) (axis_velocity (stt (sts t0) a) (jpC C a) (normal_world (stt (sts t0) j) l)))
  end)).
  - apply lane_derive_gen. exact Hj.
  - intros a Ha. apply (lane_dof k l (stt (sts t0) j) (stt (sts t0) a) C a). intros Hk d Hd. apply (HP Hk); assumption.
Qed.

(** The sum over all constraints and joints of the walks. *)
Definition slope : R :=
  rsum (map (fun j => rsum (map (fun a => sumn 7 (fun d =>
    slots_sum F st lists j (fun l => ln_weight l *
      rdot (lane_res k l (stt (sts t0) j)) (lane_jac k l (stt (sts t0) j) (stt (sts t0) a) d)) * C (a * 7 + d)%nat)) (ch F j)))
    (seq 0 n)).

Lemma d_sumn m (G : nat -> R -> R) (D : nat -> R) (t : R) : (forall s, (s < m)%nat -> is_derive (G s) t (D s)) ->
  is_derive (fun u => sumn m (fun s => G s u)) t (sumn m D).
Proof. intros H. unfold sumn. apply d_rsum. intros s Hs. apply in_seq in Hs. apply H. lia. Qed.

Lemma total_err_derive :
  (k = KPlane -> forall j a d, (j < n)%nat -> lists j <> [] -> In a (ch F j) -> (3 <= d < 6)%nat -> C (a * 7 + d)%nat = 0) ->
  is_derive (fun t => total_err F st lists (sts t)) t0 (2 * slope).
Proof.
  intros HP. unfold total_err, slope. rewrite <- rsum_map_scal.
  apply (d_rsum (fun j t => slots_sum F st lists j (lane_err k (stt (sts t) j)))). intros j Hj. apply in_seq in Hj.
  unfold slots_sum at 1.
  eapply d_eq.
  - apply (d_sumn _ (fun s t => lane_err k (stt (sts t) j) (lane_of F (slot F st j s)))
      (fun s => ln_weight (lane_of F (slot F st j s)) * (2 * rsum (map (fun a => sumn 7 (fun d =>
         rdot (lane_res k (lane_of F (slot F st j s)) (stt (sts t0) j))
              (lane_jac k (lane_of F (slot F st j s)) (stt (sts t0) j) (stt (sts t0) a) d) * C (a * 7 + d)%nat)) (ch F j))))).
    intros s Hs. unfold lane_err. apply d_scal. apply lane_derive; [lia|].
    intros Hk a d Ha Hd. apply (HP Hk j a d); try assumption; try lia.
    intros Z. revert Hs. unfold np, count. rewrite Z. cbn [length Nat.add].
    pose proof (P_pos F st lists en W). rewrite Nat.div_small by lia. lia.
  - rewrite (sumn_ext _ _ (fun s => rsum (map (fun a => 2 * sumn 7 (fun d =>
       ln_weight (lane_of F (slot F st j s)) *
       rdot (lane_res k (lane_of F (slot F st j s)) (stt (sts t0) j))
              (lane_jac k (lane_of F (slot F st j s)) (stt (sts t0) j) (stt (sts t0) a) d) * C (a * 7 + d)%nat)) (ch F j)))).
    + rewrite sumn_rsum_swap, <- rsum_map_scal. apply rsum_map_ext. intros a _. rewrite sumn_scal. f_equal.
      rewrite sumn_swap. apply sumn_ext. intros d _. unfold slots_sum. rewrite <- sumn_scal_r. reflexivity.
    + intros s _. rewrite rsum_map_scal, <- Rmult_assoc, (Rmult_comm _ 2), Rmult_assoc. f_equal.
      rewrite <- rsum_map_scal. apply rsum_map_ext. intros a _. rewrite <- sumn_scal. apply sumn_ext. intros; ring.
Qed.

Lemma grad_total_slope : k <> KPlane ->
  grad_total F st lists (sts t0) C = 2 * kWideWeight * slope.
Proof.
  intros HK. unfold grad_total, slope. rewrite <- rsum_map_scal. apply rsum_map_ext. intros j _.
  rewrite <- rsum_map_scal. apply rsum_map_ext. intros a _. rewrite <- sumn_scal. apply sumn_ext. intros d _.
  rewrite <- Rmult_assoc. f_equal. unfold slots_sum. rewrite <- sumn_scal. apply sumn_ext. intros s _.
  unfold grad_val, grad_wgt. destruct k; [ring|congruence|ring].
Qed.
End Path.
