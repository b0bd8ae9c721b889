(** How a direction attached to a joint moves with the joint parameters. *)

From Coq Require Import Reals List Arith Lia Lra.
From Coquelicot Require Import Coquelicot.
From Verif Require Import Prelude R3 Transform_model Transform_proofs Skeleton_model
  Skeleton_spec FK_model FK_spec FK_proofs FK_deriv_proofs.
Import ListNotations.
Local Open Scope R_scope.

Definition rotation_field (D : vec3 -> vec3) : Prop := exists w, forall x, D x = vcross w x.

Lemma axis_velocity_field s d : rotation_field (axis_velocity s d).
Proof.
  destruct s as [L lo wo ta ra]. destruct ra as [r0 r1 r2].
  unfold rotation_field, axis_velocity, get_rotation_derivative.
  cbn [js_raxis mcol vsum col0 col1 col2].
  exists (vadd (vadd (vscale (jrx d) r0) (vscale (jry d) r1)) (vscale (jrz d) r2)).
  intros x. destruct d as [? ? ? a b c ?]; cbn. vec_ring.
Qed.
Lemma rfield_add D E : rotation_field D -> rotation_field E -> rotation_field (fun x => vadd (D x) (E x)).
Proof. intros [w H] [v G]. exists (vadd w v). intros x. rewrite H, G. vec_ring. Qed.
Lemma rfield_zero : rotation_field (fun _ => vzero).
Proof. exists vzero. intros x. vec_ring. Qed.

Lemma moving_axis (P : R -> tf) y (t0 : R) y' D :
  rotation_field D ->
  (forall c, is_vderive (fun t => qrot (rot (P t)) c) t0 (D (qrot (rot (P t0)) c))) ->
  is_vderive y t0 y' ->
  is_vderive (fun t => qrot (rot (P t)) (y t)) t0
    (vadd (D (qrot (rot (P t0)) (y t0))) (qrot (rot (P t0)) y')).
Proof.
  intros [w HD] HP [Y1 [Y2 Y3]].
  apply vd_ext with (f := fun t =>
     vadd (vadd (vscale (vx (y t)) (qrot (rot (P t)) ex)) (vscale (vy (y t)) (qrot (rot (P t)) ey)))
          (vscale (vz (y t)) (qrot (rot (P t)) ez))).
  { intros u. rewrite <- !qrot_scale, <- !qrot_add. f_equal. destruct (y u). vec_ring. }
  eapply vd_eq.
  - apply vd_add; [apply vd_add|]; (apply vd_scale; [eassumption|apply HP]).
  - cbv beta. rewrite !HD.
    destruct (y t0) as [a b c] eqn:E. destruct y' as [a' b' c'].
    cbn [vx vy vz] in *.
    replace (V3 a b c) with (vadd (vadd (vscale a ex) (vscale b ey)) (vscale c ez)) by vec_ring.
    replace (V3 a' b' c') with (vadd (vadd (vscale a' ex) (vscale b' ey)) (vscale c' ez)) by vec_ring.
    rewrite !qrot_add, !qrot_scale.
    generalize (qrot (rot (P t0)) ex) (qrot (rot (P t0)) ey) (qrot (rot (P t0)) ez).
    intros X Y Z. clear. vec_ring.
Qed.

Lemma axis_step (P : R -> tf) D jt p d t0 ps :
  rotation_field D ->
  (forall t, tf_good (P t)) ->
  (forall c, is_vderive (fun t => qrot (rot (P t)) c) t0 (D (qrot (rot (P t0)) c))) ->
  qunit (jprerot jt) ->
  jparam_derive p t0 d ->
  parent_tf ps = P t0 ->
  forall c,
  is_vderive (fun t => qrot (rot (tf_mul (P t) (local_tf jt (p t)))) c) t0
    (let x := qrot (rot (tf_mul (P t0) (local_tf jt (p t0)))) c in
     vadd (D x) (axis_velocity (joint_state_set jt (p t0) ps) d x)).
Proof.
  intros HD HG HP HU [D0 [D1 [D2 [D3 [D4 [D5 D6]]]]]] Hps c.
  set (pre := jprerot jt) in *.
  assert (UX : forall a, qunit (qaxis a ex)) by (intros; apply qaxis_unit, ex_unit).
  assert (UY : forall a, qunit (qaxis a ey)) by (intros; apply qaxis_unit, ey_unit).
  assert (UZ : forall a, qunit (qaxis a ez)) by (intros; apply qaxis_unit, ez_unit).
  set (u1 := fun t => Rx (jrx (p t)) c).
  set (u2 := fun t => Ry (jry (p t)) (u1 t)).
  set (u3 := fun t => Rz (jrz (p t)) (u2 t)).
  set (u1' := vscale (jrx d) (vcross ex (u1 t0))).
  set (u2' := vadd (vscale (jry d) (vcross ey (u2 t0))) (Ry (jry (p t0)) u1')).
  set (u3' := vadd (vscale (jrz d) (vcross ez (u3 t0))) (Rz (jrz (p t0)) u2')).
  assert (H1 : is_vderive u1 t0 u1').
  { eapply vd_eq; [apply (vd_Rx (fun t => jrx (p t)) (fun _ => c) t0 (jrx d) vzero); [exact D3|apply vd_const]|].
    unfold u1', u1. rewrite !Rx_qrot, qrot_zero, vadd_0_r. reflexivity. }
  assert (H2 : is_vderive u2 t0 u2') by (apply vd_Ry; assumption).
  assert (H3 : is_vderive u3 t0 u3') by (apply vd_Rz; assumption).
  assert (Erot : forall t, qrot (rot (tf_mul (P t) (local_tf jt (p t)))) c =
                           qrot (rot (P t)) (qrot pre (u3 t))).
  { intros t. unfold tf_mul, local_tf; cbn [rot].
    destruct (HG t) as [HPu _].
    rewrite qrot_mul by (auto using qunit_mul). f_equal.
    rewrite !qrot_mul by (auto using qunit_mul).
    unfold u3, u2, u1. rewrite Rz_qrot, Ry_qrot, Rx_qrot. reflexivity. }
  eapply vd_ext; [intros t; symmetry; apply Erot|].
  eapply vd_eq.
  { apply moving_axis; [exact HD|exact HP|]. apply vd_qrot. exact H3. }
  cbv zeta. rewrite Erot. f_equal.
  destruct (HG t0) as [HPu _]. set (q := rot (P t0)) in *.
  unfold axis_velocity, get_rotation_derivative.
  cbn [joint_state_set js_taxis js_raxis js_world mcol col0 col1 col2].
  assert (Epar : (match ps with Some s => js_world s | None => tf_id end) = P t0) by exact Hps.
  rewrite Epar. fold q pre.
  rewrite !(qrot_mul q) by (auto using qunit_mul).
  rewrite !(qrot_mul (qmul pre (qaxis (jrz (p t0)) ez))) by (auto using qunit_mul).
  rewrite !(qrot_mul pre) by (auto using qunit_mul).
  unfold u3', u2', u1'.
  rewrite !Rz_qrot, !Ry_qrot.
  repeat first [rewrite qrot_add | rewrite qrot_scale].
  rewrite !(qrot_cross (qaxis (jry (p t0)) ey)) by auto.
  rewrite !(qrot_cross (qaxis (jrz (p t0)) ez)) by auto.
  rewrite !(qrot_cross pre) by auto.
  rewrite !(qrot_cross q) by auto.
  assert (A2 : u3 t0 = qrot (qaxis (jrz (p t0)) ez) (u2 t0)) by (unfold u3; apply Rz_qrot).
  assert (A1 : u2 t0 = qrot (qaxis (jry (p t0)) ey) (u1 t0)) by (unfold u2; apply Ry_qrot).
  rewrite <- A1, <- A2.
  generalize (qrot q (qrot pre (u3 t0))); intros W.
  generalize (qrot q (qrot pre ez)); intros Z2.
  generalize (qrot q (qrot pre (qrot (qaxis (jrz (p t0)) ez) ey))); intros Z1.
  generalize (qrot q (qrot pre (qrot (qaxis (jrz (p t0)) ez) (qrot (qaxis (jry (p t0)) ey) ex)))); intros Z0.
  cbn [vsum]. clear. destruct d. cbn. vec_ring.
Qed.

Definition avel (sts0 : list jstate) (P' : list R) (x : vec3) (a : nat) : vec3 :=
  match nth_error sts0 a with
  | Some sa => axis_velocity sa (jparam_at P' a) x
  | None => vzero
  end.
Lemma avel_field sts0 P' a : rotation_field (fun x => avel sts0 P' x a).
Proof.
  unfold avel. destruct (nth_error sts0 a); [apply axis_velocity_field|apply rfield_zero].
Qed.
Lemma avelsum_field sts0 P' l : rotation_field (fun x => vsum (map (avel sts0 P' x) l)).
Proof.
  induction l as [|a l IH]; cbn; [apply rfield_zero|].
  apply (rfield_add (fun x => avel sts0 P' x a) (fun x => vsum (map (avel sts0 P' x) l)));
    [apply avel_field|exact IH].
Qed.

Lemma fk_axis_velocity sk (V : valid_sk sk) (U : unit_prerotations sk) P P' t0 W :
  (forall t, fk_states sk (P t) (W t)) ->
  (forall j, (j < length sk)%nat -> jparam_derive (fun t => jparam_at (P t) j) t0 (jparam_at P' j)) ->
  forall j l, chain sk j l -> forall S,
  (forall t, nth_error (W t) j = Some (S t)) ->
  forall c, is_vderive (fun t => qrot (rot (js_world (S t))) c) t0
              (vsum (map (avel (W t0) P' (qrot (rot (js_world (S t0))) c)) l)).
Proof.
  intros F HP j l H. induction H as [j jt E Pj|j jt p l E Pj Hc IH]; intros S HS c.
  - assert (Hj : (j < length sk)%nat) by (apply nth_error_Some; congruence).
    assert (ES : forall t, S t = joint_state_set jt (jparam_at (P t) j) None).
    { intros t. destruct (F t) as [_ G]. destruct (G j jt E) as [ps [E2 E3]].
      rewrite Pj in E2. cbn in E2. subst ps. rewrite HS in E3. congruence. }
    eapply vd_ext; [intros t; rewrite (ES t), js_world_set; reflexivity|].
    eapply vd_eq.
    + apply (axis_step (fun _ => tf_id) (fun _ => vzero) jt (fun t => jparam_at (P t) j)
               (jparam_at P' j) t0 None).
      * apply rfield_zero.
      * intros t. apply tf_good_id.
      * intros c'. apply vd_const.
      * exact (U j jt E).
      * exact (HP j Hj).
      * reflexivity.
    + cbv zeta. cbn [map vsum]. unfold avel at 1. rewrite HS, vadd_0_l, vadd_0_r.
      rewrite (ES t0), js_world_set. reflexivity.
  - assert (Hj : (j < length sk)%nat) by (apply nth_error_Some; congruence).
    assert (Hp : (p < length sk)%nat).
    { pose proof (valid_sk_parent _ _ _ _ V E Pj). lia. }
    set (SP := fun t => nth p (W t) (S t)).
    assert (HSP : forall t, nth_error (W t) p = Some (SP t)).
    { intros t. unfold SP. apply nth_error_nth'. destruct (F t) as [-> _]. exact Hp. }
    assert (ES : forall t, S t = joint_state_set jt (jparam_at (P t) j) (Some (SP t))).
    { intros t. destruct (F t) as [_ G]. destruct (G j jt E) as [ps [E2 E3]].
      rewrite Pj in E2. destruct E2 as [s [Es ->]]. rewrite HSP in Es. injection Es as <-.
      rewrite HS in E3. congruence. }
    eapply vd_ext; [intros t; rewrite (ES t), js_world_set; reflexivity|]. cbn [parent_tf].
    eapply vd_eq.
    + apply (axis_step (fun t => js_world (SP t)) (fun x => vsum (map (avel (W t0) P' x) l))
               jt (fun t => jparam_at (P t) j) (jparam_at P' j) t0 (Some (SP t0))).
      * apply avelsum_field.
      * intros t. eapply fk_good; eauto.
      * intros c'. apply IH. exact HSP.
      * exact (U j jt E).
      * exact (HP j Hj).
      * reflexivity.
    + cbv zeta. rewrite map_app, vsum_app. cbn [map vsum]. rewrite vadd_0_r.
      unfold avel at 3. rewrite HS. rewrite (ES t0), js_world_set. reflexivity.
Qed.

Lemma fk_axis_derivative_lemma sk P P' t0 sts0 j l (S : R -> jstate) :
  valid_sk sk -> unit_prerotations sk -> chain sk j l ->
  (forall t, exists sts, fk sk (P t) = Ok sts /\ nth_error sts j = Some (S t)) ->
  fk sk (P t0) = Ok sts0 ->
  (forall i, (i < 7 * length sk)%nat -> is_derive (fun t => nth i (P t) 0) t0 (nth i P' 0)) ->
  forall c, let x := qrot (rot (js_world (S t0))) c in
  is_vderive (fun t => qrot (rot (js_world (S t))) c) t0
    (vsum (map (fun a => match nth_error sts0 a with
                         | Some sa => axis_velocity sa (jparam_at P' a) x
                         | None => vzero end) l)).
Proof.
  intros V U Hc HS H0 HD c x.
  set (W := fun t => match fk sk (P t) with Ok sts => sts | _ => [] end).
  assert (HW : forall t, fk_states sk (P t) (W t) /\ nth_error (W t) j = Some (S t)).
  { intros t. destruct (HS t) as [sts [E1 E2]]. unfold W. rewrite E1. split; [|exact E2].
    eapply fk_inv; eauto. }
  assert (E0 : W t0 = sts0) by (unfold W; rewrite H0; reflexivity).
  rewrite <- E0. apply (fk_axis_velocity sk V U P P' t0 W) with (j := j).
  - intros t. apply HW.
  - intros a Ha. unfold jparam_derive, jparam_at; cbn [jtx jty jtz jrx jry jrz jsc].
    repeat split; apply HD; lia.
  - exact Hc.
  - intros t. apply HW.
Qed.
