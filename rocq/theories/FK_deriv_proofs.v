From Coq Require Import Reals List Arith Lia Lra Wf_nat.
From Coquelicot Require Import Coquelicot.
From Verif Require Import Prelude R3 Transform_model Transform_proofs Skeleton_model Skeleton_spec
  Skeleton_proofs FK_model FK_spec FK_proofs.
Import ListNotations.
Local Open Scope R_scope.

(** ** Derivatives of real functions, in ring form *)

Lemma d_eq (f : R -> R) (t a b : R) : is_derive f t a -> a = b -> is_derive f t b.
Proof. intros H <-. exact H. Qed.
Lemma d_ext (f g : R -> R) (t a : R) : (forall u, f u = g u) -> is_derive f t a -> is_derive g t a.
Proof. intros E. apply is_derive_ext. exact E. Qed.
Lemma d_const (c t : R) : is_derive (fun _ => c) t 0.
Proof. apply @is_derive_const. Qed.
Lemma d_plus (f g : R -> R) (t f' g' : R) :
  is_derive f t f' -> is_derive g t g' -> is_derive (fun u => f u + g u) t (f' + g').
Proof. intros H1 H2. apply @is_derive_plus; assumption. Qed.
Lemma d_minus (f g : R -> R) (t f' g' : R) :
  is_derive f t f' -> is_derive g t g' -> is_derive (fun u => f u - g u) t (f' - g').
Proof. intros H1 H2. apply @is_derive_minus; assumption. Qed.
Lemma d_opp (f : R -> R) (t f' : R) : is_derive f t f' -> is_derive (fun u => - f u) t (- f').
Proof. intros H1. apply @is_derive_opp; assumption. Qed.
Lemma d_mult (f g : R -> R) (t f' g' : R) :
  is_derive f t f' -> is_derive g t g' -> is_derive (fun u => f u * g u) t (f' * g t + f t * g').
Proof. intros H1 H2. exact (is_derive_mult f g t f' g' H1 H2 Rmult_comm). Qed.
Lemma d_comp (f g : R -> R) (t f' g' : R) :
  is_derive f (g t) f' -> is_derive g t g' -> is_derive (fun u => f (g u)) t (g' * f').
Proof. intros H1 H2. exact (is_derive_comp f g t f' g' H1 H2). Qed.
Lemma d_cos (f : R -> R) (t f' : R) : is_derive f t f' -> is_derive (fun u => cos (f u)) t (f' * - sin (f t)).
Proof. intros H. apply d_comp; [apply is_derive_cos|exact H]. Qed.
Lemma d_sin (f : R -> R) (t f' : R) : is_derive f t f' -> is_derive (fun u => sin (f u)) t (f' * cos (f t)).
Proof. intros H. apply d_comp; [apply is_derive_sin|exact H]. Qed.
Lemma d_exp2 (f : R -> R) (t f' : R) :
  is_derive f t f' -> is_derive (fun u => exp2 (f u)) t (f' * ln 2 * exp2 (f t)).
Proof.
  intros H. unfold exp2. eapply d_eq.
  - apply (d_comp exp (fun u => f u * ln 2)).
    + apply is_derive_exp.
    + apply d_mult; [exact H|apply d_const].
  - cbv beta. ring.
Qed.

(** ** Vector-valued derivatives *)

Lemma vd_eq f t a b : is_vderive f t a -> a = b -> is_vderive f t b.
Proof. intros H <-. exact H. Qed.
Lemma vd_ext f g t a : (forall u, f u = g u) -> is_vderive f t a -> is_vderive g t a.
Proof.
  intros E [H1 [H2 H3]]. split; [|split]; (eapply d_ext; [|eassumption]);
    intros u; cbv beta; rewrite E; reflexivity.
Qed.
Lemma vd_const c t : is_vderive (fun _ => c) t vzero.
Proof. split; [|split]; apply d_const. Qed.
Lemma vd_add f g t f' g' :
  is_vderive f t f' -> is_vderive g t g' -> is_vderive (fun u => vadd (f u) (g u)) t (vadd f' g').
Proof. intros [A1 [A2 A3]] [B1 [B2 B3]]. split; [|split]; apply d_plus; assumption. Qed.
Lemma vd_scale (s : R -> R) f (t s' : R) f' :
  is_derive s t s' -> is_vderive f t f' ->
  is_vderive (fun u => vscale (s u) (f u)) t (vadd (vscale s' (f t)) (vscale (s t) f')).
Proof. intros H [B1 [B2 B3]]. split; [|split]; apply d_mult; assumption. Qed.

Lemma vd_mvec (m : mat3) f t f' :
  is_vderive f t f' -> is_vderive (fun u => mvec m (f u)) t (mvec m f').
Proof.
  intros [B1 [B2 B3]]. unfold mvec.
  eapply vd_eq.
  - apply vd_add; [apply vd_add|]; (apply vd_scale; [eassumption|apply vd_const]).
  - vec_ring.
Qed.
Lemma vd_qrot q f t f' :
  is_vderive f t f' -> is_vderive (fun u => qrot q (f u)) t (qrot q f').
Proof.
  intros H. rewrite <- qmat_vec. eapply vd_ext; [|apply (vd_mvec (qmat q)); exact H].
  intros u. apply qmat_vec.
Qed.

Lemma vd_V3 (f g h : R -> R) (t f' g' h' : R) :
  is_derive f t f' -> is_derive g t g' -> is_derive h t h' ->
  is_vderive (fun u => V3 (f u) (g u) (h u)) t (V3 f' g' h').
Proof. intros; split; [|split]; assumption. Qed.

Lemma vd_Rx (a : R -> R) f (t a' : R) f' :
  is_derive a t a' -> is_vderive f t f' ->
  is_vderive (fun u => Rx (a u) (f u)) t
    (vadd (vscale a' (vcross ex (Rx (a t) (f t)))) (Rx (a t) f')).
Proof.
  intros Ha [B1 [B2 B3]]. unfold Rx. eapply vd_eq.
  - apply vd_V3; [exact B1| |].
    + apply d_minus; (apply d_mult; [|eassumption]); [apply d_cos|apply d_sin]; exact Ha.
    + apply d_plus; (apply d_mult; [|eassumption]); [apply d_sin|apply d_cos]; exact Ha.
  - vec_unfold. f_equal; ring.
Qed.
Lemma vd_Ry (a : R -> R) f (t a' : R) f' :
  is_derive a t a' -> is_vderive f t f' ->
  is_vderive (fun u => Ry (a u) (f u)) t
    (vadd (vscale a' (vcross ey (Ry (a t) (f t)))) (Ry (a t) f')).
Proof.
  intros Ha [B1 [B2 B3]]. unfold Ry. eapply vd_eq.
  - apply vd_V3; [|exact B2|].
    + apply d_plus; (apply d_mult; [|eassumption]); [apply d_cos|apply d_sin]; exact Ha.
    + apply d_plus; (apply d_mult; [|eassumption]); [apply d_opp, d_sin|apply d_cos]; exact Ha.
  - vec_unfold. f_equal; ring.
Qed.
Lemma vd_Rz (a : R -> R) f (t a' : R) f' :
  is_derive a t a' -> is_vderive f t f' ->
  is_vderive (fun u => Rz (a u) (f u)) t
    (vadd (vscale a' (vcross ez (Rz (a t) (f t)))) (Rz (a t) f')).
Proof.
  intros Ha [B1 [B2 B3]]. unfold Rz. eapply vd_eq.
  - apply vd_V3; [| |exact B3].
    + apply d_minus; (apply d_mult; [|eassumption]); [apply d_cos|apply d_sin]; exact Ha.
    + apply d_plus; (apply d_mult; [|eassumption]); [apply d_sin|apply d_cos]; exact Ha.
  - vec_unfold. f_equal; ring.
Qed.

Lemma Rx_qrot a v : Rx a v = qrot (qaxis a ex) v. Proof. rewrite qrot_axis_x. reflexivity. Qed.
Lemma Ry_qrot a v : Ry a v = qrot (qaxis a ey) v. Proof. rewrite qrot_axis_y. reflexivity. Qed.
Lemma Rz_qrot a v : Rz a v = qrot (qaxis a ez) v. Proof. rewrite qrot_axis_z. reflexivity. Qed.

(** ** One joint *)

Definition jparam_derive (p : R -> jparam) (t : R) (d : jparam) : Prop :=
  is_derive (fun u => jtx (p u)) t (jtx d) /\ is_derive (fun u => jty (p u)) t (jty d) /\
  is_derive (fun u => jtz (p u)) t (jtz d) /\ is_derive (fun u => jrx (p u)) t (jrx d) /\
  is_derive (fun u => jry (p u)) t (jry d) /\ is_derive (fun u => jrz (p u)) t (jrz d) /\
  is_derive (fun u => jsc (p u)) t (jsc d).

(** A velocity field of the form A + w x x + s x. *)
Definition similarity_field (D : vec3 -> vec3) : Prop :=
  exists A w s, forall x, D x = vadd (vadd A (vcross w x)) (vscale s x).

Lemma joint_velocity_field s d : similarity_field (joint_velocity s d).
Proof.
  destruct s as [L lo wo ta ra]. destruct ta as [t0 t1 t2]. destruct ra as [r0 r1 r2].
  unfold similarity_field, joint_velocity, get_translation_derivative, get_rotation_derivative,
    get_scale_derivative. cbn [js_taxis js_raxis js_world mcol vsum col0 col1 col2].
  set (w := vadd (vadd (vscale (jrx d) r0) (vscale (jry d) r1)) (vscale (jrz d) r2)).
  exists (vsub (vadd (vadd (vscale (jtx d) t0) (vscale (jty d) t1)) (vscale (jtz d) t2))
            (vadd (vcross w (trans wo)) (vscale (jsc d * ln 2) (trans wo)))),
    w, (jsc d * ln 2).
  intros x. subst w. destruct d. destruct wo. cbn. vec_ring.
Qed.

Lemma field_add D E : similarity_field D -> similarity_field E ->
  similarity_field (fun x => vadd (D x) (E x)).
Proof.
  intros [A [w [s H]]] [B [v [r G]]]. exists (vadd A B), (vadd w v), (s + r).
  intros x. rewrite H, G. vec_ring.
Qed.
Lemma field_zero : similarity_field (fun _ => vzero).
Proof. exists vzero, vzero, 0. intros x. vec_ring. Qed.

(** Moving a point inside a moving frame. *)
Lemma moving_point P y t0 y' D :
  similarity_field D ->
  (forall c, is_vderive (fun t => tf_point (P t) c) t0 (D (tf_point (P t0) c))) ->
  is_vderive y t0 y' ->
  is_vderive (fun t => tf_point (P t) (y t)) t0
    (vadd (D (tf_point (P t0) (y t0))) (qrot (rot (P t0)) (vscale (scl (P t0)) y'))).
Proof.
  intros [A [w [s HD]]] HP [Y1 [Y2 Y3]].
  apply vd_ext with (f := fun t =>
    vadd (vadd (vadd (vscale (1 - vx (y t) - vy (y t) - vz (y t)) (tf_point (P t) vzero))
      (vscale (vx (y t)) (tf_point (P t) ex))) (vscale (vy (y t)) (tf_point (P t) ey)))
      (vscale (vz (y t)) (tf_point (P t) ez))).
  { intros t. unfold tf_point. destruct (y t), (P t) as [q tr sc]. cbn [rot trans scl]. vec_ring. }
  eapply vd_eq.
  - apply vd_add; [apply vd_add; [apply vd_add|]|]; (apply vd_scale; [|apply HP]).
    + apply d_minus; [apply d_minus; [apply d_minus; [apply d_const|exact Y1]|exact Y2]|exact Y3].
    + exact Y1.
    + exact Y2.
    + exact Y3.
  - rewrite !HD. unfold tf_point. destruct (y t0) as [a b c], (P t0) as [q tr sc], y' as [a' b' c'].
    cbn [rot trans scl vx vy vz]. destruct A, w, tr, q. vec_unfold. f_equal; ring.
Qed.

Lemma linear_cols a i :
  mcol (tf_linear a) i = qrot (rot a) (vscale (scl a) (match i with 0 => ex | 1 => ey | _ => ez end%nat)).
Proof.
  unfold tf_linear, mscale, mcol. rewrite qrot_scale.
  destruct i as [|[|i]]; cbn [col0 col1 col2]; rewrite ?qmat_col0, ?qmat_col1, ?qmat_col2; reflexivity.
Qed.

(** Velocity of a point attached to a joint, given the velocity field of the
    parent frame. *)
Lemma joint_step P D jt p d t0 ps :
  similarity_field D ->
  (forall t, tf_good (P t)) ->
  (forall c, is_vderive (fun t => tf_point (P t) c) t0 (D (tf_point (P t0) c))) ->
  qunit (jprerot jt) ->
  jparam_derive p t0 d ->
  parent_tf ps = P t0 ->
  (match ps with Some s => js_linear s | None => mid end) = tf_linear (P t0) ->
  forall c,
  is_vderive (fun t => tf_point (tf_mul (P t) (local_tf jt (p t))) c) t0
    (let x := tf_point (tf_mul (P t0) (local_tf jt (p t0))) c in
     vadd (D x) (joint_velocity (joint_state_set jt (p t0) ps) d x)).
Proof.
  intros HD HG HP HU [D0 [D1 [D2 [D3 [D4 [D5 D6]]]]]] Hps Hlin c.
  set (y := fun t => joint_map jt (p t) c).
  assert (Ey : forall t, tf_point (local_tf jt (p t)) c = y t).
  { intros t. apply local_tf_point. exact HU. }
  set (u0 := fun t => vscale (exp2 (jsc (p t))) c).
  set (u1 := fun t => Rx (jrx (p t)) (u0 t)).
  set (u2 := fun t => Ry (jry (p t)) (u1 t)).
  set (u3 := fun t => Rz (jrz (p t)) (u2 t)).
  assert (Ey2 : forall t, y t = vadd (vadd (joffset jt) (V3 (jtx (p t)) (jty (p t)) (jtz (p t))))
                               (qrot (jprerot jt) (u3 t))).
  { intros t. unfold y, joint_map. rewrite qmat_vec. reflexivity. }
  set (u0' := vscale (jsc d * ln 2 * exp2 (jsc (p t0))) c).
  set (u1' := vadd (vscale (jrx d) (vcross ex (u1 t0))) (Rx (jrx (p t0)) u0')).
  set (u2' := vadd (vscale (jry d) (vcross ey (u2 t0))) (Ry (jry (p t0)) u1')).
  set (u3' := vadd (vscale (jrz d) (vcross ez (u3 t0))) (Rz (jrz (p t0)) u2')).
  assert (H0 : is_vderive u0 t0 u0').
  { eapply vd_eq; [apply vd_scale; [apply d_exp2; exact D6|apply vd_const]|].
    unfold u0'. vec_ring. }
  assert (H1 : is_vderive u1 t0 u1') by (apply vd_Rx; assumption).
  assert (H2 : is_vderive u2 t0 u2') by (apply vd_Ry; assumption).
  assert (H3 : is_vderive u3 t0 u3') by (apply vd_Rz; assumption).
  set (y' := vadd (V3 (jtx d) (jty d) (jtz d)) (qrot (jprerot jt) u3')).
  assert (Hy : is_vderive y t0 y').
  { eapply vd_ext; [intros u; symmetry; apply Ey2|].
    eapply vd_eq.
    - apply vd_add; [apply vd_add; [apply vd_const|apply vd_V3; eassumption]|].
      apply vd_qrot. exact H3.
    - unfold y'. rewrite vadd_0_l. reflexivity. }
  eapply vd_ext.
  { intros t. symmetry. rewrite tf_point_mul; [rewrite Ey; reflexivity| |].
    - apply tf_good_ok, HG.
    - apply tf_good_ok, local_tf_good, HU. }
  eapply vd_eq; [apply moving_point; [exact HD|exact HP|exact Hy]|].
  cbv zeta.
  rewrite tf_point_mul; [|apply tf_good_ok, HG|apply tf_good_ok, local_tf_good, HU].
  rewrite Ey. f_equal.
  (* the own contribution *)
  unfold joint_velocity.
  assert (Etr : trans (js_world (joint_state_set jt (p t0) ps)) =
          tf_point (P t0) (vadd (joffset jt) (V3 (jtx (p t0)) (jty (p t0)) (jtz (p t0))))).
  { rewrite js_world_set, Hps. reflexivity. }
  rewrite Etr.
  destruct (HG t0) as [HPu HPs].
  set (q := rot (P t0)) in *. set (sc := scl (P t0)) in *.
  assert (Eref : vsub (tf_point (P t0) (y t0))
            (tf_point (P t0) (vadd (joffset jt) (V3 (jtx (p t0)) (jty (p t0)) (jtz (p t0)))))
          = vscale sc (qrot q (qrot (jprerot jt) (u3 t0)))).
  { rewrite Ey2. unfold tf_point. fold q sc.
    rewrite !vscale_add, !qrot_add, !qrot_scale. vec_ring. }
  rewrite Eref. clear Eref.
  unfold get_translation_derivative, get_rotation_derivative, get_scale_derivative.
  cbn [joint_state_set js_taxis js_raxis js_world mcol col0 col1 col2].
  rewrite Hlin.
  assert (Epar : (match ps with Some s => js_world s | None => tf_id end) = P t0) by exact Hps.
  rewrite Epar. fold q.
  pose proof (linear_cols (P t0) 0) as L0. pose proof (linear_cols (P t0) 1) as L1.
  pose proof (linear_cols (P t0) 2) as L2. cbn [mcol] in L0, L1, L2. rewrite L0, L1, L2. fold q sc.
  set (pre := jprerot jt) in *.
  assert (UX : forall a, qunit (qaxis a ex)) by (intros; apply qaxis_unit, ex_unit).
  assert (UY : forall a, qunit (qaxis a ey)) by (intros; apply qaxis_unit, ey_unit).
  assert (UZ : forall a, qunit (qaxis a ez)) by (intros; apply qaxis_unit, ez_unit).
  rewrite !(qrot_mul q) by (auto using qunit_mul).
  rewrite !(qrot_mul (qmul pre (qaxis (jrz (p t0)) ez))) by (auto using qunit_mul).
  rewrite !(qrot_mul pre) by (auto using qunit_mul).
  (* push everything through the rotations *)
  unfold y', u3', u2', u1', u0'.
  rewrite !Rz_qrot, !Ry_qrot, !Rx_qrot.
  rewrite !vscale_add, !qrot_add, !qrot_scale.
  rewrite !(qrot_cross (qaxis (jry (p t0)) ey)) by auto.
  rewrite !(qrot_cross (qaxis (jrz (p t0)) ez)) by auto.
  rewrite !(qrot_cross pre) by auto.
  repeat first [rewrite (qrot_add q) | rewrite (qrot_scale q)].
  rewrite !(qrot_cross q) by auto.
  assert (A2 : u3 t0 = qrot (qaxis (jrz (p t0)) ez) (u2 t0)) by (unfold u3; apply Rz_qrot).
  assert (A1 : u2 t0 = qrot (qaxis (jry (p t0)) ey) (u1 t0)) by (unfold u2; apply Ry_qrot).
  assert (A0 : u1 t0 = qrot (qaxis (jrx (p t0)) ex) (u0 t0)) by (unfold u1; apply Rx_qrot).
  rewrite <- A1, <- A2.
  assert (EC : vscale (exp2 (jsc (p t0)))
      (qrot q (qrot pre (qrot (qaxis (jrz (p t0)) ez) (qrot (qaxis (jry (p t0)) ey) (qrot (qaxis (jrx (p t0)) ex) c)))))
      = qrot q (qrot pre (u3 t0))).
  { rewrite A2, A1, A0. unfold u0. rewrite !qrot_scale. reflexivity. }
  assert (EC2 : forall k, vscale (k * exp2 (jsc (p t0)))
      (qrot q (qrot pre (qrot (qaxis (jrz (p t0)) ez) (qrot (qaxis (jry (p t0)) ey) (qrot (qaxis (jrx (p t0)) ex) c)))))
      = vscale k (qrot q (qrot pre (u3 t0)))).
  { intros k. rewrite <- vscale_scale, EC. reflexivity. }
  rewrite !EC2.
  generalize (qrot q (qrot pre (u3 t0))); intros W.
  generalize (qrot q (qrot pre ez)); intros Z2.
  generalize (qrot q (qrot pre (qrot (qaxis (jrz (p t0)) ez) ey))); intros Z1.
  generalize (qrot q (qrot pre (qrot (qaxis (jrz (p t0)) ez) (qrot (qaxis (jry (p t0)) ey) ex)))); intros Z0.
  replace (V3 (jtx d) (jty d) (jtz d)) with
    (vadd (vadd (vscale (jtx d) ex) (vscale (jty d) ey)) (vscale (jtz d) ez)) by vec_ring.
  rewrite !qrot_add, !qrot_scale.
  generalize (qrot q ex) (qrot q ey) (qrot q ez). intros X0 X1 X2.
  cbn [vsum]. clear. destruct d. cbn. vec_ring.
Qed.

(** ** The whole chain *)

Definition vel (sts0 : list jstate) (P' : list R) (x : vec3) (a : nat) : vec3 :=
  match nth_error sts0 a with
  | Some sa => joint_velocity sa (jparam_at P' a) x
  | None => vzero
  end.

Lemma vsum_app l1 l2 : vsum (l1 ++ l2) = vadd (vsum l1) (vsum l2).
Proof.
  induction l1 as [|v l1 IH]; cbn; [rewrite vadd_0_l; reflexivity|].
  rewrite IH. apply vadd_assoc.
Qed.

Lemma vel_field sts0 P' a : similarity_field (fun x => vel sts0 P' x a).
Proof.
  unfold vel. destruct (nth_error sts0 a); [apply joint_velocity_field|apply field_zero].
Qed.

Lemma velsum_field sts0 P' l : similarity_field (fun x => vsum (map (vel sts0 P' x) l)).
Proof.
  induction l as [|a l IH]; cbn.
  - apply field_zero.
  - apply (field_add (fun x => vel sts0 P' x a) (fun x => vsum (map (vel sts0 P' x) l)));
      [apply vel_field|exact IH].
Qed.

Lemma js_linear_state sk params sts k s :
  fk_states sk params sts -> nth_error sts k = Some s -> js_linear s = tf_linear (js_world s).
Proof.
  intros F E. assert (Hk : (k < length sk)%nat).
  { destruct F as [<- _]. apply nth_error_Some. congruence. }
  destruct (fk_states_get _ _ _ _ F Hk) as [jt [ps [E1 [E2 E3]]]].
  rewrite E in E3. injection E3 as ->. reflexivity.
Qed.

Lemma tf_linear_id : mid = tf_linear tf_id.
Proof. unfold tf_linear, tf_id; cbn [rot scl]. vec_unfold. f_equal; f_equal; ring. Qed.

Lemma fk_states_state sk params sts j :
  fk_states sk params sts -> (j < length sk)%nat -> exists s, nth_error sts j = Some s.
Proof.
  intros F Hj. destruct (fk_states_get _ _ _ _ F Hj) as [jt [ps [_ [_ E]]]]. eauto.
Qed.

Lemma fk_velocity sk (V : valid_sk sk) (U : unit_prerotations sk) P P' t0 W :
  (forall t, fk_states sk (P t) (W t)) ->
  (forall j, (j < length sk)%nat -> jparam_derive (fun t => jparam_at (P t) j) t0 (jparam_at P' j)) ->
  forall j l, chain sk j l -> forall S,
  (forall t, nth_error (W t) j = Some (S t)) ->
  forall c, is_vderive (fun t => tf_point (js_world (S t)) c) t0
              (vsum (map (vel (W t0) P' (tf_point (js_world (S t0)) c)) l)).
Proof.
  intros F HP j l H. induction H as [j jt E Pj|j jt p l E Pj Hc IH]; intros S HS c.
  - assert (Hj : (j < length sk)%nat) by (apply nth_error_Some; congruence).
    assert (ES : forall t, S t = joint_state_set jt (jparam_at (P t) j) None).
    { intros t. destruct (F t) as [_ G]. destruct (G j jt E) as [ps [E2 E3]].
      rewrite Pj in E2. cbn in E2. subst ps. rewrite HS in E3. congruence. }
    eapply vd_ext; [intros t; rewrite (ES t), js_world_set; reflexivity|].
    eapply vd_eq.
    + apply (joint_step (fun _ => tf_id) (fun _ => vzero) jt (fun t => jparam_at (P t) j)
               (jparam_at P' j) t0 None).
      * apply field_zero.
      * intros t. apply tf_good_id.
      * intros c'. apply vd_const.
      * exact (U j jt E).
      * exact (HP j Hj).
      * reflexivity.
      * apply tf_linear_id.
    + cbv zeta. cbn [map vsum]. unfold vel at 1. rewrite HS, vadd_0_l, vadd_0_r.
      rewrite (ES t0), js_world_set. reflexivity.
  - assert (Hj : (j < length sk)%nat) by (apply nth_error_Some; congruence).
    assert (Hp : (p < length sk)%nat).
    { pose proof (valid_sk_parent _ _ _ _ V E Pj). lia. }
    (* the parent's state as a function of t *)
    set (SP := fun t => nth p (W t) (S t)).
    assert (HSP : forall t, nth_error (W t) p = Some (SP t)).
    { intros t. unfold SP. apply nth_error_nth'. destruct (F t) as [-> _]. exact Hp. }
    assert (ES : forall t, S t = joint_state_set jt (jparam_at (P t) j) (Some (SP t))).
    { intros t. destruct (F t) as [_ G]. destruct (G j jt E) as [ps [E2 E3]].
      rewrite Pj in E2. destruct E2 as [s [Es ->]]. rewrite HSP in Es. injection Es as <-.
      rewrite HS in E3. congruence. }
    eapply vd_ext; [intros t; rewrite (ES t), js_world_set; reflexivity|]. cbn [parent_tf].
    eapply vd_eq.
    + apply (joint_step (fun t => js_world (SP t)) (fun x => vsum (map (vel (W t0) P' x) l))
               jt (fun t => jparam_at (P t) j) (jparam_at P' j) t0 (Some (SP t0))).
      * apply velsum_field.
      * intros t. eapply fk_good; eauto.
      * intros c'. apply IH. exact HSP.
      * exact (U j jt E).
      * exact (HP j Hj).
      * reflexivity.
      * eapply js_linear_state; eauto.
    + cbv zeta. rewrite map_app, vsum_app. cbn [map vsum]. rewrite vadd_0_r.
      unfold vel at 3. rewrite HS. rewrite (ES t0), js_world_set. reflexivity.
Qed.

(** Statement with the accessible API only. *)
Lemma fk_total_derivative_lemma sk P P' t0 sts0 j l (S : R -> jstate) :
  valid_sk sk -> unit_prerotations sk -> chain sk j l ->
  (forall t, exists sts, fk sk (P t) = Ok sts /\ nth_error sts j = Some (S t)) ->
  fk sk (P t0) = Ok sts0 ->
  (forall i, (i < 7 * length sk)%nat -> is_derive (fun t => nth i (P t) 0) t0 (nth i P' 0)) ->
  forall c, let x := tf_point (js_world (S t0)) c in
  is_vderive (fun t => tf_point (js_world (S t)) c) t0
    (vsum (map (fun a => match nth_error sts0 a with
                         | Some sa => joint_velocity sa (jparam_at P' a) x
                         | None => vzero end) l)).
Proof.
  intros V U Hc HS H0 HD c x.
  set (W := fun t => match fk sk (P t) with Ok sts => sts | _ => [] end).
  assert (HW : forall t, fk_states sk (P t) (W t) /\ nth_error (W t) j = Some (S t)).
  { intros t. destruct (HS t) as [sts [E1 E2]]. unfold W. rewrite E1. split; [|exact E2].
    eapply fk_inv; eauto. }
  assert (E0 : W t0 = sts0) by (unfold W; rewrite H0; reflexivity).
  rewrite <- E0. apply (fk_velocity sk V U P P' t0 W) with (j := j).
  - intros t. apply HW.
  - intros a Ha. unfold jparam_derive, jparam_at; cbn [jtx jty jtz jrx jry jrz jsc].
    repeat split; apply HD; lia.
  - exact Hc.
  - intros t. apply HW.
Qed.

(** ** One parameter at a time *)

Lemma set_nth_length l k t : length (set_nth l k t) = length l.
Proof. revert k; induction l as [|x l IH]; intros [|k]; cbn; auto. Qed.

Lemma set_nth_nth l k t i d :
  (k < length l)%nat -> nth i (set_nth l k t) d = if Nat.eqb i k then t else nth i l d.
Proof.
  revert k i; induction l as [|x l IH]; intros k i Hk; cbn in Hk; [lia|].
  destruct k as [|k], i as [|i]; cbn; try reflexivity.
  apply IH. lia.
Qed.

Lemma chain_le sk j l (V : valid_sk sk) : chain sk j l -> forall a, In a l -> (a <= j)%nat.
Proof.
  intros H a Ha. apply (chain_ancestor _ _ _ H) in Ha. eapply ancestor_le; [exact V|exact Ha].
Qed.

Lemma chain_nodup sk j l (V : valid_sk sk) : chain sk j l -> NoDup l.
Proof.
  induction 1 as [j jt E P|j jt p l E P Hc IH].
  - repeat constructor. intros [].
  - apply NoDup_rev in IH. rewrite <- (rev_involutive (l ++ [j])). apply NoDup_rev.
    rewrite rev_app_distr. cbn. constructor; [|exact IH].
    rewrite <- in_rev. intros Hin. pose proof (chain_le _ _ _ V Hc _ Hin).
    pose proof (valid_sk_parent _ _ _ _ V E P). lia.
Qed.

Lemma vsum_single (f : nat -> vec3) a l :
  NoDup l -> In a l -> (forall b, b <> a -> f b = vzero) -> vsum (map f l) = f a.
Proof.
  intros N H Hz. induction N as [|b l Hb N IH]; [contradiction|].
  cbn. destruct H as [->|H].
  - replace (vsum (map f l)) with vzero; [apply vadd_0_r|].
    clear IH N. induction l as [|c l IH]; cbn; [reflexivity|].
    rewrite <- IH by (intros G; apply Hb; right; exact G).
    rewrite Hz by (intros ->; apply Hb; left; reflexivity). rewrite vadd_0_l. reflexivity.
  - rewrite IH by exact H. rewrite Hz by (intros ->; contradiction). apply vadd_0_l.
Qed.
Lemma vsum_zero (f : nat -> vec3) l : (forall b, In b l -> f b = vzero) -> vsum (map f l) = vzero.
Proof.
  induction l as [|b l IH]; cbn; intros H; [reflexivity|].
  rewrite H by auto. rewrite IH by auto. apply vadd_0_l.
Qed.

Lemma nth_repeat0 n i : nth i (repeat 0 n) 0 = 0.
Proof. revert i; induction n as [|n IH]; intros [|i]; cbn; auto. Qed.

Lemma joint_velocity_zero s x : joint_velocity s (JP 0 0 0 0 0 0 0) x = vzero.
Proof. unfold joint_velocity. cbn [jtx jty jtz jrx jry jrz jsc vsum]. rewrite !vscale_0_l, !vadd_0_l. reflexivity. Qed.

Definition unit_list (n i : nat) : list R := set_nth (repeat 0 n) i 1.

Lemma unit_list_nth n i k : (i < n)%nat -> nth k (unit_list n i) 0 = if Nat.eqb k i then 1 else 0.
Proof.
  intros H. unfold unit_list. rewrite set_nth_nth by (rewrite repeat_length; exact H).
  rewrite nth_repeat0. reflexivity.
Qed.

Lemma jparam_unit_other n a k b :
  (7 * a + k < n)%nat -> (k < 7)%nat -> b <> a ->
  jparam_at (unit_list n (7 * a + k)) b = JP 0 0 0 0 0 0 0.
Proof.
  intros H Hk Hb. unfold jparam_at. cbv zeta. f_equal;
    rewrite unit_list_nth by exact H;
    match goal with |- (if Nat.eqb ?x ?y then _ else _) = _ =>
      destruct (Nat.eqb_spec x y); [lia|reflexivity] end.
Qed.

Lemma joint_velocity_unit s x n a k :
  (7 * a + k < n)%nat -> (k < 7)%nat ->
  joint_velocity s (jparam_at (unit_list n (7 * a + k)) a) x =
  accessor_partial s k (vsub x (trans (js_world s))).
Proof.
  intros H Hk. unfold jparam_at. cbv zeta. rewrite !unit_list_nth by exact H.
  assert (E : forall i, Nat.eqb (7 * a + i) (7 * a + k) = Nat.eqb i k).
  { intros i. destruct (Nat.eqb_spec i k) as [->|Hi]; [apply Nat.eqb_refl|].
    apply Nat.eqb_neq. lia. }
  rewrite !E. unfold joint_velocity, accessor_partial.
  cbn [jtx jty jtz jrx jry jrz jsc].
  do 7 (destruct k as [|k]; [cbn [Nat.eqb vsum]; rewrite ?vscale_0_l, ?vscale_1, ?vadd_0_l, ?vadd_0_r; reflexivity|]).
  lia.
Qed.

Lemma accessor_partials_lemma sk params sts j a k (S : R -> jstate) :
  valid_sk sk -> unit_prerotations sk ->
  fk sk params = Ok sts ->
  (a < length sk)%nat -> (j < length sk)%nat -> (k < 7)%nat ->
  (forall t, exists sts', fk sk (set_nth params (7 * a + k) t) = Ok sts' /\ nth_error sts' j = Some (S t)) ->
  forall c,
  let t0 := nth (7 * a + k) params 0 in
  let x := tf_point (js_world (S t0)) c in
  (ancestor (sk_parents sk) j a ->
     exists sa, nth_error sts a = Some sa /\
       is_vderive (fun t => tf_point (js_world (S t)) c) t0
         (accessor_partial sa k (vsub x (trans (js_world sa))))) /\
  (~ ancestor (sk_parents sk) j a ->
     is_vderive (fun t => tf_point (js_world (S t)) c) t0 vzero).
Proof.
  intros V U H0 Ha Hj Hk HS c t0 x.
  destruct (fk_inv _ _ _ V H0) as [L F0].
  assert (Hin : (7 * a + k < length params)%nat) by lia.
  assert (Eset : set_nth params (7 * a + k) t0 = params).
  { apply nth_ext with (d := 0) (d' := 0).
    - apply set_nth_length.
    - intros i _. rewrite set_nth_nth by exact Hin.
      destruct (Nat.eqb_spec i (7 * a + k)) as [->|]; reflexivity. }
  destruct (chain_exists sk V j Hj) as [l Hl].
  pose proof (fk_total_derivative_lemma sk (fun t => set_nth params (7 * a + k) t)
    (unit_list (7 * length sk) (7 * a + k)) t0 sts j l S V U Hl HS) as HT.
  cbv beta in HT; rewrite Eset in HT. specialize (HT H0).
  assert (HD : forall i, (i < 7 * length sk)%nat ->
    is_derive (fun t => nth i (set_nth params (7 * a + k) t) 0) t0
      (nth i (unit_list (7 * length sk) (7 * a + k)) 0)).
  { intros i Hi. rewrite unit_list_nth by lia.
    eapply d_ext; [intros u; symmetry; apply set_nth_nth; exact Hin|].
    destruct (Nat.eqb i (7 * a + k)); [apply @is_derive_id|apply d_const]. }
  specialize (HT HD c). cbv zeta in HT. fold x in HT.
  assert (Hf : forall b, b <> a ->
    match nth_error sts b with
    | Some sa => joint_velocity sa (jparam_at (unit_list (7 * length sk) (7 * a + k)) b) x
    | None => vzero end = vzero).
  { intros b Hb. destruct (nth_error sts b); [|reflexivity].
    rewrite jparam_unit_other by lia. apply joint_velocity_zero. }
  split; intros Hanc.
  - destruct (fk_states_state _ _ _ _ F0 Ha) as [sa Esa]. exists sa. split; [exact Esa|].
    eapply vd_eq; [exact HT|].
    rewrite (vsum_single _ a l); [| |apply (chain_ancestor _ _ _ Hl); exact Hanc|exact Hf].
    + rewrite Esa. apply joint_velocity_unit; lia.
    + eapply chain_nodup; eauto.
  - eapply vd_eq; [exact HT|].
    apply vsum_zero. intros b Hb. apply Hf. intros ->.
    apply Hanc. apply (chain_ancestor _ _ _ Hl). exact Hb.
Qed.

(** The states exist, so the hypothesis on [S] can always be met. *)
Lemma fk_states_function sk (V : valid_sk sk) (P : R -> list R) j :
  (forall t, length (P t) = 7 * length sk)%nat -> (j < length sk)%nat ->
  exists S : R -> jstate,
    forall t, exists sts, fk sk (P t) = Ok sts /\ nth_error sts j = Some (S t).
Proof.
  intros HL Hj.
  exists (fun t => match fk sk (P t) with
                   | Ok sts => nth j sts (JS mid tf_id tf_id mid mid)
                   | _ => JS mid tf_id tf_id mid mid end).
  intros t. destruct (fk_ok sk (P t) V (HL t)) as [sts [E [L F]]]. exists sts. split; [exact E|].
  rewrite E. apply nth_error_nth'. lia.
Qed.

Lemma fk_composes_lemma sk params :
  parents_first (sk_parents sk) -> unit_prerotations sk ->
  length params = (7 * length sk)%nat ->
  exists sts, fk sk params = Ok sts /\ length sts = length sk /\
    forall j s, nth_error sts j = Some s ->
      exists l, chain sk j l /\
        forall x, tf_point (js_world s) x = chain_map sk params l x.
Proof.
  intros V U L. destruct (fk_ok sk params V L) as [sts [E F]].
  exists sts. split; [exact E|]. split; [exact (proj1 F)|].
  intros j s Hs.
  assert (Hj : (j < length sk)%nat).
  { destruct F as [<- _]. apply nth_error_Some. congruence. }
  destruct (chain_exists sk V j Hj) as [l Hl]. exists l. split; [exact Hl|].
  exact (fk_chain sk params sts V U F j l Hl s Hs).
Qed.

Lemma fk_wrong_size_lemma sk params : length params <> (7 * length sk)%nat -> fk sk params = CheckFail.
Proof. intros H. unfold fk. apply Nat.eqb_neq in H. rewrite H. reflexivity. Qed.
