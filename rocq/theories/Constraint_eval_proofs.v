(** The matrices dfdv of the constraints are the derivatives of their f. *)

From Coq Require Import Bool Reals List Arith Lia Lra Psatz.
From Coquelicot Require Import Coquelicot.
From Verif Require Import Prelude LinAlg Rbool R3 Transform_model FK_model FK_spec FK_deriv_proofs
  ParamTransform_model Limits_model Limits_spec Limits_proofs Loss_model Constraint_model Constraint_spec.
Import ListNotations.
Local Open Scope R_scope.

(** ** The vectors of a constraint and f, dfdv as functions of them *)

Definition vecs (d : cdata) (s : jstate) : list vec3 :=
  match d with
  | CPosition o _ | CPlane _ o _ _ => [act s o]
  | COrientation o _ => let m := mmul (qmat (rot (js_world s))) (qmat o) in [col0 m; col1 m; col2 m]
  | CNormal lp ln _ => [act s lp; act_rot s ln]
  | CAimDist lp ld _ | CAimDir lp ld _ => [act s lp; act_rot s ld]
  | CFixedAxisDiff la _ | CFixedAxisCos la _ | CFixedAxisAngle la _ => [act_rot s la]
  end.
Definition nvec (d : cdata) : nat :=
  match d with
  | COrientation _ _ => 3
  | CNormal _ _ _ | CAimDist _ _ _ | CAimDir _ _ _ => 2
  | _ => 1
  end.
Definition feval (d : cdata) (vs : list vec3) : list R :=
  let a := nth 0 vs vzero in let b := nth 1 vs vzero in let c := nth 2 vs vzero in
  match d with
  | CPosition _ tg => vlist (vsub a tg)
  | CPlane half _ n dd =>
      let val0 := vdot a n - dd in [if half && Rltb 0 val0 then 0 else val0]
  | COrientation _ tg =>
      let r := qmat tg in
      vlist (vsub a (col0 r)) ++ vlist (vsub b (col1 r)) ++ vlist (vsub c (col2 r))
  | CNormal _ _ gp => [vdot b (vsub a gp)]
  | CAimDist _ _ gt => let u := vsub gt a in vlist (vsub (vscale (vdot b u) b) u)
  | CAimDir _ _ gt =>
      let u := vsub gt a in
      vlist (vsub b (if Rltb kTiny (vnorm u) then vscale (/ vnorm u) u else vzero))
  | CFixedAxisDiff _ ga => vlist (vsub a ga)
  | CFixedAxisCos _ ga => [1 - vdot a ga]
  | CFixedAxisAngle _ ga => [acos (clamp1 (vdot a ga))]
  end.
Definition deval (d : cdata) (vs : list vec3) : list (list vec3) :=
  let a := nth 0 vs vzero in let b := nth 1 vs vzero in
  match d with
  | CPosition _ _ | CFixedAxisDiff _ _ => [idrows]
  | CPlane half _ n dd =>
      let val0 := vdot a n - dd in
      [if negb half || Rltb (if half && Rltb 0 val0 then 0 else val0) 0 then [n] else zrows 1]
  | COrientation _ _ => [idrows ++ zrows 6; zrows 3 ++ idrows ++ zrows 3; zrows 6 ++ idrows]
  | CNormal _ _ gp => [[b]; [vsub a gp]]
  | CAimDist _ _ gt =>
      let u := vsub gt a in [scaled_outer 1 (-1) b b; scaled_outer (vdot b u) 1 b u]
  | CAimDir _ _ gt =>
      let u := vsub gt a in
      let w := if Rltb kTiny (vnorm u) then vscale (/ vnorm u) u else vzero in
      [if Rltb kTiny (vnorm u) then scaled_outer (/ vnorm u) (- / vnorm u) w w else zrows 3; idrows]
  | CFixedAxisCos _ ga => [[vscale (-1) ga]]
  | CFixedAxisAngle _ ga =>
      let dot := vdot a ga in let sine := sqrt (1 - dot * dot) in
      [[if Rltb kSine sine then vscale (- / sine) ga else vzero]]
  end.

Lemma eval_function_eq d s : eval_function d s = ER (feval d (vecs d s)) (vecs d s) (deval d (vecs d s)).
Proof. destruct d; reflexivity. Qed.
Lemma vecs_length d s : length (vecs d s) = nvec d.
Proof. destruct d; reflexivity. Qed.
Lemma deval_length d vs : length (deval d vs) = nvec d.
Proof. destruct d; reflexivity. Qed.
Lemma feval_length d vs : length (feval d vs) = func_dim d.
Proof. destruct d; reflexivity. Qed.

(** ** Derivatives of vector expressions *)

Lemma vd_sub f g t f' g' :
  is_vderive f t f' -> is_vderive g t g' -> is_vderive (fun u => vsub (f u) (g u)) t (vsub f' g').
Proof. intros [A1 [A2 A3]] [B1 [B2 B3]]. split; [|split]; apply d_minus; assumption. Qed.
Lemma vd_dot f g (t : R) f' g' :
  is_vderive f t f' -> is_vderive g t g' ->
  is_derive (fun u => vdot (f u) (g u)) t (vdot f' (g t) + vdot (f t) g').
Proof.
  intros [A1 [A2 A3]] [B1 [B2 B3]]. unfold vdot. eapply d_eq.
  - apply d_plus; [apply d_plus|]; apply d_mult; eassumption.
  - cbv beta. ring.
Qed.
Lemma vsub_0_r a : vsub a vzero = a. Proof. vec_ring. Qed.
Lemma vsub_0_l a : vsub vzero a = vscale (-1) a. Proof. vec_ring. Qed.

Lemma kTiny_pos : 0 < kTiny.
Proof. unfold kTiny. apply Rinv_0_lt_compat. apply pow_lt. lra. Qed.
Lemma kSine_pos : 0 < kSine.
Proof. unfold kSine. apply Rinv_0_lt_compat. apply pow_lt. lra. Qed.

Lemma derive_continuous (f : R -> R) (t f' : R) : is_derive f t f' -> continuous f t.
Proof. intros H. apply (ex_derive_continuous f). exists f'. exact H. Qed.
Lemma locally_gt (f : R -> R) (t c : R) : continuous f t -> c < f t -> locally t (fun u => c < f u).
Proof. intros H Hc. apply (H (fun y => c < y)). exact (open_gt c (f t) Hc). Qed.
Lemma locally_lt (f : R -> R) (t c : R) : continuous f t -> f t < c -> locally t (fun u => f u < c).
Proof. intros H Hc. apply (H (fun y => y < c)). exact (open_lt c (f t) Hc). Qed.

Lemma d_acos (f : R -> R) (t f' : R) :
  is_derive f t f' -> -1 < f t < 1 ->
  is_derive (fun u => acos (f u)) t (f' * (- / sqrt (1 - f t * f t))).
Proof.
  intros H Hc. apply (d_comp acos f); [|exact H].
  apply is_derive_Reals. replace (- / sqrt (1 - f t * f t)) with (-1 / sqrt (1 - Rsqr (f t))).
  - apply derive_pt_eq_1 with (pr := derivable_pt_acos (f t) Hc). apply derive_pt_acos.
  - unfold Rsqr, Rdiv. ring.
Qed.

(** ** Squared norm *)

Lemma sqnorm_sumn f : sqnorm f = sumn (length f) (fun i => nth i f 0 * nth i f 0).
Proof.
  unfold sqnorm. rewrite rsum_nth, map_length. apply sumn_ext. intros i Hi.
  rewrite (nth_indep _ 0 (0 * 0)) by (rewrite map_length; exact Hi).
  rewrite (map_nth (fun x => x * x)). reflexivity.
Qed.

Definition dot_rows (ds : list (list vec3)) (dvs : list vec3) (n i : nat) : R :=
  sumn n (fun j => vdot (mrow ds j i) (nth j dvs vzero)).

Lemma sqnorm_derive (F : R -> list R) n (t0 : R) (D : nat -> R) :
  (forall t, length (F t) = n) ->
  (forall i, (i < n)%nat -> is_derive (fun t => nth i (F t) 0) t0 (D i)) ->
  is_derive (fun t => sqnorm (F t)) t0 (2 * sumn n (fun i => nth i (F t0) 0 * D i)).
Proof.
  intros HL HD.
  eapply d_ext; [intros u; symmetry; rewrite sqnorm_sumn, HL; reflexivity|].
  eapply d_eq.
  - unfold sumn. apply (d_rsum (fun i t => nth i (F t) 0 * nth i (F t) 0)
      (fun i => D i * nth i (F t0) 0 + nth i (F t0) 0 * D i)).
    intros i Hi. apply in_seq in Hi. apply (d_mult (fun t => nth i (F t) 0) (fun t => nth i (F t) 0)); apply HD; lia.
  - rewrite <- sumn_scal. apply sumn_ext. intros i _. ring.
Qed.

(** ** Each component *)

Section Comp.
Context (Vs : R -> list vec3) (t0 : R) (dvs : list vec3).

Let a := fun t => nth 0 (Vs t) vzero.
Let b := fun t => nth 1 (Vs t) vzero.
Let c := fun t => nth 2 (Vs t) vzero.
Let a' := nth 0 dvs vzero.
Let b' := nth 1 dvs vzero.
Let c' := nth 2 dvs vzero.

Lemma vd_comp f f' : is_vderive f t0 f' ->
  forall i, (i < 3)%nat -> is_derive (fun t => nth i (vlist (f t)) 0) t0 (nth i (vlist f') 0).
Proof.
  intros [A [B C]] i Hi. destruct i as [|[|[|i]]]; cbn [nth vlist]; try assumption. lia.
Qed.

Definition smooth_at (d : cdata) (vs : list vec3) : Prop :=
  let a := nth 0 vs vzero in
  match d with
  | CAimDir _ _ gt => kTiny < vnorm (vsub gt a)
  | CFixedAxisAngle _ ga =>
      let c := vdot a ga in -1 < c < 1 /\ kSine < sqrt (1 - c * c)
  | _ => True
  end.
Definition not_half (d : cdata) : Prop := match d with CPlane true _ _ _ => False | _ => True end.

Lemma dot_rows_1 ds i : dot_rows ds dvs 1 i = vdot (mrow ds 0 i) a'.
Proof. unfold dot_rows. rewrite sumn_S, sumn_0. unfold a'. ring. Qed.
Lemma dot_rows_2 ds i : dot_rows ds dvs 2 i = vdot (mrow ds 0 i) a' + vdot (mrow ds 1 i) b'.
Proof. unfold dot_rows. rewrite !sumn_S, sumn_0. unfold a', b'. ring. Qed.
Lemma dot_rows_3 ds i : dot_rows ds dvs 3 i =
  vdot (mrow ds 0 i) a' + vdot (mrow ds 1 i) b' + vdot (mrow ds 2 i) c'.
Proof. unfold dot_rows. rewrite !sumn_S, sumn_0. unfold a', b', c'. ring. Qed.

Ltac three i := destruct i as [|[|[|i]]]; [| | |exfalso; lia].

Lemma comp_derive d i :
  (forall j, (j < nvec d)%nat -> is_vderive (fun t => nth j (Vs t) vzero) t0 (nth j dvs vzero)) ->
  smooth_at d (Vs t0) -> not_half d -> (i < func_dim d)%nat ->
  is_derive (fun t => nth i (feval d (Vs t)) 0) t0 (dot_rows (deval d (Vs t0)) dvs (nvec d) i).
Proof.
  intros HV HS HH Hi.
  assert (HA : is_vderive a t0 a') by (apply HV; destruct d; cbn; lia).
  destruct d as [o tg|half o n dd|o tg|lp ln gp|lp ld gt|lp ld gt|la ga|la ga|la ga];
    cbn [nvec func_dim] in *.
  - (* position *)
    rewrite dot_rows_1. eapply d_eq.
    + apply (vd_comp (fun t => vsub (a t) tg)); [|exact Hi]. apply vd_sub; [exact HA|apply vd_const].
    + rewrite vsub_0_r. generalize a'; intros [x y z]; three i; unfold mrow, vdot; cbn; ring.
  - (* plane *)
    destruct half; [contradiction|]. rewrite dot_rows_1.
    replace i with 0%nat by lia. cbn [nth feval andb].
    eapply d_eq.
    + apply d_minus; [|apply d_const]. apply (vd_dot a (fun _ => n)); [exact HA|apply vd_const].
    + generalize a'; intros [x y z]; unfold mrow, vdot; cbn; ring.
  - (* orientation *)
    assert (HB : is_vderive b t0 b') by (apply HV; lia).
    assert (HC : is_vderive c t0 c') by (apply HV; lia).
    rewrite dot_rows_3.
    assert (Hr : exists r0 r1 r2, forall t, feval (COrientation o tg) (Vs t) =
      vlist (vsub (a t) r0) ++ vlist (vsub (b t) r1) ++ vlist (vsub (c t) r2)).
    { exists (col0 (qmat tg)), (col1 (qmat tg)), (col2 (qmat tg)). reflexivity. }
    destruct Hr as [r0 [r1 [r2 Hr]]].
    eapply d_ext; [intros t; rewrite Hr; reflexivity|]. clear Hr.
    assert (HA' : is_vderive (fun t => vsub (a t) r0) t0 a').
    { eapply vd_eq; [apply vd_sub; [exact HA|apply vd_const]|]. apply vsub_0_r. }
    assert (HB' : is_vderive (fun t => vsub (b t) r1) t0 b').
    { eapply vd_eq; [apply vd_sub; [exact HB|apply vd_const]|]. apply vsub_0_r. }
    assert (HC' : is_vderive (fun t => vsub (c t) r2) t0 c').
    { eapply vd_eq; [apply vd_sub; [exact HC|apply vd_const]|]. apply vsub_0_r. }
    cbn [deval]. clear HA HB HC HV HS. revert HA' HB' HC'. generalize a' b' c'.
    intros [x1 y1 z1] [x2 y2 z2] [x3 y3 z3] [A1 [A2 A3]] [B1 [B2 B3]] [C1 [C2 C3]].
    destruct i as [|[|[|[|[|[|[|[|[|i]]]]]]]]]; [ | | | | | | | | |exfalso; lia];
      unfold mrow; cbn [nth vlist app idrows zrows repeat];
      (eapply d_eq; [first [exact A1|exact A2|exact A3|exact B1|exact B2|exact B3|exact C1|exact C2|exact C3]|]);
      unfold vdot; cbn; ring.
  - (* normal *)
    assert (HB : is_vderive b t0 b') by (apply HV; lia).
    rewrite dot_rows_2. replace i with 0%nat by lia. cbn [nth feval].
    eapply d_eq.
    + apply (vd_dot b (fun t => vsub (a t) gp)); [exact HB|].
      apply vd_sub; [exact HA|apply vd_const].
    + unfold mrow; cbn [nth deval]. fold (a t0) (b t0). rewrite vsub_0_r.
      unfold vdot. ring.
  - (* aim dist *)
    assert (HB : is_vderive b t0 b') by (apply HV; lia).
    rewrite dot_rows_2.
    assert (HU : is_vderive (fun t => vsub gt (a t)) t0 (vscale (-1) a')).
    { eapply vd_eq; [apply vd_sub; [apply vd_const|exact HA]|]. apply vsub_0_l. }
    eapply d_eq.
    + apply (vd_comp (fun t => vsub (vscale (vdot (b t) (vsub gt (a t))) (b t)) (vsub gt (a t))));
        [|exact Hi].
      apply vd_sub; [|exact HU]. apply vd_scale; [|exact HB]. apply vd_dot; [exact HB|exact HU].
    + cbv beta. unfold mrow. cbn [nth deval]. fold (a t0) (b t0).
      destruct (a t0), (b t0), gt, a', b'. three i; unfold vdot; cbn; ring.
  - (* aim dir *)
    assert (HB : is_vderive b t0 b') by (apply HV; lia).
    rewrite dot_rows_2. cbn [smooth_at] in HS. fold (a t0) in HS.
    assert (HU : is_vderive (fun t => vsub gt (a t)) t0 (vscale (-1) a')).
    { eapply vd_eq; [apply vd_sub; [apply vd_const|exact HA]|]. apply vsub_0_l. }
    set (u := fun t => vsub gt (a t)) in *.
    pose proof kTiny_pos as KT.
    assert (Hn2 : 0 < vdot (u t0) (u t0)).
    { destruct (Rlt_or_le 0 (vdot (u t0) (u t0))) as [L|L]; [exact L|].
      unfold vnorm in HS. fold (u t0) in HS. rewrite sqrt_neg_0 in HS by exact L. lra. }
    assert (HN : is_derive (fun t => vnorm (u t)) t0 (vdot (u t0) (vscale (-1) a') / vnorm (u t0))).
    { unfold vnorm. eapply d_eq.
      - apply (is_derive_sqrt (fun t => vdot (u t) (u t)) t0
          (vdot (vscale (-1) a') (u t0) + vdot (u t0) (vscale (-1) a'))); [|exact Hn2].
        apply vd_dot; exact HU.
      - unfold vdot. field. apply Rgt_not_eq, sqrt_lt_R0. exact Hn2. }
    assert (Hne : vnorm (u t0) <> 0) by (apply Rgt_not_eq, sqrt_lt_R0; exact Hn2).
    assert (HI : is_derive (fun t => / vnorm (u t)) t0
                   (- (vdot (u t0) (vscale (-1) a') / vnorm (u t0)) / (vnorm (u t0)) ^ 2)).
    { apply (is_derive_inv (fun t => vnorm (u t))); [exact HN|exact Hne]. }
    apply (is_derive_ext_loc (fun t => nth i (vlist (vsub (b t) (vscale (/ vnorm (u t)) (u t)))) 0)).
    { eapply filter_imp; [|apply (locally_gt (fun t => vnorm (u t)) t0 kTiny);
        [eapply derive_continuous; exact HN|exact HS]].
      intros t Ht. cbv beta in Ht. cbn [feval]. fold (a t) (b t). fold (u t).
      destruct (Rltb_spec kTiny (vnorm (u t))); [reflexivity|contradiction]. }
    eapply d_eq.
    + apply (vd_comp (fun t => vsub (b t) (vscale (/ vnorm (u t)) (u t)))); [|exact Hi].
      apply vd_sub; [exact HB|]. apply vd_scale; [exact HI|exact HU].
    + cbv beta. unfold mrow. cbn [nth deval]. fold (a t0) (b t0). fold (u t0).
      destruct (Rltb_spec kTiny (vnorm (u t0))); [|contradiction].
      set (m := vnorm (u t0)) in *. clearbody m.
      destruct (u t0), (b t0), a', b'. three i; unfold vdot; cbn; field; exact Hne.
  - (* fixed axis diff *)
    rewrite dot_rows_1. eapply d_eq.
    + apply (vd_comp (fun t => vsub (a t) ga)); [|exact Hi]. apply vd_sub; [exact HA|apply vd_const].
    + rewrite vsub_0_r. generalize a'; intros [x y z]; three i; unfold mrow, vdot; cbn; ring.
  - (* fixed axis cos *)
    rewrite dot_rows_1. replace i with 0%nat by lia. cbn [nth feval].
    eapply d_eq.
    + apply d_minus; [apply d_const|]. apply (vd_dot a (fun _ => ga)); [exact HA|apply vd_const].
    + generalize a'; intros [x y z]; unfold mrow, vdot; cbn; ring.
  - (* fixed axis angle *)
    rewrite dot_rows_1. replace i with 0%nat by lia. cbn [smooth_at] in HS. fold (a t0) in HS.
    destruct HS as [Hr Hs].
    assert (HD : is_derive (fun t => vdot (a t) ga) t0 (vdot a' ga)).
    { eapply d_eq; [apply (vd_dot a (fun _ => ga)); [exact HA|apply vd_const]|].
      unfold vdot; cbn; ring. }
    apply (is_derive_ext_loc (fun t => acos (vdot (a t) ga))).
    { pose proof (derive_continuous _ _ _ HD) as HC.
      pose proof (filter_and _ _ (locally_gt _ _ (-1) HC (proj1 Hr)) (locally_lt _ _ 1 HC (proj2 Hr))) as HL.
      eapply filter_imp; [|exact HL].
      intros t [T1 T2]. cbv beta in T1, T2. cbn [feval nth]. fold (a t). unfold clamp1.
      destruct (Rltb_spec (vdot (a t) ga) (-1)); [lra|].
      destruct (Rltb_spec 1 (vdot (a t) ga)); [lra|]. reflexivity. }
    eapply d_eq; [apply (d_acos (fun t => vdot (a t) ga)); [exact HD|exact Hr]|].
    unfold mrow. cbn [nth deval]. fold (a t0).
    destruct (Rltb_spec kSine (sqrt (1 - vdot (a t0) ga * vdot (a t0) ga))); [|contradiction].
    generalize (/ sqrt (1 - vdot (a t0) ga * vdot (a t0) ga)). intros k.
    generalize a'; intros [x y z]. unfold vdot; cbn. ring.
Qed.

(** The squared residual, with the half plane included. *)
Lemma sq_derive d :
  (forall j, (j < nvec d)%nat -> is_vderive (fun t => nth j (Vs t) vzero) t0 (nth j dvs vzero)) ->
  smooth_at d (Vs t0) ->
  is_derive (fun t => sqnorm (feval d (Vs t))) t0
    (2 * sumn (func_dim d) (fun i => nth i (feval d (Vs t0)) 0 *
                                     dot_rows (deval d (Vs t0)) dvs (nvec d) i)).
Proof.
  intros HV HS.
  assert (N : not_half d \/ exists o n dd, d = CPlane true o n dd).
  { destruct d as [| [|]| | | | | | |]; cbn; eauto 6. }
  destruct N as [N|[o [n [dd ->]]]].
  - apply (sqnorm_derive (fun t => feval d (Vs t))).
    + intros t. apply feval_length.
    + intros i Hi. apply comp_derive; assumption.
  - assert (HA : is_vderive a t0 a') by (apply HV; cbn; lia).
    cbn [nvec func_dim]. rewrite sumn_S, sumn_0, dot_rows_1.
    assert (HD : is_derive (fun t => dd - vdot (a t) n) t0 (- vdot a' n)).
    { eapply d_eq; [apply d_minus; [apply d_const|];
        apply (vd_dot a (fun _ => n)); [exact HA|apply vd_const]|]. unfold vdot; cbn; ring. }
    eapply d_ext; [|eapply d_eq; [apply d_excess2; exact HD|]].
    + intros t. cbv beta. cbn [feval andb nth]. fold (a t). unfold sqnorm; cbn.
      destruct (Rltb_spec 0 (vdot (a t) n - dd)).
      * rewrite excess2_neg by lra. ring.
      * rewrite excess2_pos by lra. ring.
    + unfold mrow. cbn [feval deval andb orb negb nth]. fold (a t0).
      destruct (Rltb_spec 0 (vdot (a t0) n - dd)).
      * rewrite Rmax_left by lra. ring.
      * destruct (Rltb_spec (vdot (a t0) n - dd) 0).
        -- rewrite Rmax_right by lra. unfold vdot; cbn. ring.
        -- rewrite Rmax_left by lra. replace (vdot (a t0) n - dd) with 0 by lra. ring.
Qed.
End Comp.
