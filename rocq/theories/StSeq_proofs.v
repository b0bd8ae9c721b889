From Coq Require Import Bool Reals List Arith Lia Lra Psatz.
From Coquelicot Require Import Coquelicot.
From Verif Require Import Prelude LinAlg Rbool ListUtil Loops Seq_spec Seq_model SeqFn_model SeqFn_spec
  R3 Transform_model Transform_proofs Skeleton_model
  Skeleton_spec FK_model FK_spec FK_proofs FK_deriv_proofs FK_axis_proofs ParamTransform_model
  ParamTransform_spec ParamTransform_proofs Limits_model Limits_spec Limits_proofs Loss_model
  Loss_proofs Constraint_model Constraint_spec Constraint_eval_proofs Constraint_proofs
  Constraint_deriv_proofs ErrFn_model ErrFn_spec ErrFn_mp_proofs ErrFn_st_proofs ErrFn_proofs StSeq_model StSeq_spec.
Import ListNotations.
Local Open Scope nat_scope.
Local Open Scope R_scope.

Lemma as_state_wf E i : character_wf (ssq_sk E) (ssq_pt E) -> ssq_wf E -> drives_active E i ->
  (0 < length (ssq_sk E))%nat -> st_wf (ssq_as_state E) i.
Proof.
  intros [_ _ _ HR] [H1 H2 H3] HA HJ. constructor; cbn; try assumption; rewrite ?repeat_length; reflexivity.
Qed.

Lemma pose_ok E p : character_wf (ssq_sk E) (ssq_pt E) -> length p = pt_cols (ssq_pt E) ->
  state_of (ssq_sk E) (ssq_pt E) p = Ok (pose_at E p) /\ length (pose_at E p) = length (ssq_sk E).
Proof.
  intros [V U WP HR] L. destruct (sf_state_ok _ _ p V WP HR L) as [jp [js [E1 [E2 [_ E3]]]]].
  unfold pose_at. rewrite E3. split; [reflexivity|].
  destruct (fk_inv _ _ _ V E2) as [_ [FL _]]. exact FL.
Qed.

(** ** The error *)

Definition jchange (E : ssq_fn) (prev next : list jstate) (j : nat) : R :=
  match nth_error prev j, nth_error next j with
  | Some a, Some b =>
      ssq_rotWgt E * nth j (ssq_rotw E) 0 * frob2 (qmat (rot (js_world b))) (qmat (rot (js_world a))) +
      ssq_posWgt E / 1000 * nth j (ssq_posw E) 0 * vnorm2 (vsub (trans (js_world b)) (trans (js_world a)))
  | _, _ => 0
  end.
Lemma pose_change_rsum E a b :
  pose_change E a b = ssq_weight E * rsum (map (jchange E a b) (seq 0 (length (ssq_sk E)))).
Proof. reflexivity. Qed.

Lemma err_loop_ok E a b is :
  (forall j, In j is -> (j < length a)%nat /\ (j < length b)%nat /\
     (j < length (ssq_rotw E))%nat /\ (j < length (ssq_posw E))%nat) ->
  ssq_err_loop E a b is = Ok (rsum (map (jchange E a b) is)).
Proof.
  induction is as [|j is IH]; intros H; [reflexivity|].
  cbn [ssq_err_loop map rsum]. destruct (H j (or_introl eq_refl)) as [H1 [H2 [H3 H4]]].
  unfold jchange at 1.
  destruct (nth_error a j) as [s|] eqn:R1; [|apply nth_error_None in R1; lia].
  destruct (nth_error b j) as [t|] eqn:R2; [|apply nth_error_None in R2; lia].
  unfold rd at 1. rewrite R1. cbn [obind]. unfold rd at 1. rewrite R2. cbn [obind].
  rewrite !rd_nth by assumption. cbn [obind]. rewrite IH by (intros; apply H; right; assumption). cbn [obind].
  apply (f_equal (@Ok R)). unfold kSsqOrientationWeight, kSsqPositionWeight, msq, ssq_rotdiff, ssq_diff, frob2.
  cbn [col0 col1 col2]. field.
Qed.

Lemma ssq_error_ok E a b : ssq_wf E -> length a = length (ssq_sk E) -> length b = length (ssq_sk E) ->
  ssq_error E [a; b] = Ok (pose_change E a b).
Proof.
  intros [H1 H2 _] La Lb. unfold ssq_error. cbn [ssq_two obind fst snd].
  rewrite err_loop_ok by (intros j Hj; apply in_seq in Hj; rewrite La, Lb, H1, H2; lia).
  cbn [obind]. rewrite pose_change_rsum. apply (f_equal (@Ok R)). ring.
Qed.

(** ** Two moving frames *)

Lemma vd_affine f x0 d c : is_vderive f x0 d -> is_vderive (fun t => f (x0 + c * t)) 0 (vscale c d).
Proof.
  assert (A : forall h y, is_derive h x0 y -> is_derive (fun t => h (x0 + c * t)) 0 (c * y)).
  { intros h y H. apply (d_comp h (fun t => x0 + c * t)).
    - replace (x0 + c * 0) with x0 by ring. exact H.
    - eapply d_eq; [apply d_plus; [apply d_const|apply d_scal, (is_derive_id 0)]|]. change (@one _) with 1. ring. }
  intros [D1 [D2 D3]].
  split; [|split]; [exact (A _ _ D1)|exact (A _ _ D2)|exact (A _ _ D3)].
Qed.

Lemma sq_vd2 (f g : R -> vec3) (t : R) f' g' : is_vderive f t f' -> is_vderive g t g' ->
  is_derive (fun u => vnorm2 (vsub (g u) (f u))) t (2 * vdot (vsub (g t) (f t)) (vsub g' f')).
Proof.
  intros Hf Hg. eapply d_eq.
  - apply (vd_dot (fun u => vsub (g u) (f u)) (fun u => vsub (g u) (f u)) t (vsub g' f') (vsub g' f'));
      apply vd_sub; assumption.
  - cbv beta. unfold vdot; cbn. ring.
Qed.

Section Two.
Context (E : ssq_fn) (i : nat) (HC : character_wf (ssq_sk E) (ssq_pt E)) (W0 : ssq_wf E) (HA : drives_active E i)
  (pa pb : list R) (La : length pa = pt_cols (ssq_pt E)) (Lb : length pb = pt_cols (ssq_pt E))
  (Hi : (i < pt_cols (ssq_pt E))%nat) (HJ : (0 < length (ssq_sk E))%nat).

Let S := ssq_as_state E.
Let W : st_wf S i := as_state_wf E i HC W0 HA HJ.
Let V : valid_sk (st_sk S) := chw_parents _ _ HC.
Let U : unit_prerotations (st_sk S) := chw_prerot _ _ HC.
Let WP : pt_wf (st_pt S) := chw_pt _ _ HC.
Let path (p : list R) (t : R) : list jstate := pose_at E (set_nth p i t).

Lemma path_ok p : length p = pt_cols (ssq_pt E) -> forall t, state_of (st_sk S) (st_pt S) (set_nth p i t) = Ok (path p t).
Proof. intros L t. apply pose_ok; [exact HC|]. rewrite set_nth_length. exact L. Qed.

Let HSa := path_ok pa La.
Let HSb := path_ok pb Lb.
Let xa := nth i pa 0.
Let xb := nth i pb 0.
Notation jsa t j := (jst (path pa) t j).
Notation jsb t j := (jst (path pb) t j).

Lemma jsa_ok t j : (j < length (ssq_sk E))%nat -> nth_error (path pa t) j = Some (jsa t j).
Proof. apply (jst_ok S i V pa (path pa) HSa). Qed.
Lemma jsb_ok t j : (j < length (ssq_sk E))%nat -> nth_error (path pb t) j = Some (jsb t j).
Proof. apply (jst_ok S i V pb (path pb) HSb). Qed.

Notation vpa j l := (vpos S i pa (path pa) j l).
Notation vpb j l := (vpos S i pb (path pb) j l).
Notation vca j l := (vcol S i pa (path pa) j l).
Notation vcb j l := (vcol S i pb (path pb) j l).

Definition Dj (ca cb : R) (j : nat) (l : list nat) : R :=
  let r := ssq_rotdiff (jsa xa j) (jsb xb j) in
  let d := ssq_diff (jsa xa j) (jsb xb j) in
  ssq_rotWgt E * nth j (ssq_rotw E) 0 *
    (2 * (vdot (col0 r) (vsub (vscale cb (vcb j l ex)) (vscale ca (vca j l ex))) +
          vdot (col1 r) (vsub (vscale cb (vcb j l ey)) (vscale ca (vca j l ey))) +
          vdot (col2 r) (vsub (vscale cb (vcb j l ez)) (vscale ca (vca j l ez))))) +
  ssq_posWgt E / 1000 * nth j (ssq_posw E) 0 * (2 * vdot d (vsub (vscale cb (vpb j l)) (vscale ca (vpa j l)))).

Lemma jchange_derive ca cb j l : (j < length (ssq_sk E))%nat -> chain (ssq_sk E) j l ->
  is_derive (fun t => jchange E (path pa (xa + ca * t)) (path pb (xb + cb * t)) j) 0 (Dj ca cb j l).
Proof.
  intros Hj Hc.
  pose proof (vd_affine _ _ _ ca (pos_vel S i V U WP pa La Hi (path pa) HSa j l Hj Hc)) as PA.
  pose proof (vd_affine _ _ _ cb (pos_vel S i V U WP pb Lb Hi (path pb) HSb j l Hj Hc)) as PB.
  pose proof (fun x => vd_affine _ _ _ ca (col_vel S i V U WP pa La Hi (path pa) HSa j l Hj Hc x)) as CA.
  pose proof (fun x => vd_affine _ _ _ cb (col_vel S i V U WP pb Lb Hi (path pb) HSb j l Hj Hc x)) as CB.
  assert (Za : xa + ca * 0 = xa) by ring. assert (Zb : xb + cb * 0 = xb) by ring.
  eapply d_ext.
  { intros t. unfold jchange. rewrite (jsa_ok _ j Hj), (jsb_ok _ j Hj). reflexivity. }
  unfold Dj. apply d_plus; apply d_scal.
  - eapply d_ext.
    { intros t. unfold frob2. rewrite !qmat_col0, !qmat_col1, !qmat_col2. reflexivity. }
    eapply d_eq.
    + exact (d_plus _ _ _ _ _ (d_plus _ _ _ _ _ (sq_vd2 _ _ _ _ _ (CA ex) (CB ex)) (sq_vd2 _ _ _ _ _ (CA ey) (CB ey)))
        (sq_vd2 _ _ _ _ _ (CA ez) (CB ez))).
    + cbv beta. unfold ssq_rotdiff. cbn [col0 col1 col2]. rewrite !qmat_col0, !qmat_col1, !qmat_col2.
      fold xa xb. rewrite Za, Zb. unfold vcol. fold xa xb. ring.
  - eapply d_eq; [exact (sq_vd2 _ _ _ _ _ PA PB)|]. cbv beta. fold xa xb. rewrite Za, Zb. reflexivity.
Qed.

Lemma rd_a j : (j < length (ssq_sk E))%nat -> rd (path pa xa) j = Ok (jsa xa j).
Proof. intros Hj. unfold rd. rewrite (jsa_ok xa j Hj). reflexivity. Qed.
Lemma rd_b' j : (j < length (ssq_sk E))%nat -> rd (path pb xb) j = Ok (jsb xb j).
Proof. intros Hj. unfold rd. rewrite (jsb_ok xb j Hj). reflexivity. Qed.

(** What addGradient adds for one frame. *)
Lemma add_gradient_ok p (Lp : length p = pt_cols (ssq_pt E)) (sts : R -> list jstate)
  (HS : forall t, state_of (st_sk S) (st_pt S) (set_nth p i t) = Ok (sts t)) j l sign pw rw diff rdiff g :
  (j < length (ssq_sk E))%nat -> chain (ssq_sk E) j l -> length g = pt_cols (ssq_pt E) ->
  exists g', ssq_add_gradient E (sts (nth i p 0)) j (jst sts (nth i p 0) j) sign pw rw diff rdiff g = Ok g' /\
    length g' = length g /\
    nth i g' 0 = nth i g 0 + sign * 2 * (pw * vdot diff (vpos S i p sts j l) +
      rw * (vdot (col0 rdiff) (vcol S i p sts j l ex) + vdot (col1 rdiff) (vcol S i p sts j l ey) +
            vdot (col2 rdiff) (vcol S i p sts j l ez))).
Proof.
  intros Hj Hc HG. unfold ssq_add_gradient. fold S.
  destruct (jt_ok S i W V p Lp Hi sts HS j l Hj Hc) as [ts [E1 S1]]. rewrite E1. cbn [obind].
  match goal with |- context [add_all g ?incs] =>
    destruct (add_all_ok incs g) as [g' [E2 [L2 N2]]];
    [intros k v Hin; apply spread_in in Hin as [e [He <-]]; rewrite HG; apply (wf_entries _ WP e He)|] end.
  exists g'. split; [exact E2|]. split; [exact L2|].
  rewrite N2, HG. apply Nat.ltb_lt in Hi as Hb. rewrite Hb, dsum_spread, map_map. cbn [fst snd]. f_equal.
  specialize (S1 (fun v => sign * 2 * pw * vdot diff v) (fun v => sign * 2 * rw * vdot (col0 rdiff) v)
    (fun v => sign * 2 * rw * vdot (col1 rdiff) v) (fun v => sign * 2 * rw * vdot (col2 rdiff) v)
    (dot_linear _ _) (dot_linear _ _) (dot_linear _ _) (dot_linear _ _)).
  change (pt_entries (st_pt S)) with (pt_entries (ssq_pt E)) in S1.
  match type of S1 with _ = ?r => transitivity r end.
  - rewrite <- S1. apply rsum_map_ext. intros [r [v m]] _. unfold pair_fun, mdot, vdot. cbn [fst snd]. ring.
  - cbv beta. ring.
Qed.

Lemma grad_loop_ok is : (forall j, In j is -> (j < length (ssq_sk E))%nat) ->
  forall ga gb, length ga = pt_cols (ssq_pt E) -> length gb = pt_cols (ssq_pt E) ->
  exists ga' gb', ssq_grad_loop E (path pa xa) (path pb xb) is ga gb =
      Ok (ssq_weight E * rsum (map (jchange E (path pa xa) (path pb xb)) is), (ga', gb')) /\
    length ga' = length ga /\ length gb' = length gb /\
    forall ca cb,
    is_derive (fun t => ssq_weight E * rsum (map (jchange E (path pa (xa + ca * t)) (path pb (xb + cb * t))) is)) 0
      (ca * (nth i ga' 0 - nth i ga 0) + cb * (nth i gb' 0 - nth i gb 0)).
Proof.
  induction is as [|j is IH]; intros HI ga gb HGa HGb.
  - exists ga, gb. cbn. split; [rewrite Rmult_0_r; reflexivity|]. split; [reflexivity|]. split; [reflexivity|].
    intros ca cb. eapply d_eq; [apply d_const|]. ring.
  - assert (Hj : (j < length (ssq_sk E))%nat) by (apply HI; left; reflexivity).
    assert (HI' : forall k, In k is -> (k < length (ssq_sk E))%nat) by (intros; apply HI; right; assumption).
    destruct (chain_exists (ssq_sk E) V j Hj) as [l Hc].
    pose proof (fun ca cb => jchange_derive ca cb j l Hj Hc) as DJ.
    pose proof (sqw_posw E W0) as Wp. pose proof (sqw_rotw E W0) as Wr.
    cbn [ssq_grad_loop]. rewrite !rd_nth by (rewrite ?Wp, ?Wr; exact Hj). cbn [obind].
    destruct (Reqb (nth j (ssq_rotw E) 0) 0 && Reqb (nth j (ssq_posw E) 0) 0)%bool eqn:ZB.
    + apply andb_true_iff in ZB as [Zr Zp].
      destruct (Reqb_spec (nth j (ssq_rotw E) 0) 0) as [Zr'|]; [|discriminate].
      destruct (Reqb_spec (nth j (ssq_posw E) 0) 0) as [Zp'|]; [|discriminate].
      destruct (IH HI' ga gb HGa HGb) as [ga' [gb' [E1 [L1 [L2 D1]]]]]. rewrite E1. exists ga', gb'.
      assert (ZZ : forall a b, jchange E a b j = 0).
      { intros a b. unfold jchange. rewrite Zr', Zp'. destruct (nth_error a j), (nth_error b j); ring. }
      split; [cbn [map rsum]; rewrite ZZ, Rplus_0_l; reflexivity|]. split; [exact L1|]. split; [exact L2|].
      intros ca cb. eapply d_ext; [|exact (D1 ca cb)]. intros t. cbn [map rsum]. cbv beta. rewrite ZZ. ring.
    + rewrite (rd_a j Hj). cbn [obind]. rewrite (rd_b' j Hj). cbn [obind].
      set (pw := kSsqPositionWeight * ssq_posWgt E * ssq_weight E * nth j (ssq_posw E) 0).
      set (rw := kSsqOrientationWeight * ssq_rotWgt E * ssq_weight E * nth j (ssq_rotw E) 0).
      set (diff := ssq_diff (jsa xa j) (jsb xb j)). set (rdiff := ssq_rotdiff (jsa xa j) (jsb xb j)).
      destruct (add_gradient_ok pa La (path pa) HSa j l (-1) pw rw diff rdiff ga Hj Hc HGa) as [g1 [F1 [M1 N1]]].
      destruct (add_gradient_ok pb Lb (path pb) HSb j l 1 pw rw diff rdiff gb Hj Hc HGb) as [g2 [F2 [M2 N2]]].
      fold xa in F1. fold xb in F2. rewrite F1. cbn [obind]. rewrite F2. cbn [obind].
      destruct (IH HI' g1 g2 ltac:(congruence) ltac:(congruence)) as [ga' [gb' [E3 [L1 [L2 D3]]]]].
      rewrite E3. cbn [obind fst snd].
      exists ga', gb'. split; [|split; [congruence|split; [congruence|]]].
      * cbn [map rsum]. unfold jchange at 2. rewrite (jsa_ok xa j Hj), (jsb_ok xb j Hj).
        apply (f_equal (@Ok _)), f_equal2; [|reflexivity].
        unfold pw, rw, kSsqPositionWeight, kSsqOrientationWeight, diff, rdiff, msq, ssq_rotdiff, ssq_diff, frob2.
        cbn [col0 col1 col2]. field.
      * intros ca cb.
        apply (d_ext (fun t => ssq_weight E * jchange E (path pa (xa + ca * t)) (path pb (xb + cb * t)) j +
           ssq_weight E * rsum (map (jchange E (path pa (xa + ca * t)) (path pb (xb + cb * t))) is)));
          [intros t; cbn [map rsum]; ring|].
        eapply d_eq; [apply d_plus; [apply d_scal, DJ|exact (D3 ca cb)]|].
        rewrite N1, N2. unfold Dj. fold diff rdiff. unfold pw, rw, kSsqPositionWeight, kSsqOrientationWeight.
        generalize (vpa j l) (vpb j l) (vca j l ex) (vca j l ey) (vca j l ez) (vcb j l ex) (vcb j l ey) (vcb j l ez).
        intros. unfold vdot. cbn. field.
Qed.

(** ** Rows *)

Definition col_r (rows : list (list R * R)) (c : nat) : R := rsum (map (fun row => nth c (fst row) 0 * snd row) rows).

Lemma zip_rows (f : nat -> R) d n va vb ks : (i < n)%nat -> forall ra rb : list (list R * R),
  (forall row, In row ra -> length (fst row) = n) -> (forall row, In row rb -> length (fst row) = n) ->
  Forall2 (fun k row => nth i (fst row) 0 = - 1 * f k * sel12 k va) ks ra ->
  Forall2 (fun k row => nth i (fst row) 0 = f k * sel12 k vb) ks rb ->
  let rows := map (fun xk => (fst (fst (fst xk)) ++ fst (snd (fst xk)), sel12 (snd xk) d * f (snd xk)))
     (combine (combine ra rb) ks) in
  length rows = length ks /\ (forall row, In row rows -> length (fst row) = (2 * n)%nat) /\
  col_r rows i = - rsum (map (fun k => f k * f k * (sel12 k d * sel12 k va)) ks) /\
  col_r rows (n + i) = rsum (map (fun k => f k * f k * (sel12 k d * sel12 k vb)) ks) /\
  rsum (map (fun row => snd row * snd row) rows) = rsum (map (fun k => f k * f k * (sel12 k d * sel12 k d)) ks).
Proof.
  intros Hin. unfold col_r. induction ks as [|k ks IH]; intros ra rb Ra Rb Fa Fb.
  - inversion Fa; subst. inversion Fb; subst. cbn. repeat split; try ring. intros row [].
  - inversion Fa as [|? a ? ra' Ha Fa']; subst. inversion Fb as [|? b ? rb' Hb Fb']; subst.
    destruct (IH ra' rb') as [I1 [I2 [I3 [I4 I5]]]];
      [intros; apply Ra; right; assumption|intros; apply Rb; right; assumption|assumption|assumption|].
    cbn [combine map length rsum fst snd]. rewrite I1, I3, I4, I5.
    assert (La' : length (fst a) = n) by (apply Ra; left; reflexivity).
    assert (Lb' : length (fst b) = n) by (apply Rb; left; reflexivity).
    split; [reflexivity|]. split; [|split; [|split]].
    + intros row [<-|Hr]; [|apply I2, Hr]. cbn [fst]. rewrite app_length, La', Lb'. lia.
    + rewrite app_nth1, Ha by lia. ring.
    + rewrite app_nth2, La' by lia. replace (n + i - n)%nat with i by lia. rewrite Hb. ring.
    + ring.
Qed.

Lemma sum12 (a b : R) (x y : vec3 * mat3) :
  rsum (map (fun k => (if Nat.ltb k 3 then a else b) * (if Nat.ltb k 3 then a else b) * (sel12 k x * sel12 k y)) (seq 0 12)) =
  a * a * vdot (fst x) (fst y) + b * b * mdot (snd x) (snd y).
Proof.
  destruct x as [v [c0 c1 c2]], y as [w [e0 e1 e2]]. cbn. unfold sel12, vcomp, mdot, vdot; cbn. ring.
Qed.

Definition used (j : nat) : bool := negb (Reqb (nth j (ssq_rotw E) 0) 0 && Reqb (nth j (ssq_posw E) 0) 0).

(** Per joint, what the rows hold and what addGradient adds agree. *)
Lemma jac_loop_ok is : ssq_nonneg E -> (forall j, In j is -> (j < length (ssq_sk E))%nat) ->
  forall ga gb, length ga = pt_cols (ssq_pt E) -> length gb = pt_cols (ssq_pt E) ->
  exists e ga' gb' rows,
    ssq_grad_loop E (path pa xa) (path pb xb) is ga gb = Ok (e, (ga', gb')) /\
    ssq_jac_loop E (pt_cols (ssq_pt E)) (path pa xa) (path pb xb) is = Ok (e, rows) /\
    length rows = (12 * length (filter used is))%nat /\
    (forall row, In row rows -> length (fst row) = (2 * pt_cols (ssq_pt E))%nat) /\
    2 * col_r rows i = nth i ga' 0 - nth i ga 0 /\
    2 * col_r rows (pt_cols (ssq_pt E) + i) = nth i gb' 0 - nth i gb 0 /\
    rsum (map (fun row => snd row * snd row) rows) = e.
Proof.
  intros [NW [NP [NR NJ]]]. induction is as [|j is IH]; intros HI ga gb HGa HGb.
  - exists 0, ga, gb, []. cbn. repeat split; try (unfold col_r; cbn; ring). intros row [].
  - assert (Hj : (j < length (ssq_sk E))%nat) by (apply HI; left; reflexivity).
    assert (HI' : forall k, In k is -> (k < length (ssq_sk E))%nat) by (intros; apply HI; right; assumption).
    destruct (chain_exists (ssq_sk E) V j Hj) as [l Hc].
    pose proof (sqw_posw E W0) as Wp. pose proof (sqw_rotw E W0) as Wr.
    cbn [ssq_grad_loop ssq_jac_loop]. rewrite !rd_nth by (rewrite ?Wp, ?Wr; exact Hj). cbn [obind].
    cbn [filter]. unfold used at 1.
    destruct (Reqb (nth j (ssq_rotw E) 0) 0 && Reqb (nth j (ssq_posw E) 0) 0)%bool eqn:ZB; cbn [negb].
    + destruct (IH HI' ga gb HGa HGb) as [e [ga' [gb' [rows Q]]]]. exists e, ga', gb', rows. exact Q.
    + rewrite (rd_a j Hj). cbn [obind]. rewrite (rd_b' j Hj). cbn [obind].
      set (pw := kSsqPositionWeight * ssq_posWgt E * ssq_weight E * nth j (ssq_posw E) 0).
      set (rw := kSsqOrientationWeight * ssq_rotWgt E * ssq_weight E * nth j (ssq_rotw E) 0).
      set (diff := ssq_diff (jsa xa j) (jsb xb j)). set (rdiff := ssq_rotdiff (jsa xa j) (jsb xb j)).
      destruct (NJ j Hj) as [NJp NJr].
      assert (Ppw : 0 <= pw).
      { unfold pw, kSsqPositionWeight. apply Rmult_le_pos; [|exact NJp]. apply Rmult_le_pos; [|exact NW]. apply Rmult_le_pos; lra. }
      assert (Prw : 0 <= rw).
      { unfold rw, kSsqOrientationWeight. apply Rmult_le_pos; [|exact NJr]. apply Rmult_le_pos; [|exact NW]. apply Rmult_le_pos; lra. }
      destruct (add_gradient_ok pa La (path pa) HSa j l (-1) pw rw diff rdiff ga Hj Hc HGa) as [g1 [F1 [M1 N1]]].
      destruct (add_gradient_ok pb Lb (path pb) HSb j l 1 pw rw diff rdiff gb Hj Hc HGb) as [g2 [F2 [M2 N2]]].
      fold xa in F1. fold xb in F2. rewrite F1. cbn [obind]. rewrite F2. cbn [obind].
      destruct (IH HI' g1 g2 ltac:(congruence) ltac:(congruence)) as [e [ga' [gb' [rows [E3 [E4 [L4 [R4 [C1 [C2 Q4]]]]]]]]]].
      rewrite E3. cbn [obind fst snd]. fold S.
      destruct (jt_ok S i W V pa La Hi (path pa) HSa j l Hj Hc) as [ta [Ta Sa]].
      destruct (jt_ok S i W V pb Lb Hi (path pb) HSb j l Hj Hc) as [tb [Tb Sb]].
      fold xa in Ta. fold xb in Tb. rewrite Ta. cbn [obind]. rewrite Tb. cbn [obind].
      assert (K12 : forall k, In k (seq 0 12) -> (k < 12)%nat) by (intros k H; apply in_seq in H; lia).
      destruct (st_rows_ok S i WP pa La Hi (path pa) j l Hj ta Sa (-1 * sqrt pw) (-1 * sqrt rw) (diff, rdiff) (seq 0 12) K12)
        as [ra [Ea [_ [Wa Fa]]]].
      destruct (st_rows_ok S i WP pb Lb Hi (path pb) j l Hj tb Sb (1 * sqrt pw) (1 * sqrt rw) (diff, rdiff) (seq 0 12) K12)
        as [rb [Eb [_ [Wb Fb]]]].
      rewrite La in Ea, Wa. rewrite Lb in Eb, Wb. rewrite Ea. cbn [obind]. rewrite Eb. cbn [obind]. rewrite E4. cbn [obind fst snd].
      set (f := fun k => if Nat.ltb k 3 then sqrt pw else sqrt rw).
      destruct (zip_rows f (diff, rdiff) (pt_cols (ssq_pt E)) (vpair S i pa (path pa) j l) (vpair S i pb (path pb) j l)
        (seq 0 12) Hi ra rb Wa Wb) as [Z1 [Z2 [Z3 [Z4 Z5]]]].
      { clear - Fa. induction Fa as [|k row ks rows [_ H] Fa IH]; constructor; [|exact IH].
        rewrite H. unfold f. destruct (Nat.ltb k 3); reflexivity. }
      { clear - Fb. induction Fb as [|k row ks rows [_ H] Fb IH]; constructor; [|exact IH].
        rewrite H. unfold f. destruct (Nat.ltb k 3); ring. }
      unfold f in Z3, Z4, Z5. rewrite sum12 in Z3, Z4, Z5. rewrite !sqrt_sqrt in Z3, Z4, Z5 by assumption.
      cbn [fst snd vpair] in Z3, Z4, Z5. unfold f in Z1, Z2. clear Sa Sb Fa Fb.
      match type of Z1 with length ?r = _ => set (rs := r) in * end.
      exists (msq rdiff * rw + vnorm2 diff * pw + e), ga', gb', (rs ++ rows).
      split; [reflexivity|]. split; [reflexivity|]. split; [|split; [|split; [|split]]].
      * rewrite app_length, Z1, L4, seq_length. cbn [length]. lia.
      * intros r Hr. apply in_app_or in Hr as [Hr|Hr]; auto.
      * unfold col_r in *. rewrite map_app, rsum_app, Rmult_plus_distr_l, C1, Z3, N1. unfold mdot. cbn [col0 col1 col2]. ring.
      * unfold col_r in *. rewrite map_app, rsum_app, Rmult_plus_distr_l, C2, Z4, N2. unfold mdot. cbn [col0 col1 col2]. ring.
      * rewrite map_app, rsum_app, Q4, Z5. unfold msq, mdot, vnorm2. ring.
Qed.
End Two.

Lemma set_nth_store p i v : set_nth p i v = store p i v.
Proof. revert i. induction p as [|x p IH]; intros [|i]; cbn; congruence. Qed.
Lemma nudged_length p i c t : length (nudged p i c t) = length p.
Proof. apply set_nth_length. Qed.
Lemma nth_firstn_lt (g : list R) n i : (i < n)%nat -> nth i (firstn n g) 0 = nth i g 0.
Proof.
  revert n i. induction g as [|x g IH]; intros [|n] [|i] H; cbn; try reflexivity; try lia. apply IH. lia.
Qed.
Lemma nth_skipn_add (g : list R) n i : nth i (skipn n g) 0 = nth (n + i) g 0.
Proof. revert n. induction g as [|x g IH]; intros [|n]; cbn; try reflexivity; [destruct i; reflexivity|apply IH]. Qed.

Lemma gradient_poses E a b i g :
  character_wf (ssq_sk E) (ssq_pt E) -> ssq_wf E -> drives_active E i ->
  length a = pt_cols (ssq_pt E) -> length b = pt_cols (ssq_pt E) -> (i < pt_cols (ssq_pt E))%nat ->
  length g = (2 * pt_cols (ssq_pt E))%nat ->
  exists g', ssq_gradient E [pose_at E a; pose_at E b] g = Ok (pose_change E (pose_at E a) (pose_at E b), g') /\
    length g' = length g /\
    forall ca cb, is_derive (fun t => pose_change E (pose_at E (nudged a i ca t)) (pose_at E (nudged b i cb t))) 0
      (ca * (nth i g' 0 - nth i g 0) + cb * (nth (pt_cols (ssq_pt E) + i) g' 0 - nth (pt_cols (ssq_pt E) + i) g 0)).
Proof.
  intros HC W HA La Lb Hi Lg. set (n := pt_cols (ssq_pt E)) in *.
  unfold ssq_gradient. cbn [ssq_two obind fst snd]. fold n. rewrite Lg, Nat.eqb_refl. cbn [check obind].
  assert (L1 : length (firstn n g) = n) by (rewrite firstn_length; lia).
  assert (L2 : length (skipn n g) = n) by (rewrite skipn_length; lia).
  assert (G : exists ga' gb', ssq_grad_loop E (pose_at E a) (pose_at E b) (seq 0 (length (ssq_sk E))) (firstn n g) (skipn n g) =
      Ok (pose_change E (pose_at E a) (pose_at E b), (ga', gb')) /\ length ga' = n /\ length gb' = n /\
    forall ca cb, is_derive (fun t => pose_change E (pose_at E (nudged a i ca t)) (pose_at E (nudged b i cb t))) 0
      (ca * (nth i ga' 0 - nth i (firstn n g) 0) + cb * (nth i gb' 0 - nth i (skipn n g) 0))).
  { destruct (Nat.eq_dec (length (ssq_sk E)) 0) as [Z|NZ].
    - exists (firstn n g), (skipn n g). rewrite Z. split; [|split; [exact L1|split; [exact L2|]]].
      + cbn. unfold pose_change. rewrite Z. unfold sumn. cbn. rewrite Rmult_0_r. reflexivity.
      + intros ca cb. eapply d_ext; [|eapply d_eq; [apply (d_const 0)|ring]].
        intros t. unfold pose_change. rewrite Z. unfold sumn. cbn. ring.
    - destruct (grad_loop_ok E i HC W HA a b La Lb Hi ltac:(lia) (seq 0 (length (ssq_sk E)))
        ltac:(intros j Hj; apply in_seq in Hj; lia) (firstn n g) (skipn n g) L1 L2) as [ga' [gb' [E1 [M1 [M2 D]]]]].
      rewrite !set_nth_self in E1 by lia.
      exists ga', gb'. split; [exact E1|]. split; [congruence|]. split; [congruence|]. exact D. }
  destruct G as [ga' [gb' [E1 [M1 [M2 D]]]]]. rewrite E1. cbn [obind fst snd].
  exists (ga' ++ gb'). split; [reflexivity|]. split; [rewrite app_length; lia|].
  intros ca cb. rewrite app_nth1 by lia. rewrite app_nth2 by lia. rewrite M1.
  replace (n + i - n)%nat with i by lia. rewrite <- (nth_firstn_lt g n i Hi), <- nth_skipn_add. apply D.
Qed.

Lemma filter_used E : ssq_wf E ->
  length (filter (fun pr => (negb (Reqb (fst pr) 0) || negb (Reqb (snd pr) 0))%bool) (combine (ssq_posw E) (ssq_rotw E))) =
  length (filter (used E) (seq 0 (length (ssq_sk E)))).
Proof.
  intros [LP LR _]. unfold used.
  rewrite <- LP. assert (LL : length (ssq_rotw E) = length (ssq_posw E)) by congruence. clear LP LR.
  generalize dependent (ssq_rotw E). generalize (ssq_posw E). clear.
  induction l as [|a l IH]; intros [|b m] HL; try discriminate; [reflexivity|].
  cbn [combine filter length seq]. rewrite <- seq_shift. injection HL as HL.
  assert (X : forall (P : nat -> bool) l, length (filter P (map Datatypes.S l)) = length (filter (fun j => P (Datatypes.S j)) l)).
  { intros P k. induction k as [|x k IHk]; [reflexivity|]. cbn. destruct (P (Datatypes.S x)); cbn; congruence. }
  cbn [nth fst snd]. rewrite negb_andb, orb_comm.
  destruct (negb (Reqb b 0) || negb (Reqb a 0))%bool; cbn [length]; rewrite X; rewrite (IH m HL); reflexivity.
Qed.

Lemma jacobian_poses E a b i :
  character_wf (ssq_sk E) (ssq_pt E) -> ssq_wf E -> drives_active E i -> ssq_nonneg E ->
  length a = pt_cols (ssq_pt E) -> length b = pt_cols (ssq_pt E) -> (i < pt_cols (ssq_pt E))%nat ->
  exists g' rows, ssq_gradient E [pose_at E a; pose_at E b] (repeat 0 (2 * pt_cols (ssq_pt E))) =
      Ok (pose_change E (pose_at E a) (pose_at E b), g') /\
    ssq_jacobian E (2 * pt_cols (ssq_pt E)) [pose_at E a; pose_at E b] =
      Ok (pose_change E (pose_at E a) (pose_at E b), rows, length rows) /\
    length rows = ssq_jacobian_size E /\
    (forall row, In row rows -> length (fst row) = (2 * pt_cols (ssq_pt E))%nat) /\
    2 * col_r rows i = nth i g' 0 /\
    2 * col_r rows (pt_cols (ssq_pt E) + i) = nth (pt_cols (ssq_pt E) + i) g' 0 /\
    rsum (map (fun row => snd row * snd row) rows) = pose_change E (pose_at E a) (pose_at E b).
Proof.
  intros HC W HA NN La Lb Hi. set (n := pt_cols (ssq_pt E)) in *. set (g := repeat 0 (2 * n)).
  assert (Lg : length g = (2 * n)%nat) by apply repeat_length.
  destruct (gradient_poses E a b i g HC W HA La Lb Hi Lg) as [g0 [E0 [L0 _]]].
  unfold ssq_gradient, ssq_jacobian in *. cbn [ssq_two obind fst snd] in E0 |- *. fold n in E0 |- *.
  rewrite Lg, Nat.eqb_refl in E0. rewrite Lg, !Nat.eqb_refl. cbn [check obind] in E0 |- *.
  assert (L1 : length (firstn n g) = n) by (rewrite firstn_length; lia).
  assert (L2 : length (skipn n g) = n) by (rewrite skipn_length; lia).
  assert (Z0 : forall k, nth k g 0 = 0) by (intros k; apply nth_repeat).
  assert (G : exists e ga' gb' rows,
    ssq_grad_loop E (pose_at E a) (pose_at E b) (seq 0 (length (ssq_sk E))) (firstn n g) (skipn n g) = Ok (e, (ga', gb')) /\
    ssq_jac_loop E n (pose_at E a) (pose_at E b) (seq 0 (length (ssq_sk E))) = Ok (e, rows) /\
    length rows = (12 * length (filter (used E) (seq 0 (length (ssq_sk E)))))%nat /\
    (forall row, In row rows -> length (fst row) = (2 * n)%nat) /\
    2 * col_r rows i = nth i ga' 0 - nth i (firstn n g) 0 /\
    2 * col_r rows (n + i) = nth i gb' 0 - nth i (skipn n g) 0 /\
    rsum (map (fun row => snd row * snd row) rows) = e /\ length ga' = n).
  { destruct (Nat.eq_dec (length (ssq_sk E)) 0) as [Z|NZ].
    - exists 0, (firstn n g), (skipn n g), []. rewrite Z. cbn. repeat split; try (unfold col_r; cbn; ring); auto. intros row [].
    - assert (HI : forall j, In j (seq 0 (length (ssq_sk E))) -> (j < length (ssq_sk E))%nat)
        by (intros j Hj; apply in_seq in Hj; lia).
      destruct (jac_loop_ok E i HC W HA a b La Lb Hi ltac:(lia) (seq 0 (length (ssq_sk E))) NN HI (firstn n g) (skipn n g) L1 L2)
        as [e [ga' [gb' [rows [E1 [E2 [L3 [R3 [C1 [C2 Q]]]]]]]]]].
      destruct (grad_loop_ok E i HC W HA a b La Lb Hi ltac:(lia) (seq 0 (length (ssq_sk E))) HI (firstn n g) (skipn n g) L1 L2)
        as [ga2 [gb2 [E3 [M1 _]]]].
      rewrite !set_nth_self in E1, E2, E3 by lia.
      exists e, ga', gb', rows. repeat split; try assumption. rewrite E1 in E3. injection E3 as _ <- _. congruence. }
  destruct G as [e [ga' [gb' [rows [E1 [E2 [L3 [R3 [C1 [C2 [Q M1]]]]]]]]]]].
  rewrite E1 in E0 |- *. cbn [obind fst snd] in *. injection E0 as -> <-.
  exists (ga' ++ gb'), rows. split; [reflexivity|]. rewrite E2. cbn [obind fst snd].
  assert (LS : length rows = ssq_jacobian_size E) by (rewrite L3; unfold ssq_jacobian_size; rewrite (filter_used E W); lia).
  rewrite LS, Nat.leb_refl. split; [reflexivity|]. split; [reflexivity|]. split; [exact R3|].
  rewrite (nth_firstn_lt g n i Hi), Z0, Rminus_0_r in C1. rewrite nth_skipn_add, Z0, Rminus_0_r in C2.
  rewrite app_nth1 by lia. rewrite app_nth2 by lia. rewrite M1. replace (n + i - n)%nat with i by lia.
  split; [exact C1|]. split; [exact C2|exact Q].
Qed.

(** ** As a function of a sequence *)

Lemma moved_two a b i c t :
  moved_window [a; b] i c t = [nudged a i (c 0%nat) t; nudged b i (c 1%nat) t].
Proof. unfold moved_window, nudged. cbn. rewrite !set_nth_store. reflexivity. Qed.

Lemma error_at E a b : character_wf (ssq_sk E) (ssq_pt E) -> ssq_wf E ->
  length a = pt_cols (ssq_pt E) -> length b = pt_cols (ssq_pt E) ->
  se_error (of_state_sequence E) [a; b] = pose_change E (pose_at E a) (pose_at E b).
Proof.
  intros HC W La Lb. cbn [of_state_sequence se_error map].
  rewrite ssq_error_ok; [reflexivity|exact W| |]; apply pose_ok; assumption.
Qed.

Lemma good_gradient_ok E a b : character_wf (ssq_sk E) (ssq_pt E) -> ssq_wf E ->
  (forall i, drives_active E i) ->
  length a = pt_cols (ssq_pt E) -> length b = pt_cols (ssq_pt E) -> (0 < pt_cols (ssq_pt E))%nat ->
  good_gradient (pt_cols (ssq_pt E)) (of_state_sequence E) [a; b].
Proof.
  intros HC W HA La Lb HN. constructor.
  - rewrite error_at by assumption. cbn [of_state_sequence se_gerror map].
    destruct (gradient_poses E a b 0 (repeat 0 (2 * pt_cols (ssq_pt E))) HC W (HA _) La Lb HN (repeat_length _ _)) as [g' [E1 _]].
    rewrite E1. reflexivity.
  - intros i c Hi. cbn [length]. unfold sumn. cbn [seq map rsum].
    destruct (gradient_poses E a b i (repeat 0 (2 * pt_cols (ssq_pt E))) HC W (HA _) La Lb Hi (repeat_length _ _)) as [g' [E1 [_ D]]].
    apply (d_ext (fun t => pose_change E (pose_at E (nudged a i (c 0%nat) t)) (pose_at E (nudged b i (c 1%nat) t)))).
    { intros t. rewrite moved_two. symmetry. apply error_at; try assumption; unfold nudged; rewrite set_nth_length; assumption. }
    eapply d_eq; [apply (D (c 0%nat) (c 1%nat))|].
    cbn [of_state_sequence se_grad map]. rewrite E1. cbn [ok_or fst snd].
    rewrite !nth_repeat. rewrite Nat.mul_0_l, Nat.mul_1_l, !Nat.add_0_l. ring.
Qed.

Lemma good_jacobian_ok E a b : character_wf (ssq_sk E) (ssq_pt E) -> ssq_wf E ->
  (forall i, drives_active E i) -> ssq_nonneg E ->
  length a = pt_cols (ssq_pt E) -> length b = pt_cols (ssq_pt E) -> (0 < pt_cols (ssq_pt E))%nat ->
  good_jacobian (pt_cols (ssq_pt E)) (of_state_sequence E) [a; b].
Proof.
  intros HC W HA NN La Lb HN.
  constructor.
  - destruct (jacobian_poses E a b 0 HC W (HA _) NN La Lb HN) as [g' [rows [_ [E2 _]]]].
    rewrite error_at by assumption. cbn [of_state_sequence se_jerror map]. rewrite E2. reflexivity.
  - destruct (jacobian_poses E a b 0 HC W (HA _) NN La Lb HN) as [g' [rows [_ [E2 [L2 _]]]]].
    cbn [of_state_sequence se_rows se_used se_size map]. rewrite E2. cbn [ok_or fst snd]. rewrite map_length. lia.
  - intros sub i Hs Hi. cbn [length] in Hs.
    destruct (jacobian_poses E a b i HC W (HA _) NN La Lb Hi) as [g' [rows [E1 [E2 [_ [_ [C1 [C2 _]]]]]]]].
    cbn [of_state_sequence se_rows se_grad map]. rewrite E1, E2. cbn [ok_or fst snd]. rewrite map_map. cbn [fst snd].
    destruct sub as [|[|sub]]; [| |lia].
    + rewrite Nat.mul_0_l, Nat.add_0_l. exact C1.
    + rewrite Nat.mul_1_l. exact C2.
Qed.

(** ** When it is zero *)

Lemma vnorm2_pos v : 0 <= vnorm2 v.
Proof. unfold vnorm2, vdot. pose proof (Rle_0_sqr (vx v)). pose proof (Rle_0_sqr (vy v)). pose proof (Rle_0_sqr (vz v)). unfold Rsqr in *. lra. Qed.
Lemma vnorm2_zero v : vnorm2 v = 0 -> v = vzero.
Proof.
  intros H. unfold vnorm2, vdot in H. pose proof (Rle_0_sqr (vx v)). pose proof (Rle_0_sqr (vy v)). pose proof (Rle_0_sqr (vz v)). unfold Rsqr in *.
  destruct v as [x y z]. cbn in *. unfold vzero. f_equal.
  - destruct (Rmult_integral x x); lra.
  - destruct (Rmult_integral y y); lra.
  - destruct (Rmult_integral z z); lra.
Qed.
Lemma vsub_zero a b : vsub a b = vzero -> a = b.
Proof. destruct a, b. unfold vsub, vzero. cbn. intros H. injection H as H1 H2 H3. f_equal; lra. Qed.
Lemma vnorm2_vsub_sym a b : vnorm2 (vsub a b) = vnorm2 (vsub b a).
Proof. unfold vnorm2, vdot. cbn. ring. Qed.
