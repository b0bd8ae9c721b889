From Coq Require Import Bool Reals List Arith Lia Lra Psatz.
From Coquelicot Require Import Coquelicot.
From Verif Require Import Prelude LinAlg Rbool R3 Transform_model Transform_proofs Skeleton_model
  Skeleton_spec FK_model FK_spec FK_proofs FK_deriv_proofs FK_axis_proofs ParamTransform_model
  ParamTransform_spec ParamTransform_proofs Limits_model Limits_spec Limits_proofs Loss_model
  Loss_proofs Constraint_model Constraint_spec Constraint_eval_proofs Constraint_proofs
  Constraint_deriv_proofs ErrFn_model ErrFn_spec ErrFn_mp_proofs.
Import ListNotations.
Local Open Scope R_scope.

(** ** Terms *)

Lemma active_vals_ok {A} active base (l : list (nat * A)) :
  (forall k d, In (k, d) l -> (base + k < length active)%nat) ->
  exists ts, active_vals active base l = Ok ts /\
    (forall g C, inactive0 active C ->
      rsum (map (fun x => g (snd x) * C (fst x)) ts) =
      rsum (map (fun x => g (snd x) * C (base + fst x)%nat) l)).
Proof.
  induction l as [|[k d] l IH]; intros H.
  - exists []. split; reflexivity.
  - destruct IH as [ts [E S]]; [intros; eapply H; right; eassumption|].
    cbn [active_vals]. rewrite (rd_b active (base + k)) by (eapply H; left; reflexivity).
    cbn [obind]. rewrite E. cbn [obind]. eexists; split; [reflexivity|].
    intros g C Z. cbn [map rsum fst snd]. rewrite <- (S g C Z).
    destruct (nth (base + k) active false) eqn:A1; cbn [map rsum fst snd]; [reflexivity|].
    rewrite (Z _ A1). ring.
Qed.

Definition pair_fun (g0 g1 g2 g3 : vec3 -> R) (x : vec3 * mat3) : R :=
  g0 (fst x) + (g1 (col0 (snd x)) + g2 (col1 (snd x)) + g3 (col2 (snd x))).

Lemma st_dofs_ok active si j sj : (j * 7 + 7 <= length active)%nat ->
  exists ts, st_dofs active si j sj = Ok ts /\
    forall g0 g1 g2 g3 C, linear g0 -> linear g1 -> linear g2 -> linear g3 -> inactive0 active C ->
      rsum (map (fun x => pair_fun g0 g1 g2 g3 (snd x) * C (fst x)) ts) =
      g0 (joint_velocity sj (jpC C j) (trans (js_world si))) +
      (g1 (axis_velocity sj (jpC C j) (col0 (qmat (rot (js_world si))))) +
       g2 (axis_velocity sj (jpC C j) (col1 (qmat (rot (js_world si))))) +
       g3 (axis_velocity sj (jpC C j) (col2 (qmat (rot (js_world si)))))).
Proof.
  intros HA. unfold st_dofs. cbv zeta.
  match goal with |- context [active_vals active ?b ?l] => destruct (active_vals_ok active b l) as [ts [E S]] end.
  { intros k d H. cbn [In] in H. repeat destruct H as [H|H]; try contradiction; injection H as <- _; lia. }
  exists ts. split; [exact E|]. intros g0 g1 g2 g3 C L0 L1 L2 L3 Z. rewrite S by exact Z.
  unfold joint_velocity, axis_velocity. rewrite !linear_vsum by assumption.
  pose proof (linear_zero _ L1) as Z1. pose proof (linear_zero _ L2) as Z2. pose proof (linear_zero _ L3) as Z3.
  destruct L0 as [_ L0], L1 as [_ L1], L2 as [_ L2], L3 as [_ L3].
  cbn [map rsum fst snd jpC jtx jty jtz jrx jry jrz jsc]. rewrite !L0, !L1, !L2, !L3.
  unfold pair_fun, st_rotD. cbn [fst snd col0 col1 col2]. rewrite Z1, Z2, Z3.
  change (3 + 0)%nat with 3%nat. change (3 + 1)%nat with 4%nat. change (3 + 2)%nat with 5%nat.
  rewrite (Nat.mul_comm j 7). unfold get_rotation_derivative. ring.
Qed.

Lemma st_terms_ok E sts i si l :
  valid_sk (st_sk E) -> length sts = length (st_sk E) -> chain (st_sk E) i l ->
  (7 * length (st_sk E) <= length (st_active E))%nat ->
  exists ts, st_terms E sts i si = Ok ts /\
    forall g0 g1 g2 g3 C, linear g0 -> linear g1 -> linear g2 -> linear g3 -> inactive0 (st_active E) C ->
      rsum (map (fun x => pair_fun g0 g1 g2 g3 (snd x) * C (fst x)) ts) =
      g0 (chain_vel sts C l true (trans (js_world si))) +
      (g1 (chain_vel sts C l false (col0 (qmat (rot (js_world si))))) +
       g2 (chain_vel sts C l false (col1 (qmat (rot (js_world si))))) +
       g3 (chain_vel sts C l false (col2 (qmat (rot (js_world si)))))).
Proof.
  intros V HL Hc HA. unfold st_terms.
  assert (HR : forall a, In a l -> (a < length (st_sk E))%nat) by (apply (chain_in_range _ _ _ Hc)).
  pose proof (chain_length _ _ _ V Hc) as Hlen.
  assert (Hj : (i < length (st_sk E))%nat).
  { inversion Hc; subst; apply nth_error_Some; congruence. }
  assert (HT : forall a, In a l -> exists s ts, nth_error sts a = Some s /\ st_dofs (st_active E) si a s = Ok ts).
  { intros a Ha. pose proof (HR a Ha) as Ra.
    destruct (nth_error sts a) as [s|] eqn:Es; [|apply nth_error_None in Es; lia].
    destruct (st_dofs_ok (st_active E) si a s ltac:(lia)) as [ts [E1 _]]. exists s, ts. split; [reflexivity|exact E1]. }
  destruct (walk_ok (st_sk E) sts (st_dofs (st_active E) si) _ l Hc HT (length (st_sk E)) ltac:(lia)) as [tss [E1 F]].
  exists (concat tss). split; [exact E1|].
  intros g0 g1 g2 g3 C L0 L1 L2 L3 I.
  set (f := fun a => match nth_error sts a with
     | Some sa => g0 (joint_velocity sa (jpC C a) (trans (js_world si))) +
      (g1 (axis_velocity sa (jpC C a) (col0 (qmat (rot (js_world si))))) +
       g2 (axis_velocity sa (jpC C a) (col1 (qmat (rot (js_world si))))) +
       g3 (axis_velocity sa (jpC C a) (col2 (qmat (rot (js_world si))))))
     | None => 0 end).
  transitivity (rsum (map f (rev l))).
  - assert (CC : forall tss0, rsum (map (fun x => pair_fun g0 g1 g2 g3 (snd x) * C (fst x)) (concat tss0)) =
      rsum (map (fun ts => rsum (map (fun x => pair_fun g0 g1 g2 g3 (snd x) * C (fst x)) ts)) tss0)).
    { induction tss0 as [|t tss0 IH]; [reflexivity|]. cbn [concat map rsum]. rewrite map_app, rsum_app, IH. reflexivity. }
    rewrite CC. symmetry. eapply rsum_Forall2; [exact F|]. intros a ts Ha [s [Es Et]].
    apply in_rev in Ha. pose proof (HR a Ha) as Ra.
    destruct (st_dofs_ok (st_active E) si a s ltac:(lia)) as [ts' [E2 S2]].
    rewrite E2 in Et. injection Et as <-. rewrite S2 by assumption. unfold f. rewrite Es. reflexivity.
  - rewrite map_rev, rsum_rev. unfold chain_vel. rewrite !linear_vsum by assumption. rewrite !map_map.
    rewrite <- !rsum_map_plus. apply rsum_map_ext. intros a _. unfold f.
    destruct (nth_error sts a); unfold vel_of; [ring|].
    rewrite (linear_zero _ L0), (linear_zero _ L1), (linear_zero _ L2), (linear_zero _ L3). ring.
Qed.

Lemma spread_in es ts k v : In (k, v) (spread es ts) -> exists e, In e es /\ ecol e = k.
Proof.
  unfold spread. intros H. apply in_flat_map in H as [x [_ H]]. eapply row_incs_in; exact H.
Qed.
Lemma dsum_spread es ts i : dsum (spread es ts) i = rsum (map (fun rx => snd rx * ent_coeff es (fst rx) i) ts).
Proof.
  induction ts as [|x ts IH]; [reflexivity|]. unfold spread in *. cbn [flat_map map rsum].
  rewrite dsum_app, dsum_row_incs, IH. reflexivity.
Qed.

(** ** The error *)

Lemma pdiff_ok E p : length (st_tpw E) = length p -> length (st_tparams E) = length p ->
  exists pd, st_pdiff E p = Ok pd /\ length pd = length p /\
    forall i, (i < length p)%nat -> nth i pd 0 = (nth i p 0 - nth i (st_tparams E) 0) * nth i (st_tpw E) 0.
Proof.
  intros H1 H2. unfold st_pdiff. rewrite H1, Nat.eqb_refl. eexists; split; [reflexivity|].
  split; [rewrite map_length, !combine_length; lia|]. intros i Hi.
  set (f := fun xtw : R * R * R => (fst (fst xtw) - snd (fst xtw)) * snd xtw).
  rewrite (nth_indep _ 0 (f ((0, 0), 0))) by (rewrite map_length, !combine_length; lia).
  rewrite (map_nth f), combine_nth, combine_nth by (rewrite ?combine_length; lia). reflexivity.
Qed.

Definition st_jerr (E : st_fn) (sts : list jstate) (j : nat) : R :=
  match nth_error sts j, nth_error (st_target E) j with
  | Some s, Some t =>
      st_rotWgt E * nth j (st_rotw E) 0 * msq (st_rotdiff s t) +
      st_posWgt E / 1000 * nth j (st_posw E) 0 * vnorm2 (st_diff s t)
  | _, _ => 0
  end.

Lemma st_err_loop_ok E sts is :
  (forall j, In j is -> (j < length sts)%nat /\ (j < length (st_target E))%nat /\
     (j < length (st_rotw E))%nat /\ (j < length (st_posw E))%nat) ->
  st_err_loop E sts is = Ok (rsum (map (st_jerr E sts) is)).
Proof.
  induction is as [|j is IH]; intros H; [reflexivity|].
  cbn [st_err_loop map rsum]. destruct (H j (or_introl eq_refl)) as [H1 [H2 [H3 H4]]].
  unfold st_jerr at 1.
  assert (R1 : exists s, nth_error sts j = Some s) by (destruct (nth_error sts j) eqn:X; [eauto|apply nth_error_None in X; lia]).
  assert (R2 : exists s, nth_error (st_target E) j = Some s) by (destruct (nth_error (st_target E) j) eqn:X; [eauto|apply nth_error_None in X; lia]).
  destruct R1 as [s R1], R2 as [t R2]. unfold rd at 1. rewrite R1. cbn [obind]. unfold rd at 1. rewrite R2. cbn [obind].
  rewrite !rd_nth by assumption. cbn [obind]. rewrite IH by (intros; apply H; right; assumption). cbn [obind].
  f_equal. unfold kOrientationWeight, kPositionWeight. field.
Qed.

Section St.
Context (E : st_fn) (i : nat) (W : st_wf E i) (V : valid_sk (st_sk E)) (U : unit_prerotations (st_sk E))
  (WP : pt_wf (st_pt E)) (p : list R) (Lp : length p = pt_cols (st_pt E)) (Hi : (i < pt_cols (st_pt E))%nat).

(** The constraint machinery with one dummy constraint gives the paths. *)
Definition dummy : cfn :=
  CFn (st_sk E) (st_pt E) 1 (st_active E) (fun k => Nat.eqb k i) (Loss 2 1 TL2) [] 0 0.
Lemma dummy_wf : cfn_wf dummy.
Proof.
  constructor; cbn.
  - apply (stw_rows E i W).
  - apply (stw_active_len E i W).
  - intros e He Hk. apply Nat.eqb_eq in Hk. apply (stw_active E i W e He Hk).
  - intros c [].
  - lra.
Qed.

Context (sts : R -> list jstate)
  (HS : forall t, state_of (st_sk E) (st_pt E) (set_nth p i t) = Ok (sts t)).
Let t0 := nth i p 0.
Let C := fun r => ent_coeff (pt_entries (st_pt E)) r i.

Lemma sts_len t : length (sts t) = length (st_sk E).
Proof. apply (path_length dummy V p i sts HS). Qed.
Lemma C_in : inactive0 (st_active E) C.
Proof. apply (C_inactive dummy dummy_wf i). cbn. apply Nat.eqb_refl. Qed.

Definition jst (t : R) (j : nat) : jstate := nth j (sts t) (JS mid tf_id tf_id mid mid).
Lemma jst_ok t j : (j < length (st_sk E))%nat -> nth_error (sts t) j = Some (jst t j).
Proof. intros Hj. unfold jst. apply nth_error_nth'. rewrite sts_len. exact Hj. Qed.

Section Joint.
Context (j : nat) (l : list nat) (Hj : (j < length (st_sk E))%nat) (Hc : chain (st_sk E) j l).

Lemma pos_vel : is_vderive (fun t => trans (js_world (jst t j))) t0
  (chain_vel (sts t0) C l true (trans (js_world (jst t0 j)))).
Proof.
  assert (A : forall t, act (jst t j) vzero = trans (js_world (jst t j))).
  { intros t. unfold act. unfold mvec. cbn. generalize (trans (js_world (jst t j))). intros. vec_ring. }
  pose proof (point_vel dummy V U WP p i sts Lp Hi HS (Constr j 0 (CPosition vzero vzero))
    (fun t => jst t j) l Hc (fun t => jst_ok t j Hj) vzero) as P.
  eapply vd_ext; [intros t; exact (A t)|]. rewrite <- (A t0). exact P.
Qed.
Lemma col_vel x : is_vderive (fun t => qrot (rot (js_world (jst t j))) x) t0
  (chain_vel (sts t0) C l false (qrot (rot (js_world (jst t0 j))) x)).
Proof.
  exact (axis_vel dummy V U WP p i sts Lp Hi HS (Constr j 0 (CPosition vzero vzero))
    (fun t => jst t j) l Hc (fun t => jst_ok t j Hj) x).
Qed.
Definition tgt : tf := nth j (st_target E) tf_id.
Lemma tgt_ok : nth_error (st_target E) j = Some tgt.
Proof. unfold tgt. apply nth_error_nth'. rewrite (stw_target E i W). exact Hj. Qed.

Definition vpos := chain_vel (sts t0) C l true (trans (js_world (jst t0 j))).
Definition vcol (x : vec3) := chain_vel (sts t0) C l false (qrot (rot (js_world (jst t0 j))) x).
Definition D_joint : R :=
  st_rotWgt E * nth j (st_rotw E) 0 *
    (2 * (vdot (col0 (st_rotdiff (jst t0 j) tgt)) (vcol ex) + vdot (col1 (st_rotdiff (jst t0 j) tgt)) (vcol ey) +
          vdot (col2 (st_rotdiff (jst t0 j) tgt)) (vcol ez))) +
  st_posWgt E / 1000 * nth j (st_posw E) 0 * (2 * vdot (st_diff (jst t0 j) tgt) vpos).

Lemma sq_vd (f : R -> vec3) c (t : R) f' : is_vderive f t f' ->
  is_derive (fun u => vnorm2 (vsub (f u) c)) t (2 * vdot (vsub (f t) c) f').
Proof.
  intros H. eapply d_eq.
  - apply (vd_dot (fun u => vsub (f u) c) (fun u => vsub (f u) c) t (vsub f' vzero) (vsub f' vzero));
      apply vd_sub; try exact H; apply vd_const.
  - cbv beta. unfold vdot; cbn. ring.
Qed.

Lemma jerr_derive : is_derive (fun t => st_jerr E (sts t) j) t0 D_joint.
Proof.
  eapply d_ext.
  { intros t. unfold st_jerr. rewrite (jst_ok t j Hj), tgt_ok. reflexivity. }
  unfold D_joint. apply d_plus; apply d_scal.
  - eapply d_ext.
    { intros t. unfold msq, st_rotdiff. cbn [col0 col1 col2]. rewrite qmat_col0, qmat_col1, qmat_col2. reflexivity. }
    eapply d_eq.
    + apply d_plus; [apply d_plus|]; apply sq_vd; apply col_vel.
    + unfold st_rotdiff. cbn [col0 col1 col2]. rewrite (qmat_col0 (rot (js_world (jst t0 j)))),
        (qmat_col1 (rot (js_world (jst t0 j)))), (qmat_col2 (rot (js_world (jst t0 j)))). unfold vcol. ring.
  - unfold st_diff. apply sq_vd. apply pos_vel.
Qed.

Lemma jt_ok : exists ts, st_terms E (sts t0) j (jst t0 j) = Ok ts /\
  forall g0 g1 g2 g3, linear g0 -> linear g1 -> linear g2 -> linear g3 ->
    rsum (map (fun x => pair_fun g0 g1 g2 g3 (snd x) * C (fst x)) ts) =
    g0 vpos + (g1 (vcol ex) + g2 (vcol ey) + g3 (vcol ez)).
Proof.
  destruct (st_terms_ok E (sts t0) j (jst t0 j) l V (sts_len t0) Hc) as [ts [E1 S1]].
  { rewrite (stw_active_len E i W), (stw_rows E i W). lia. }
  exists ts. split; [exact E1|]. intros g0 g1 g2 g3 L0 L1 L2 L3.
  rewrite S1 by (try assumption; apply C_in). unfold vpos, vcol. rewrite qmat_col0, qmat_col1, qmat_col2. reflexivity.
Qed.
End Joint.



Lemma ecol_lt e : In e (pt_entries (st_pt E)) -> (ecol e < pt_cols (st_pt E))%nat.
Proof. intros He. apply (wf_entries _ WP e He). Qed.

Lemma rd_joint j : (j < length (st_sk E))%nat -> rd (sts t0) j = Ok (jst t0 j) /\ rd (st_target E) j = Ok (tgt j).
Proof.
  intros Hj. unfold rd. rewrite (jst_ok t0 j Hj), (tgt_ok j Hj). split; reflexivity.
Qed.

Lemma grad_loop_st is : (forall j, In j is -> (j < length (st_sk E))%nat) ->
  forall g, length g = pt_cols (st_pt E) ->
  exists g', st_grad_loop E (sts t0) is g = Ok (st_weight E * rsum (map (st_jerr E (sts t0)) is), g') /\
    length g' = length g /\
    is_derive (fun t => st_weight E * rsum (map (st_jerr E (sts t)) is)) t0 (nth i g' 0 - nth i g 0).
Proof.
  induction is as [|j is IH]; intros HJ g HG.
  - exists g. cbn. split; [f_equal; f_equal; ring|]. split; [reflexivity|]. eapply d_eq; [apply d_const|]. ring.
  - assert (Hj : (j < length (st_sk E))%nat) by (apply HJ; left; reflexivity).
    assert (HJ' : forall k, In k is -> (k < length (st_sk E))%nat) by (intros; apply HJ; right; assumption).
    destruct (chain_exists (st_sk E) V j Hj) as [l Hc].
    pose proof (jerr_derive j l Hj Hc) as DJ.
    cbn [st_grad_loop]. rewrite !rd_nth by (rewrite ?(stw_posw E i W), ?(stw_rotw E i W); exact Hj). cbn [obind].
    destruct (Reqb (nth j (st_rotw E) 0) 0 && Reqb (nth j (st_posw E) 0) 0)%bool eqn:ZB.
    + apply andb_true_iff in ZB as [Zr Zp].
      destruct (Reqb_spec (nth j (st_rotw E) 0) 0) as [Zr'|]; [|discriminate].
      destruct (Reqb_spec (nth j (st_posw E) 0) 0) as [Zp'|]; [|discriminate].
      destruct (IH HJ' g HG) as [g' [E1 [L1 D1]]]. rewrite E1. exists g'.
      assert (ZZ : forall t, st_jerr E (sts t) j = 0).
      { intros t. unfold st_jerr. rewrite (jst_ok t j Hj), (tgt_ok j Hj), Zr', Zp'. ring. }
      split; [cbn [map rsum]; rewrite ZZ; f_equal; f_equal; ring|]. split; [exact L1|].
      eapply d_ext; [|exact D1]. intros t. cbn [map rsum]. cbv beta. rewrite ZZ. ring.
    + destruct (rd_joint j Hj) as [R1 R2]. rewrite R1. cbn [obind]. rewrite R2. cbn [obind].
      destruct (jt_ok j l Hj Hc) as [ts [E1 S1]]. rewrite E1. cbn [obind].
      set (diff := st_diff (jst t0 j) (tgt j)). set (rdiff := st_rotdiff (jst t0 j) (tgt j)).
      set (pw := kPositionWeight * st_posWgt E * st_weight E * nth j (st_posw E) 0).
      set (rw := kOrientationWeight * st_rotWgt E * st_weight E * nth j (st_rotw E) 0).
      match goal with |- context [add_all g ?incs] =>
        destruct (add_all_ok incs g) as [g1 [E2 [L2 N2]]];
        [intros k v Hin; apply spread_in in Hin as [e [He <-]]; rewrite HG; apply ecol_lt, He|] end.
      rewrite E2. cbn [obind].
      destruct (IH HJ' g1 ltac:(congruence)) as [g' [E3 [L3 D3]]]. rewrite E3. cbn [obind fst snd].
      exists g'. split; [|split; [congruence|]].
      * cbn [map rsum]. unfold st_jerr at 2. rewrite (jst_ok t0 j Hj), (tgt_ok j Hj).
        fold diff rdiff. f_equal. f_equal. unfold pw, rw, kPositionWeight, kOrientationWeight. field.
      * apply (d_ext (fun t => st_weight E * st_jerr E (sts t) j + st_weight E * rsum (map (st_jerr E (sts t)) is)));
          [intros t; cbn [map rsum]; ring|].
        eapply d_eq; [apply d_plus; [apply d_scal, DJ|exact D3]|].
        rewrite N2, HG. apply Nat.ltb_lt in Hi as Hb. rewrite Hb, dsum_spread, map_map. cbn [fst snd].
        specialize (S1 (fun v => 2 * pw * vdot diff v) (fun v => 2 * rw * vdot (col0 rdiff) v)
          (fun v => 2 * rw * vdot (col1 rdiff) v) (fun v => 2 * rw * vdot (col2 rdiff) v)
          (dot_linear _ _) (dot_linear _ _) (dot_linear _ _) (dot_linear _ _)).
        match goal with |- context [rsum (map ?h ts)] =>
          replace (rsum (map h ts)) with (rsum (map (fun x => pair_fun (fun v => 2 * pw * vdot diff v) (fun v => 2 * rw * vdot (col0 rdiff) v)
            (fun v => 2 * rw * vdot (col1 rdiff) v) (fun v => 2 * rw * vdot (col2 rdiff) v) (snd x) * C (fst x)) ts)) end.
        -- rewrite S1. unfold D_joint. fold diff rdiff. unfold pw, rw, kPositionWeight, kOrientationWeight. field.
        -- apply rsum_map_ext. intros [r [v m]] _. unfold pair_fun, mdot, C, vdot. cbn [fst snd]. ring.
Qed.

(** ** The rows of one joint *)

Lemma zero_linear : linear (fun _ => 0). Proof. split; intros; ring. Qed.
Lemma vx_linear k : linear (fun v => k * vx v). Proof. split; intros; cbn; ring. Qed.
Lemma vy_linear k : linear (fun v => k * vy v). Proof. split; intros; cbn; ring. Qed.
Lemma vz_linear k : linear (fun v => k * vz v). Proof. split; intros; cbn; ring. Qed.
Hint Resolve zero_linear vx_linear vy_linear vz_linear : lin.

Lemma sel12_linear k f : (k < 12)%nat -> exists g0 g1 g2 g3, linear g0 /\ linear g1 /\ linear g2 /\ linear g3 /\
  forall x, f * sel12 k x = pair_fun g0 g1 g2 g3 x.
Proof.
  intros Hk. destruct k as [|[|[|[|[|[|[|[|[|[|[|[|k]]]]]]]]]]]]; [..|lia].
  1-3: first [ exists (fun v => f * vx v), (fun _ => 0), (fun _ => 0), (fun _ => 0); repeat split; auto with lin; try (intros; cbn; ring);
               intros [v [c0 c1 c2]]; cbn; unfold pair_fun, vcomp; cbn; ring
             | exists (fun v => f * vy v), (fun _ => 0), (fun _ => 0), (fun _ => 0); repeat split; auto with lin; try (intros; cbn; ring);
               intros [v [c0 c1 c2]]; cbn; unfold pair_fun, vcomp; cbn; ring
             | exists (fun v => f * vz v), (fun _ => 0), (fun _ => 0), (fun _ => 0); repeat split; auto with lin; try (intros; cbn; ring);
               intros [v [c0 c1 c2]]; cbn; unfold pair_fun, vcomp; cbn; ring ].
  all: first [ exists (fun _ => 0), (fun v => f * vx v), (fun _ => 0), (fun _ => 0); repeat split; auto with lin; try (intros; cbn; ring);
               intros [v [c0 c1 c2]]; cbn; unfold pair_fun, vcomp; cbn; ring
             | exists (fun _ => 0), (fun v => f * vy v), (fun _ => 0), (fun _ => 0); repeat split; auto with lin; try (intros; cbn; ring);
               intros [v [c0 c1 c2]]; cbn; unfold pair_fun, vcomp; cbn; ring
             | exists (fun _ => 0), (fun v => f * vz v), (fun _ => 0), (fun _ => 0); repeat split; auto with lin; try (intros; cbn; ring);
               intros [v [c0 c1 c2]]; cbn; unfold pair_fun, vcomp; cbn; ring
             | exists (fun _ => 0), (fun _ => 0), (fun v => f * vx v), (fun _ => 0); repeat split; auto with lin; try (intros; cbn; ring);
               intros [v [c0 c1 c2]]; cbn; unfold pair_fun, vcomp; cbn; ring
             | exists (fun _ => 0), (fun _ => 0), (fun v => f * vy v), (fun _ => 0); repeat split; auto with lin; try (intros; cbn; ring);
               intros [v [c0 c1 c2]]; cbn; unfold pair_fun, vcomp; cbn; ring
             | exists (fun _ => 0), (fun _ => 0), (fun v => f * vz v), (fun _ => 0); repeat split; auto with lin; try (intros; cbn; ring);
               intros [v [c0 c1 c2]]; cbn; unfold pair_fun, vcomp; cbn; ring
             | exists (fun _ => 0), (fun _ => 0), (fun _ => 0), (fun v => f * vx v); repeat split; auto with lin; try (intros; cbn; ring);
               intros [v [c0 c1 c2]]; cbn; unfold pair_fun, vcomp; cbn; ring
             | exists (fun _ => 0), (fun _ => 0), (fun _ => 0), (fun v => f * vy v); repeat split; auto with lin; try (intros; cbn; ring);
               intros [v [c0 c1 c2]]; cbn; unfold pair_fun, vcomp; cbn; ring
             | exists (fun _ => 0), (fun _ => 0), (fun _ => 0), (fun v => f * vz v); repeat split; auto with lin; try (intros; cbn; ring);
               intros [v [c0 c1 c2]]; cbn; unfold pair_fun, vcomp; cbn; ring ].
Qed.

Section Rows.
Context (j : nat) (l : list nat) (Hj : (j < length (st_sk E))%nat) (Hc : chain (st_sk E) j l)
  (ts : list (nat * (vec3 * mat3)))
  (HT : forall g0 g1 g2 g3, linear g0 -> linear g1 -> linear g2 -> linear g3 ->
    rsum (map (fun x => pair_fun g0 g1 g2 g3 (snd x) * C (fst x)) ts) =
    g0 (vpos j l) + (g1 (vcol j l ex) + g2 (vcol j l ey) + g3 (vcol j l ez))).

Definition vpair : vec3 * mat3 := (vpos j l, M3 (vcol j l ex) (vcol j l ey) (vcol j l ez)).

Lemma st_rows_ok wgt awgt d ks : (forall k, In k ks -> (k < 12)%nat) ->
  exists rows, st_rows E (length p) wgt awgt d ts ks = Ok rows /\
    length rows = length ks /\ (forall row, In row rows -> length (fst row) = length p) /\
    Forall2 (fun k row => snd row = (if Nat.ltb k 3 then wgt else awgt) * sel12 k d /\
                          nth i (fst row) 0 = (if Nat.ltb k 3 then wgt else awgt) * sel12 k vpair) ks rows.
Proof.
  induction ks as [|k ks IH]; intros HK.
  - exists []. repeat split; try constructor. intros row [].
  - destruct IH as [rows [E1 [L1 [W1 F1]]]]; [intros; apply HK; right; assumption|].
    cbn [st_rows]. set (f := if Nat.ltb k 3 then wgt else awgt).
    match goal with |- context [add_all ?g ?incs] => destruct (add_all_ok incs g) as [row [E2 [L2 N2]]] end.
    { intros k' v Hin. apply spread_in in Hin as [e [He <-]]. rewrite repeat_length, Lp. apply ecol_lt, He. }
    rewrite E2. cbn [obind]. rewrite E1. cbn [obind]. eexists. split; [reflexivity|].
    rewrite repeat_length in *. split; [cbn; congruence|]. split.
    + intros r [<-|Hr]; [exact L2|apply W1, Hr].
    + constructor; [|exact F1]. cbn [fst snd]. fold f. split; [ring|].
      rewrite N2, zrow_nth. assert (Hb : Nat.ltb i (length p) = true) by (apply Nat.ltb_lt; lia).
      rewrite Hb, dsum_spread, map_map. cbn [fst snd].
      destruct (sel12_linear k f) as [g0 [g1 [g2 [g3 [A0 [A1 [A2 [A3 EQ]]]]]]]]; [apply HK; left; reflexivity|].
      rewrite EQ. unfold vpair at 1. unfold pair_fun at 1. cbn [fst snd col0 col1 col2].
      rewrite <- (HT g0 g1 g2 g3 A0 A1 A2 A3), Rplus_0_l. apply rsum_map_ext. intros x _.
      rewrite <- EQ. unfold C. ring.
Qed.

Lemma st_rows12 wgt awgt d : exists rows, st_rows E (length p) wgt awgt d ts (seq 0 12) = Ok rows /\
  length rows = 12%nat /\ (forall row, In row rows -> length (fst row) = length p) /\
  jt_r rows i = wgt * wgt * vdot (fst d) (vpos j l) +
    awgt * awgt * (vdot (col0 (snd d)) (vcol j l ex) + vdot (col1 (snd d)) (vcol j l ey) + vdot (col2 (snd d)) (vcol j l ez)) /\
  rsum (map (fun row => snd row * snd row) rows) = wgt * wgt * vnorm2 (fst d) + awgt * awgt * msq (snd d).
Proof.
  destruct (st_rows_ok wgt awgt d (seq 0 12)) as [rows [E1 [L1 [W1 F1]]]]; [intros k H; apply in_seq in H; lia|].
  exists rows. split; [exact E1|]. split; [rewrite L1; apply seq_length|]. split; [exact W1|].
  split.
  - unfold jt_r. rewrite (Forall2_rsum _ (fun k => ((if Nat.ltb k 3 then wgt else awgt) * sel12 k d) *
        ((if Nat.ltb k 3 then wgt else awgt) * sel12 k vpair)) _ _ _ F1).
    + destruct d as [v [c0 c1 c2]]. unfold vpair.
      generalize (vpos j l) (vcol j l ex) (vcol j l ey) (vcol j l ez). intros u0 u1 u2 u3.
      cbn. unfold sel12, vcomp, vdot; cbn. ring.
    + intros k row [-> ->]. ring.
  - rewrite (Forall2_rsum _ (fun k => ((if Nat.ltb k 3 then wgt else awgt) * sel12 k d) *
        ((if Nat.ltb k 3 then wgt else awgt) * sel12 k d)) _ _ _ F1).
    + destruct d as [v [c0 c1 c2]]. cbn. unfold sel12, vcomp, msq, vnorm2, vdot; cbn. ring.
    + intros k row [-> _]. ring.
Qed.
End Rows.

Definition jnt_used (j : nat) : bool := negb (Reqb (nth j (st_rotw E) 0) 0 && Reqb (nth j (st_posw E) 0) 0).

Lemma jac_loop_st is : nonneg_weights E -> (forall j, In j is -> (j < length (st_sk E))%nat) ->
  exists rows, st_jac_loop E (length p) (sts t0) is = Ok (st_weight E * rsum (map (st_jerr E (sts t0)) is), rows) /\
    length rows = (12 * length (filter jnt_used is))%nat /\
    (forall row, In row rows -> length (fst row) = length p) /\
    is_derive (fun t => st_weight E * rsum (map (st_jerr E (sts t)) is)) t0 (2 * jt_r rows i) /\
    rsum (map (fun row => snd row * snd row) rows) = st_weight E * rsum (map (st_jerr E (sts t0)) is).
Proof.
  intros [NW [NP [NR NJ]]]. induction is as [|j is IH]; intros HJ.
  - exists []. cbn. split; [f_equal; f_equal; ring|]. split; [reflexivity|]. split; [intros row []|].
    split; [|ring]. eapply d_eq; [apply d_const|]. unfold jt_r; cbn. ring.
  - assert (Hj : (j < length (st_sk E))%nat) by (apply HJ; left; reflexivity).
    destruct IH as [rows [E0 [L0 [W0 [D0 Q0]]]]]; [intros; apply HJ; right; assumption|].
    destruct (chain_exists (st_sk E) V j Hj) as [l Hc].
    pose proof (jerr_derive j l Hj Hc) as DJ.
    cbn [st_jac_loop]. rewrite !rd_nth by (rewrite ?(stw_posw E i W), ?(stw_rotw E i W); exact Hj). cbn [obind].
    cbn [filter]. unfold jnt_used at 1.
    destruct (Reqb (nth j (st_rotw E) 0) 0 && Reqb (nth j (st_posw E) 0) 0)%bool eqn:ZB; cbn [negb].
    + apply andb_true_iff in ZB as [Zr Zp].
      destruct (Reqb_spec (nth j (st_rotw E) 0) 0) as [Zr'|]; [|discriminate].
      destruct (Reqb_spec (nth j (st_posw E) 0) 0) as [Zp'|]; [|discriminate].
      rewrite E0. exists rows.
      assert (ZZ : forall t, st_jerr E (sts t) j = 0).
      { intros t. unfold st_jerr. rewrite (jst_ok t j Hj), (tgt_ok j Hj), Zr', Zp'. ring. }
      cbn [map rsum]. rewrite ZZ. split; [f_equal; f_equal; ring|]. split; [exact L0|]. split; [exact W0|]. split.
      * eapply d_ext; [|exact D0]. intros t. cbn [map rsum]. cbv beta. rewrite ZZ. ring.
      * rewrite Q0. ring.
    + destruct (rd_joint j Hj) as [R1 R2]. rewrite R1. cbn [obind]. rewrite R2. cbn [obind].
      destruct (jt_ok j l Hj Hc) as [ts [E1 S1]]. rewrite E1. cbn [obind].
      set (pw := kPositionWeight * st_posWgt E * st_weight E * nth j (st_posw E) 0).
      set (rw := kOrientationWeight * st_rotWgt E * st_weight E * nth j (st_rotw E) 0).
      destruct (NJ j Hj) as [NJp NJr].
      assert (Ppw : 0 <= pw).
      { unfold pw, kPositionWeight. apply Rmult_le_pos; [|exact NJp]. apply Rmult_le_pos; [|exact NW]. apply Rmult_le_pos; lra. }
      assert (Prw : 0 <= rw).
      { unfold rw, kOrientationWeight. apply Rmult_le_pos; [|exact NJr]. apply Rmult_le_pos; [|exact NW]. apply Rmult_le_pos; lra. }
      destruct (st_rows12 j l Hj ts S1 (sqrt pw) (sqrt rw) (st_diff (jst t0 j) (tgt j), st_rotdiff (jst t0 j) (tgt j)))
        as [r1 [E2 [L2 [W2 [J2 Q2]]]]]. 
      rewrite E2. cbn [obind]. rewrite E0. cbn [obind fst snd]. exists (r1 ++ rows).
      rewrite !sqrt_sqrt in J2, Q2 by assumption. cbn [fst snd] in J2, Q2.
      assert (EJ : st_weight E * st_jerr E (sts t0) j =
        pw * vnorm2 (st_diff (jst t0 j) (tgt j)) + rw * msq (st_rotdiff (jst t0 j) (tgt j))).
      { unfold st_jerr. rewrite (jst_ok t0 j Hj), (tgt_ok j Hj). unfold pw, rw, kPositionWeight, kOrientationWeight. field. }
      split; [|split; [|split; [|split]]].
      * cbn [map rsum]. f_equal. f_equal. rewrite Rmult_plus_distr_l, EJ. ring.
      * rewrite app_length, L2, L0. cbn [length]. lia.
      * intros r Hr. apply in_app_or in Hr as [Hr|Hr]; auto.
      * apply (d_ext (fun t => st_weight E * st_jerr E (sts t) j + st_weight E * rsum (map (st_jerr E (sts t)) is)));
          [intros t; cbn [map rsum]; ring|].
        eapply d_eq; [apply d_plus; [apply d_scal, DJ|exact D0]|].
        unfold jt_r in *. rewrite map_app, rsum_app, J2. unfold D_joint, pw, rw, kPositionWeight, kOrientationWeight. field.
      * rewrite map_app, rsum_app, Q2, Q0. cbn [map rsum]. rewrite Rmult_plus_distr_l, EJ. reflexivity.
Qed.

(** ** The parameter part *)

Definition par_obj (q : list R) : R :=
  sumn (length q) (fun k => ((nth k q 0 - nth k (st_tparams E) 0) * nth k (st_tpw E) 0) ^ 2).
Definition par_d : R :=
  2 * ((nth i p 0 - nth i (st_tparams E) 0) * nth i (st_tpw E) 0) * nth i (st_tpw E) 0.
Lemma par_derive : is_derive (fun t => par_obj (set_nth p i t)) t0 par_d.
Proof.
  assert (Hip : (i < length p)%nat) by lia.
  unfold par_obj. eapply d_ext; [intros t; rewrite set_nth_length; reflexivity|].
  eapply d_eq.
  { apply (d_sumn (length p) (fun k t => ((nth k (set_nth p i t) 0 - nth k (st_tparams E) 0) * nth k (st_tpw E) 0) ^ 2)
      (fun k => if Nat.eqb k i then par_d else 0)).
    intros k _. eapply d_eq.
    - apply (d_ext (fun t => (nth k (st_tpw E) 0 * (nth k (set_nth p i t) 0 - nth k (st_tparams E) 0)) *
            (nth k (st_tpw E) 0 * (nth k (set_nth p i t) 0 - nth k (st_tparams E) 0)))); [intros; ring|].
      assert (B : is_derive (fun t => nth k (st_tpw E) 0 * (nth k (set_nth p i t) 0 - nth k (st_tparams E) 0)) t0
        (nth k (st_tpw E) 0 * ((if Nat.eqb k i then 1 else 0) - 0))).
      { apply d_scal, d_minus; [apply set_nth_derive; exact Hip|apply d_const]. }
      apply (d_mult _ _ _ _ _ B B).
    - cbv beta. unfold t0. rewrite set_nth_nth by exact Hip. unfold par_d.
      destruct (Nat.eqb_spec k i) as [->|Ne]; ring. }
  rewrite (sumn_single _ i) by (first [exact Hip|intros k _ Hk; apply Nat.eqb_neq in Hk; rewrite Hk; reflexivity]).
  rewrite Nat.eqb_refl. reflexivity.
Qed.

Lemma par_sq q pd : length q = length p -> st_pdiff E q = Ok pd -> sqnorm pd = par_obj q.
Proof.
  intros Hq Hpd. destruct (pdiff_ok E q) as [pd' [E1 [L1 N1]]].
  { rewrite (stw_tpw E i W); lia. } { rewrite (stw_tparams E i W); lia. }
  rewrite E1 in Hpd. injection Hpd as <-. rewrite sqnorm_sumn, L1. unfold par_obj. apply sumn_ext.
  intros k Hk. rewrite N1 by exact Hk. ring.
Qed.

Lemma usable_st t : st_usable E (set_nth p i t) (sts t) = true.
Proof.
  unfold st_usable. rewrite set_nth_length, sts_len, (stw_target E i W), (stw_tparams E i W), Lp, !Nat.eqb_refl. reflexivity.
Qed.
Lemma sts_cons t : exists s r, sts t = s :: r.
Proof. pose proof (sts_len t) as H. pose proof (stw_joints E i W) as H1. destruct (sts t); [cbn in H; lia|eauto]. Qed.

Lemma st_error_path t jp : pt_apply (st_pt E) (set_nth p i t) = Ok jp ->
  st_error E (set_nth p i t) jp (sts t) =
  Ok (st_weight E * (par_obj (set_nth p i t) + rsum (map (st_jerr E (sts t)) (seq 0 (length (st_sk E)))))).
Proof.
  intros HJ. unfold st_error. destruct (sts_cons t) as [s [r Es]].
  assert (LJ : Nat.eqb (length jp) (length (st_sk E) * 7) = true).
  { apply Nat.eqb_eq. rewrite (pt_apply_length _ _ _ WP HJ), (stw_rows E i W). lia. }
  rewrite Es at 1. rewrite LJ. cbn [check obind]. rewrite usable_st.
  destruct (pdiff_ok E (set_nth p i t)) as [pd [E1 _]].
  { rewrite set_nth_length, (stw_tpw E i W); lia. } { rewrite set_nth_length, (stw_tparams E i W); lia. }
  rewrite E1. cbn [obind]. rewrite st_err_loop_ok.
  - cbn [obind]. rewrite (par_sq _ _ (set_nth_length _ _ _) E1). f_equal. ring.
  - intros j Hin. apply in_seq in Hin. rewrite sts_len, (stw_target E i W), (stw_rotw E i W), (stw_posw E i W). lia.
Qed.

Definition st_F (t : R) : R :=
  st_weight E * (par_obj (set_nth p i t) + rsum (map (st_jerr E (sts t)) (seq 0 (length (st_sk E))))).

Lemma self : set_nth p i t0 = p. Proof. unfold t0. apply set_nth_self. lia. Qed.

Lemma st_gradient_path jp g : pt_apply (st_pt E) p = Ok jp -> length g = length p ->
  exists g', st_gradient E p jp (sts t0) g = Ok (st_F t0, g') /\ length g' = length g /\
    is_derive st_F t0 (nth i g' 0 - nth i g 0 +
      st_weight E * (par_d - 2 * ((nth i p 0 - nth i (st_tparams E) 0) * nth i (st_tpw E) 0))).
Proof.
  intros HJ HG. unfold st_gradient. destruct (sts_cons t0) as [s [r Es]].
  assert (LJ : Nat.eqb (length jp) (length (st_sk E) * 7) = true).
  { apply Nat.eqb_eq. rewrite (pt_apply_length _ _ _ WP HJ), (stw_rows E i W). lia. }
  assert (M : forall (A : Type) (x y : A), match sts t0 with [] => x | _ :: _ => y end = y) by (intros; rewrite Es; reflexivity).
  rewrite M, LJ. cbn [check obind]. pose proof (usable_st t0) as US. rewrite self in US. rewrite US.
  destruct (pdiff_ok E p) as [pd [E1 [L1 N1]]].
  { rewrite (stw_tpw E i W); lia. } { rewrite (stw_tparams E i W); lia. }
  rewrite E1. cbn [obind]. rewrite HG, L1, Nat.eqb_refl.
  set (g0 := vadd_list g (map (fun x => 2 * x * st_weight E) pd)).
  assert (Lg0 : length g0 = length p).
  { unfold g0. rewrite vadd_list_length, map_length. lia. }
  destruct (grad_loop_st (seq 0 (length (st_sk E)))) with (g := g0) as [g' [E2 [L2 D2]]].
  { intros j H. apply in_seq in H. lia. } { rewrite Lg0. exact Lp. }
  rewrite E2. cbn [obind fst snd]. exists g'. split; [|split; [congruence|]].
  - rewrite (par_sq _ _ eq_refl E1). unfold st_F. rewrite self. f_equal. f_equal. ring.
  - unfold st_F.
    apply (d_ext (fun t => st_weight E * par_obj (set_nth p i t) +
       st_weight E * rsum (map (st_jerr E (sts t)) (seq 0 (length (st_sk E)))))); [intros; ring|].
    eapply d_eq; [apply d_plus; [apply d_scal, par_derive|exact D2]|].
    unfold g0. rewrite vadd_list_nth by (rewrite ?map_length; lia).
    set (f := fun x => 2 * x * st_weight E).
    rewrite (nth_indep (map f pd) 0 (f 0)) by (rewrite map_length; lia).
    rewrite (map_nth f), N1 by lia. unfold f. ring.
Qed.

Lemma diag_rows_ok sw n : forall ws pd k, length ws = length pd -> (k + length ws <= n)%nat ->
  exists rows, diag_rows n k sw ws pd = Ok rows /\ length rows = length ws /\
    (forall row, In row rows -> length (fst row) = n) /\
    (forall c, jt_r rows c = if andb (Nat.leb k c) (Nat.ltb c (k + length ws))
                            then sw * sw * nth (c - k) ws 0 * nth (c - k) pd 0 else 0) /\
    rsum (map (fun row => snd row * snd row) rows) = sw * sw * sqnorm pd.
Proof.
  induction ws as [|w ws IH]; intros [|x pd] k HL Hn; try discriminate.
  - exists []. split; [reflexivity|]. split; [reflexivity|]. split; [intros row []|]. split.
    + intros c. cbn [length]. destruct (Nat.leb_spec k c), (Nat.ltb_spec c (k + 0)); cbn [andb]; try lia; reflexivity.
    + cbn. unfold sqnorm; cbn. ring.
  - cbn [diag_rows length] in *. destruct (unit_row_ok n k (w * sw)) as [row [ER [LR NR]]]; [lia|].
    rewrite ER. cbn [obind]. destruct (IH pd (S k)) as [rows [E1 [L1 [W1 [J1 Q1]]]]]; try lia.
    rewrite E1. cbn [obind]. eexists. split; [reflexivity|]. split; [cbn; lia|].
    split; [intros r [<-|Hr]; [exact LR|apply W1, Hr]|]. split.
    + intros c. unfold jt_r in *. cbn [map rsum fst snd]. rewrite J1, NR.
      destruct (Nat.eqb_spec c k) as [->|Ne].
      * destruct (Nat.leb_spec (S k) k); [lia|]. destruct (Nat.leb_spec k k); [|lia].
        destruct (Nat.ltb_spec k (k + S (length ws))); [|lia]. cbn [andb]. rewrite Nat.sub_diag. cbn [nth]. ring.
      * destruct (Nat.leb_spec k c), (Nat.leb_spec (S k) c); try lia; cbn [andb]; try ring.
        replace (k + S (length ws))%nat with (S k + length ws)%nat by lia.
        destruct (Nat.ltb c (S k + length ws)); [|ring].
        replace (c - k)%nat with (S (c - S k)) by lia. cbn [nth]. ring.
    + cbn [map rsum snd]. rewrite Q1. unfold sqnorm. cbn [map rsum]. ring.
Qed.

Lemma used_count : length (filter (fun pr => (negb (Reqb (fst pr) 0) || negb (Reqb (snd pr) 0))%bool) (combine (st_posw E) (st_rotw E))) =
  length (filter jnt_used (seq 0 (length (st_sk E)))).
Proof.
  pose proof (stw_posw E i W) as LP. pose proof (stw_rotw E i W) as LR. unfold jnt_used.
  rewrite <- LP. assert (LL : length (st_rotw E) = length (st_posw E)) by congruence. clear LP LR.
  generalize dependent (st_rotw E). generalize (st_posw E). clear.
  induction l as [|a l IH]; intros [|b m] HL; try discriminate; [reflexivity|].
  cbn [combine filter length seq]. rewrite <- seq_shift. injection HL as HL.
  assert (X : forall (P : nat -> bool) l, length (filter P (map S l)) = length (filter (fun j => P (S j)) l)).
  { intros P l0. induction l0 as [|c l0 IHl]; [reflexivity|]. cbn [map filter]. destruct (P (S c)); cbn [length]; congruence. }
  cbn [nth fst snd]. specialize (IH m HL).
  destruct (Reqb b 0), (Reqb a 0); cbn [negb orb andb length]; rewrite X, IH; reflexivity.
Qed.

Definition tpw_resolved : Prop := resolved (st_prec E) (st_tpw E) /\ 0 <= st_prec E.

Lemma st_jacobian_path : nonneg_weights E -> tpw_resolved ->
  exists rows, st_jacobian E (length p) p (sts t0) = Ok (st_F t0, rows, Some (length rows)) /\
    length rows = st_jacobian_size E /\
    (forall row, In row rows -> length (fst row) = length p) /\
    is_derive st_F t0 (2 * jt_r rows i) /\
    rsum (map (fun row => snd row * snd row) rows) = st_F t0.
Proof.
  intros NN [HR HP]. pose proof (proj1 NN) as NW.
  unfold st_jacobian. pose proof (usable_st t0) as US. rewrite self in US. rewrite US.
  destruct (pdiff_ok E p) as [pd [E1 [L1 N1]]].
  { rewrite (stw_tpw E i W); lia. } { rewrite (stw_tparams E i W); lia. }
  destruct (jac_loop_st (seq 0 (length (st_sk E))) NN) as [rows [E2 [L2 [W2 [D2 Q2]]]]].
  { intros j H. apply in_seq in H. lia. }
  assert (A : exists e ra, (if is_zero (st_prec E) (st_tpw E) then Ok (0, [])
              else obind (st_pdiff E p) (fun pd => obind (diag_rows (length p) 0 (sqrt (st_weight E)) (st_tpw E) pd)
                   (fun rows => Ok (sqnorm pd * st_weight E, rows)))) = Ok (e, ra) /\
      e = st_weight E * par_obj p /\
      length ra = (if is_zero (st_prec E) (st_tpw E) then 0 else length (st_tpw E))%nat /\
      (forall row, In row ra -> length (fst row) = length p) /\
      2 * jt_r ra i = st_weight E * par_d /\
      rsum (map (fun row => snd row * snd row) ra) = e).
  { destruct (is_zero (st_prec E) (st_tpw E)) eqn:Z.
    - pose proof (proj1 (is_zero_resolved _ _ HP HR) Z) as Z0.
      assert (Z1 : forall k, nth k (st_tpw E) 0 = 0).
      { intros k. destruct (Nat.lt_ge_cases k (length (st_tpw E))); [apply Z0, nth_In; assumption|apply nth_overflow; assumption]. }
      exists 0, []. split; [reflexivity|]. split; [|split; [reflexivity|split; [intros row []|split]]].
      + unfold par_obj. rewrite sumn_zero; [ring|]. intros k _. rewrite Z1. ring.
      + unfold par_d. rewrite Z1. unfold jt_r; cbn. ring.
      + reflexivity.
    - rewrite E1. cbn [obind].
      destruct (diag_rows_ok (sqrt (st_weight E)) (length p) (st_tpw E) pd 0) as [ra [E3 [L3 [W3 [J3 Q3]]]]].
      { rewrite L1, (stw_tpw E i W); lia. } { rewrite (stw_tpw E i W); lia. }
      rewrite E3. cbn [obind]. rewrite sqrt_sqrt in J3, Q3 by exact NW.
      eexists; exists ra. split; [reflexivity|]. split; [|split; [exact L3|split; [exact W3|split]]].
      + rewrite (par_sq _ _ eq_refl E1). ring.
      + rewrite J3. cbn [Nat.leb andb Nat.add]. assert (Hb : Nat.ltb i (length (st_tpw E)) = true).
        { apply Nat.ltb_lt. rewrite (stw_tpw E i W). lia. }
        rewrite Hb, Nat.sub_0_r, N1 by lia. unfold par_d. ring.
      + rewrite Q3. ring. }
  destruct A as [e [ra [EA [Ee [LA [WA [JA QA]]]]]]]. rewrite EA. cbn [obind]. rewrite E2. cbn [obind fst snd].
  assert (LT : length (ra ++ rows) = st_jacobian_size E).
  { rewrite app_length, LA, L2. unfold st_jacobian_size. rewrite used_count. lia. }
  rewrite LT, Nat.leb_refl. cbn [check obind]. exists (ra ++ rows). rewrite LT.
  split; [|split; [reflexivity|split; [|split]]].
  - f_equal. f_equal. f_equal. rewrite Ee. unfold st_F. rewrite self. ring.
  - intros row H. apply in_app_or in H as [H|H]; auto.
  - unfold st_F.
    apply (d_ext (fun t => st_weight E * par_obj (set_nth p i t) +
       st_weight E * rsum (map (st_jerr E (sts t)) (seq 0 (length (st_sk E)))))); [intros; ring|].
    eapply d_eq; [apply d_plus; [apply d_scal, par_derive|exact D2]|].
    unfold jt_r in *. rewrite map_app, rsum_app, Rmult_plus_distr_l, JA. reflexivity.
  - rewrite map_app, rsum_app, QA, Q2, Ee. unfold st_F. rewrite self. ring.
Qed.

End St.
