From Coq Require Import Bool Reals List Arith Lia Lra Psatz.
From Coquelicot Require Import Coquelicot.
From Verif Require Import Prelude LinAlg Rbool R3 Transform_model Transform_proofs Skeleton_model
  Skeleton_spec FK_model FK_spec FK_proofs FK_deriv_proofs FK_axis_proofs ParamTransform_model
  ParamTransform_spec ParamTransform_proofs Limits_model Limits_spec Limits_proofs Loss_model
  Loss_proofs Constraint_model Constraint_spec Constraint_eval_proofs Constraint_proofs.
Import ListNotations.
Local Open Scope R_scope.

(** ** Residuals *)

Lemma act_point s x : js_linear s = tf_linear (js_world s) -> act s x = tf_point (js_world s) x.
Proof.
  intros H. unfold act. rewrite H. unfold tf_linear, tf_point.
  rewrite mvec_scale, qmat_vec, qrot_scale. apply vadd_comm.
Qed.
Lemma smooth_smooth_at d s : js_linear s = tf_linear (js_world s) ->
  smooth d (js_world s) -> smooth_at d (vecs d s).
Proof.
  intros H S. destruct d; cbn in *; try exact I.
  - rewrite (act_point _ _ H). exact S.
  - exact S.
Qed.
Lemma acos_clamp1 x : acos (clamp1 x) = acos x.
Proof.
  unfold clamp1. destruct (Rltb_spec x (-1)).
  - unfold acos. destruct (Rle_dec (-1) (-1)), (Rle_dec x (-1)); try lra; reflexivity.
  - destruct (Rltb_spec 1 x); [|reflexivity].
    unfold acos. destruct (Rle_dec 1 (-1)), (Rle_dec x (-1)); try lra.
    destruct (Rle_dec 1 1), (Rle_dec 1 x); try lra; reflexivity.
Qed.
Lemma eval_residual d s : js_linear s = tf_linear (js_world s) -> smooth d (js_world s) ->
  ev_f (eval_function d s) = residual d (js_world s).
Proof.
  intros H S.
  destruct d as [o tg|half o n dd|o tg|lp ln gp|lp ld gt|lp ld gt|la ga|la ga|la ga];
    cbn [eval_function ev_f residual]; cbv zeta; rewrite ?(act_point _ _ H); try reflexivity.
  - destruct half; cbn [andb]; [|reflexivity].
    destruct (Rltb_spec 0 (vdot (tf_point (js_world s) o) n - dd)).
    + rewrite Rmin_left by lra. reflexivity.
    + rewrite Rmin_right by lra. reflexivity.
  - unfold mmul; cbn [col0 col1 col2]. rewrite !qmat_vec.
    rewrite (qmat_col0 o), (qmat_col1 o), (qmat_col2 o), (qmat_col0 tg), (qmat_col1 tg), (qmat_col2 tg).
    reflexivity.
  - cbn in S. change (sqrt (vnorm2 (vsub gt (tf_point (js_world s) lp))))
      with (vnorm (vsub gt (tf_point (js_world s) lp))) in *.
    destruct (Rltb_spec kTiny (vnorm (vsub gt (tf_point (js_world s) lp)))); [reflexivity|contradiction].
  - rewrite acos_clamp1. reflexivity.
Qed.

(** ** The error *)

Definition err1 (E : cfn) (sts : list jstate) (c : constr) : R :=
  match nth_error sts (cparent c) with
  | Some s => cweight c * loss_value (cf_loss E) (sqnorm (feval (cdat c) (vecs (cdat c) s)))
  | None => 0
  end.

Lemma cf_error_sum_ok E sts cs :
  (forall c, In c cs -> (cparent c < length sts)%nat) ->
  cf_error_sum (cf_loss E) sts cs = Ok (rsum (map (err1 E sts) cs)).
Proof.
  induction cs as [|c cs IH]; intros H; [reflexivity|].
  cbn [cf_error_sum map rsum]. unfold err1 at 1, at_.
  destruct (nth_error sts (cparent c)) as [s|] eqn:Es.
  2: { apply nth_error_None in Es. specialize (H c (or_introl eq_refl)). lia. }
  cbn [obind]. rewrite eval_function_eq. cbn [ev_f].
  rewrite IH by (intros; apply H; right; assumption).
  destruct (Reqb_spec (cweight c) 0) as [Z|Z]; cbn [negb obind]; [|reflexivity].
  rewrite Z. f_equal. f_equal. ring.
Qed.
Lemma cf_error_ok E sts :
  (forall c, In c (cf_constraints E) -> (cparent c < length sts)%nat) ->
  cf_error E sts = Ok (cf_weight E * rsum (map (err1 E sts) (cf_constraints E))).
Proof. intros H. unfold cf_error. rewrite cf_error_sum_ok by exact H. reflexivity. Qed.

Lemma error_formula_lemma E params sts :
  valid_sk (cf_sk E) -> cfn_wf E -> fk (cf_sk E) params = Ok sts ->
  (forall c s, In c (cf_constraints E) -> nth_error sts (cparent c) = Some s -> smooth (cdat c) (js_world s)) ->
  cf_error E sts = Ok (constraint_objective E sts).
Proof.
  intros V W H S. pose proof (proj2 (fk_inv _ _ _ V H)) as F. pose proof (proj1 F) as FL.
  rewrite cf_error_ok.
  - unfold constraint_objective. f_equal. f_equal. apply rsum_map_ext. intros c Hc. unfold err1.
    destruct (nth_error sts (cparent c)) as [s|] eqn:Es; [|reflexivity].
    assert (HL : js_linear s = tf_linear (js_world s)) by (eapply js_linear_state; [exact F|exact Es]).
    rewrite <- (eval_residual _ _ HL (S c s Hc Es)), eval_function_eq. reflexivity.
  - intros c Hc. rewrite FL. apply (cwf_parents E W c Hc).
Qed.

(** ** Derivatives along one model parameter *)

Section Path.
Context (E : cfn) (W : cfn_wf E) (V : valid_sk (cf_sk E)) (U : unit_prerotations (cf_sk E))
  (WP : pt_wf (cf_pt E)) (p : list R) (i : nat) (sts : R -> list jstate)
  (Lp : length p = pt_cols (cf_pt E)) (Hi : (i < pt_cols (cf_pt E))%nat)
  (EN : cf_enabled E i = true)
  (HS : forall t, state_of (cf_sk E) (cf_pt E) (set_nth p i t) = Ok (sts t)).

Let C := fun r => ent_coeff (pt_entries (cf_pt E)) r i.
Let t0 := nth i p 0.

Lemma C_inactive : inactive0 (cf_active E) C.
Proof.
  intros r Hr. unfold C, ent_coeff. apply rsum_map_zero. intros e He.
  destruct (Nat.eqb_spec (erow e) r) as [E1|]; [|reflexivity].
  destruct (Nat.eqb_spec (ecol e) i) as [E2|]; [|reflexivity].
  exfalso. pose proof (cwf_active E W e He). rewrite E1, E2 in H. rewrite H in Hr by exact EN. discriminate.
Qed.

Definition path_q (t : R) : list R :=
  match pt_apply (cf_pt E) (set_nth p i t) with Ok q => q | _ => [] end.
Lemma path_apply t : pt_apply (cf_pt E) (set_nth p i t) = Ok (path_q t).
Proof.
  pose proof (HS t) as H. unfold state_of in H. unfold path_q.
  destruct (pt_apply (cf_pt E) (set_nth p i t)); cbn in H; try discriminate. reflexivity.
Qed.
Lemma path_fk t : fk (cf_sk E) (path_q t) = Ok (sts t).
Proof. pose proof (HS t) as H. unfold state_of in H. rewrite path_apply in H. exact H. Qed.
Lemma path_length t : length (sts t) = length (cf_sk E).
Proof. destruct (fk_inv _ _ _ V (path_fk t)) as [_ [FL _]]. exact FL. Qed.

Definition path_d : list R := map C (seq 0 (7 * length (cf_sk E))).
Lemma path_d_nth r : (r < 7 * length (cf_sk E))%nat -> nth r path_d 0 = C r.
Proof.
  intros Hr. unfold path_d. rewrite (nth_indep _ 0 (C 0%nat)) by (rewrite map_length, seq_length; exact Hr).
  rewrite map_nth, seq_nth by exact Hr. reflexivity.
Qed.
Lemma path_d_at a : (a < length (cf_sk E))%nat -> jparam_at path_d a = jpC C a.
Proof. intros Ha. unfold jparam_at, jpC. rewrite !path_d_nth by lia. reflexivity. Qed.
Lemma path_derive r : (r < 7 * length (cf_sk E))%nat ->
  is_derive (fun t => nth r (path_q t) 0) t0 (nth r path_d 0).
Proof.
  intros Hr. rewrite path_d_nth by exact Hr. apply (apply_derive (cf_pt E) p i path_q WP Lp Hi path_apply).
Qed.

(** The vectors of one constraint. *)
Section One.
Context (c : constr) (S : R -> jstate) (l : list nat)
  (Hc : chain (cf_sk E) (cparent c) l)
  (HSt : forall t, nth_error (sts t) (cparent c) = Some (S t)).

Lemma S_linear t : js_linear (S t) = tf_linear (js_world (S t)).
Proof. eapply js_linear_state; [exact (proj2 (fk_inv _ _ _ V (path_fk t)))|apply HSt]. Qed.
Lemma S_ex : forall t, exists st, fk (cf_sk E) (path_q t) = Ok st /\ nth_error st (cparent c) = Some (S t).
Proof. intros t. exists (sts t). split; [apply path_fk|apply HSt]. Qed.

Lemma chain_vel_eq (pos : bool) (v : vec3) :
  vsum (map (fun a => match nth_error (sts t0) a with
                      | Some sa => (if pos then joint_velocity else axis_velocity) sa (jparam_at path_d a) v
                      | None => vzero end) l) = chain_vel (sts t0) C l pos v.
Proof.
  unfold chain_vel. f_equal. apply map_ext_in. intros a Ha.
  destruct (nth_error (sts t0) a); [|reflexivity].
  rewrite path_d_at by (eapply chain_in_range; eassumption). unfold vel_of. destruct pos; reflexivity.
Qed.
Lemma point_vel x : is_vderive (fun t => act (S t) x) t0 (chain_vel (sts t0) C l true (act (S t0) x)).
Proof.
  rewrite <- chain_vel_eq, (act_point _ _ (S_linear t0)).
  eapply vd_ext; [intros t; symmetry; apply (act_point _ _ (S_linear t))|].
  apply (fk_total_derivative_lemma (cf_sk E) path_q path_d t0 (sts t0) (cparent c) l S V U Hc S_ex (path_fk t0) path_derive).
Qed.
Lemma axis_vel x : is_vderive (fun t => act_rot (S t) x) t0 (chain_vel (sts t0) C l false (act_rot (S t0) x)).
Proof.
  rewrite <- chain_vel_eq.
  apply (fk_axis_derivative_lemma (cf_sk E) path_q path_d t0 (sts t0) (cparent c) l S V U Hc S_ex (path_fk t0) path_derive).
Qed.

Definition dv (k : nat) : vec3 :=
  chain_vel (sts t0) C l (Nat.ltb k (num_pos (cdat c))) (nth k (vecs (cdat c) (S t0)) vzero).
Definition dvs : list vec3 := map dv (seq 0 (nvec (cdat c))).
Lemma dvs_nth k : (k < nvec (cdat c))%nat -> nth k dvs vzero = dv k.
Proof.
  intros Hk. unfold dvs. rewrite (nth_indep _ vzero (dv 0%nat)) by (rewrite map_length, seq_length; exact Hk).
  rewrite map_nth, seq_nth by exact Hk. reflexivity.
Qed.
Lemma vecs_derive k : (k < nvec (cdat c))%nat ->
  is_vderive (fun t => nth k (vecs (cdat c) (S t)) vzero) t0 (nth k dvs vzero).
Proof.
  intros Hk. rewrite dvs_nth by exact Hk. unfold dv.
  destruct (cdat c) as [o tg|half o n dd|o tg|lp ln gp|lp ld gt|lp ld gt|la ga|la ga|la ga];
    cbn [nvec num_pos] in *.
  1,2: destruct k as [|k]; [cbn; apply point_vel|lia].
  - assert (EC : forall t, vecs (COrientation o tg) (S t) =
       [act_rot (S t) (qrot o ex); act_rot (S t) (qrot o ey); act_rot (S t) (qrot o ez)]).
    { intros t. cbn [vecs]. unfold mmul; cbn [col0 col1 col2].
      rewrite !qmat_vec, (qmat_col0 o), (qmat_col1 o), (qmat_col2 o). reflexivity. }
    rewrite (EC t0).
    eapply vd_ext; [intros t; symmetry; rewrite (EC t); reflexivity|].
    destruct k as [|[|[|k]]]; [apply axis_vel|apply axis_vel|apply axis_vel|lia].
  - destruct k as [|[|k]]; [apply point_vel|apply axis_vel|lia].
  - destruct k as [|[|k]]; [apply point_vel|apply axis_vel|lia].
  - destruct k as [|[|k]]; [apply point_vel|apply axis_vel|lia].
  - destruct k as [|k]; [apply axis_vel|lia].
  - destruct k as [|k]; [apply axis_vel|lia].
  - destruct k as [|k]; [apply axis_vel|lia].
Qed.

Let d := cdat c.
Let vs0 := vecs d (S t0).
Let f0 := feval d vs0.
Let ds0 := deval d vs0.

(** Derivative of the weighted loss. *)
Definition D1 : R :=
  cf_weight E * (cweight c *
    (2 * sumn (func_dim d) (fun r => nth r f0 0 * dot_rows ds0 dvs (nvec d) r) * loss_deriv (cf_loss E) (sqnorm f0))).

Lemma err1_derive al cc : loss_make al cc = Ok (cf_loss E) -> smooth d (js_world (S t0)) ->
  is_derive (fun t => cf_weight E * err1 E (sts t) c) t0 D1.
Proof.
  intros HLs Hsm.
  apply (d_ext (fun t => cf_weight E * (cweight c * loss_value (cf_loss E) (sqnorm (feval d (vecs d (S t))))))).
  { intros t. unfold err1. rewrite HSt. reflexivity. }
  unfold D1. apply d_scal, d_scal.
  apply (d_comp (loss_value (cf_loss E)) (fun t => sqnorm (feval d (vecs d (S t))))).
  - apply (loss_derivative_lemma al cc _ HLs). apply sqnorm_nonneg.
  - apply (sq_derive (fun t => vecs d (S t)) t0 dvs d).
    + intros j Hj. apply vecs_derive. exact Hj.
    + apply smooth_smooth_at; [apply S_linear|exact Hsm].
Qed.

(** The terms of the constraint. *)
Lemma terms_ok : (forall m, In m ds0 -> resolved_mat (cf_prec E) m) ->
  exists ts, constr_terms E (sts t0) c (eval_function d (S t0)) = Ok ts /\
    forall G, (forall k, linear (G k)) ->
      (forall k, (k < nvec d)%nat -> (forall r, In r (nth k ds0 []) -> r = vzero) -> forall x, G k x = 0) ->
      tsum G C ts = sumn (nvec d) (fun k => G k (nth k dvs vzero)).
Proof.
  intros HR. rewrite eval_function_eq. fold vs0. fold f0 ds0.
  destruct (constr_terms_ok E (sts t0) c (ER f0 vs0 ds0) l V (path_length t0) Hc) as [ts [E1 S1]].
  - rewrite (cwf_active_len E W), (cwf_pt_rows E W). lia.
  - cbn [ev_v ev_d]. unfold vs0, ds0. rewrite vecs_length, deval_length. reflexivity.
  - exists ts. split; [exact E1|]. intros G L HG. cbn [ev_v ev_d] in S1.
    rewrite (S1 G C L C_inactive).
    + unfold vs0. rewrite vecs_length. apply sumn_ext. intros k Hk. rewrite dvs_nth by exact Hk. reflexivity.
    + intros k Hk Hz x. unfold ds0 in Hk. rewrite deval_length in Hk. apply HG; [exact Hk|].
      eapply is_zero_mat_resolved; [apply (cwf_prec E W)| |exact Hz].
      apply HR. apply nth_In. unfold ds0. rewrite deval_length. exact Hk.
Qed.

Lemma ecol_max e : In e (pt_entries (cf_pt E)) -> (ecol e < kMaxModelParams)%nat.
Proof.
  intros He. pose proof (wf_entries _ WP e He) as [_ B]. pose proof (wf_max _ WP) as B2.
  exact (Nat.lt_le_trans _ _ _ B B2).
Qed.
Lemma grad1_ok al cc : loss_make al cc = Ok (cf_loss E) ->
  regular (cf_prec E) c (S t0) ->
  exists incs, cf_grad1 E (sts t0) c = Ok (cf_weight E * err1 E (sts t0) c, incs) /\
    (forall k v, In (k, v) incs -> (k < pt_cols (cf_pt E))%nat) /\
    dsum incs i = D1 /\ (forall k, cf_enabled E k = false -> dsum incs k = 0).
Proof.
  intros HLs [Hsm Hf Hd]. unfold cf_grad1, at_, err1. rewrite HSt. cbn [obind].
  rewrite eval_function_eq in Hf, Hd. cbn [ev_f ev_d] in Hf, Hd. fold d in Hf, Hd. fold vs0 in Hf, Hd.
  fold f0 in Hf. fold ds0 in Hd.
  destruct (Reqb_spec (cweight c) 0) as [Zw|Zw].
  { exists []. split; [f_equal; f_equal; rewrite Zw; ring|]. split; [intros k v []|].
    split; [|reflexivity]. rewrite dsum_nil. unfold D1. rewrite Zw. ring. }
  rewrite eval_function_eq. cbn [ev_f ev_d]. fold d. fold vs0. fold f0 ds0.
  destruct (is_zero (cf_prec E) f0) eqn:Zf.
  { pose proof (proj1 (is_zero_resolved _ _ (cwf_prec E W) Hf) Zf) as Zf0. clear Zf. rename Zf0 into Zf. exists [].
    split; [|split; [intros k v []|split; [|reflexivity]]].
    - rewrite (sqnorm_zero _ Zf), loss_zero_lemma. f_equal. f_equal. ring.
    - rewrite dsum_nil. unfold D1. rewrite sumn_zero; [ring|]. intros r _.
      destruct (Nat.lt_ge_cases r (length f0)) as [L|L].
      + rewrite (Zf (nth r f0 0)) by (apply nth_In; exact L). ring.
      + rewrite nth_overflow by exact L. ring. }
  set (w := cweight c * cf_weight E).
  set (der := map (fun x => 2 * w * loss_deriv (cf_loss E) (sqnorm f0) * x) f0).
  destruct (terms_ok Hd) as [ts [E1 S1]]. rewrite eval_function_eq in E1. fold vs0 in E1. fold f0 ds0 in E1.
  fold d in E1. rewrite E1. cbn [obind].
  destruct (expand_ok (cf_enabled E) (pt_entries (cf_pt E))
    (map (fun '(jv, (r, x)) => (r, contract der ds0 jv x)) ts) ecol_max) as [incs [E2 [B2 S2]]].
  rewrite E2. cbn [obind]. exists incs.
  split; [f_equal; f_equal; unfold w; ring|]. split; [|split].
  - intros k v Hin. destruct (B2 k v Hin) as [_ [e [He <-]]]. apply (wf_entries _ WP e He).
  - rewrite S2, EN, map_map.
    transitivity (tsum (contract der ds0) C ts).
    { unfold tsum. apply rsum_map_ext. intros [jv [r x]] _. reflexivity. }
    rewrite S1.
    + unfold contract.
      assert (Ld : length der = func_dim d) by (unfold der; rewrite map_length; apply feval_length).
      rewrite Ld. unfold D1.
      change (fun k => rsum (map (fun r => nth r der 0 * vdot (mrow ds0 k r) (nth k dvs vzero)) (seq 0 (func_dim d))))
        with (fun k => sumn (func_dim d) (fun r => nth r der 0 * vdot (mrow ds0 k r) (nth k dvs vzero))).
      rewrite sumn_swap.
      transitivity (sumn (func_dim d) (fun r => (2 * w * loss_deriv (cf_loss E) (sqnorm f0)) *
        (nth r f0 0 * dot_rows ds0 dvs (nvec d) r))).
      * apply sumn_ext. intros r Hr. rewrite sumn_scal. unfold dot_rows, der.
        rewrite (nth_indep _ 0 (2 * w * loss_deriv (cf_loss E) (sqnorm f0) * 0))
          by (rewrite map_length; unfold f0; rewrite feval_length; exact Hr).
        rewrite (map_nth (fun x => 2 * w * loss_deriv (cf_loss E) (sqnorm f0) * x)). ring.
      * rewrite sumn_scal. unfold w. ring.
    + intros k. apply contract_linear.
    + intros k Hk Hz x. apply contract_zero. intros r. apply mrow_zero, Hz.
  - intros k Hk. rewrite S2, Hk. reflexivity.
Qed.

(** ** The Jacobian of one constraint *)

Lemma jac_rows_ok n deriv ts is :
  (forall k, cf_enabled E k = true -> (k < pt_cols (cf_pt E))%nat -> (k < n)%nat) ->
  (forall r, tsum (fun k x => deriv * vdot (mrow ds0 k r) x) C ts = deriv * dot_rows ds0 dvs (nvec d) r) ->
  exists rows, jac_rows E n deriv (ER f0 vs0 ds0) ts is = Ok rows /\
    length rows = length is /\ (forall row, In row rows -> length (fst row) = n) /\
    Forall2 (fun r row => snd row = deriv * nth r f0 0 /\
                          nth i (fst row) 0 = deriv * dot_rows ds0 dvs (nvec d) r /\
                          forall k, cf_enabled E k = false -> nth k (fst row) 0 = 0) is rows.
Proof.
  intros Hn HT. induction is as [|r is IH].
  - exists []. repeat split; try constructor. intros row [].
  - destruct IH as [rows [E1 [L1 [W1 F1]]]]. cbn [jac_rows ev_d ev_f].
    destruct (expand_ok (cf_enabled E) (pt_entries (cf_pt E))
      (map (fun '(jv, (k, x)) => (k, deriv * vdot (mrow ds0 jv r) x)) ts) ecol_max) as [incs [E2 [B2 S2]]].
    rewrite E2. cbn [obind].
    destruct (add_all_ok incs (repeat 0 n)) as [row [E3 [L3 S3]]].
    { intros k v Hin. destruct (B2 k v Hin) as [H0 [e [He <-]]]. rewrite repeat_length.
      apply Hn; [exact H0|]. apply (wf_entries _ WP e He). }
    rewrite E3. cbn [obind]. rewrite E1. cbn [obind]. eexists. split; [reflexivity|].
    rewrite repeat_length in *. split; [cbn; congruence|]. split.
    + intros row' [<-|H']; [exact L3|apply W1; exact H'].
    + constructor; [|exact F1]. cbn [fst snd]. split; [reflexivity|]. split.
      * rewrite S3, zrow_nth, S2, EN, map_map.
        pose proof (Hn i EN Hi) as Hin. apply Nat.ltb_lt in Hin. rewrite Hin, Rplus_0_l.
        rewrite <- HT. unfold tsum. apply rsum_map_ext. intros [jv [k x]] _. reflexivity.
      * intros k Hk. rewrite S3, zrow_nth, S2, Hk. destruct (Nat.ltb k n); ring.
Qed.

Lemma Forall2_rsum {A B} (P : A -> B -> Prop) (f : A -> R) (g : B -> R) la lb :
  Forall2 P la lb -> (forall a b, P a b -> g b = f a) -> rsum (map g lb) = rsum (map f la).
Proof.
  induction 1 as [|a b la lb H F IH]; intros HE; [reflexivity|]. cbn. rewrite (HE a b H), (IH HE). reflexivity.
Qed.

Definition wl : R := cweight c * cf_weight E * loss_deriv (cf_loss E) (sqnorm f0).

Lemma jac1_ok al cc n : loss_make al cc = Ok (cf_loss E) ->
  (forall k, cf_enabled E k = true -> (k < pt_cols (cf_pt E))%nat -> (k < n)%nat) ->
  (forall m, In m ds0 -> resolved_mat (cf_prec E) m) ->
  0 <= cweight c * cf_weight E ->
  (cweight c * cf_weight E = 0 \/ cf_tol E <= sqrt wl) ->
  exists rows, cf_jac1 E n (sts t0) c = Ok (cf_weight E * err1 E (sts t0) c, rows) /\
    length rows = func_dim d /\ (forall row, In row rows -> length (fst row) = n) /\
    2 * jt_r rows i = D1 /\
    rsum (map (fun row => snd row * snd row) rows) = wl * sqnorm f0 /\
    (forall k row, cf_enabled E k = false -> In row rows -> nth k (fst row) 0 = 0).
Proof.
  intros HLs Hn Hd Hw Ht. unfold cf_jac1, err1, at_. rewrite HSt. cbn [obind]. fold d.
  assert (Hwl : sqrt wl * sqrt wl = wl).
  { apply sqrt_sqrt. unfold wl. apply Rmult_le_pos; [exact Hw|].
    left. apply (loss_deriv_pos_lemma al cc _ HLs). apply sqnorm_nonneg. }
  assert (ZR : forall (g : nat -> R), let rows := map (fun r => (repeat 0 n, g r)) (seq 0 (func_dim d)) in
     length rows = func_dim d /\ (forall row, In row rows -> length (fst row) = n) /\ jt_r rows i = 0 /\
     rsum (map (fun row => snd row * snd row) rows) = sumn (func_dim d) (fun r => g r * g r) /\
     (forall k row, cf_enabled E k = false -> In row rows -> nth k (fst row) 0 = 0)).
  { intros g rows. unfold rows. rewrite map_length, seq_length. split; [reflexivity|]. split; [|split; [|split]].
    - intros row H. apply in_map_iff in H as [r [<- _]]. apply repeat_length.
    - unfold jt_r. rewrite map_map. apply rsum_map_zero. intros r _. cbn [fst snd]. rewrite zrow_nth. ring.
    - rewrite map_map. reflexivity.
    - intros k row _ H. apply in_map_iff in H as [r [<- _]]. apply zrow_nth. }
  destruct (Reqb_spec (cweight c) 0) as [Zw|Zw].
  { destruct (ZR (fun _ => 0)) as [A1 [A2 [A3 [A4 A5]]]].
    eexists. split; [f_equal; f_equal; rewrite Zw; ring|]. split; [exact A1|]. split; [exact A2|].
    split; [rewrite A3; unfold D1; rewrite Zw; ring|]. split; [|exact A5].
    rewrite A4. unfold wl. rewrite Zw, sumn_zero by (intros; ring). ring. }
  rewrite eval_function_eq. cbn [ev_f ev_d]. fold d. fold vs0. fold f0 ds0. fold wl.
  assert (SQ : forall x, sumn (func_dim d) (fun r => (x * nth r f0 0) * (x * nth r f0 0)) = x * x * sqnorm f0).
  { intros x. rewrite sqnorm_sumn. unfold f0 at 3. rewrite feval_length, <- sumn_scal. apply sumn_ext. intros; ring. }
  destruct (ZR (fun r => sqrt wl * nth r f0 0)) as [A1 [A2 [A3 [A4 A5]]]].
  assert (EE : cweight c * cf_weight E * loss_value (cf_loss E) (sqnorm f0) =
               cf_weight E * (cweight c * loss_value (cf_loss E) (sqnorm f0))) by ring.
  destruct (Rltb_spec (Rabs (sqrt wl - 0)) (cf_tol E)) as [Lt|Lt].
  { eexists. split; [f_equal; f_equal; exact EE|]. split; [exact A1|]. split; [exact A2|].
    split; [|split; [rewrite A4, SQ, Hwl; reflexivity|exact A5]].
    destruct Ht as [Z|Tt].
    - rewrite A3. unfold D1. rewrite <- Rmult_assoc, (Rmult_comm (cf_weight E)), Z. ring.
    - rewrite Rminus_0_r, Rabs_pos_eq in Lt by apply sqrt_pos. lra. }
  destruct (forallb (is_zero_mat (cf_prec E)) ds0) eqn:Zd.
  { eexists. split; [f_equal; f_equal; exact EE|]. split; [exact A1|]. split; [exact A2|].
    split; [|split; [rewrite A4, SQ, Hwl; reflexivity|exact A5]].
    rewrite A3. unfold D1. rewrite sumn_zero; [ring|]. intros r _. unfold dot_rows.
    rewrite sumn_zero; [ring|]. intros k Hk. rewrite mrow_zero; [apply vdot_0_l|].
    rewrite forallb_forall in Zd.
    assert (Hin : In (nth k ds0 []) ds0) by (apply nth_In; unfold ds0; rewrite deval_length; exact Hk).
    apply (is_zero_mat_resolved _ _ (cwf_prec E W) (Hd _ Hin) (Zd _ Hin)). }
  destruct (terms_ok Hd) as [ts [E1 S1]]. rewrite eval_function_eq in E1. fold vs0 in E1. fold f0 ds0 in E1.
  fold d in E1. rewrite E1. cbn [obind].
  destruct (jac_rows_ok n (sqrt wl) ts (seq 0 (func_dim d)) Hn) as [rows [E2 [L2 [W2 F2]]]].
  { intros r. rewrite (S1 (fun k x => sqrt wl * vdot (mrow ds0 k r) x)).
    - unfold dot_rows. rewrite <- sumn_scal. reflexivity.
    - intros k. apply dot_linear.
    - intros k Hk Hz x. rewrite mrow_zero by exact Hz. rewrite vdot_0_l. ring. }
  rewrite E2. cbn [obind]. exists rows. split; [f_equal; f_equal; exact EE|].
  rewrite seq_length in L2. split; [exact L2|]. split; [exact W2|].
  split; [|split].
  - unfold jt_r.
    rewrite (Forall2_rsum _ (fun r => sqrt wl * sqrt wl * (nth r f0 0 * dot_rows ds0 dvs (nvec d) r)) _ _ _ F2).
    + rewrite rsum_map_scal, Hwl. unfold D1, wl, sumn. ring.
    + intros r row [H1 [H2 _]]. rewrite H1, H2. ring.
  - rewrite (Forall2_rsum _ (fun r => (sqrt wl * nth r f0 0) * (sqrt wl * nth r f0 0)) _ _ _ F2).
    + fold (sumn (func_dim d) (fun r => (sqrt wl * nth r f0 0) * (sqrt wl * nth r f0 0))).
      rewrite SQ, Hwl. reflexivity.
    + intros r row [H1 _]. rewrite H1. reflexivity.
  - intros k row Hk Hrow. clear - F2 Hk Hrow.
    induction F2 as [|r row' is rows [_ [_ Hz]] F IH]; [destruct Hrow|].
    destruct Hrow as [<-|Hrow]; [apply Hz; exact Hk|apply IH; exact Hrow].
Qed.
End One.

(** ** All constraints: the gradient *)

Definition st_at (t : R) (j : nat) : jstate := nth j (sts t) (JS mid tf_id tf_id mid mid).
Lemma st_at_ok t j : (j < length (cf_sk E))%nat -> nth_error (sts t) j = Some (st_at t j).
Proof. intros Hj. unfold st_at. apply nth_error_nth'. rewrite path_length. exact Hj. Qed.

Lemma grad_loop_ok al cc cs : loss_make al cc = Ok (cf_loss E) ->
  (forall c, In c cs -> (cparent c < length (cf_sk E))%nat) ->
  (forall c, In c cs -> regular (cf_prec E) c (st_at t0 (cparent c))) ->
  forall jg, length jg = pt_cols (cf_pt E) ->
  exists jg', cf_grad_loop E (sts t0) cs jg = Ok (cf_weight E * rsum (map (err1 E (sts t0)) cs), jg') /\
    length jg' = pt_cols (cf_pt E) /\
    is_derive (fun t => cf_weight E * rsum (map (err1 E (sts t)) cs)) t0 (nth i jg' 0 - nth i jg 0) /\
    (forall k, cf_enabled E k = false -> nth k jg' 0 = nth k jg 0).
Proof.
  intros HLs. induction cs as [|c cs IH]; intros HP HR jg HJ.
  - exists jg. cbn. split; [f_equal; f_equal; ring|]. split; [exact HJ|]. split; [|reflexivity].
    eapply d_eq; [apply d_const|]. ring.
  - destruct (chain_exists (cf_sk E) V (cparent c)) as [l Hc]; [apply HP; left; reflexivity|].
    assert (HSt : forall t, nth_error (sts t) (cparent c) = Some (st_at t (cparent c))).
    { intros t. apply st_at_ok. apply HP. left; reflexivity. }
    pose proof (HR c (or_introl eq_refl)) as Hreg.
    destruct (grad1_ok c (fun t => st_at t (cparent c)) l Hc HSt al cc HLs Hreg) as [incs [E1 [B1 [S1 Z1]]]].
    destruct (add_all_ok incs jg) as [jg1 [E2 [L2 S2]]]; [rewrite HJ; exact B1|].
    destruct (IH (fun c' H => HP c' (or_intror H)) (fun c' H => HR c' (or_intror H)) jg1 ltac:(congruence))
      as [jg' [E3 [L3 [D3 Z3]]]].
    exists jg'. cbn [cf_grad_loop]. rewrite E1. cbn [obind snd fst]. rewrite E2. cbn [obind].
    rewrite E3. cbn [obind fst snd map rsum]. split; [f_equal; f_equal; ring|]. split; [exact L3|]. split.
    + apply (d_ext (fun t => cf_weight E * err1 E (sts t) c + cf_weight E * rsum (map (err1 E (sts t)) cs)));
        [intros t; ring|].
      eapply d_eq.
      * apply d_plus; [|exact D3].
        eapply (err1_derive c (fun t => st_at t (cparent c)) l Hc HSt al cc HLs). apply Hreg.
      * rewrite <- S1, (S2 i), HJ. apply Nat.ltb_lt in Hi. rewrite Hi. ring.
    + intros k Hk. rewrite Z3, S2 by exact Hk. rewrite (Z1 k Hk). destruct (Nat.ltb k (length jg)); ring.
Qed.

Definition l2_kind (E : cfn) : Prop := loss_kind (cf_loss E) = TL2.

Lemma jac_loop_ok al cc n cs : loss_make al cc = Ok (cf_loss E) ->
  (forall k, cf_enabled E k = true -> (k < pt_cols (cf_pt E))%nat -> (k < n)%nat) ->
  (forall c, In c cs -> (cparent c < length (cf_sk E))%nat) ->
  (forall c, In c cs -> jac_regular E c (st_at t0 (cparent c))) ->
  exists rows, cf_jac_loop E n (sts t0) cs = Ok (cf_weight E * rsum (map (err1 E (sts t0)) cs), rows) /\
    length rows = cf_jacobian_size cs /\ (forall row, In row rows -> length (fst row) = n) /\
    is_derive (fun t => cf_weight E * rsum (map (err1 E (sts t)) cs)) t0 (2 * jt_r rows i) /\
    (l2_kind E -> rsum (map (fun row => snd row * snd row) rows) =
                  cf_weight E * rsum (map (err1 E (sts t0)) cs)) /\
    (forall k row, cf_enabled E k = false -> In row rows -> nth k (fst row) 0 = 0).
Proof.
  intros HLs Hn. induction cs as [|c cs IH]; intros HP HR.
  - exists []. cbn. split; [f_equal; f_equal; ring|]. split; [reflexivity|]. split; [intros row []|].
    split; [|split; [intros; ring|intros k row _ []]].
    eapply d_eq; [apply d_const|]. unfold jt_r; cbn. ring.
  - destruct (chain_exists (cf_sk E) V (cparent c)) as [l Hc]; [apply HP; left; reflexivity|].
    assert (HSt : forall t, nth_error (sts t) (cparent c) = Some (st_at t (cparent c))).
    { intros t. apply st_at_ok. apply HP. left; reflexivity. }
    destruct (HR c (or_introl eq_refl)) as [Hsm Hd Hw Ht].
    rewrite eval_function_eq in Hd, Ht. cbn [ev_d ev_f] in Hd, Ht.
    destruct (jac1_ok c (fun t => st_at t (cparent c)) l Hc HSt al cc n HLs Hn Hd Hw Ht)
      as [r1 [E1 [L1 [W1 [J1 [Q1 Z1]]]]]].
    destruct (IH (fun c' H => HP c' (or_intror H)) (fun c' H => HR c' (or_intror H)))
      as [rows [E2 [L2 [W2 [D2 [Q2 Z2]]]]]].
    exists (r1 ++ rows). cbn [cf_jac_loop]. rewrite E1. cbn [obind]. rewrite E2. cbn [obind fst snd map rsum].
    split; [f_equal; f_equal; ring|]. split; [rewrite app_length, L1, L2; reflexivity|].
    split; [|split; [|split]].
    + intros row H. apply in_app_or in H as [H|H]; auto.
    + apply (d_ext (fun t => cf_weight E * err1 E (sts t) c + cf_weight E * rsum (map (err1 E (sts t)) cs)));
        [intros t; ring|].
      eapply d_eq.
      * apply d_plus; [|exact D2].
        eapply (err1_derive c (fun t => st_at t (cparent c)) l Hc HSt al cc HLs). exact Hsm.
      * rewrite <- J1. unfold jt_r. rewrite map_app, rsum_app. ring.
    + intros K. rewrite map_app, rsum_app, Q1, (Q2 K). unfold err1 at 2. rewrite HSt.
      unfold wl, loss_deriv, loss_value. unfold l2_kind in K. rewrite K. unfold l2_loss, deriv_l2_loss. cbv beta iota zeta. ring.
    + intros k row Hk H. apply in_app_or in H as [H|H]; eauto.
Qed.
End Path.

(** ** The statements *)

Lemma state_at E (V : valid_sk (cf_sk E)) q s : state_of (cf_sk E) (cf_pt E) q = Ok s ->
  length s = length (cf_sk E).
Proof.
  unfold state_of. destruct (pt_apply (cf_pt E) q) as [jp| | | |]; cbn; try discriminate.
  intros H. destruct (fk_inv _ _ _ V H) as [_ [FL _]]. exact FL.
Qed.

Lemma state_path E p i : cfn_wf E -> valid_sk (cf_sk E) -> pt_wf (cf_pt E) ->
  length p = pt_cols (cf_pt E) ->
  exists sts, forall t, state_of (cf_sk E) (cf_pt E) (set_nth p i t) = Ok (sts t).
Proof.
  intros W V WP Lp.
  exists (fun t => match state_of (cf_sk E) (cf_pt E) (set_nth p i t) with Ok s => s | _ => [] end).
  intros t. unfold state_of.
  destruct (apply_char_lemma (cf_pt E) (set_nth p i t) WP) as [q [q0 [Eq _]]]; [rewrite set_nth_length; exact Lp|].
  rewrite Eq. cbn [obind]. destruct (fk_ok (cf_sk E) q V) as [s [Es _]].
  { rewrite (pt_apply_length _ _ _ WP Eq). apply (cwf_pt_rows E W). }
  rewrite Es. reflexivity.
Qed.

Lemma set_nth_self (p : list R) i : (i < length p)%nat -> set_nth p i (nth i p 0) = p.
Proof.
  revert i. induction p as [|x p IH]; intros [|i] H; cbn in *; try lia; [reflexivity|].
  rewrite IH by lia. reflexivity.
Qed.

Lemma constraint_gradient_lemma E p sts g al cc i :
  cfn_wf E -> valid_sk (cf_sk E) -> unit_prerotations (cf_sk E) -> pt_wf (cf_pt E) ->
  loss_make al cc = Ok (cf_loss E) ->
  length p = pt_cols (cf_pt E) -> length g = pt_cols (cf_pt E) ->
  state_of (cf_sk E) (cf_pt E) p = Ok sts ->
  (forall c s, In c (cf_constraints E) -> nth_error sts (cparent c) = Some s -> regular (cf_prec E) c s) ->
  (i < pt_cols (cf_pt E))%nat -> cf_enabled E i = true ->
  exists F g',
    (forall t, exists st, state_of (cf_sk E) (cf_pt E) (set_nth p i t) = Ok st /\ cf_error E st = Ok (F t)) /\
    cf_gradient E sts g = Ok (F (nth i p 0), g') /\
    is_derive F (nth i p 0) (nth i g' 0 - nth i g 0) /\
    (forall k, cf_enabled E k = false -> nth k g' 0 = nth k g 0).
Proof.
  intros W V U WP HLs Lp Lg H0 HR Hi EN.
  destruct (state_path E p i W V WP Lp) as [S HS].
  assert (E0 : S (nth i p 0) = sts).
  { specialize (HS (nth i p 0)). rewrite set_nth_self in HS by lia. congruence. }
  destruct (grad_loop_ok E W V U WP p i S Lp Hi EN HS al cc (cf_constraints E) HLs (cwf_parents E W))
    with (jg := repeat 0 (pt_cols (cf_pt E))) as [jg' [G1 [G2 [G3 G4]]]].
  - intros c Hc. apply HR; [exact Hc|]. rewrite <- E0. unfold st_at. apply nth_error_nth'.
    rewrite (path_length E V p i S HS). apply (cwf_parents E W c Hc).
  - apply repeat_length.
  - exists (fun t => cf_weight E * rsum (map (err1 E (S t)) (cf_constraints E))), (vadd_list g jg').
    rewrite E0 in G1. split; [|split; [|split]].
    + intros t. exists (S t). split; [apply HS|]. apply cf_error_ok. intros c Hc.
      rewrite (path_length E V p i S HS). apply (cwf_parents E W c Hc).
    + unfold cf_gradient. rewrite G1. cbn [obind fst snd]. rewrite G2, Lg, Nat.eqb_refl, E0. reflexivity.
    + eapply d_eq; [exact G3|]. rewrite vadd_list_nth by lia. rewrite zrow_nth. ring.
    + intros k Hk. destruct (Nat.lt_ge_cases k (pt_cols (cf_pt E))) as [L|L].
      * rewrite vadd_list_nth by lia. rewrite (G4 k Hk), zrow_nth. ring.
      * rewrite !nth_overflow; [reflexivity|lia|rewrite vadd_list_length; lia].
Qed.

Lemma constraint_jacobian_lemma E p sts n al cc i :
  cfn_wf E -> valid_sk (cf_sk E) -> unit_prerotations (cf_sk E) -> pt_wf (cf_pt E) ->
  loss_make al cc = Ok (cf_loss E) ->
  length p = pt_cols (cf_pt E) ->
  (forall k, cf_enabled E k = true -> (k < pt_cols (cf_pt E))%nat -> (k < n)%nat) ->
  state_of (cf_sk E) (cf_pt E) p = Ok sts ->
  (forall c s, In c (cf_constraints E) -> nth_error sts (cparent c) = Some s -> jac_regular E c s) ->
  (i < pt_cols (cf_pt E))%nat -> cf_enabled E i = true ->
  exists F rows,
    (forall t, exists st, state_of (cf_sk E) (cf_pt E) (set_nth p i t) = Ok st /\ cf_error E st = Ok (F t)) /\
    cf_jacobian E n sts = Ok (F (nth i p 0), rows) /\
    length rows = cf_jacobian_size (cf_constraints E) /\ (forall row, In row rows -> length (fst row) = n) /\
    is_derive F (nth i p 0) (2 * jt_r rows i) /\
    (loss_kind (cf_loss E) = TL2 -> rsum (map (fun row => snd row * snd row) rows) = F (nth i p 0)) /\
    (forall k row, cf_enabled E k = false -> In row rows -> nth k (fst row) 0 = 0).
Proof.
  intros W V U WP HLs Lp Hn H0 HR Hi EN.
  destruct (state_path E p i W V WP Lp) as [S HS].
  assert (E0 : S (nth i p 0) = sts).
  { specialize (HS (nth i p 0)). rewrite set_nth_self in HS by lia. congruence. }
  destruct (jac_loop_ok E W V U WP p i S Lp Hi EN HS al cc n (cf_constraints E) HLs Hn (cwf_parents E W))
    as [rows [G1 [G2 [G3 [G4 [G5 G6]]]]]].
  - intros c Hc. apply HR; [exact Hc|]. rewrite <- E0. unfold st_at. apply nth_error_nth'.
    rewrite (path_length E V p i S HS). apply (cwf_parents E W c Hc).
  - exists (fun t => cf_weight E * rsum (map (err1 E (S t)) (cf_constraints E))), rows.
    rewrite E0 in *. split; [|split; [|split; [|split; [|split; [|split]]]]]; auto.
    intros t. exists (S t). split; [apply HS|]. apply cf_error_ok. intros c Hc.
    rewrite (path_length E V p i S HS). apply (cwf_parents E W c Hc).
Qed.
