(** C99, C100: what the error functions over the wide constraint stores compute,
    for every store, skeleton, pose and schedule of their tasks. *)

From Coq Require Import String Bool Reals List Arith Lia Lra Psatz.
From Coquelicot Require Import Coquelicot.
From Verif Require Import Prelude Loops LinAlg Rbool R3 Transform_model Transform_proofs Skeleton_model
  Skeleton_spec FK_model FK_spec FK_proofs FK_deriv_proofs FK_axis_proofs ParamTransform_model
  ParamTransform_spec ParamTransform_proofs Limits_model Limits_spec Limits_proofs Loss_model
  Loss_proofs Constraint_model Constraint_spec Constraint_eval_proofs Constraint_proofs Constraint_deriv_proofs
  Constraint_props SimdStore_model SimdStore_spec SimdStore_proofs Cells_model Cells_proofs SimdFn_model SimdFn_spec
  SimdFn_proofs SimdFn_task_proofs SimdFn_deriv_proofs SimdFn_jac_proofs.
Import ListNotations.
Local Open Scope nat_scope.
Local Open Scope R_scope.

(** ** The error *)

Lemma fn_states F st lists en p sts : simd_wf F st lists en -> valid_sk (sf_sk F) ->
  state_of (sf_sk F) (sf_pt F) p = Ok sts ->
  length sts = length (sf_sk F) /\
  forall j, (j < ss_n st)%nat -> js_linear (stt sts j) = tf_linear (js_world (stt sts j)).
Proof.
  intros W V H. unfold state_of in H. destruct (pt_apply (sf_pt F) p) as [q| | | |]; try discriminate. cbn [obind] in H.
  pose proof (proj2 (fk_inv _ _ _ V H)) as FS. pose proof (proj1 FS) as L. split; [exact L|].
  intros j Hj. eapply js_linear_state; [exact FS|]. apply (stt_ok F st lists en W sts L j Hj).
Qed.

(** C99. getError is the weighted sum of the squared residuals of the constraints
    that were added, whatever the unused part of the store holds. *)
Theorem simd_error : forall F st lists en p sts,
  simd_wf F st lists en -> parents_first (sk_parents (sf_sk F)) ->
  state_of (sf_sk F) (sf_pt F) p = Ok sts ->
  sf_error F sts = Ok (wide_objective F (ss_n st) lists sts).
Proof.
  intros F st lists en p sts W V H. destruct (fn_states _ _ _ _ _ _ W V H) as [L HL].
  rewrite (sf_error_ok F st lists en W sts L). f_equal. apply (total_err_spec F st lists en W sts L HL).
Qed.
Print Assumptions simd_error.

Lemma plain_wf F st lists en L : simd_wf F st lists en -> cfn_wf (plain_fn F (ss_n st) lists en L 0 0).
Proof.
  intros W. constructor; cbn [plain_fn cf_pt cf_sk cf_active cf_enabled cf_constraints cf_prec].
  - apply (sw_rows _ _ _ _ W).
  - apply (sw_active_len _ _ _ _ W).
  - apply (sw_active _ _ _ _ W).
  - intros c Hc. unfold plain_constraints in Hc. apply in_flat_map in Hc as (j & Hj & Hc). apply in_map_iff in Hc as (v & <- & _).
    apply in_seq in Hj. cbn [plain_constraint cparent]. rewrite <- (sw_joints _ _ _ _ W). lia.
  - lra.
Qed.

(** C99. For positions and normals this is getError of the ordinary error function
    with the same constraints, the L2 loss and the weight times 1e-4. *)
Theorem simd_error_plain : forall F st lists en p sts L,
  simd_wf F st lists en -> parents_first (sk_parents (sf_sk F)) ->
  state_of (sf_sk F) (sf_pt F) p = Ok sts ->
  sf_kind F <> KPlane -> loss_make 2 1 = Ok L ->
  sf_error F sts = cf_error (plain_fn F (ss_n st) lists en L 0 0) sts.
Proof.
  intros F st lists en p sts L W V H HK HLs. rewrite (simd_error _ _ _ _ _ _ W V H).
  destruct (fn_states _ _ _ _ _ _ W V H) as [Ls _].
  unfold state_of in H. destruct (pt_apply (sf_pt F) p) as [q| | | |] eqn:Eq; try discriminate. cbn [obind] in H.
  symmetry. erewrite (constraint_error_is_objective (plain_fn F (ss_n st) lists en L 0 0) q sts V (plain_wf _ _ _ _ _ W) H).
  - f_equal. unfold constraint_objective, wide_objective. cbn [plain_fn cf_weight cf_constraints cf_loss]. f_equal.
    unfold plain_constraints. rewrite rsum_map_flat. apply rsum_map_ext. intros j Hj. apply in_seq in Hj. rewrite map_map.
    cbn [plain_constraint cparent cweight]. rewrite (stt_ok F st lists en W sts Ls j) by lia.
    apply rsum_map_ext. intros vals Hv. f_equal.
    assert (EL : L = exc_loss) by (pose proof exc_loss_ok; congruence). subst L.
    unfold loss_value, exc_loss. cbn [loss_kind loss_invC2]. rewrite type_2. unfold l2_loss.
    replace (sqnorm (wide_residual (sf_kind F) vals (js_world (stt sts j)))) with
      (sqnorm (residual (cdat (plain_constraint (sf_kind F) j vals)) (js_world (stt sts j)))); [field|].
    pose proof (vals_len F st lists en W j vals ltac:(lia) Hv) as LV.
    destruct (sf_kind F); cbn [wide_numbers] in LV; try congruence;
      repeat (destruct vals as [|? vals]; [discriminate LV|]); destruct vals; try discriminate LV; reflexivity.
  - intros c s Hc _. cbn [plain_fn cf_constraints] in Hc. unfold plain_constraints in Hc. apply in_flat_map in Hc as (j & _ & Hc).
    apply in_map_iff in Hc as (v & <- & _). cbn [plain_constraint cdat].
    destruct (sf_kind F); repeat (destruct v as [|? v]; try exact I).
Qed.
Print Assumptions simd_error_plain.

(** ** Derivatives *)

Lemma fn_path F st lists en p i : simd_wf F st lists en -> valid_sk (sf_sk F) -> pt_wf (sf_pt F) ->
  length p = pt_cols (sf_pt F) ->
  exists S, forall t, state_of (sf_sk F) (sf_pt F) (set_nth p i t) = Ok (S t).
Proof.
  intros W V WP Lp. apply (state_path (plain_fn F (ss_n st) lists en exc_loss 0 0) p i (plain_wf _ _ _ _ _ W) V WP Lp).
Qed.

(** C99. getGradient for positions and normals: [Err] is getError along parameter
    [i]; the gradient gets the derivative of it without the factor weight_. Partial:
    the factor is missing (refuted below), planes are excluded (refuted below), and
    the tasks run one after the other. *)
Theorem simd_gradient_partial : forall F st lists en p sts g i,
  simd_wf F st lists en -> parents_first (sk_parents (sf_sk F)) -> unit_prerotations (sf_sk F) -> pt_wf (sf_pt F) ->
  length p = pt_cols (sf_pt F) -> length g = pt_cols (sf_pt F) ->
  state_of (sf_sk F) (sf_pt F) p = Ok sts ->
  sf_kind F <> KPlane -> (i < pt_cols (sf_pt F))%nat -> en i = true ->
  exists Err g',
    (forall t, exists s, state_of (sf_sk F) (sf_pt F) (set_nth p i t) = Ok s /\ sf_error F s = Ok (Err t)) /\
    sf_gradient F sts g = Ok (Err (nth i p 0), g') /\ length g' = length g /\
    is_derive Err (nth i p 0) (sf_weight F * (nth i g' 0 - nth i g 0)).
Proof.
  intros F st lists en p sts g i W V U WP Lp Lg H0 HK Hi Hen.
  destruct (fn_path F st lists en p i W V WP Lp) as [S HS].
  assert (E0 : S (nth i p 0) = sts).
  { specialize (HS (nth i p 0)). rewrite set_nth_self in HS by lia. congruence. }
  pose proof (path_len F en V p i S HS) as PL.
  destruct (sf_gradient_ok F st lists en W V sts (proj1 (fn_states _ _ _ _ _ _ W V H0)) g WP Lg) as (g' & E1 & L1 & N1).
  exists (fun t => kWideWeight * sf_weight F * total_err F st lists (S t)), g'. split; [|split; [|split]].
  - intros t. exists (S t). split; [apply HS|]. apply (sf_error_ok F st lists en W (S t) (PL t)).
  - rewrite E0. exact E1.
  - exact L1.
  - rewrite (N1 i) by (try lia; exact Hen). rewrite <- E0 at 1.
    eapply d_eq; [apply d_scal; apply (total_err_derive F st lists en W V U WP p i S Lp Hi HS)|].
    + intros C. contradiction.
    + rewrite (grad_total_slope F st lists p i S HK). ring.
Qed.
Print Assumptions simd_gradient_partial.

Lemma sf_error_offsets F o sts :
  sf_error (SFn (sf_kind F) (sf_sk F) (sf_pt F) (sf_weight F) (sf_active F) (sf_dim F) (sf_store F) o) sts = sf_error F sts.
Proof.
  unfold sf_error. cbn [sf_store sf_weight]. destruct (sf_store F) as [st|]; [|reflexivity].
  destruct (Nat.leb (ss_n st) (length sts)); [|reflexivity].
  match goal with |- context [error_sum ?G st sts _] => set (F' := G) end.
  assert (HP : forall j s body idx, packets F' st j s body idx = packets F st j s body idx).
  { induction idx as [|x idx IH]; [reflexivity|]. cbn [packets]. rewrite IH. reflexivity. }
  assert (HE : forall js, error_sum F' st sts js = error_sum F st sts js).
  { induction js as [|j js IH]; [reflexivity|]. cbn [error_sum]. rewrite IH.
    destruct (rd (ss_count st) j); cbn [obind]; try reflexivity. destruct (nth_error sts j); cbn [obind]; [|reflexivity].
    rewrite HP. reflexivity. }
  rewrite HE. reflexivity.
Qed.

(** getJacobianSize: whole packets of rows for every joint. *)
Theorem simd_jacobian_size : forall F st lists en,
  simd_wf F st lists en ->
  exists F', sf_jacobian_size F = Ok (wide_rows F (ss_n st) lists, F') /\ simd_wf F' st lists en /\
    sf_kind F' = sf_kind F /\ sf_sk F' = sf_sk F /\ sf_pt F' = sf_pt F /\ sf_weight F' = sf_weight F /\
    sf_active F' = sf_active F /\ (forall sts, sf_error F' sts = sf_error F sts).
Proof.
  intros F st lists en W. unfold sf_jacobian_size. rewrite (sw_store _ _ _ _ W).
  change (offsets_from F st 0 (seq 0 (ss_n st))) with (offsets_from F st (offs F lists 0) (seq 0 (ss_n st))).
  rewrite (offsets_from_ok F st lists en W (ss_n st) 0) by lia. cbn [obind fst snd Nat.add]. eexists. split.
  - f_equal. f_equal. unfold wide_rows. generalize (ss_n st). intros m. symmetry.
    assert (A : forall m a, (fold_right (fun j r => ((length (lists j) + d_packet (sf_dim F) - 1) / d_packet (sf_dim F) *
        (k_dim (sf_kind F) * d_packet (sf_dim F)) + r)%nat) 0%nat (seq a m) + offs F lists a = offs F lists (a + m))%nat).
    { induction m0 as [|m0 IH]; intros a; [cbn; f_equal; lia|]. cbn [seq fold_right].
      replace (a + Datatypes.S m0)%nat with (Datatypes.S a + m0)%nat by lia. rewrite <- IH. cbn [offs]. unfold jrows, np, count. lia. }
    specialize (A m 0%nat). cbn [offs Nat.add] in A. rewrite Nat.add_0_r in A. exact A.
  - destruct W as [W1 W2 W3 W4 W5 W6 W7 W8]. split; [constructor; first [assumption|reflexivity]|].
    repeat (split; [reflexivity|]). intros sts. rewrite <- W1. apply sf_error_offsets.
Qed.
Print Assumptions simd_jacobian_size.

Lemma size_offsets F st lists en size F' : simd_wf F st lists en -> sf_jacobian_size F = Ok (size, F') ->
  size = offs F lists (ss_n st) /\
  F' = SFn (sf_kind F) (sf_sk F) (sf_pt F) (sf_weight F) (sf_active F) (sf_dim F) (sf_store F) (map (offs F lists) (seq 0 (ss_n st))).
Proof.
  intros W. unfold sf_jacobian_size. rewrite (sw_store _ _ _ _ W).
  change (offsets_from F st 0 (seq 0 (ss_n st))) with (offsets_from F st (offs F lists 0) (seq 0 (ss_n st))).
  rewrite (offsets_from_ok F st lists en W (ss_n st) 0) by lia. cbn [obind fst snd Nat.add]. intros E. injection E as <- <-. auto.
Qed.
Lemma zeros_mem N cols c : jac_mem (zeros N cols) (repeat 0 N) c = 0.
Proof.
  destruct c as [i|r c|r|j]; cbn [jac_mem]; try reflexivity; [|apply nth_repeat0]. unfold zeros.
  destruct (Nat.lt_ge_cases r N) as [L|L].
  - rewrite (nth_indep _ [] (repeat 0 cols)) by (rewrite repeat_length; exact L). rewrite nth_repeat. apply nth_repeat0.
  - rewrite (nth_overflow (repeat (repeat 0 cols) N) []) by (rewrite repeat_length; exact L). destruct c; reflexivity.
Qed.

(** The tasks and the memory after them. *)
Lemma jac_run F st lists en p sts size F' jac res : simd_wf F st lists en -> valid_sk (sf_sk F) -> pt_wf (sf_pt F) ->
  state_of (sf_sk F) (sf_pt F) p = Ok sts -> sf_jacobian_size F = Ok (size, F') ->
  (size <= length jac)%nat -> length res = length jac ->
  simd_wf F' st lists en /\ sf_jac_tasks F' st sts = Ok (tasks F st lists sts) /\
  exists m, run_actions (jac_shape (length jac) (pt_cols (sf_pt F)) res st) (concat (tasks F st lists sts)) (jac_mem jac res) = Ok m /\
    (forall c, m c = val (acts F st lists sts) c (jac_mem jac res c)) /\
    sf_jacobian F' sts (pt_cols (sf_pt F)) jac res = Ok (jac_result F (ss_n st) (pt_cols (sf_pt F)) (length jac) m).
Proof.
  intros W V WP H0 HZ HN HR. destruct (size_offsets _ _ _ _ _ _ W HZ) as [-> EF].
  pose proof (proj1 (fn_states _ _ _ _ _ _ W V H0)) as L.
  set (F1 := F') in *. assert (W' : simd_wf F1 st lists en).
  { rewrite EF. destruct W as [W1 W2 W3 W4 W5 W6 W7 W8]. constructor; assumption. }
  assert (T : sf_jac_tasks F1 st sts = Ok (tasks F st lists sts)).
  { rewrite (jac_tasks_ok F1 st lists en W' ltac:(rewrite EF; exact V) sts ltac:(rewrite EF; exact L) (offs F lists)).
    - rewrite EF. reflexivity.
    - intros j Hj. rewrite EF. cbn [sf_offsets]. rewrite nth_error_map, (nth_error_nth' _ 0%nat) by (rewrite seq_length; exact Hj).
      rewrite seq_nth by exact Hj. reflexivity. }
  split; [exact W'|]. split; [exact T|].
  destruct (run_actions_ok (jac_shape (length jac) (pt_cols (sf_pt F)) res st) (concat (tasks F st lists sts)) (jac_mem jac res)) as (m & E & M).
  { intros a Ha. apply in_concat in Ha as (l & Hl & Ha). unfold jac_shape. rewrite HR.
    apply (jac_cells F st lists en W sts (length jac) HN WP l a Hl Ha). }
  exists m. split; [exact E|]. split; [exact M|]. unfold sf_jacobian. rewrite (sw_store _ _ _ _ W'), T.
  replace (sf_pt F1) with (sf_pt F) by (rewrite EF; reflexivity). rewrite Nat.eqb_refl.
  replace (sf_offsets F1) with (map (offs F lists) (seq 0 (ss_n st))) by (rewrite EF; reflexivity).
  rewrite map_length, seq_length, Nat.leb_refl. cbn [obind]. rewrite E. cbn [obind]. unfold jac_result. rewrite HR.
  replace (sf_weight F1) with (sf_weight F) by (rewrite EF; reflexivity). reflexivity.
Qed.

Lemma no_turning_coeff F st lists en i : simd_wf F st lists en -> valid_sk (sf_sk F) -> no_turning F lists i ->
  forall j a d, (j < ss_n st)%nat -> lists j <> [] -> In a (ch F j) -> (3 <= d < 6)%nat ->
  ent_coeff (pt_entries (sf_pt F)) (a * 7 + d) i = 0.
Proof.
  intros W V HT j a d Hj HL Ha Hd. unfold ent_coeff. apply rsum_map_zero. intros e He.
  destruct (Nat.eqb_spec (erow e) (a * 7 + d)) as [E1|]; [|reflexivity].
  destruct (Nat.eqb_spec (ecol e) i) as [E2|]; [|reflexivity]. cbn [andb].
  apply (HT j a (ch F j) e HL (ch_ok F st lists en W V j Hj) Ha He E2). lia.
Qed.

Lemma jac_core F st lists en p sts size F' N : simd_wf F st lists en -> valid_sk (sf_sk F) -> pt_wf (sf_pt F) ->
  state_of (sf_sk F) (sf_pt F) p = Ok sts ->
  0 <= sf_weight F -> (forall j vals, (j < ss_n st)%nat -> In vals (lists j) -> 0 <= wide_weight vals) ->
  sf_jacobian_size F = Ok (size, F') -> (size <= N)%nat ->
  exists J r, sf_jacobian F' sts (pt_cols (sf_pt F)) (zeros N (pt_cols (sf_pt F))) (repeat 0 N) =
      Ok (kWideWeight * sf_weight F * total_err F st lists sts, J, r, Some N) /\
    length J = N /\ length r = N /\ sqnorm r = kWideWeight * sf_weight F * total_err F st lists sts /\
    forall i, (i < pt_cols (sf_pt F))%nat -> en i = true ->
      jt_res J r i = kWideWeight * sf_weight F * slope_at F st lists sts (fun r => ent_coeff (pt_entries (sf_pt F)) r i).
Proof.
  intros W V WP H0 HW1 HW2 HZ HN.
  assert (LZ : length (zeros N (pt_cols (sf_pt F))) = N) by apply repeat_length.
  destruct (jac_run F st lists en p sts size F' (zeros N (pt_cols (sf_pt F))) (repeat 0 N) W V WP H0 HZ) as (W' & T & m & _ & M & E1);
    [rewrite LZ; exact HN|rewrite LZ; apply repeat_length|].
  rewrite LZ in E1. destruct (size_offsets _ _ _ _ _ _ W HZ) as [ES _]. rewrite ES in HN.
  assert (HWG : wgts_ok F st lists) by (split; assumption).
  assert (M0 : forall c, m c = val (acts F st lists sts) c 0) by (intros c; rewrite M, zeros_mem; reflexivity).
  eexists. eexists. split; [|split; [|split; [|split]]].
  - rewrite E1. unfold jac_result.
    fold (mem_errors m (ss_n st)). rewrite (mem_errors_of F st lists sts (proj1 (fn_states _ _ _ _ _ _ W V H0)) (jac_task F st lists sts (offs F lists))
      (fun j => flat_map (fun x => jac_acts F sts j (offs F lists j + k_dim (sf_kind F) * x) (lanes_at F st j x)) (starts F lists j)) m).
    + reflexivity.
    + reflexivity.
    + intros j a j' Ha. apply in_flat_map in Ha as (x & _ & Ha). unfold jac_acts in Ha. apply in_app_or in Ha as [Ha|Ha].
      * unfold res_actions in Ha. apply in_flat_map in Ha as (c & _ & Ha). apply in_map_iff in Ha as ([i' l'] & <- & _). discriminate.
      * apply in_walk in Ha as (b & d & _ & _ & Ha). unfold jac_emit in Ha. apply in_flat_map in Ha as (c & _ & Ha).
        apply in_flat_map in Ha as (e & _ & Ha). apply in_map_iff in Ha as ([i' l'] & <- & _). discriminate.
    + intros j Hj. apply M0.
  - rewrite map_length, seq_length. reflexivity.
  - rewrite map_length, seq_length. reflexivity.
  - unfold sqnorm. rewrite map_map, rsum_seq.
    rewrite (sumn_ext N _ (fun r => val (acts F st lists sts) (MRes r) 0 * val (acts F st lists sts) (MRes r) 0))
      by (intros; rewrite !M0; reflexivity).
    apply (res_sq_sum F st lists en W sts (fun _ => 0) N HWG HN). reflexivity.
  - intros i Hi Hen. unfold jt_res. rewrite combine_map2, map_map, rsum_seq.
    rewrite (sumn_ext N _ (fun r => val (acts F st lists sts) (MJac r i) 0 * val (acts F st lists sts) (MRes r) 0)).
    2:{ intros r _. rewrite nth_map_seq by exact Hi. rewrite !M0. reflexivity. }
    apply (jtr_sum F st lists en W sts (fun _ => 0) N i HWG Hen HN).
Qed.

(** C99. getJacobian, called after getJacobianSize with a zero matrix that has at
    least that many rows: it returns getError, |r|^2 is the error and 2 J^T r its
    derivative, with weight_. Partial: for planes only along parameters that turn no
    joint above a constraint (refuted otherwise). *)
Theorem simd_jacobian_partial : forall F st lists en p sts i size F' N,
  simd_wf F st lists en -> parents_first (sk_parents (sf_sk F)) -> unit_prerotations (sf_sk F) -> pt_wf (sf_pt F) ->
  length p = pt_cols (sf_pt F) -> state_of (sf_sk F) (sf_pt F) p = Ok sts ->
  0 <= sf_weight F -> (forall j vals, (j < ss_n st)%nat -> In vals (lists j) -> 0 <= wide_weight vals) ->
  sf_jacobian_size F = Ok (size, F') -> (size <= N)%nat ->
  (i < pt_cols (sf_pt F))%nat -> en i = true -> (sf_kind F = KPlane -> no_turning F lists i) ->
  exists Err J r,
    (forall t, exists s, state_of (sf_sk F) (sf_pt F) (set_nth p i t) = Ok s /\ sf_error F s = Ok (Err t)) /\
    sf_jacobian F' sts (pt_cols (sf_pt F)) (zeros N (pt_cols (sf_pt F))) (repeat 0 N) =
      Ok (Err (nth i p 0), J, r, Some N) /\
    length J = N /\ length r = N /\
    sqnorm r = Err (nth i p 0) /\
    is_derive Err (nth i p 0) (2 * jt_res J r i).
Proof.
  intros F st lists en p sts i size F' N W V U WP Lp H0 HW1 HW2 HZ HN Hi Hen HT.
  destruct (fn_path F st lists en p i W V WP Lp) as [S HS].
  assert (E0 : S (nth i p 0) = sts).
  { specialize (HS (nth i p 0)). rewrite set_nth_self in HS by lia. congruence. }
  pose proof (path_len F en V p i S HS) as PL.
  destruct (jac_core F st lists en p sts size F' N W V WP H0 HW1 HW2 HZ HN) as (J & r & E1 & L1 & L2 & SQ & JT).
  exists (fun t => kWideWeight * sf_weight F * total_err F st lists (S t)), J, r.
  split; [|split; [|split; [|split; [|split]]]]; try assumption.
  - intros t. exists (S t). split; [apply HS|]. apply (sf_error_ok F st lists en W (S t) (PL t)).
  - rewrite E0. exact E1.
  - rewrite E0. exact SQ.
  - eapply d_eq; [apply d_scal; apply (total_err_derive F st lists en W V U WP p i S Lp Hi HS)|].
    + intros HK j a d Hj HL Ha Hd. apply (no_turning_coeff F st lists en i W V (HT HK) j a d); assumption.
    + rewrite (JT i Hi Hen). unfold slope, slope_at. rewrite E0. ring.
Qed.
Print Assumptions simd_jacobian_partial.

(** ** The tasks in parallel *)

Lemma disjoint_tasks (T : nat -> list maction) n (own : nat -> mcell -> Prop) :
  (forall j a, (j < n)%nat -> In a (T j) -> own j (ma_cell a)) -> (forall j j' c, (j < n)%nat -> (j' < n)%nat -> own j c -> own j' c -> j = j') ->
  disjoint (map T (seq 0 n)).
Proof.
  intros H1 H2 i k li lk a b Hi Hk Ha Hb E.
  assert (A : forall i li, nth_error (map T (seq 0 n)) i = Some li -> (i < n)%nat /\ li = T i).
  { intros x lx Hx. assert (x < n)%nat by (rewrite <- (seq_length n 0), <- (map_length T); apply nth_error_Some; congruence).
    split; [assumption|]. rewrite nth_error_map, (nth_error_nth' _ 0%nat) in Hx by (rewrite seq_length; assumption).
    rewrite seq_nth in Hx by assumption. injection Hx as <-. reflexivity. }
  destruct (A i li Hi) as [Ri ->]. destruct (A k lk Hk) as [Rk ->].
  apply (H2 i k (ma_cell a) Ri Rk); [apply H1; assumption|rewrite E; apply H1; assumption].
Qed.

(** C100. The tasks of getJacobian touch different rows: under every schedule they
    run without a bad access, and when all are done the caller has what the tasks
    one after the other give. *)
Theorem simd_jacobian_any_schedule : forall F st lists en p sts size F' jac res sched,
  simd_wf F st lists en -> parents_first (sk_parents (sf_sk F)) -> pt_wf (sf_pt F) ->
  state_of (sf_sk F) (sf_pt F) p = Ok sts ->
  sf_jacobian_size F = Ok (size, F') -> (size <= length jac)%nat -> length res = length jac ->
  exists ts m ts',
    sf_jac_tasks F' st sts = Ok ts /\
    par_run (jac_shape (length jac) (pt_cols (sf_pt F)) res st) sched (jac_mem jac res, start_tasks ts) = Ok (m, ts') /\
    (all_finished ts' ->
     sf_jacobian F' sts (pt_cols (sf_pt F)) jac res = Ok (jac_result F (ss_n st) (pt_cols (sf_pt F)) (length jac) m)).
Proof.
  intros F st lists en p sts size F' jac res sched W V WP H0 HZ HN HR.
  destruct (jac_run F st lists en p sts size F' jac res W V WP H0 HZ HN HR) as (W' & T & m & E & M & E1).
  destruct (size_offsets _ _ _ _ _ _ W HZ) as [ES _]. rewrite ES in HN.
  destruct (par_run_serial (jac_shape (length jac) (pt_cols (sf_pt F)) res st) (tasks F st lists sts) (jac_mem jac res) sched)
    as (m' & ts' & ms & P1 & P2 & P3).
  - apply (disjoint_tasks _ _ (row_in F lists)).
    + intros j a Hj Ha. apply (task_rows F st lists en W sts j a Hj Ha).
    + intros j j' c _ _. apply row_in_inj.
  - intros l a Hl Ha. unfold jac_shape. rewrite HR. apply (jac_cells F st lists en W sts (length jac) HN WP l a Hl Ha).
  - exists (tasks F st lists sts), m', ts'. split; [exact T|]. split; [exact P1|]. intros HF. rewrite E1. f_equal.
    rewrite E in P2. injection P2 as <-. specialize (P3 HF). unfold jac_result.
    assert (A : forall (f g : nat -> R) l, (forall x, f x = g x) -> map f l = map g l) by (intros; apply map_ext; assumption).
    rewrite (A (fun j => m (MErr j)) (fun j => m' (MErr j))) by (intros; symmetry; apply P3).
    rewrite (A (fun j => m (MRes j)) (fun j => m' (MRes j))) by (intros; symmetry; apply P3).
    f_equal. f_equal. f_equal. apply map_ext. intros r. apply map_ext. intros c. symmetry. apply P3.
Qed.
Print Assumptions simd_jacobian_any_schedule.

(** C100. getGradient under every schedule, if only one joint has constraints.
    Partial: with two joints an update can be lost (refuted below). *)
Theorem simd_gradient_any_schedule_partial : forall F st lists en p sts g sched,
  simd_wf F st lists en -> parents_first (sk_parents (sf_sk F)) -> pt_wf (sf_pt F) ->
  state_of (sf_sk F) (sf_pt F) p = Ok sts -> length g = pt_cols (sf_pt F) ->
  (forall j j', (j < ss_n st)%nat -> (j' < ss_n st)%nat -> lists j <> [] -> lists j' <> [] -> j = j') ->
  exists ts m ts',
    sf_grad_tasks F st sts = Ok ts /\
    par_run (grad_shape g st) sched (grad_mem g, start_tasks ts) = Ok (m, ts') /\
    (all_finished ts' -> sf_gradient F sts g = Ok (grad_result F (ss_n st) (length g) m)).
Proof.
  intros F st lists en p sts g sched W V WP H0 Lg H1.
  pose proof (proj1 (fn_states _ _ _ _ _ _ W V H0)) as L.
  pose proof (grad_tasks_ok F st lists en W V sts L) as T.
  destruct (par_run_serial (grad_shape g st) (map (grad_task F st lists sts) (seq 0 (ss_n st))) (grad_mem g) sched)
    as (m' & ts' & ms & P1 & P2 & P3).
  - apply (disjoint_tasks _ _ (fun j c => match c with MGrad _ => lists j <> [] | MErr j' => j' = j | _ => False end)).
    + intros j a Hj Ha. unfold grad_task in Ha. apply in_app_or in Ha as [Ha|[<-|[]]]; [|reflexivity].
      apply in_flat_map in Ha as (x & Hx & Ha). destruct (grad_acts_cells F sts j _ a Ha) as (_ & e & _ & ->).
      intros Z. destruct (starts_in F st lists en W j x Hj Hx) as (_ & q & Hq & _). unfold np, count in Hq. rewrite Z in Hq.
      cbn [length List.length Nat.add] in Hq. pose proof (P_pos F st lists en W). rewrite Nat.div_small in Hq by lia. lia.
    + intros j j' c Hj Hj'. destruct c; cbn; intros; try contradiction; [eapply H1; eassumption|congruence].
  - intros l a Hl Ha. apply in_map_iff in Hl as (j & <- & Hj). apply in_seq in Hj.
    destruct (grad_task_cells F st lists sts j a Ha) as [_ [(e & He & ->)| ->]]; cbn [cell_ok grad_shape m_grad m_err]; apply Nat.ltb_lt; [|lia].
    rewrite Lg. apply (wf_entries _ WP e He).
  - eexists. exists m', ts'. split; [exact T|]. split; [exact P1|]. intros HF. unfold sf_gradient.
    rewrite (sw_store _ _ _ _ W), T. cbn [obind]. rewrite P2. cbn [obind]. f_equal. unfold grad_result, mem_errors.
    specialize (P3 HF). f_equal; [f_equal; f_equal|]; apply map_ext; intros; symmetry; apply P3.
Qed.
Print Assumptions simd_gradient_any_schedule_partial.

(** ** Concrete cases: stores with one constraint for each joint *)

Definition exs_dim (n blocks : nat) : sdim := SDim 8 n 2 blocks.
Definition exs_store (valss : list (list R)) (blocks : nat) : sstore :=
  SS (length valss) (flat_map (fun b => flat_map (fun vals => nth b vals 0 :: repeat 0 7) valss) (seq 0 blocks))
     (map (fun _ => 1%nat) valss).
Definition exs_lists (valss : list (list R)) (j : nat) : list (list R) :=
  match nth_error valss j with Some v => [v] | None => [] end.
Definition exs_F (k : skind) (sk : skeleton) (pt : ptransform) (w : R) (valss : list (list R)) : simdfn :=
  SFn k sk pt w (repeat true (7 * length sk)) (exs_dim (length valss) (wide_numbers k))
    (Some (exs_store valss (wide_numbers k))) [].

Lemma flat_const_len {A B} (f : A -> list B) c l : (forall x, In x l -> length (f x) = c) -> length (flat_map f l) = (length l * c)%nat.
Proof.
  induction l as [|x l IH]; intros H; [reflexivity|]. cbn [flat_map length]. rewrite app_length, IH, H by (intros; auto with datatypes).
  cbn. lia.
Qed.
Lemma flat_const_nth {A B} (f : A -> list B) c : forall l a x r, (forall x, In x l -> length (f x) = c) ->
  nth_error l a = Some x -> (r < c)%nat -> nth_error (flat_map f l) (a * c + r) = nth_error (f x) r.
Proof.
  induction l as [|y l IH]; intros [|a] x r H E Hr; try discriminate E; cbn [flat_map].
  - injection E as ->. rewrite nth_error_app1; [reflexivity|]. rewrite H by (left; reflexivity). exact Hr.
  - rewrite nth_error_app2 by (rewrite H by (left; reflexivity); cbn; lia). rewrite H by (left; reflexivity).
    replace (Datatypes.S a * c + r - c)%nat with (a * c + r)%nat by (cbn; lia). apply IH; [intros; apply H; right; assumption|exact E|exact Hr].
Qed.
Lemma exs_cell valss blocks b j s vals : (b < blocks)%nat -> nth_error valss j = Some vals -> (s < 8)%nat ->
  cell (exs_dim (length valss) blocks) (exs_store valss blocks) b j s = nth_error (nth b vals 0 :: repeat 0 7) s.
Proof.
  intros Hb Hj Hs. unfold cell. cbn [exs_dim exs_store ss_n ss_data d_cap].
  assert (Lj : (j < length valss)%nat) by (apply nth_error_Some; congruence).
  assert (L1 : forall b, length (flat_map (fun vals => nth b vals 0 :: repeat 0 7) valss) = (length valss * 8)%nat).
  { intros b'. apply flat_const_len. reflexivity. }
  replace ((b * length valss + j) * 8 + s)%nat with (b * (length valss * 8) + (j * 8 + s))%nat by lia.
  rewrite (flat_const_nth _ (length valss * 8) (seq 0 blocks) b b).
  - apply (flat_const_nth (fun vals => nth b vals 0 :: repeat 0 7) 8 valss j vals s); [reflexivity|exact Hj|exact Hs].
  - intros x _. apply L1.
  - rewrite (nth_error_nth' _ 0%nat) by (rewrite seq_length; exact Hb). rewrite seq_nth by exact Hb. reflexivity.
  - lia.
Qed.
Lemma exs_shows valss blocks : (0 < blocks)%nat -> (forall v, In v valss -> length v = blocks) ->
  shows (exs_dim (length valss) blocks) (exs_store valss blocks) (exs_lists valss).
Proof.
  intros HB HV. constructor.
  - constructor; cbn [exs_dim exs_store ss_n ss_data ss_count d_joints d_cap d_blocks].
    + lia.
    + rewrite (flat_const_len _ (length valss * 8)), seq_length; [lia|]. intros b _. apply flat_const_len. reflexivity.
    + apply map_length.
    + intros j c _ H. rewrite nth_error_map in H. destruct (nth_error valss j); [|discriminate]. injection H as <-. lia.
  - cbn [exs_store ss_n ss_count]. intros j Hj. unfold exs_lists. rewrite nth_error_map.
    destruct (nth_error valss j) eqn:E; [reflexivity|apply nth_error_None in E; lia].
  - cbn [exs_store ss_n]. intros j s vals Hj E. unfold exs_lists in E. destruct (nth_error valss j) as [v|] eqn:Ev; [|destruct s; discriminate].
    destruct s as [|[|s]]; try discriminate E. injection E as ->.
    assert (LV : length vals = blocks) by (apply HV; eapply nth_error_In; exact Ev).
    split; [exact LV|]. intros b Hb. cbn [exs_dim d_blocks] in Hb. rewrite (exs_cell valss blocks b j 0 vals Hb Ev) by lia. cbn [nth_error].
    symmetry. apply nth_error_nth'. lia.
  - cbn [exs_store ss_n exs_dim d_cap d_blocks]. intros j s Hj Hl Hs. unfold exs_lists in Hl.
    destruct (nth_error valss j) as [v|] eqn:Ev; [|apply nth_error_None in Ev; lia]. cbn in Hl.
    change (cell (exs_dim (length valss) blocks) (exs_store valss blocks) (blocks - 1) j s = Some 0).
    rewrite (exs_cell valss blocks (blocks - 1) j s v) by (try assumption; lia). destruct s as [|s]; [lia|]. cbn [nth_error].
    do 7 (destruct s as [|s]; [reflexivity|]). lia.
Qed.
Lemma exs_wf k sk pt w valss en : length valss = length sk -> pt_rows pt = (7 * length sk)%nat -> pt_wf pt ->
  (forall v, In v valss -> length v = wide_numbers k) ->
  simd_wf (exs_F k sk pt w valss) (exs_store valss (wide_numbers k)) (exs_lists valss) en.
Proof.
  intros HL HR WP HV. constructor; cbn [exs_F sf_store sf_dim sf_kind sf_sk sf_pt sf_active exs_dim exs_store ss_n d_blocks]; try reflexivity; try assumption.
  - constructor; cbn [d_packet d_cap d_blocks exs_dim]; [lia|exists 1%nat; reflexivity|destruct k; cbn; lia].
  - apply (exs_shows valss (wide_numbers k)); [destruct k; cbn; lia|exact HV].
  - rewrite repeat_length. symmetry. exact HR.
  - intros e He _. destruct (wf_entries _ WP e He) as [B _]. rewrite HR in B. apply nth_error_nth. 
    rewrite (nth_error_nth' _ true) by (rewrite repeat_length; exact B). rewrite nth_repeat. reflexivity.
Qed.

(** One joint that slides along x (parameter 0) and turns about z (parameter 1). *)
Definition exs_vals (k : skind) : list R :=
  match k with
  | KPosition => [0; 0; 0; 2; 0; 0; 1]
  | KPlane => [0; 0; 0; 1; 0; 0; 2; 1]
  | KNormal => [0; 0; 0; 1; 0; 0; 2; 0; 0; 1]
  end.
Definition exs_one (k : skind) (w : R) : simdfn := exs_F k exc_sk exc_pt w [exs_vals k].
Definition exs_st (k : skind) : sstore := exs_store [exs_vals k] (wide_numbers k).
Lemma exs_one_wf k w en : simd_wf (exs_one k w) (exs_st k) (exs_lists [exs_vals k]) en.
Proof. apply exs_wf; [reflexivity|reflexivity|apply exc_pt_wf|]. intros v [<-|[]]. destruct k; reflexivity. Qed.
Lemma exs_state_of k w x : state_of (sf_sk (exs_one k w)) (sf_pt (exs_one k w)) [x; 0] = Ok [exc_state x].
Proof. exact (exc_state_of x []). Qed.
(** The residual is x - 2 for all three. *)
Lemma exs_error k w x : sf_error (exs_one k w) [exc_state x] = Ok (kWideWeight * w * ((x - 2) * (x - 2))).
Proof.
  rewrite (simd_error _ _ _ (fun _ => true) [x; 0] _ (exs_one_wf k w _) (proj1 exc_sk_ok) (exs_state_of k w x)).
  f_equal. unfold wide_objective. cbn [exs_one exs_F sf_weight sf_kind exs_st exs_store ss_n length seq map rsum nth_error exs_lists].
  destruct k; cbn [exs_vals map rsum wide_weight last wide_residual]; unfold sqnorm, residual, vlist, tf_point, vdot; cbn; ring.
Qed.
Example exs_hypotheses : forall k,
  simd_wf (exs_one k 3) (exs_st k) (exs_lists [exs_vals k]) (fun _ => true) /\
  parents_first (sk_parents (sf_sk (exs_one k 3))) /\ unit_prerotations (sf_sk (exs_one k 3)) /\ pt_wf (sf_pt (exs_one k 3)) /\
  state_of (sf_sk (exs_one k 3)) (sf_pt (exs_one k 3)) [0; 0] = Ok [exc_state 0] /\
  (exists F', sf_jacobian_size (exs_one k 3) = Ok ((2 * k_dim k)%nat, F')) /\
  (forall j vals, In vals (exs_lists [exs_vals k] j) -> 0 <= wide_weight vals) /\
  no_turning (exs_one k 3) (exs_lists [exs_vals k]) 0 /\
  sf_error (exs_one k 3) [exc_state 0] = Ok (kWideWeight * 3 * 4).
Proof.
  intros k. split; [apply exs_one_wf|]. split; [apply exc_sk_ok|]. split; [apply exc_sk_ok|]. split; [apply exc_pt_wf|].
  split; [apply exs_state_of|]. split; [destruct k; eexists; reflexivity|]. split; [|split].
  - intros j vals H. unfold exs_lists in H. destruct j as [|j]; [|destruct j; destruct H]. destruct H as [<-|[]]. destruct k; cbn; lra.
  - intros j a l e _ _ _ He Hc Hr. cbn in He. destruct He as [<-|[<-|[]]]; [cbn in Hr; lia|discriminate Hc].
  - rewrite exs_error. f_equal. ring.
Qed.

(** ** Where the wide error functions go wrong *)

Ltac calc := lazy -[Rplus Rmult Rminus Ropp Rinv ln sqrt IZR cos sin PI kWideWeight].

Lemma exs_path k w : forall t, state_of (sf_sk (exs_one k w)) (sf_pt (exs_one k w)) (set_nth [0; 0] 0 t) = Ok [exc_state t].
Proof. intros t. exact (exs_state_of k w t). Qed.
Lemma exs_err_derive w c x0 : is_derive (fun x => c * w * ((x - 2) * (x - 2))) x0 (2 * c * w * (x0 - 2)).
Proof. auto_derive; [trivial|ring]. Qed.

(** C99. The gradient lacks the factor weight_: with one position constraint and
    weight_ = 3 the derivative of getError is -12 kWideWeight, the gradient
    -4 kWideWeight. *)
Theorem simd_gradient_weight_refuted : exists F st lists p sts e g,
  simd_wf F st lists (fun _ => true) /\ parents_first (sk_parents (sf_sk F)) /\ unit_prerotations (sf_sk F) /\
  pt_wf (sf_pt F) /\ sf_kind F = KPosition /\ state_of (sf_sk F) (sf_pt F) p = Ok sts /\
  sf_gradient F sts (repeat 0 2) = Ok (e, g) /\ nth 0 g 0 = - 4 * kWideWeight /\
  exists Err, (forall t, exists s, state_of (sf_sk F) (sf_pt F) (set_nth p 0 t) = Ok s /\ sf_error F s = Ok (Err t)) /\
    is_derive Err (nth 0 p 0) (- 12 * kWideWeight).
Proof.
  pose proof (exs_one_wf KPosition 3 (fun _ => true)) as W.
  destruct (sf_gradient_ok _ _ _ _ W (proj1 exc_sk_ok) [exc_state 0] eq_refl [0; 0] exc_pt_wf eq_refl) as (g & E & _ & HG).
  exists (exs_one KPosition 3), (exs_st KPosition), (exs_lists [exs_vals KPosition]), [0; 0], [exc_state 0]. eexists. exists g.
  split; [exact W|]. split; [apply exc_sk_ok|]. split; [apply exc_sk_ok|]. split; [apply exc_pt_wf|]. split; [reflexivity|].
  split; [apply exs_state_of|]. split; [exact E|]. split.
  - rewrite (HG 0%nat) by (cbn; try lia; reflexivity). calc. ring.
  - exists (fun x => kWideWeight * 3 * ((x - 2) * (x - 2))). split.
    + intros t. exists [exc_state t]. split; [apply exs_path|apply exs_error].
    + cbn [nth]. eapply d_eq; [apply exs_err_derive|]. ring.
Qed.
Print Assumptions simd_gradient_weight_refuted.

(** C99. The gradient of a plane constraint has the distance twice: with weight_ = 1
    and a plane at distance 2 the derivative of getError is -4 kWideWeight, the
    gradient 8 kWideWeight. Nothing turns here. *)
Theorem simd_plane_gradient_refuted : exists F st lists p sts e g,
  simd_wf F st lists (fun _ => true) /\ parents_first (sk_parents (sf_sk F)) /\ unit_prerotations (sf_sk F) /\
  pt_wf (sf_pt F) /\ sf_kind F = KPlane /\ sf_weight F = 1 /\ no_turning F lists 0 /\ state_of (sf_sk F) (sf_pt F) p = Ok sts /\
  sf_gradient F sts (repeat 0 2) = Ok (e, g) /\ nth 0 g 0 = 8 * kWideWeight /\
  exists Err, (forall t, exists s, state_of (sf_sk F) (sf_pt F) (set_nth p 0 t) = Ok s /\ sf_error F s = Ok (Err t)) /\
    is_derive Err (nth 0 p 0) (- 4 * kWideWeight).
Proof.
  pose proof (exs_one_wf KPlane 1 (fun _ => true)) as W.
  destruct (sf_gradient_ok _ _ _ _ W (proj1 exc_sk_ok) [exc_state 0] eq_refl [0; 0] exc_pt_wf eq_refl) as (g & E & _ & HG).
  exists (exs_one KPlane 1), (exs_st KPlane), (exs_lists [exs_vals KPlane]), [0; 0], [exc_state 0]. eexists. exists g.
  split; [exact W|]. split; [apply exc_sk_ok|]. split; [apply exc_sk_ok|]. split; [apply exc_pt_wf|]. split; [reflexivity|].
  split; [reflexivity|]. split; [apply (exs_hypotheses KPlane)|].
  split; [apply exs_state_of|]. split; [exact E|]. split.
  - rewrite (HG 0%nat) by (cbn; try lia; reflexivity). calc. ring.
  - exists (fun x => kWideWeight * 1 * ((x - 2) * (x - 2))). split.
    + intros t. exists [exc_state t]. split; [apply exs_path|apply exs_error].
    + cbn [nth]. eapply d_eq; [apply exs_err_derive|]. ring.
Qed.
Print Assumptions simd_plane_gradient_refuted.

(** The joint turned about z by 2 t. *)
Definition exs_turned (x t : R) : jstate := joint_state_set (Joint None vzero qid) (JP x 0 0 0 0 (2 * t) 0) None.
Lemma exs_turned_world x t : js_world (exs_turned x t) = TF (qaxis (2 * t) ez) (V3 x 0 0) 1.
Proof.
  unfold exs_turned, joint_state_set. cbn [jtx jty jtz jrx jry jrz jsc jprerot joffset js_world]. cbv zeta.
  rewrite !qaxis_0, exp2_0, !qmul_id_l, !qmul_id_r.
  unfold tf_mul, tf_id. cbn [rot trans scl js_world]. rewrite !qmul_id_l, !qrot_id, ?vscale_1, !vadd_0_l, Rmult_1_l. reflexivity.
Qed.
Lemma exs_turned_of k w valss x t : state_of (sf_sk (exs_F k exc_sk exc_pt w valss)) (sf_pt (exs_F k exc_sk exc_pt w valss)) [x; t] = Ok [exs_turned x t].
Proof.
  unfold state_of. cbn [exs_F sf_sk sf_pt]. unfold pt_apply.
  cbn [exc_pt pt_cols pt_offsets pt_rows List.length Nat.eqb check obind repeat].
  unfold mat_vec, row_dot. cbn [pt_rows exc_pt pt_entries map seq erow ecol eval Nat.eqb filter rsum nth vadd_list].
  unfold fk. cbn [List.length exc_sk Nat.mul Nat.add Nat.eqb fk_from jparent obind app].
  unfold jparam_at. cbn [Nat.mul Nat.add nth].
  unfold vadd_list. cbn [negb obind map combine fst snd nth List.length Nat.eqb].
  match goal with |- Ok [joint_state_set _ ?j _] = _ => replace j with (JP x 0 0 0 0 (2 * t) 0) by (f_equal; ring) end.
  reflexivity.
Qed.

Lemma exs_turned_error k w vals x t : length vals = wide_numbers k ->
  sf_error (exs_F k exc_sk exc_pt w [vals]) [exs_turned x t] =
  Ok (kWideWeight * w * (wide_weight vals * sqnorm (wide_residual k vals (TF (qaxis (2 * t) ez) (V3 x 0 0) 1)))).
Proof.
  intros HV. assert (W : simd_wf (exs_F k exc_sk exc_pt w [vals]) (exs_store [vals] (wide_numbers k)) (exs_lists [vals]) (fun _ => true)).
  { apply exs_wf; [reflexivity|reflexivity|apply exc_pt_wf|]. intros v [<-|[]]. exact HV. }
  rewrite (simd_error _ _ _ _ _ _ W (proj1 exc_sk_ok) (exs_turned_of k w [vals] x t)).
  f_equal. unfold wide_objective. cbn [exs_F sf_weight sf_kind exs_store ss_n length seq map rsum nth_error exs_lists].
  rewrite exs_turned_world. ring.
Qed.

(** C99. The Jacobian of a plane constraint forgets that the normal turns with the
    joint: the derivative of getError is 4 kWideWeight where 2 J^T r is 0. *)
Theorem simd_plane_jacobian_refuted : exists F st lists p sts size F' e J r,
  simd_wf F st lists (fun _ => true) /\ parents_first (sk_parents (sf_sk F)) /\ unit_prerotations (sf_sk F) /\
  pt_wf (sf_pt F) /\ sf_kind F = KPlane /\ sf_weight F = 1 /\ state_of (sf_sk F) (sf_pt F) p = Ok sts /\
  sf_jacobian_size F = Ok (size, F') /\
  sf_jacobian F' sts 2 (zeros size 2) (repeat 0 size) = Ok (e, J, r, Some size) /\ 2 * jt_res J r 1 = 0 /\
  exists Err, (forall t, exists s, state_of (sf_sk F) (sf_pt F) (set_nth p 1 t) = Ok s /\ sf_error F s = Ok (Err t)) /\
    is_derive Err (nth 1 p 0) (4 * kWideWeight).
Proof.
  set (v := [0; 0; 0; 0; 1; 0; 1; 1]).
  assert (W : simd_wf (exs_F KPlane exc_sk exc_pt 1 [v]) (exs_store [v] 8) (exs_lists [v]) (fun _ => true)).
  { apply exs_wf; [reflexivity|reflexivity|apply exc_pt_wf|]. intros x [<-|[]]. reflexivity. }
  destruct (jac_core _ _ _ _ [1; 0] [exc_state 1] 2 (SFn KPlane exc_sk exc_pt 1 (repeat true 7) (exs_dim 1 8) (Some (exs_store [v] 8)) [0%nat])
     2 W (proj1 exc_sk_ok) exc_pt_wf (exc_state_of 1 [])) as (J & r & E & _ & _ & _ & JT).
  { cbn. lra. }
  { intros j vals Hj H. assert (j = 0)%nat as -> by (cbn in Hj; lia). destruct H as [<-|[]]. cbn. lra. }
  { reflexivity. }
  { lia. }
  exists (exs_F KPlane exc_sk exc_pt 1 [v]), (exs_store [v] 8), (exs_lists [v]), [1; 0], [exc_state 1], 2%nat. eexists. eexists. exists J, r.
  split; [exact W|]. split; [apply exc_sk_ok|]. split; [apply exc_sk_ok|]. split; [apply exc_pt_wf|]. split; [reflexivity|].
  split; [reflexivity|]. split; [exact (exc_state_of 1 [])|]. split; [reflexivity|]. split; [exact E|]. split.
  - rewrite (JT 1%nat) by (cbn; try lia; reflexivity). unfold v. calc. ring.
  - exists (fun t => kWideWeight * ((- sin (2 * t) - 1) * (- sin (2 * t) - 1))). split.
    + intros t. exists [exs_turned 1 t]. split; [exact (exs_turned_of KPlane 1 [v] 1 t)|].
      rewrite (exs_turned_error KPlane 1 v 1 t) by reflexivity. f_equal. unfold v.
      cbn [wide_residual wide_weight last rot]. rewrite qrot_axis_z. unfold tf_point. cbn [rot trans scl].
      rewrite qrot_axis_z. unfold sqnorm, vdot, vadd, vscale. cbn. ring.
    + cbn [nth]. auto_derive; [trivial|]. replace (2 * 0) with 0 by ring. rewrite sin_0, cos_0. ring.
Qed.
Print Assumptions simd_plane_jacobian_refuted.

(** C99. A wide plane constraint is not the plane constraint of PlaneErrorFunction
    with the same numbers: after a half turn its normal points the other way. *)
Theorem simd_plane_differs_refuted : exists F st lists p sts L,
  simd_wf F st lists (fun _ => true) /\ parents_first (sk_parents (sf_sk F)) /\ sf_kind F = KPlane /\ sf_weight F = 1 /\
  state_of (sf_sk F) (sf_pt F) p = Ok sts /\ loss_make 2 1 = Ok L /\
  sf_error F sts = Ok (4 * kWideWeight) /\ cf_error (plain_fn F (ss_n st) lists (fun _ => true) L 0 0) sts = Ok 0.
Proof.
  set (v := [0; 0; 0; 1; 0; 0; 1; 1]).
  assert (W : simd_wf (exs_F KPlane exc_sk exc_pt 1 [v]) (exs_store [v] 8) (exs_lists [v]) (fun _ => true)).
  { apply exs_wf; [reflexivity|reflexivity|apply exc_pt_wf|]. intros x [<-|[]]. reflexivity. }
  exists (exs_F KPlane exc_sk exc_pt 1 [v]), (exs_store [v] 8), (exs_lists [v]), [1; PI / 2], [exs_turned 1 (PI / 2)], exc_loss.
  pose proof (exs_turned_of KPlane 1 [v] 1 (PI / 2)) as HS.
  split; [exact W|]. split; [apply exc_sk_ok|]. split; [reflexivity|]. split; [reflexivity|].
  split; [exact HS|]. split; [apply exc_loss_ok|].
  assert (EP : 2 * (PI / 2) = PI) by field.
  split.
  - rewrite (exs_turned_error KPlane 1 v 1 (PI / 2)) by reflexivity. f_equal. rewrite EP. unfold v.
    cbn [wide_residual wide_weight last rot]. rewrite qrot_axis_z. unfold tf_point. cbn [rot trans scl].
    rewrite qrot_axis_z, sin_PI, cos_PI. unfold sqnorm, vdot, vadd, vscale. cbn. ring.
  - unfold state_of in HS. destruct (pt_apply _ _) as [q| | | |] eqn:Eq in HS; try discriminate. cbn [obind] in HS.
    change (ss_n (exs_store [v] 8)) with 1%nat.
    erewrite (constraint_error_is_objective (plain_fn (exs_F KPlane exc_sk exc_pt 1 [v]) 1 (exs_lists [v]) (fun _ => true) exc_loss 0 0) q
      [exs_turned 1 (PI / 2)] (proj1 exc_sk_ok) (plain_wf _ _ _ _ _ W) HS).
    + f_equal. unfold constraint_objective. cbn [plain_fn cf_constraints plain_constraints seq flat_map exs_lists nth_error map app
        plain_constraint cparent cweight rsum].
      rewrite exs_turned_world, EP. unfold loss_value, exc_loss. cbn [loss_kind loss_invC2 cf_loss]. rewrite type_2. unfold l2_loss, v.
      unfold plain_fn, plain_constraint. cbn [sf_kind exs_F cdat cf_loss loss_kind loss_invC2 cf_weight]. unfold residual, tf_point. cbn [rot trans scl]. rewrite qrot_axis_z, sin_PI, cos_PI.
      unfold sqnorm, vdot, vadd, vscale. cbn. field.
    + intros c s [<-|[]] _. exact I.
Qed.
Print Assumptions simd_plane_differs_refuted.

(** C99. getGradient has no regard for the enabled parameters beyond
    activeJointParams_: with two parameters for the same slider, one of them
    disabled, the entry of the disabled one changes all the same. *)
Definition exd_pt : ptransform := PT ["x"; "y"]%string 7 2
  [Entry 0 0 1; Entry 0 1 1] (repeat 0 7) (repeat true 7) [] [] [] [].
Lemma exd_pt_wf : pt_wf exd_pt.
Proof.
  constructor; try reflexivity; try (intros; contradiction).
  - cbn [exd_pt pt_cols]. unfold kMaxModelParams. lia.
  - intros e H. cbn in H. destruct H as [<-|[<-|[]]]; cbn; lia.
Qed.
Theorem simd_disabled_refuted : exists F st lists enabled p sts e g,
  simd_wf F st lists enabled /\ parents_first (sk_parents (sf_sk F)) /\ unit_prerotations (sf_sk F) /\
  pt_wf (sf_pt F) /\ sf_kind F = KPosition /\ sf_weight F = 1 /\ state_of (sf_sk F) (sf_pt F) p = Ok sts /\
  enabled 1%nat = false /\ sf_active F = map (fun r => existsb (fun e => Nat.eqb (erow e) r && enabled (ecol e)) (pt_entries (sf_pt F))) (seq 0 7) /\
  sf_gradient F sts (repeat 0 2) = Ok (e, g) /\ nth 1 g 0 <> 0.
Proof.
  set (v := exs_vals KPosition). set (act := [true; false; false; false; false; false; false]).
  set (F := SFn KPosition exc_sk exd_pt 1 act (exs_dim 1 7) (Some (exs_store [v] 7)) []).
  assert (W : forall en, simd_wf F (exs_store [v] 7) (exs_lists [v]) en).
  { intros en. destruct (exs_wf KPosition exc_sk exd_pt 1 [v] en eq_refl eq_refl exd_pt_wf) as [H1 H2 H3 H4 H5 H6 H7 H8].
    - intros x [<-|[]]. reflexivity.
    - constructor; try assumption; try reflexivity. intros e He _. cbn in He. destruct He as [<-|[<-|[]]]; reflexivity. }
  destruct (sf_gradient_ok _ _ _ _ (W (fun _ => true)) (proj1 exc_sk_ok) [exc_state 0] eq_refl [0; 0] exd_pt_wf eq_refl) as (g & E & _ & HG).
  exists F, (exs_store [v] 7), (exs_lists [v]), (fun i => Nat.eqb i 0), [0; 0], [exc_state 0]. eexists. exists g.
  split; [apply W|]. split; [apply exc_sk_ok|]. split; [apply exc_sk_ok|]. split; [apply exd_pt_wf|]. split; [reflexivity|].
  split; [reflexivity|]. split.
  { unfold state_of. cbn [F sf_sk sf_pt]. unfold pt_apply.
    cbn [exd_pt pt_cols pt_offsets pt_rows List.length Nat.eqb check obind repeat].
    unfold mat_vec, row_dot. cbn [pt_rows exd_pt pt_entries map seq erow ecol eval Nat.eqb filter rsum nth vadd_list].
    unfold fk. cbn [List.length exc_sk Nat.mul Nat.add Nat.eqb fk_from jparent obind app].
    unfold jparam_at. cbn [Nat.mul Nat.add nth].
    unfold vadd_list. cbn [negb obind map combine fst snd nth List.length Nat.eqb].
    match goal with |- Ok [joint_state_set _ ?j _] = _ => replace j with (JP 0 0 0 0 0 0 0) by (f_equal; ring) end.
    rewrite exc_jss. reflexivity. }
  split; [reflexivity|]. split; [reflexivity|]. split; [exact E|].
  rewrite (HG 1%nat) by (cbn; try lia; reflexivity). 
  match goal with |- ?x <> 0 => replace x with (-4 * kWideWeight) by (unfold F, v, act; calc; ring) end.
  pose proof kW_pos. lra.
Qed.
Print Assumptions simd_disabled_refuted.

(** Two joints without a parent, both slid along x by parameter 0. *)
Definition ex2_sk : skeleton := [Joint None vzero qid; Joint None vzero qid].
Definition ex2_pt : ptransform := PT ["x"]%string 14 1
  [Entry 0 0 1; Entry 7 0 1] (repeat 0 14) (repeat true 14) [] [] [] [].
Lemma ex2_pt_wf : pt_wf ex2_pt.
Proof.
  constructor; try reflexivity; try (intros; contradiction).
  - cbn [ex2_pt pt_cols]. unfold kMaxModelParams. lia.
  - intros e H. cbn in H. destruct H as [<-|[<-|[]]]; cbn; lia.
Qed.
Lemma ex2_sk_ok : parents_first (sk_parents ex2_sk) /\ unit_prerotations ex2_sk.
Proof.
  split; [intros [|[|[|i]]] q H; cbn in H; discriminate|].
  intros [|[|[|i]]] jt H; cbn in H; try discriminate; injection H as <-; unfold qunit, qnorm2; cbn; lra.
Qed.
Lemma ex2_state_of x : state_of ex2_sk ex2_pt [x] = Ok [exc_state x; exc_state x].
Proof.
  unfold state_of. unfold pt_apply.
  cbn [ex2_pt pt_cols pt_offsets pt_rows List.length Nat.eqb check obind repeat].
  unfold mat_vec, row_dot. cbn [pt_rows ex2_pt pt_entries map seq erow ecol eval Nat.eqb filter rsum nth vadd_list].
  unfold fk. cbn [List.length ex2_sk Nat.mul Nat.add Nat.eqb fk_from jparent obind app].
  unfold jparam_at. cbn [Nat.mul Nat.add nth].
  unfold vadd_list. cbn [negb obind map combine fst snd nth List.length Nat.eqb].
  match goal with |- Ok [joint_state_set _ ?j _; joint_state_set _ ?k _] = _ =>
    replace j with (JP x 0 0 0 0 0 0) by (f_equal; ring); replace k with (JP x 0 0 0 0 0 0) by (f_equal; ring) end.
  rewrite exc_jss. reflexivity.
Qed.
Definition ex2_F (k : skind) : simdfn := exs_F k ex2_sk ex2_pt 1 [exs_vals k; exs_vals k].
Definition ex2_st (k : skind) : sstore := exs_store [exs_vals k; exs_vals k] (wide_numbers k).
Definition ex2_lists (k : skind) : nat -> list (list R) := exs_lists [exs_vals k; exs_vals k].
Lemma ex2_wf k en : simd_wf (ex2_F k) (ex2_st k) (ex2_lists k) en.
Proof. apply exs_wf; [reflexivity|reflexivity|apply ex2_pt_wf|]. intros v [<-|[<-|[]]]; destruct k; reflexivity. Qed.

(** C100. The tasks of getGradient add to the shared gradient without a lock: when
    two joints with constraints are driven by one parameter, there is a schedule
    that loses the contribution of one of them. *)
Theorem simd_gradient_race_refuted : exists F st lists p sts ts sched m ts' e g,
  simd_wf F st lists (fun _ => true) /\ parents_first (sk_parents (sf_sk F)) /\ unit_prerotations (sf_sk F) /\
  pt_wf (sf_pt F) /\ sf_kind F = KPosition /\ sf_weight F = 1 /\ state_of (sf_sk F) (sf_pt F) p = Ok sts /\
  sf_grad_tasks F st sts = Ok ts /\
  par_run (grad_shape [0] st) sched (grad_mem [0], start_tasks ts) = Ok (m, ts') /\ all_finished ts' /\
  sf_gradient F sts [0] = Ok (e, g) /\
  nth 0 g 0 = - 8 * kWideWeight /\ nth 0 (snd (grad_result F (ss_n st) 1 m)) 0 = - 4 * kWideWeight.
Proof.
  pose proof (ex2_wf KPosition (fun _ => true)) as W.
  destruct (sf_gradient_ok _ _ _ _ W (proj1 ex2_sk_ok) [exc_state 0; exc_state 0] eq_refl [0] ex2_pt_wf eq_refl) as (g & E & _ & HG).
  pose proof (grad_tasks_ok _ _ _ _ W (proj1 ex2_sk_ok) [exc_state 0; exc_state 0] eq_refl) as ET.
  exists (ex2_F KPosition), (ex2_st KPosition), (ex2_lists KPosition), [0], [exc_state 0; exc_state 0]. eexists.
  exists [0; 1; 0; 1; 0; 0; 1; 1]%nat. eexists. eexists. eexists. exists g.
  split; [exact W|]. split; [apply ex2_sk_ok|]. split; [apply ex2_sk_ok|]. split; [apply ex2_pt_wf|]. split; [reflexivity|].
  split; [reflexivity|]. split; [apply ex2_state_of|]. split; [exact ET|]. split; [lazy -[Rplus Rmult Rminus Ropp Rinv ln sqrt IZR kWideWeight]; reflexivity|].
  split; [intros t [<-|[<-|[]]]; reflexivity|]. split; [exact E|]. split.
  - rewrite (HG 0%nat) by (cbn; try lia; reflexivity). calc. ring.
  - calc. ring.
Qed.
Print Assumptions simd_gradient_race_refuted.

(** C99. The rows come from the last getJacobianSize: if constraints are added
    afterwards and getJacobian gets matrices that are large enough, two joints share
    rows and the residual is not that of the error. *)
Theorem simd_stale_offsets_refuted : exists F st0 size F1 st lists p sts N e J r,
  let F0 := SFn (sf_kind F) (sf_sk F) (sf_pt F) (sf_weight F) (sf_active F) (sf_dim F) (Some st0) [] in
  let F2 := SFn (sf_kind F) (sf_sk F) (sf_pt F) (sf_weight F) (sf_active F) (sf_dim F) (Some st) (sf_offsets F1) in
  simd_wf F0 st0 (fun _ => []) (fun _ => true) /\ sf_jacobian_size F0 = Ok (size, F1) /\
  simd_wf F2 st lists (fun _ => true) /\ parents_first (sk_parents (sf_sk F)) /\ pt_wf (sf_pt F) /\
  state_of (sf_sk F) (sf_pt F) p = Ok sts /\ N = wide_rows F2 (ss_n st) lists /\
  sf_jacobian F2 sts 1 (zeros N 1) (repeat 0 N) = Ok (e, J, r, Some N) /\
  e = 8 * kWideWeight /\ sqnorm r = 4 * kWideWeight.
Proof.
  set (k := KNormal).
  set (F2 := SFn k ex2_sk ex2_pt 1 (repeat true 14) (exs_dim 2 10) (Some (ex2_st k)) [0; 0]%nat).
  assert (W : simd_wf F2 (ex2_st k) (ex2_lists k) (fun _ => true)).
  { destruct (ex2_wf k (fun _ => true)) as [H1 H2 H3 H4 H5 H6 H7 H8]. constructor; assumption. }
  exists (ex2_F k), (SS 2 (repeat 0 160) [0; 0]%nat). eexists. eexists. exists (ex2_st k), (ex2_lists k), [0], [exc_state 0; exc_state 0], 4%nat.
  eexists. eexists. eexists. cbv zeta.
  split.
  { destruct (ex2_wf k (fun _ => true)) as [H1 H2 H3 H4 H5 H6 H7 H8]. constructor; try assumption; try reflexivity.
    constructor.
    - constructor; cbn [ss_n ss_data ss_count ex2_F exs_F sf_dim exs_dim d_joints d_cap d_blocks k wide_numbers length].
      + lia.
      + reflexivity.
      + reflexivity.
      + intros [|[|j]] c Hj H; cbn in H; try lia; injection H as <-; lia.
    - intros [|[|j]] H; cbn in H; try lia; reflexivity.
    - intros j [|s] vals _ H; discriminate H.
    - intros j s Hj _ Hs. unfold cell. cbn in Hj, Hs. cbn [ss_n ss_data ex2_F exs_F sf_dim exs_dim d_cap d_blocks k wide_numbers].
      rewrite (nth_error_nth' (repeat 0 160) 0); [|rewrite repeat_length; lia].
      rewrite nth_repeat. reflexivity. }
  split; [reflexivity|]. split; [exact W|]. split; [apply ex2_sk_ok|]. split; [apply ex2_pt_wf|]. split; [apply ex2_state_of|].
  split; [reflexivity|]. split.
  { unfold F2, k. lazy -[Rplus Rmult Rminus Ropp Rinv ln sqrt IZR kWideWeight]. reflexivity. }
  assert (SQ : sqrt (kWideWeight * 1 * 1) * sqrt (kWideWeight * 1 * 1) = kWideWeight).
  { rewrite sqrt_sqrt; [ring|]. pose proof kW_pos. lra. }
  split.
  - ring.
  - unfold sqnorm. cbn [map rsum]. ring [SQ].
Qed.
Print Assumptions simd_stale_offsets_refuted.

(** The hypotheses of the theorems about schedules are met, with a joint that has a
    constraint and tasks that do something. *)
Example exs_schedule : forall k j j', (j < ss_n (exs_st k))%nat -> (j' < ss_n (exs_st k))%nat ->
  exs_lists [exs_vals k] j <> [] -> exs_lists [exs_vals k] j' <> [] -> j = j'.
Proof. intros k j j' H H' _ _. cbn in H, H'. lia. Qed.
Example ex2_hypotheses : forall k,
  simd_wf (ex2_F k) (ex2_st k) (ex2_lists k) (fun _ => true) /\ parents_first (sk_parents (sf_sk (ex2_F k))) /\
  pt_wf (sf_pt (ex2_F k)) /\ state_of (sf_sk (ex2_F k)) (sf_pt (ex2_F k)) [0] = Ok [exc_state 0; exc_state 0] /\
  exists F', sf_jacobian_size (ex2_F k) = Ok ((4 * k_dim k)%nat, F').
Proof.
  intros k. split; [apply ex2_wf|]. split; [apply ex2_sk_ok|]. split; [apply ex2_pt_wf|]. split; [apply ex2_state_of|].
  destruct k; eexists; reflexivity.
Qed.
