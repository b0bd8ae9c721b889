From Coq Require Import Bool Reals List Arith Lia Lra Psatz.
From Coquelicot Require Import Coquelicot.
From Verif Require Import Prelude Loops LinAlg Rbool R3 Transform_model Transform_proofs Skeleton_model
  Skeleton_spec FK_model FK_spec FK_proofs FK_deriv_proofs FK_axis_proofs ParamTransform_model
  ParamTransform_spec ParamTransform_proofs Limits_model Limits_spec Limits_proofs Loss_model
  Loss_proofs Constraint_model Constraint_spec Constraint_eval_proofs Constraint_proofs Constraint_deriv_proofs
  SimdStore_model SimdStore_spec SimdStore_proofs Cells_model Cells_proofs SimdFn_model SimdFn_spec SimdFn_proofs.
Import ListNotations.
Local Open Scope nat_scope.
Local Open Scope R_scope.

(** ** Additions *)

Definition amt (c : mcell) (a : maction) : R :=
  match a with MAdd c' v => if mcell_eqb c' c then v else 0 | MSet _ _ => 0 end.
Definition is_add (a : maction) : Prop := match a with MAdd _ _ => True | MSet _ _ => False end.
Lemma amt_miss c a : ma_cell a <> c -> amt c a = 0.
Proof. destruct a as [c' v|c' v]; cbn; [|reflexivity]. intros H. destruct (mcell_eqb_spec c' c); [contradiction|reflexivity]. Qed.
Lemma val_adds l c : forall x, (forall a, In a l -> is_add a \/ ma_cell a <> c) -> val l c x = x + rsum (map (amt c) l).
Proof.
  induction l as [|a l IH]; intros x H; [cbn; ring|]. rewrite val_cons, IH by (intros; apply H; right; assumption).
  cbn [map rsum]. rewrite <- Rplus_assoc. f_equal. destruct (H a (or_introl eq_refl)) as [HA|HA].
  - destruct a as [c' v|]; [|contradiction]. cbn. destruct (mcell_eqb_spec c' c); cbn; ring.
  - rewrite (amt_miss c a HA), Rplus_0_r. unfold eff. destruct a as [c' v|c' v]; cbn in HA |- *;
      (destruct (mcell_eqb_spec c' c); [contradiction|reflexivity]).
Qed.
Lemma maction_dec (a b : maction) : {a = b} + {a <> b}.
Proof. decide equality; try apply Req_EM_T; decide equality; apply Nat.eq_dec. Qed.
Lemma val_sets l c v : forall x, (forall a, In a l -> ma_cell a = c -> a = MSet c v) -> In (MSet c v) l -> val l c x = v.
Proof.
  induction l as [|a l IH]; intros x H HI; [destruct HI|]. rewrite val_cons.
  destruct (in_dec maction_dec (MSet c v) l) as [I|I].
  - apply IH; [intros; apply H; [right|]; assumption|exact I].
  - destruct HI as [->|HI]; [|contradiction]. rewrite val_miss.
    + unfold eff. cbn. destruct (mcell_eqb_spec c c); [reflexivity|congruence].
    + intros b Hb E. apply I. rewrite <- (H b (or_intror Hb) E). exact Hb.
Qed.

Lemma amt_concat c ls : rsum (map (amt c) (concat ls)) = rsum (map (fun l => rsum (map (amt c) l)) ls).
Proof. induction ls as [|l ls IH]; [reflexivity|]. cbn [concat map rsum]. rewrite map_app, rsum_app, IH. reflexivity. Qed.

(** ** The tasks *)

Section Tasks.
Context (F : simdfn) (st : sstore) (lists : nat -> list (list R)) (en : pset) (W : simd_wf F st lists en)
  (V : valid_sk (sf_sk F)) (sts : list jstate) (LS : length sts = length (sf_sk F)).
Local Notation D := (sf_dim F).
Local Notation k := (sf_kind F).
Local Notation n := (ss_n st).
Local Notation P := (d_packet (sf_dim F)).
Local Notation es := (pt_entries (sf_pt F)).

Definition stt (j : nat) : jstate := nth j sts (JS mid tf_id tf_id mid mid).
Lemma stt_ok j : (j < n)%nat -> nth_error sts j = Some (stt j).
Proof. intros H. apply nth_error_nth'. rewrite LS, <- (sw_joints _ _ _ _ W). exact H. Qed.
Definition ch (j : nat) : list nat := chain_of (length (sf_sk F)) (sf_sk F) j.
Lemma ch_ok j : (j < n)%nat -> chain (sf_sk F) j (ch j).
Proof. rewrite (sw_joints _ _ _ _ W). intros H. apply chain_of_ok; assumption. Qed.
Lemma ch_range j a : (j < n)%nat -> In a (ch j) -> (a < n)%nat.
Proof. intros Hj H. rewrite (sw_joints _ _ _ _ W). eapply chain_in_range; [apply ch_ok; exact Hj|exact H]. Qed.
Lemma ch_len j : (j < n)%nat -> (length (ch j) <= length (sf_sk F))%nat.
Proof. intros Hj. pose proof (chain_length _ _ _ V (ch_ok j Hj)). rewrite (sw_joints _ _ _ _ W) in Hj. lia. Qed.

Lemma dof_range ds a d : (forall x, In x ds -> (x < 7)%nat) -> (a < n)%nat -> In d ds -> (a * 7 + d < length (sf_active F))%nat.
Proof.
  intros H Ha Hd. specialize (H d Hd). rewrite (sw_active_len _ _ _ _ W), (sw_rows _ _ _ _ W), <- (sw_joints _ _ _ _ W). lia.
Qed.
Definition walk_acts (ds : list nat) (emit : nat -> jstate -> nat -> list maction) (j : nat) : list maction :=
  flat_map (fun a => flat_map (fun d => if nth (a * 7 + d) (sf_active F) false then emit a (stt a) d else []) ds) (rev (ch j)).
Lemma walk_acts_ok ds emit j : (forall x, In x ds -> (x < 7)%nat) -> (j < n)%nat ->
  up (length (sf_sk F)) (sf_sk F) sts (up_limit k st) (fun a sa => dofs (sf_active F) (a * 7) ds (emit a sa)) (Some j) =
  Ok (walk_acts ds emit j).
Proof.
  intros HD Hj. apply (up_ok _ _ _ _ _ _ _ (ch_ok j Hj)).
  - intros a Ha. pose proof (ch_range j a Hj Ha). unfold up_limit. destruct k; auto.
  - intros a Ha. pose proof (ch_range j a Hj Ha) as Hr. exists (stt a). split; [apply stt_ok; exact Hr|].
    apply dofs_ok. intros d Hd. apply (dof_range ds); assumption.
  - apply ch_len. exact Hj.
Qed.

Lemma dof_order_lt x : In x dof_order -> (x < 7)%nat.
Proof. clear LS. cbn. lia. Qed.
Lemma jac_order_lt x : In x (jac_order k) -> (x < 7)%nat.
Proof. clear LS. destruct k; cbn; lia. Qed.

Definition grad_acts (j : nat) (lanes : list lane) : list maction :=
  walk_acts dof_order (grad_emit F lanes (stt j)) j.
Definition grad_task (j : nat) : list maction :=
  flat_map (fun x => grad_acts j (lanes_at F st j x)) (starts F lists j) ++
  [MAdd (MErr j) (slots_sum F st lists j (lane_err k (stt j)))].
Definition jac_acts (j row0 : nat) (lanes : list lane) : list maction :=
  res_actions F row0 (stt j) lanes ++ walk_acts (jac_order k) (jac_emit F row0 lanes (stt j)) j.
Definition jac_task (off : nat -> nat) (j : nat) : list maction :=
  flat_map (fun x => jac_acts j (off j + k_dim k * x) (lanes_at F st j x)) (starts F lists j) ++
  [MAdd (MErr j) (slots_sum F st lists j (lane_err k (stt j)))].

Lemma joint_task_ok j body A : (j < n)%nat ->
  (forall x, In x (starts F lists j) -> body (stt j) x (lanes_at F st j x) = Ok (A x)) ->
  joint_task F st sts j body =
    Ok (flat_map A (starts F lists j) ++ [MAdd (MErr j) (slots_sum F st lists j (lane_err k (stt j)))]).
Proof.
  intros Hj HB. unfold joint_task. rewrite (count_ok F st lists en W j Hj). cbn [obind].
  rewrite (rd_some _ _ _ (stt_ok j Hj)). cbn [obind]. fold (starts F lists j).
  rewrite (packets_ok F st lists en W j (stt j) (body (stt j)) A Hj HB). cbn [obind fst snd].
  rewrite (starts_sum F st lists j). reflexivity.
Qed.
Lemma all_tasks_ok f T js : (forall j, In j js -> f j = Ok (T j)) -> all_tasks f js = Ok (map T js).
Proof.
  induction js as [|j js IH]; intros H; [reflexivity|]. cbn [all_tasks map]. rewrite H by (left; reflexivity). cbn [obind].
  rewrite IH by (intros; apply H; right; assumption). reflexivity.
Qed.
Lemma grad_tasks_ok : sf_grad_tasks F st sts = Ok (map grad_task (seq 0 n)).
Proof.
  apply all_tasks_ok. intros j Hj. apply in_seq in Hj. unfold grad_task. apply joint_task_ok; [lia|].
  intros x Hx. apply walk_acts_ok; [apply dof_order_lt|lia].
Qed.
Lemma jac_tasks_ok off : (forall j, (j < n)%nat -> nth_error (sf_offsets F) j = Some (off j)) ->
  sf_jac_tasks F st sts = Ok (map (jac_task off) (seq 0 n)).
Proof.
  intros HO. apply all_tasks_ok. intros j Hj. apply in_seq in Hj.
  rewrite (rd_some _ _ _ (HO j ltac:(lia))). cbn [obind]. unfold jac_task. apply joint_task_ok; [lia|].
  intros x Hx. unfold jac_packet. rewrite walk_acts_ok by (first [apply jac_order_lt|lia]). reflexivity.
Qed.

(** ** The error *)

Lemma error_sum_ok js : (forall j, In j js -> (j < n)%nat) ->
  error_sum F st sts js = Ok (rsum (map (fun j => slots_sum F st lists j (lane_err k (stt j))) js)).
Proof.
  induction js as [|j js IH]; intros H; [reflexivity|]. cbn [error_sum map rsum].
  pose proof (H j (or_introl eq_refl)) as Hj. rewrite (count_ok F st lists en W j Hj). cbn [obind].
  rewrite (stt_ok j Hj). cbn [obind]. fold (starts F lists j).
  rewrite (packets_ok F st lists en W j (stt j) (fun _ _ => Ok []) (fun _ => []) Hj) by reflexivity.
  cbn [obind fst]. rewrite IH by (intros; apply H; right; assumption). cbn [obind].
  rewrite (starts_sum F st lists j). reflexivity.
Qed.
Definition total_err : R := rsum (map (fun j => slots_sum F st lists j (lane_err k (stt j))) (seq 0 n)).
Lemma sf_error_ok : sf_error F sts = Ok (kWideWeight * sf_weight F * total_err).
Proof.
  unfold sf_error. rewrite (sw_store _ _ _ _ W).
  destruct (Nat.leb_spec n (length sts)) as [_|C]; [|rewrite LS, (sw_joints _ _ _ _ W) in C; lia].
  rewrite error_sum_ok by (intros j Hj; apply in_seq in Hj; lia). cbn [obind]. f_equal. unfold total_err. ring.
Qed.
Lemma lane_err_0 s l : ln_weight l = 0 -> lane_err k s l = 0.
Proof. intros H. unfold lane_err. rewrite H. ring. Qed.
Lemma vals_len j vals : (j < n)%nat -> In vals (lists j) -> length vals = wide_numbers k.
Proof.
  intros Hj Hv. apply In_nth_error in Hv as [s Hs].
  destruct (sh_slots _ _ _ (sw_shows _ _ _ _ W) j s vals Hj Hs) as [L _]. rewrite L. apply (sw_blocks _ _ _ _ W).
Qed.
Lemma total_err_spec : (forall j, (j < n)%nat -> js_linear (stt j) = tf_linear (js_world (stt j))) ->
  kWideWeight * sf_weight F * total_err = wide_objective F n lists sts.
Proof.
  intros HL. unfold wide_objective, total_err. f_equal. apply rsum_map_ext. intros j Hj. apply in_seq in Hj.
  rewrite (stt_ok j) by lia. rewrite (slots_sum_used F st lists en W j) by (first [lia|apply lane_err_0]).
  apply rsum_map_ext. intros vals Hv. pose proof (vals_len j vals ltac:(lia) Hv) as L. unfold lane_err.
  rewrite lane_weight, lane_res_of by (try assumption; apply HL; lia). reflexivity.
Qed.

(** ** Sums over the walk *)

Lemma amt_app c l l' : rsum (map (amt c) (l ++ l')) = rsum (map (amt c) l) + rsum (map (amt c) l').
Proof. rewrite map_app, rsum_app. reflexivity. Qed.

(** [g] is any weighting of the actions. *)
Lemma walk_sum ds emit (g : maction -> R) (G : nat -> nat -> R) (C : nat -> R) j :
  (forall f : nat -> R, rsum (map f ds) = sumn 7 f) -> inactive0 (sf_active F) C ->
  (forall a d, In a (ch j) -> (d < 7)%nat -> In d ds -> rsum (map g (emit a (stt a) d)) = G a d * C (a * 7 + d)%nat) ->
  (forall d, In d ds -> (d < 7)%nat) ->
  rsum (map g (walk_acts ds emit j)) = rsum (map (fun a => sumn 7 (fun d => G a d * C (a * 7 + d)%nat)) (ch j)).
Proof.
  intros HP HI HE HD. unfold walk_acts. rewrite rsum_map_flat, map_rev, rsum_rev. apply rsum_map_ext. intros a Ha.
  rewrite rsum_map_flat, <- (HP (fun d => G a d * C (a * 7 + d)%nat)). apply rsum_map_ext. intros d Hd.
  destruct (nth (a * 7 + d) (sf_active F) false) eqn:E; [apply HE; auto|]. rewrite (HI _ E). cbn. ring.
Qed.
Lemma dof_order_sum f : rsum (map f dof_order) = sumn 7 f. Proof. unfold sumn. cbn. ring. Qed.
Lemma jac_order_sum f : rsum (map f (jac_order k)) = sumn 7 f. Proof. unfold sumn. destruct k; cbn; ring. Qed.

Lemma row_of_sum (f : R -> R) r i : (forall x, f x = x * f 1) ->
  rsum (map (fun e => if Nat.eqb (ecol e) i then f (eval e) else 0) (row_of es r)) = f 1 * ent_coeff es r i.
Proof.
  intros Hf. unfold row_of, ent_coeff. rewrite rsum_filter, <- rsum_map_scal. apply rsum_map_ext. intros e _.
  destruct (Nat.eqb (erow e) r), (Nat.eqb (ecol e) i); cbn [andb]; rewrite ?(Hf (eval e)); ring.
Qed.
Lemma grad_emit_amt lanes s a sa d i :
  rsum (map (amt (MGrad i)) (grad_emit F lanes s a sa d)) =
  rsum (map (fun l => grad_val k l s sa d) lanes) * ent_coeff es (a * 7 + d) i.
Proof.
  unfold grad_emit. rewrite map_map. set (v := rsum (map (fun l => grad_val k l s sa d) lanes)).
  pose proof (row_of_sum (fun x => v * x) (a * 7 + d)%nat i (fun x => eq_trans (Rmult_comm v x) (f_equal (Rmult x) (eq_sym (Rmult_1_r v))))) as H. cbv beta in H.
  rewrite Rmult_1_r in H. rewrite <- H. reflexivity.
Qed.

Lemma in_walk ds emit j x : In x (walk_acts ds emit j) -> exists a d, In a (ch j) /\ In d ds /\ In x (emit a (stt a) d).
Proof.
  unfold walk_acts. rewrite in_flat_map. intros (a & Ha & H). apply in_flat_map in H as (d & Hd & H).
  destruct (nth (a * 7 + d) (sf_active F) false); [|destruct H]. exists a, d. split; [apply in_rev; exact Ha|]. auto.
Qed.
Lemma grad_acts_cells j lanes x : In x (grad_acts j lanes) -> is_add x /\ exists e, In e es /\ ma_cell x = MGrad (ecol e).
Proof.
  intros H. apply in_walk in H as (a & d & _ & _ & H). unfold grad_emit in H. apply in_map_iff in H as (e & <- & He).
  apply filter_In in He as [He _]. split; [exact I|]. exists e. split; [exact He|reflexivity].
Qed.
Lemma grad_task_cells j x : In x (grad_task j) -> is_add x /\ ((exists e, In e es /\ ma_cell x = MGrad (ecol e)) \/ ma_cell x = MErr j).
Proof.
  unfold grad_task. rewrite in_app_iff, in_flat_map. intros [(y & _ & H)|[<-|[]]].
  - destruct (grad_acts_cells _ _ _ H) as [H1 H2]. auto.
  - split; [exact I|]. right. reflexivity.
Qed.

Lemma mem_errors_of (task : nat -> list maction) (A : nat -> list maction) m :
  (forall j, task j = A j ++ [MAdd (MErr j) (slots_sum F st lists j (lane_err k (stt j)))]) ->
  (forall j x j', In x (A j) -> ma_cell x <> MErr j') ->
  (forall j, (j < n)%nat -> m (MErr j) = val (concat (map task (seq 0 n))) (MErr j) 0) ->
  mem_errors m n = total_err.
Proof.
  intros HT HA HM. unfold mem_errors, total_err. apply rsum_map_ext. intros j Hj. apply in_seq in Hj. rewrite HM by lia.
  rewrite val_adds.
  - rewrite Rplus_0_l, amt_concat, map_map, rsum_seq. rewrite (sumn_single n j); [|lia|].
    + rewrite HT, amt_app, (rsum_map_zero _ (A j)) by (intros x Hx; apply amt_miss; eapply HA; exact Hx).
      cbn. rewrite Nat.eqb_refl. ring.
    + intros j' Hj' N. rewrite HT, amt_app, (rsum_map_zero _ (A j')) by (intros x Hx; apply amt_miss; eapply HA; exact Hx).
      cbn. destruct (Nat.eqb_spec j' j); [contradiction|]. ring.
  - intros x Hx. apply in_concat in Hx as (l & Hl & Hx). apply in_map_iff in Hl as (j' & <- & _). rewrite HT in Hx.
    apply in_app_or in Hx as [Hx|[<-|[]]]; [right; eapply HA; exact Hx|left; exact I].
Qed.

(** What one run of getGradient adds. *)
Definition grad_total (C : nat -> R) : R :=
  rsum (map (fun j => rsum (map (fun a => sumn 7 (fun d =>
    slots_sum F st lists j (fun l => grad_val k l (stt j) (stt a) d) * C (a * 7 + d)%nat)) (ch j))) (seq 0 n)).

Lemma inactive_coeff i : en i = true -> inactive0 (sf_active F) (fun r => ent_coeff es r i).
Proof.
  intros Hi r Hr. unfold ent_coeff. apply rsum_map_zero. intros e He.
  destruct (Nat.eqb_spec (erow e) r) as [E1|]; [|reflexivity].
  destruct (Nat.eqb_spec (ecol e) i) as [E2|]; [|reflexivity].
  pose proof (sw_active _ _ _ _ W e He). rewrite E1, E2 in H. rewrite H in Hr by exact Hi. discriminate.
Qed.

Lemma slots_sum_sum {A} j (f : A -> lane -> R) (la : list A) :
  rsum (map (fun a => slots_sum F st lists j (f a)) la) = slots_sum F st lists j (fun l => rsum (map (fun a => f a l) la)).
Proof. unfold slots_sum. rewrite sumn_rsum_swap. reflexivity. Qed.

Lemma grad_amount i : en i = true ->
  rsum (map (amt (MGrad i)) (concat (map grad_task (seq 0 n)))) = grad_total (fun r => ent_coeff es r i).
Proof.
  intros Hi. rewrite amt_concat, map_map. unfold grad_total. apply rsum_map_ext. intros j Hj. apply in_seq in Hj.
  unfold grad_task. rewrite amt_app. cbn [map rsum amt mcell_eqb]. rewrite !Rplus_0_r, rsum_map_flat.
  transitivity (rsum (map (fun x => rsum (map (fun a => sumn 7 (fun d =>
     rsum (map (fun l => grad_val k l (stt j) (stt a) d) (lanes_at F st j x)) * ent_coeff es (a * 7 + d) i)) (ch j)))
     (starts F lists j))).
  { apply rsum_map_ext. intros x _. unfold grad_acts.
    rewrite (walk_sum dof_order _ _ (fun a d => rsum (map (fun l => grad_val k l (stt j) (stt a) d) (lanes_at F st j x)))
               (fun r => ent_coeff es r i) j dof_order_sum (inactive_coeff i Hi)); [reflexivity| |apply dof_order_lt].
    intros a d _ _ _. apply grad_emit_amt. }
  rewrite rsum_map_swap. apply rsum_map_ext. intros a _. rewrite <- sumn_rsum_swap. apply sumn_ext. intros d _.
  rewrite <- (starts_sum F st lists j).
  rewrite <- (Rmult_comm (ent_coeff es (a * 7 + d) i)), <- rsum_map_scal. apply rsum_map_ext. intros; ring.
Qed.

Lemma sf_gradient_ok g : pt_wf (sf_pt F) -> length g = pt_cols (sf_pt F) ->
  exists g', sf_gradient F sts g = Ok (kWideWeight * sf_weight F * total_err, g') /\ length g' = length g /\
    forall i, (i < length g)%nat -> en i = true -> nth i g' 0 = nth i g 0 + grad_total (fun r => ent_coeff es r i).
Proof.
  intros WP LG. unfold sf_gradient. rewrite (sw_store _ _ _ _ W), grad_tasks_ok. cbn [obind].
  destruct (run_actions_ok (grad_shape g st) (concat (map grad_task (seq 0 n))) (grad_mem g)) as (m & E & M).
  { intros a Ha. apply in_concat in Ha as (l & Hl & Ha). apply in_map_iff in Hl as (j & <- & Hj). apply in_seq in Hj.
    destruct (grad_task_cells j a Ha) as [_ [(e & He & ->)| ->]]; cbn [cell_ok grad_shape m_grad m_err]; apply Nat.ltb_lt; [|lia].
    rewrite LG. apply (wf_entries _ WP e He). }
  rewrite E. cbn [obind]. eexists. split; [|split].
  - f_equal. f_equal. f_equal.
    apply (mem_errors_of grad_task (fun j => flat_map (fun x => grad_acts j (lanes_at F st j x)) (starts F lists j))).
    + reflexivity.
    + intros j x j' Hx. apply in_flat_map in Hx as (y & _ & Hx). destruct (grad_acts_cells _ _ _ Hx) as (_ & e & _ & ->). discriminate.
    + intros j Hj. rewrite M. reflexivity.
  - rewrite map_length, seq_length. reflexivity.
  - intros i Hi Hen. rewrite nth_map_seq by exact Hi. rewrite M, val_adds.
    + rewrite (grad_amount i Hen). reflexivity.
    + intros a Ha. left. apply in_concat in Ha as (l & Hl & Ha). apply in_map_iff in Hl as (j & <- & Hj).
      apply (grad_task_cells j a Ha).
Qed.
End Tasks.
