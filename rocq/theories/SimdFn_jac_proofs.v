From Coq Require Import Bool Reals List Arith Lia Lra Psatz.
From Coquelicot Require Import Coquelicot.
From Verif Require Import Prelude Loops LinAlg Rbool R3 Transform_model Transform_proofs Skeleton_model
  Skeleton_spec FK_model FK_spec FK_proofs FK_deriv_proofs FK_axis_proofs ParamTransform_model
  ParamTransform_spec ParamTransform_proofs Limits_model Limits_spec Limits_proofs Loss_model
  Loss_proofs Constraint_model Constraint_spec Constraint_eval_proofs Constraint_proofs Constraint_deriv_proofs
  SimdStore_model SimdStore_spec SimdStore_proofs Cells_model Cells_proofs SimdFn_model SimdFn_spec SimdFn_proofs
  SimdFn_task_proofs SimdFn_deriv_proofs.
Import ListNotations.
Local Open Scope nat_scope.
Local Open Scope R_scope.

Lemma combine_map2 {A B C} (f : A -> B) (g : A -> C) l : combine (map f l) (map g l) = map (fun x => (f x, g x)) l.
Proof. induction l as [|x l IH]; [reflexivity|]. cbn. rewrite IH. reflexivity. Qed.
Lemma combine_seq {A} (f : nat -> A) x m : combine (seq 0 m) (map f (seq x m)) = map (fun i => (i, f (x + i)%nat)) (seq 0 m).
Proof.
  rewrite <- (map_id (seq 0 m)) at 1. replace (map f (seq x m)) with (map (fun i => f (x + i)%nat) (seq 0 m)).
  - apply combine_map2.
  - clear. revert x. induction m as [|m IH]; intros x; [reflexivity|]. cbn [seq map]. rewrite Nat.add_0_r. f_equal.
    rewrite <- (IH (S x)), <- seq_shift, map_map. apply map_ext. intros i. f_equal. lia.
Qed.

Lemma joint_rows_np k P c : (0 < P)%nat -> joint_rows k P c = ((c + P - 1) / P * (k_dim k * P))%nat.
Proof.
  intros HP. destruct k; cbn [joint_rows k_dim]; try (f_equal; lia).
  pose proof (Nat.div_mod c P ltac:(lia)) as E. pose proof (Nat.mod_upper_bound c P ltac:(lia)) as B.
  destruct (Nat.eqb_spec (c mod P) 0) as [Z|Z]; cbn [negb].
  - replace ((c + P - 1) / P)%nat with (c / P)%nat; [nia|].
    apply (Nat.div_unique _ _ _ (P - 1)); [lia|]. rewrite Z in E. lia.
  - replace ((c + P - 1) / P)%nat with (c / P + 1)%nat; [nia|].
    apply (Nat.div_unique _ _ _ (c mod P - 1)); [lia|]. nia.
Qed.

Section Jac.
Context (F : simdfn) (st : sstore) (lists : nat -> list (list R)) (en : pset) (W : simd_wf F st lists en).
Local Notation k := (sf_kind F).
Local Notation n := (ss_n st).
Local Notation P := (d_packet (sf_dim F)).
Local Notation es := (pt_entries (sf_pt F)).
Local Notation dim := (k_dim (sf_kind F)).

Definition jrows (j : nat) : nat := (np F lists j * (dim * P))%nat.
Fixpoint offs (j : nat) : nat := match j with O => O | S j => (offs j + jrows j)%nat end.
Lemma offs_le a b : (a <= b)%nat -> (offs a <= offs b)%nat.
Proof. induction 1; [lia|]. cbn [offs]. lia. Qed.

Lemma offsets_from_ok m : forall a, (a + m <= n)%nat ->
  offsets_from F st (offs a) (seq a m) = Ok (offs (a + m), map offs (seq a m)).
Proof.
  induction m as [|m IH]; intros a H; [rewrite Nat.add_0_r; reflexivity|]. cbn [seq offsets_from].
  rewrite (count_ok F st lists en W a) by lia. cbn [obind].
  rewrite joint_rows_np by (apply (P_pos F st lists en W)).
  change (offs a + (count lists a + P - 1) / P * (k_dim k * P))%nat with (offs (S a)).
  rewrite (IH (S a)) by lia. cbn [obind fst snd map]. replace (S a + m)%nat with (a + S m)%nat by lia. reflexivity.
Qed.

Definition rowf (j q c i : nat) : nat := (offs j + dim * (q * P) + P * c + i)%nat.
Definition inb (j q c i : nat) : Prop := (j < n)%nat /\ (q < np F lists j)%nat /\ (c < dim)%nat /\ (i < P)%nat.
Lemma rowf_block j q c i : rowf j q c i = (offs j + ((q * dim + c) * P + i))%nat.
Proof. unfold rowf. nia. Qed.
Lemma rowf_range j q c i : inb j q c i -> (offs j <= rowf j q c i < offs (S j))%nat.
Proof.
  intros (Hj & Hq & Hc & Hi). rewrite rowf_block. cbn [offs]. unfold jrows.
  assert ((q * dim + c) < np F lists j * dim)%nat.
  { assert (S q * dim <= np F lists j * dim)%nat by (apply Nat.mul_le_mono_r; lia). cbn in H. lia. }
  assert (S (q * dim + c) * P <= np F lists j * dim * P)%nat by (apply Nat.mul_le_mono_r; lia).
  rewrite Nat.mul_assoc. cbn in H0. lia.
Qed.
Lemma rowf_inj j q c i j' q' c' i' : inb j q c i -> inb j' q' c' i' -> rowf j q c i = rowf j' q' c' i' ->
  j = j' /\ q = q' /\ c = c' /\ i = i'.
Proof.
  intros H H' E. pose proof (rowf_range _ _ _ _ H) as R1. pose proof (rowf_range _ _ _ _ H') as R2.
  assert (j = j').
  { destruct (Nat.lt_trichotomy j j') as [L|[L|L]]; [|exact L|].
    - pose proof (offs_le (S j) j' L). lia.
    - pose proof (offs_le (S j') j L). lia. }
  subst j'. split; [reflexivity|]. rewrite !rowf_block in E. destruct H as (_ & _ & Hc & Hi). destruct H' as (_ & _ & Hc' & Hi').
  assert (E1 : ((q * dim + c) * P + i = (q' * dim + c') * P + i')%nat) by lia.
  assert (A : (q * dim + c = q' * dim + c')%nat).
  { pose proof (Nat.div_unique ((q * dim + c) * P + i) P (q * dim + c) i Hi ltac:(lia)).
    pose proof (Nat.div_unique ((q * dim + c) * P + i) P (q' * dim + c') i' Hi' ltac:(lia)). lia. }
  rewrite A in E1. assert (i = i') by lia. split; [|split; [|assumption]].
  - pose proof (Nat.div_unique (q * dim + c) dim q c Hc ltac:(lia)).
    pose proof (Nat.div_unique (q * dim + c) dim q' c' Hc' ltac:(lia)). lia.
  - pose proof (Nat.mod_unique (q * dim + c) dim q c Hc ltac:(lia)).
    pose proof (Nat.mod_unique (q * dim + c) dim q' c' Hc' ltac:(lia)). lia.
Qed.

Definition ln_at (j s : nat) : lane := lane_of F (slot F st j s).
Definition wgts_ok : Prop := 0 <= sf_weight F /\ forall j vals, (j < n)%nat -> In vals (lists j) -> 0 <= wide_weight vals.
Lemma kW_pos : 0 < kWideWeight. Proof. apply Rinv_0_lt_compat, pow_lt. lra. Qed.
Lemma lane_weight_pos j s : wgts_ok -> (j < n)%nat -> (s < np F lists j * P)%nat -> 0 <= ln_weight (ln_at j s).
Proof.
  intros [_ HW] Hj Hs. pose proof (np_range F st lists en W j Hj) as [R1 R2].
  destruct (Nat.lt_ge_cases s (count lists j)) as [L|L].
  - assert (E : nth_error (lists j) s = Some (nth s (lists j) [])) by (apply nth_error_nth'; exact L).
    unfold ln_at. rewrite (slot_used F st lists en W j s _ Hj E).
    assert (I : In (nth s (lists j) []) (lists j)) by (apply nth_In; exact L).
    rewrite lane_weight by (eapply vals_len; eassumption). apply (HW j); assumption.
  - unfold ln_at. rewrite (slot_unused F st lists en W j s Hj L) by lia. lra.
Qed.
Lemma jac_wgt_sq j s : wgts_ok -> (j < n)%nat -> (s < np F lists j * P)%nat ->
  jac_wgt F (ln_at j s) * jac_wgt F (ln_at j s) = kWideWeight * sf_weight F * ln_weight (ln_at j s).
Proof.
  intros HW Hj Hs. unfold jac_wgt. apply sqrt_sqrt. pose proof (lane_weight_pos j s HW Hj Hs). pose proof kW_pos.
  apply Rmult_le_pos; [|assumption]. apply Rmult_le_pos; [lra|apply HW].
Qed.
Lemma slot_lt j q i : (q < np F lists j)%nat -> (i < P)%nat -> (q * P + i < np F lists j * P)%nat.
Proof. intros Hq Hi. assert (S q * P <= np F lists j * P)%nat by (apply Nat.mul_le_mono_r; lia). cbn in H. lia. Qed.

Context (sts : list jstate).
(** The lanes. *)
Definition resv (j q c i : nat) : R := jac_wgt F (ln_at j (q * P + i)) * nth c (lane_res k (ln_at j (q * P + i)) (stt sts j)) 0.
Lemma lanes_len j x : length (lanes_at F st j x) = P.
Proof. unfold lanes_at. rewrite map_length, seq_length. reflexivity. Qed.
Lemma lanes_comb j x : combine (seq 0 (length (lanes_at F st j x))) (lanes_at F st j x) = map (fun i => (i, ln_at j (x + i))) (seq 0 P).
Proof. rewrite lanes_len. unfold lanes_at. apply combine_seq. Qed.
Lemma jac_row_f j q c i : jac_row P (offs j + dim * (q * P)) c i = rowf j q c i.
Proof. reflexivity. Qed.
Lemma res_actions_eq j q :
  res_actions F (offs j + dim * (q * P)) (stt sts j) (lanes_at F st j (q * P)) =
  flat_map (fun c => map (fun i => MSet (MRes (rowf j q c i)) (resv j q c i)) (seq 0 P)) (seq 0 dim).
Proof. unfold res_actions. rewrite lanes_comb. apply flat_map_ext. intros c. rewrite map_map. reflexivity. Qed.
Definition jacv (j q c i a d : nat) : R :=
  nth c (lane_jac k (ln_at j (q * P + i)) (stt sts j) (stt sts a) d) 0 * jac_wgt F (ln_at j (q * P + i)).
Lemma jac_emit_eq j q a d :
  jac_emit F (offs j + dim * (q * P)) (lanes_at F st j (q * P)) (stt sts j) a (stt sts a) d =
  flat_map (fun c => flat_map (fun e => map (fun i => MAdd (MJac (rowf j q c i) (ecol e)) (eval e * jacv j q c i a d)) (seq 0 P))
    (row_of es (a * 7 + d))) (seq 0 dim).
Proof.
  unfold jac_emit. rewrite lanes_comb. apply flat_map_ext. intros c. apply flat_map_ext. intros e. rewrite map_map. reflexivity.
Qed.

Definition tasks : list (list maction) := map (jac_task F st lists sts offs) (seq 0 n).
Definition acts : list maction := concat tasks.

(** What the tasks do. *)
Lemma in_task j a : (j < n)%nat -> In a (jac_task F st lists sts offs j) ->
  (exists q c i, inb j q c i /\ a = MSet (MRes (rowf j q c i)) (resv j q c i)) \/
  (exists q c i e v, inb j q c i /\ In e es /\ a = MAdd (MJac (rowf j q c i) (ecol e)) v) \/
  (exists v, a = MAdd (MErr j) v).
Proof.
  intros Hj. unfold jac_task. rewrite in_app_iff, in_flat_map. intros [(x & Hx & H)|[<-|[]]]; [|right; right; eauto].
  destruct (starts_in F st lists en W j x Hj Hx) as (_ & q & Hq & ->). unfold jac_acts in H.
  rewrite res_actions_eq in H. apply in_app_or in H as [H|H].
  - left. apply in_flat_map in H as (c & Hc & H). apply in_map_iff in H as (i & <- & Hi). apply in_seq in Hc, Hi.
    exists q, c, i. split; [|reflexivity]. unfold inb. lia.
  - right. left. apply (in_walk F sts) in H as (b & d & _ & _ & H). rewrite jac_emit_eq in H.
    apply in_flat_map in H as (c & Hc & H). apply in_flat_map in H as (e & He & H). apply in_map_iff in H as (i & <- & Hi).
    apply in_seq in Hc, Hi. apply filter_In in He as [He _]. exists q, c, i, e. eexists. split; [unfold inb; lia|]. split; [exact He|reflexivity].
Qed.
Lemma in_acts a : In a acts -> exists j, (j < n)%nat /\ In a (jac_task F st lists sts offs j).
Proof.
  unfold acts, tasks. intros H. apply in_concat in H as (l & Hl & H). apply in_map_iff in Hl as (j & <- & Hj). apply in_seq in Hj.
  exists j. split; [lia|exact H].
Qed.
Lemma res_in j q c i : inb j q c i -> In (MSet (MRes (rowf j q c i)) (resv j q c i)) acts.
Proof.
  intros (Hj & Hq & Hc & Hi). unfold acts, tasks. apply in_concat. exists (jac_task F st lists sts offs j).
  split; [apply in_map; apply in_seq; lia|]. unfold jac_task. apply in_or_app. left. apply in_flat_map. exists (q * P)%nat. split.
  - unfold starts, packet_starts. apply (in_map (fun i => (i * P)%nat)). apply in_seq. unfold np in Hq. lia.
  - unfold jac_acts. apply in_or_app. left. rewrite res_actions_eq. apply in_flat_map. exists c. split; [apply in_seq; lia|].
    apply (in_map (fun i => MSet (MRes (rowf j q c i)) (resv j q c i))). apply in_seq. lia.
Qed.
Lemma res_val j q c i x : inb j q c i -> val acts (MRes (rowf j q c i)) x = resv j q c i.
Proof.
  intros H. apply val_sets; [|apply res_in; exact H]. intros a Ha E. apply in_acts in Ha as (j' & Hj' & Ha).
  destruct (in_task j' a Hj' Ha) as [(q' & c' & i' & H' & ->)|[(q' & c' & i' & e & v & H' & He & ->)|(v & ->)]]; try discriminate E.
  cbn in E. injection E as E. destruct (rowf_inj _ _ _ _ _ _ _ _ H' H E) as (-> & -> & -> & ->). reflexivity.
Qed.
Lemma res_out r x : (offs n <= r)%nat -> val acts (MRes r) x = x.
Proof.
  intros Hr. apply val_miss. intros a Ha E. apply in_acts in Ha as (j' & Hj' & Ha).
  destruct (in_task j' a Hj' Ha) as [(q' & c' & i' & H' & ->)|[(q' & c' & i' & e & v & H' & He & ->)|(v & ->)]]; try discriminate E.
  cbn in E. injection E as E. pose proof (rowf_range _ _ _ _ H'). pose proof (offs_le (S j') n Hj'). lia.
Qed.

(** Sums over rows. *)
Lemma rows_sum (g : nat -> R) m : (m <= n)%nat ->
  sumn (offs m) g = sumn m (fun j => sumn (np F lists j) (fun q => sumn dim (fun c => sumn P (fun i => g (rowf j q c i))))).
Proof.
  induction m as [|m IH]; intros H; [reflexivity|]. cbn [offs]. rewrite sumn_split, IH, sumn_S by lia. f_equal.
  unfold jrows. rewrite sumn_block. apply sumn_ext. intros q _. rewrite sumn_block. apply sumn_ext. intros c _.
  apply sumn_ext. intros i _. f_equal. rewrite rowf_block. nia.
Qed.

Lemma lane_res_len l s : length (lane_res k l s) = dim.
Proof. unfold lane_res. destruct k; reflexivity. Qed.
Lemma lane_jac_len l s sa d : length (lane_jac k l s sa d) = dim.
Proof. unfold lane_jac. destruct k; destruct (Nat.ltb d 3); try reflexivity; destruct (Nat.ltb d 6); reflexivity. Qed.
Lemma rdot_sumn a b m : length a = m -> length b = m -> rdot a b = sumn m (fun c => nth c a 0 * nth c b 0).
Proof.
  revert b m. induction a as [|x a IH]; intros [|y b] m La Lb; cbn in La, Lb; subst m; try discriminate Lb.
  - reflexivity.
  - injection Lb as Lb. rewrite sumn_shift. cbn [nth]. rewrite <- (IH b (length a) eq_refl Lb). reflexivity.
Qed.

Lemma res_sq_sum (R0 : nat -> R) N : wgts_ok -> (offs n <= N)%nat ->
  (forall r, (offs n <= r)%nat -> R0 r = 0) ->
  sumn N (fun r => val acts (MRes r) (R0 r) * val acts (MRes r) (R0 r)) =
  kWideWeight * sf_weight F * total_err F st lists sts.
Proof.
  intros HW HN H0. replace N with (offs n + (N - offs n))%nat by lia. rewrite sumn_split, (sumn_zero (N - offs n)).
  2:{ intros r _. rewrite res_out, H0 by lia. ring. }
  rewrite Rplus_0_r, rows_sum by lia. unfold total_err. rewrite rsum_seq, <- sumn_scal. apply sumn_ext. intros j Hj.
  unfold slots_sum. rewrite sumn_block, <- sumn_scal. apply sumn_ext. intros q Hq. rewrite sumn_swap, <- sumn_scal.
  apply sumn_ext. intros i Hi. change (lane_of F (slot F st j (q * P + i))) with (ln_at j (q * P + i)). unfold lane_err.
  rewrite sqnorm_sumn, lane_res_len, <- Rmult_assoc, <- (jac_wgt_sq j (q * P + i) HW Hj (slot_lt j q i Hq Hi)), <- sumn_scal.
  apply sumn_ext. intros c Hc. rewrite res_val by (unfold inb; lia). unfold resv. ring.
Qed.

(** J^T r. *)
Definition slope_at (C : nat -> R) : R :=
  rsum (map (fun j => rsum (map (fun a => sumn 7 (fun d =>
    slots_sum F st lists j (fun l => ln_weight l *
      rdot (lane_res k l (stt sts j)) (lane_jac k l (stt sts j) (stt sts a) d)) * C (a * 7 + d)%nat)) (ch F j)))
    (seq 0 n)).

Lemma jac_acts_add a r i : In a acts -> is_add a \/ ma_cell a <> MJac r i.
Proof.
  intros Ha. apply in_acts in Ha as (j' & Hj' & Ha).
  destruct (in_task j' a Hj' Ha) as [(q' & c' & i' & H' & ->)|[(q' & c' & i' & e & v & H' & He & ->)|(v & ->)]].
  - right. discriminate.
  - left. exact I.
  - left. exact I.
Qed.
Definition gact (R0 : nat -> R) (N i : nat) (a : maction) : R := sumn N (fun r => amt (MJac r i) a * val acts (MRes r) (R0 r)).
Lemma gact_row R0 N i j q c i' e v : inb j q c i' -> (offs n <= N)%nat ->
  gact R0 N i (MAdd (MJac (rowf j q c i') (ecol e)) v) = if Nat.eqb (ecol e) i then v * resv j q c i' else 0.
Proof.
  intros H HN. unfold gact. pose proof (rowf_range _ _ _ _ H) as B. pose proof (offs_le (S j) n ltac:(destruct H; lia)).
  rewrite (sumn_single N (rowf j q c i')).
  - cbn. rewrite Nat.eqb_refl. cbn [andb]. rewrite (res_val j q c i' _ H). destruct (Nat.eqb (ecol e) i); ring.
  - lia.
  - intros r Hr Hn. cbn. destruct (Nat.eqb_spec (rowf j q c i') r) as [E|]; [congruence|]. cbn [andb]. ring.
Qed.
Lemma gact_zero R0 N i a : (forall r, ma_cell a <> MJac r i) -> gact R0 N i a = 0.
Proof. intros H. unfold gact. apply sumn_zero. intros r _. rewrite amt_miss by apply H. ring. Qed.

Lemma jtr_sum (R0 : nat -> R) N i : wgts_ok -> en i = true -> (offs n <= N)%nat ->
  sumn N (fun r => val acts (MJac r i) 0 * val acts (MRes r) (R0 r)) =
  kWideWeight * sf_weight F * slope_at (fun r => ent_coeff es r i).
Proof.
  intros HW Hen HN.
  rewrite (sumn_ext N _ (fun r => rsum (map (fun a => amt (MJac r i) a * val acts (MRes r) (R0 r)) acts))).
  2:{ intros r _. rewrite val_adds by (intros a Ha; apply jac_acts_add; exact Ha). rewrite Rplus_0_l.
      rewrite Rmult_comm, <- rsum_map_scal. apply rsum_map_ext. intros; ring. }
  rewrite sumn_rsum_swap. change (rsum (map (gact R0 N i) acts) = kWideWeight * sf_weight F * slope_at (fun r => ent_coeff es r i)).
  assert (HC : forall ls, rsum (map (gact R0 N i) (concat ls)) = rsum (map (fun l => rsum (map (gact R0 N i) l)) ls)).
  { induction ls as [|l ls IH]; [reflexivity|]. cbn [concat map rsum]. rewrite map_app, rsum_app, IH. reflexivity. }
  unfold acts. rewrite HC. unfold tasks. rewrite map_map. unfold slope_at. rewrite <- rsum_map_scal. apply rsum_map_ext.
  intros j Hj. apply in_seq in Hj. unfold jac_task. rewrite map_app, rsum_app. cbn [map rsum].
  rewrite (gact_zero _ _ _ (MAdd (MErr j) _)) by (intros r; discriminate). rewrite !Rplus_0_r, rsum_map_flat.
  set (g := fun x => rsum (map (fun a => sumn 7 (fun d => sumn P (fun i' => kWideWeight * sf_weight F *
      (ln_weight (ln_at j (x + i')) * rdot (lane_res k (ln_at j (x + i')) (stt sts j))
          (lane_jac k (ln_at j (x + i')) (stt sts j) (stt sts a) d))) * ent_coeff es (a * 7 + d) i)) (ch F j))).
  transitivity (rsum (map g (starts F lists j))).
  { apply rsum_map_ext. intros x Hx. destruct (starts_in F st lists en W j x ltac:(lia) Hx) as (_ & q & Hq & ->).
    unfold jac_acts. rewrite map_app, rsum_app, res_actions_eq.
    rewrite (rsum_map_zero _ (flat_map _ _)).
    2:{ intros a Ha. apply in_flat_map in Ha as (c & _ & Ha). apply in_map_iff in Ha as (i' & <- & _). apply gact_zero. discriminate. }
    rewrite Rplus_0_l. unfold g.
    apply (walk_sum F sts (jac_order k) (jac_emit F (offs j + dim * (q * P)) (lanes_at F st j (q * P)) (stt sts j)) (gact R0 N i)
      (fun a d => sumn P (fun i' => kWideWeight * sf_weight F *
      (ln_weight (ln_at j (q * P + i')) * rdot (lane_res k (ln_at j (q * P + i')) (stt sts j))
          (lane_jac k (ln_at j (q * P + i')) (stt sts j) (stt sts a) d)))) (fun r => ent_coeff es r i) j (jac_order_sum F)
       (inactive_coeff F st lists en W i Hen)); [|intros d0; destruct k; cbn; lia].
    intros a d _ _ _. rewrite jac_emit_eq, rsum_map_flat, rsum_seq.
    transitivity (sumn dim (fun c => sumn P (fun i' => jacv j q c i' a d * resv j q c i') * ent_coeff es (a * 7 + d) i)).
    - apply sumn_ext. intros c Hc. rewrite rsum_map_flat.
      rewrite (rsum_map_ext _ (fun e => if Nat.eqb (ecol e) i
         then sumn P (fun i' => jacv j q c i' a d * resv j q c i') * eval e else 0)).
      + pose proof (row_of_sum F (fun y => sumn P (fun i' => jacv j q c i' a d * resv j q c i') * y) (a * 7 + d)%nat i
          (fun y => eq_trans (Rmult_comm _ y) (f_equal (Rmult y) (eq_sym (Rmult_1_r _))))) as H. cbv beta in H.
        rewrite H. ring.
      + intros e _. rewrite map_map, rsum_seq. destruct (Nat.eqb (ecol e) i) eqn:Ee.
        * rewrite <- sumn_scal_r. apply sumn_ext. intros i' Hi'. rewrite gact_row, Ee by (first [unfold inb; lia|exact HN]). ring.
        * apply sumn_zero. intros i' Hi'. rewrite gact_row, Ee by (first [unfold inb; lia|exact HN]). reflexivity.
    - rewrite sumn_scal_r. f_equal. rewrite sumn_swap. apply sumn_ext. intros i' Hi'.
      rewrite (rdot_sumn _ _ dim (lane_res_len _ _) (lane_jac_len _ _ _ _)), <- Rmult_assoc.
      rewrite <- (jac_wgt_sq j (q * P + i') HW ltac:(lia) (slot_lt j q i' Hq Hi')), <- sumn_scal.
      apply sumn_ext. intros c _. unfold jacv, resv. ring. }
  unfold g. rewrite rsum_map_swap, <- rsum_map_scal. apply rsum_map_ext. intros a _. rewrite <- sumn_rsum_swap, <- sumn_scal.
  apply sumn_ext. intros d _. rewrite <- Rmult_assoc. unfold starts, packet_starts. rewrite map_map, rsum_seq, sumn_scal_r. f_equal.
  unfold slots_sum. rewrite sumn_block, <- sumn_scal. apply sumn_ext. intros q _. rewrite sumn_scal. reflexivity.
Qed.

Lemma jac_cells N : (offs n <= N)%nat -> pt_wf (sf_pt F) ->
  forall l a, In l tasks -> In a l -> cell_ok (MShape 0 N (pt_cols (sf_pt F)) N n) (ma_cell a) = true.
Proof.
  intros HN WP l a Hl Ha. unfold tasks in Hl. apply in_map_iff in Hl as (j & <- & Hj). apply in_seq in Hj.
  destruct (in_task j a ltac:(lia) Ha) as [(q' & c' & i' & H' & ->)|[(q' & c' & i' & e & v & H' & He & ->)|(v & ->)]];
    cbn [ma_cell cell_ok m_rows m_cols m_res m_err].
  - pose proof (rowf_range _ _ _ _ H'). pose proof (offs_le (S j) n ltac:(lia)). apply Nat.ltb_lt. lia.
  - pose proof (rowf_range _ _ _ _ H'). pose proof (offs_le (S j) n ltac:(lia)). apply andb_true_intro.
    split; apply Nat.ltb_lt; [lia|]. apply (wf_entries _ WP e He).
  - apply Nat.ltb_lt. lia.
Qed.
Definition row_in (j : nat) (c : mcell) : Prop :=
  match c with MRes r | MJac r _ => (offs j <= r < offs (S j))%nat | MErr j' => j' = j | MGrad _ => False end.
Lemma task_rows j a : (j < n)%nat -> In a (jac_task F st lists sts offs j) -> row_in j (ma_cell a).
Proof.
  intros Hj Ha. destruct (in_task j a Hj Ha) as [(q' & c' & i' & H' & ->)|[(q' & c' & i' & e & v & H' & He & ->)|(v & ->)]];
    cbn [ma_cell row_in]; [apply (rowf_range _ _ _ _ H')|apply (rowf_range _ _ _ _ H')|reflexivity].
Qed.
Lemma row_in_inj j j' c : row_in j c -> row_in j' c -> j = j'.
Proof.
  assert (H : forall r, (offs j <= r < offs (S j))%nat -> (offs j' <= r < offs (S j'))%nat -> j = j').
  { intros r R1 R2. destruct (Nat.lt_trichotomy j j') as [L|[L|L]]; [|exact L|].
    - pose proof (offs_le (S j) j' L). lia.
    - pose proof (offs_le (S j') j L). lia. }
  destruct c; cbn [row_in]; intros; try contradiction; try congruence; eapply H; eassumption.
Qed.
End Jac.
