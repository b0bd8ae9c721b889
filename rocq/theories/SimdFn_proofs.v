From Coq Require Import Bool Reals List Arith Lia Lra Psatz.
From Coquelicot Require Import Coquelicot.
From Verif Require Import Prelude Loops LinAlg Rbool R3 Transform_model Transform_proofs Skeleton_model
  Skeleton_spec FK_model FK_spec FK_proofs FK_deriv_proofs FK_axis_proofs ParamTransform_model
  ParamTransform_spec ParamTransform_proofs Limits_model Limits_spec Limits_proofs Loss_model
  Loss_proofs Constraint_model Constraint_spec Constraint_eval_proofs Constraint_proofs Constraint_deriv_proofs
  SimdStore_model SimdStore_spec SimdStore_proofs Cells_model Cells_proofs SimdFn_model SimdFn_spec.
Import ListNotations.
Local Open Scope nat_scope.
Local Open Scope R_scope.

(** ** Sums *)

Lemma sumn_block a b f : sumn (a * b)%nat f = sumn a (fun i => sumn b (fun k => f (i * b + k)%nat)).
Proof.
  induction a as [|a IH]; [reflexivity|]. rewrite sumn_S, <- IH, <- sumn_split.
  replace (a * b + b)%nat with (S a * b)%nat by lia. reflexivity.
Qed.
Lemma rsum_seq n f : rsum (map f (seq 0 n)) = sumn n f. Proof. reflexivity. Qed.
Lemma rsum_map_flat {A B} (f : B -> R) (g : A -> list B) l :
  rsum (map f (flat_map g l)) = rsum (map (fun x => rsum (map f (g x))) l).
Proof. induction l as [|x l IH]; [reflexivity|]. cbn [flat_map map rsum]. rewrite map_app, rsum_app, IH. reflexivity. Qed.
Lemma rsum_seq_from n f : forall k, rsum (map f (seq k n)) = sumn n (fun i => f (k + i)%nat).
Proof.
  induction n as [|n IH]; intros k; [reflexivity|]. rewrite sumn_shift. cbn [seq map rsum]. rewrite IH, Nat.add_0_r.
  f_equal. apply sumn_ext. intros i _. rewrite Nat.add_succ_comm. reflexivity.
Qed.

Lemma nth_map_seq {A} (f : nat -> A) m b d : (b < m)%nat -> nth b (map f (seq 0 m)) d = f b.
Proof. intros H. rewrite (nth_indep _ d (f 0%nat)) by (rewrite map_length, seq_length; exact H). rewrite (map_nth f), seq_nth by exact H. reflexivity. Qed.
Lemma nth_map_in {A B} (f : A -> B) (l : list A) b d d' : (b < length l)%nat -> nth b (map f l) d = f (nth b l d').
Proof. intros H. rewrite (nth_indep _ d (f d')) by (rewrite map_length; exact H). apply map_nth. Qed.

(** ** The path to the root as a function *)

Fixpoint chain_of (fuel : nat) (sk : skeleton) (j : nat) : list nat :=
  match fuel with
  | O => []
  | S f => match nth_error sk j with
           | Some jt => match jparent jt with
                        | None => [j]
                        | Some p => chain_of f sk p ++ [j]
                        end
           | None => []
           end
  end.
Lemma chain_of_ok sk : valid_sk sk -> forall fuel j, (j < length sk)%nat -> (j < fuel)%nat -> chain sk j (chain_of fuel sk j).
Proof.
  intros V. induction fuel as [|f IH]; intros j Hj Hf; [lia|]. cbn [chain_of].
  destruct (nth_error sk j) as [jt|] eqn:E; [|apply nth_error_None in E; lia].
  destruct (jparent jt) as [p|] eqn:P; [|econstructor; eassumption].
  pose proof (valid_sk_parent _ _ _ _ V E P). econstructor; [exact E|exact P|]. apply IH; lia.
Qed.

(** ** Closed forms of the loops *)

Lemma dofs_ok {A} active base ds (emit : nat -> list A) : (forall d, In d ds -> (base + d < length active)%nat) ->
  dofs active base ds emit = Ok (flat_map (fun d => if nth (base + d) active false then emit d else []) ds).
Proof.
  induction ds as [|d ds IH]; intros H; [reflexivity|]. cbn [dofs flat_map].
  rewrite (rd_b active (base + d)) by (apply H; left; reflexivity). cbn [obind].
  rewrite IH by (intros; apply H; right; assumption). reflexivity.
Qed.

Lemma up_ok {A} sk sts limit (term : nat -> jstate -> outcome (list A)) (T : nat -> list A) j l : chain sk j l ->
  (forall a, In a l -> match limit with Some n => (a < n)%nat | None => True end) ->
  (forall a, In a l -> exists s, nth_error sts a = Some s /\ term a s = Ok (T a)) ->
  forall fuel, (length l <= fuel)%nat ->
  up fuel sk sts limit term (Some j) = Ok (flat_map T (rev l)).
Proof.
  induction 1 as [j jt E P|j jt p l E P Hc IH]; intros HL HT fuel Hf.
  - destruct fuel as [|fuel]; [cbn in Hf; lia|]. cbn [up].
    assert (B : match limit with Some n => Nat.ltb j n | None => true end = true).
    { specialize (HL j (or_introl eq_refl)). destruct limit; [apply Nat.ltb_lt; exact HL|reflexivity]. }
    rewrite B. destruct (HT j (or_introl eq_refl)) as [s [E1 E2]].
    rewrite (rd_some _ _ _ E1). cbn [obind]. rewrite E2. cbn [obind]. rewrite (rd_some _ _ _ E). cbn [obind].
    rewrite P. replace (up fuel sk sts limit term None) with (Ok (@nil A)) by (destruct fuel; reflexivity).
    cbn. reflexivity.
  - rewrite app_length in Hf; cbn in Hf. destruct fuel as [|fuel]; [lia|]. cbn [up].
    assert (Hj : In j (l ++ [j])) by (apply in_or_app; right; left; reflexivity).
    assert (B : match limit with Some n => Nat.ltb j n | None => true end = true).
    { specialize (HL j Hj). destruct limit; [apply Nat.ltb_lt; exact HL|reflexivity]. }
    rewrite B. destruct (HT j Hj) as [s [E1 E2]].
    rewrite (rd_some _ _ _ E1). cbn [obind]. rewrite E2. cbn [obind]. rewrite (rd_some _ _ _ E). cbn [obind].
    rewrite P, IH.
    + cbn [obind]. rewrite rev_app_distr. reflexivity.
    + intros a Ha. apply HL. apply in_or_app. left. exact Ha.
    + intros a Ha. apply HT. apply in_or_app. left. exact Ha.
    + lia.
Qed.

(** ** What is loaded *)

Section Store.
Context (F : simdfn) (st : sstore) (lists : nat -> list (list R)) (en : pset) (W : simd_wf F st lists en).
Local Notation D := (sf_dim F).
Local Notation k := (sf_kind F).
Local Notation n := (ss_n st).
Local Notation P := (d_packet (sf_dim F)).
Local Notation cap := (d_cap (sf_dim F)).

Definition slot (j s : nat) : list R :=
  map (fun b => nth (ss_addr (sf_dim F) (ss_n st) b j s) (ss_data st) 0) (seq 0 (wide_numbers (sf_kind F))).
Definition lane_of (vals : list R) : lane :=
  let v i := nth i vals 0 in
  match sf_kind F with
  | KPosition => Lane (V3 (v 0%nat) (v 1%nat) (v 2%nat)) vzero (V3 (v 3%nat) (v 4%nat) (v 5%nat)) 0 (v 6%nat)
  | KPlane => Lane (V3 (v 0%nat) (v 1%nat) (v 2%nat)) (V3 (v 3%nat) (v 4%nat) (v 5%nat)) vzero (v 6%nat) (v 7%nat)
  | KNormal => Lane (V3 (v 0%nat) (v 1%nat) (v 2%nat)) (V3 (v 3%nat) (v 4%nat) (v 5%nat))
                 (V3 (v 6%nat) (v 7%nat) (v 8%nat)) 0 (v 9%nat)
  end.

Lemma addr_range b j s : (b < d_blocks D)%nat -> (j < n)%nat -> (s < cap)%nat ->
  (ss_addr D n b j s < length (ss_data st))%nat.
Proof.
  intros Hb Hj Hs. rewrite (so_data _ _ (sh_ok _ _ _ (sw_shows _ _ _ _ W))). fold D. fold n. unfold ss_addr. fold cap.
  assert (H1 : (j * cap + s < n * cap)%nat).
  { assert (S j * cap <= n * cap)%nat by (apply Nat.mul_le_mono_r; lia). cbn in H. lia. }
  assert (H2 : (S b * (cap * n) <= d_blocks D * (cap * n))%nat) by (apply Nat.mul_le_mono_r; lia).
  cbn in H2. rewrite (Nat.mul_comm (cap * n) b), (Nat.mul_comm (cap * n) (d_blocks D)). rewrite (Nat.mul_comm cap n) in *. lia.
Qed.
Lemma load1_ok j s b : (b < d_blocks D)%nat -> (j < n)%nat -> (s < cap)%nat ->
  load1 D st j s b = Ok (nth b (slot j s) 0).
Proof.
  intros Hb Hj Hs. unfold load1. fold n. pose proof (addr_range b j s Hb Hj Hs) as R1.
  assert (E : nth_error (ss_data st) (ss_addr D n b j s) = Some (nth (ss_addr D n b j s) (ss_data st) 0))
    by (apply nth_error_nth'; exact R1).
  rewrite (rd_some _ _ _ E). f_equal. unfold slot. fold D. fold n.
  rewrite nth_map_seq by (rewrite <- (sw_blocks _ _ _ _ W); exact Hb). reflexivity.
Qed.
Lemma load_lane_ok j s : (j < n)%nat -> (s < cap)%nat -> load_lane k D st j s = Ok (lane_of (slot j s)).
Proof.
  intros Hj Hs. pose proof (sw_blocks _ _ _ _ W) as B. unfold load_lane, load3, lane_of.  fold D in B.
  destruct (sf_kind F); cbn [wide_numbers] in B; rewrite !load1_ok by (try assumption; rewrite B; lia); reflexivity.
Qed.
Definition lanes_at (j index : nat) : list lane := map (fun s => lane_of (slot j s)) (seq index P).
Lemma load_packet_ok j index : (j < n)%nat -> (index + P <= cap)%nat ->
  load_packet k D st j index = Ok (lanes_at j index).
Proof.
  intros Hj Hi. unfold load_packet, lanes_at. fold P.
  assert (H : forall ss, (forall s, In s ss -> (s < cap)%nat) -> load_lanes k D st j ss = Ok (map (fun s => lane_of (slot j s)) ss)).
  { induction ss as [|s ss IH]; intros HS; [reflexivity|]. cbn [load_lanes map].
    rewrite load_lane_ok by (auto; apply HS; left; reflexivity). cbn [obind].
    rewrite IH by (intros; apply HS; right; assumption). reflexivity. }
  apply H. intros s Hs. apply in_seq in Hs. lia.
Qed.

Lemma P_pos : (0 < P)%nat. Proof. apply (sd_packet _ (sw_dim _ _ _ _ W)). Qed.
Definition count (j : nat) : nat := length (lists j).
Definition np (j : nat) : nat := ((count j + P - 1) / P)%nat.
Lemma np_range j : (j < n)%nat -> (np j * P <= cap)%nat /\ (count j <= np j * P)%nat.
Proof.
  intros Hj. pose proof P_pos as HP. pose proof (sw_shows _ _ _ _ W) as SH.
  assert (Hc : (count j <= cap)%nat).
  { apply (so_full _ _ (sh_ok _ _ _ SH) j); [exact Hj|]. apply (sh_count _ _ _ SH j Hj). }
  destruct (sd_aligned _ (sw_dim _ _ _ _ W)) as [q Hq]. fold D in Hq. fold cap P in Hq.
  unfold np. split.
  - assert (((count j + P - 1) / P < q * 4 + 1)%nat).
    { apply Nat.div_lt_upper_bound; [lia|]. nia. }
    assert (((count j + P - 1) / P * P <= (q * 4) * P)%nat) by (apply Nat.mul_le_mono_r; lia). nia.
  - pose proof (Nat.div_mod (count j + P - 1) P ltac:(lia)). pose proof (Nat.mod_upper_bound (count j + P - 1) P ltac:(lia)). nia.
Qed.
Lemma count_ok j : (j < n)%nat -> rd (ss_count st) j = Ok (count j).
Proof. intros Hj. apply rd_some. apply (sh_count _ _ _ (sw_shows _ _ _ _ W) j Hj). Qed.

Definition starts (j : nat) : list nat := packet_starts D (count j).
Lemma starts_in j x : (j < n)%nat -> In x (starts j) -> (x + P <= cap)%nat /\ exists i, (i < np j)%nat /\ x = (i * P)%nat.
Proof.
  intros Hj H. unfold starts, packet_starts in H. fold P in H. apply in_map_iff in H as (i & <- & Hi).
  apply in_seq in Hi. fold (np j) in Hi. split; [|exists i; split; [lia|reflexivity]].
  pose proof (np_range j Hj). assert (S i * P <= np j * P)%nat by (apply Nat.mul_le_mono_r; lia). cbn in H0. lia.
Qed.

Lemma packets_ok j s body (A : nat -> list maction) : (j < n)%nat ->
  (forall x, In x (starts j) -> body x (lanes_at j x) = Ok (A x)) ->
  packets F st j s body (starts j) =
    Ok (rsum (map (fun x => rsum (map (lane_err k s) (lanes_at j x))) (starts j)), flat_map A (starts j)).
Proof.
  intros Hj HB.
  assert (H : forall idx, (forall x, In x idx -> In x (starts j)) ->
    packets F st j s body idx =
      Ok (rsum (map (fun x => rsum (map (lane_err k s) (lanes_at j x))) idx), flat_map A idx)).
  { induction idx as [|x idx IH]; intros HI; [reflexivity|]. cbn [packets map rsum flat_map].
    rewrite (load_packet_ok j x Hj) by (apply (starts_in j x Hj); apply HI; left; reflexivity). cbn [obind].
    rewrite HB by (apply HI; left; reflexivity). cbn [obind].
    rewrite IH by (intros; apply HI; right; assumption). reflexivity. }
  apply H. auto.
Qed.

(** All lanes of a joint, the unused ones included. *)
Definition slots_sum (j : nat) (f : lane -> R) : R := sumn (np j * P)%nat (fun s => f (lane_of (slot j s))).
Lemma starts_sum j f : rsum (map (fun x => rsum (map f (lanes_at j x))) (starts j)) = slots_sum j f.
Proof.
  unfold slots_sum, starts, packet_starts. fold P. fold (np j). rewrite map_map, rsum_seq, sumn_block.
  apply sumn_ext. intros i _. unfold lanes_at. rewrite map_map, rsum_seq_from. reflexivity.
Qed.

(** What the slots hold. *)
Lemma slot_addr b j s : ((b * n + j) * cap + s = ss_addr D n b j s)%nat.
Proof. unfold ss_addr. fold cap. nia. Qed.
Lemma slot_used j s vals : (j < n)%nat -> nth_error (lists j) s = Some vals -> slot j s = vals.
Proof.
  intros Hj E. destruct (sh_slots _ _ _ (sw_shows _ _ _ _ W) j s vals Hj E) as [L H].
  pose proof (sw_blocks _ _ _ _ W) as B. apply nth_error_ext_len.
  - unfold slot. rewrite map_length, seq_length, L. symmetry. exact B.
  - intros b Hb. unfold slot in Hb. rewrite map_length, seq_length in Hb. rewrite <- B in Hb.
    rewrite <- (H b Hb). unfold cell. fold D n. fold cap. rewrite slot_addr.
    unfold slot. fold D n. rewrite nth_error_map.
    rewrite (nth_error_nth' (seq 0 (wide_numbers (sf_kind F))) 0%nat) by (rewrite seq_length, <- B; exact Hb).
    rewrite seq_nth by (rewrite <- B; exact Hb). cbn [option_map Nat.add]. symmetry. apply nth_error_nth'.
    apply addr_range; [exact Hb|exact Hj|].
    assert (s < count j)%nat by (apply nth_error_Some; congruence). pose proof (np_range j Hj). lia.
Qed.
Lemma lane_weight vals : length vals = wide_numbers (sf_kind F) -> ln_weight (lane_of vals) = wide_weight vals.
Proof.
  unfold lane_of, wide_weight. destruct (sf_kind F); cbn [wide_numbers ln_weight]; intros L;
    repeat (destruct vals as [|? vals]; [discriminate L|]); destruct vals; try discriminate L; reflexivity.
Qed.
Lemma slot_unused j s : (j < n)%nat -> (count j <= s)%nat -> (s < cap)%nat -> ln_weight (lane_of (slot j s)) = 0.
Proof.
  intros Hj Hs Hc. pose proof (sh_unused _ _ _ (sw_shows _ _ _ _ W) j s Hj Hs Hc) as H.
  unfold cell in H. fold D n in H. fold cap in H. rewrite slot_addr in H.
  pose proof (sw_blocks _ _ _ _ W) as B. fold D in B.
  assert (N : nth (d_blocks D - 1) (slot j s) 0 = 0).
  { pose proof (load1_ok j s (d_blocks D - 1)) as L. unfold load1 in L. rewrite (rd_some _ _ _ H) in L.
    assert (0 < d_blocks D)%nat by apply (sd_blocks _ (sw_dim _ _ _ _ W)).
    specialize (L ltac:(lia) Hj Hc). injection L as L. symmetry. exact L. }
  rewrite B in N. unfold lane_of. destruct (sf_kind F); exact N.
Qed.

Lemma slots_sum_used j f : (j < n)%nat -> (forall l, ln_weight l = 0 -> f l = 0) ->
  slots_sum j f = rsum (map (fun vals => f (lane_of vals)) (lists j)).
Proof.
  intros Hj Hf. unfold slots_sum. pose proof (np_range j Hj) as [H1 H2].
  replace (np j * P)%nat with (count j + (np j * P - count j))%nat by lia. rewrite sumn_split.
  rewrite (sumn_zero (np j * P - count j)).
  - rewrite Rplus_0_r, rsum_nth, map_length. fold (count j). apply sumn_ext. intros s Hs.
    assert (E : nth_error (lists j) s = Some (nth s (lists j) [])) by (apply nth_error_nth'; exact Hs).
    rewrite (slot_used j s _ Hj E).
    rewrite (nth_indep _ 0 (f (lane_of []))) by (rewrite map_length; exact Hs).
    rewrite (map_nth (fun vals => f (lane_of vals))). reflexivity.
  - intros s Hs. apply Hf. apply slot_unused; [exact Hj|lia|lia].
Qed.

Lemma lane_res_of vals s : js_linear s = tf_linear (js_world s) -> length vals = wide_numbers (sf_kind F) ->
  lane_res (sf_kind F) (lane_of vals) s = wide_residual (sf_kind F) vals (js_world s).
Proof.
  intros HL L. unfold lane_of, lane_res, wide_residual, pos_world, normal_world. destruct (sf_kind F); cbn [wide_numbers] in L;
    repeat (destruct vals as [|? vals]; [discriminate L|]); destruct vals; try discriminate L;
    cbn [nth ln_offset ln_target ln_normal ln_dist residual]; rewrite ?qmat_vec, ?(act_point _ _ HL); try reflexivity.
  f_equal. unfold vdot. ring.
Qed.
End Store.
