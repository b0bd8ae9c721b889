(** C49, C50: aligned allocation and the range of frames. *)

From Coq Require Import NArith Lia.
From Verif Require Import Prelude Align_model Align_spec.
Local Open Scope N_scope.

Lemma word_pos : 0 < word. Proof. reflexivity. Qed.
Lemma wadd_small a b : a + b < word -> wadd a b = a + b. Proof. intros H. apply N.mod_small. exact H. Qed.
Lemma wmul_small a b : a * b < word -> wmul a b = a * b. Proof. intros H. apply N.mod_small. exact H. Qed.
Lemma wsub_small a b : b <= a -> a < word -> wsub a b = a - b.
Proof.
  intros H1 H2. unfold wsub. rewrite (N.mod_small b) by lia.
  replace (a + (word - b)) with ((a - b) + 1 * word) by lia. rewrite N.mod_add by discriminate. apply N.mod_small. lia.
Qed.

(** The rounded value is the least multiple, if the sum of value and alignment fits. *)
Theorem round_up_partial value alignment : 0 < alignment -> value + alignment < word ->
  exists r, round_up value alignment = Ok r /\ least_multiple alignment value r.
Proof.
  intros Ha Hw. unfold round_up. destruct (N.eqb_spec alignment 0); [lia|].
  rewrite wadd_small, wsub_small by lia.
  set (k := (value + alignment - 1) / alignment).
  assert (D : alignment * k <= value + alignment - 1 < alignment * N.succ k).
  { split; [apply N.mul_div_le; lia|apply N.mul_succ_div_gt; lia]. }
  rewrite wmul_small by lia. eexists. split; [reflexivity|]. split; [exists k; reflexivity|]. split; [lia|].
  intros j Hj. destruct (N.le_gt_cases k j) as [L|L]; [nia|]. exfalso.
  assert (alignment * N.succ j <= alignment * k) by (apply N.mul_le_mono_l; lia). lia.
Qed.
Print Assumptions round_up_partial.

(** Near the end of the address space the sum wraps, and the result is zero. *)
Theorem round_up_refuted : exists value alignment, 0 < alignment /\ value < word /\
  round_up value alignment = Ok 0 /\ 0 < value.
Proof. exists (word - 1), 16. repeat split; vm_compute; reflexivity. Qed.
Print Assumptions round_up_refuted.

(** The allocation throws or returns a block of enough bytes, in whole units of the alignment. *)
Theorem aligned_alloc_partial malloc size alignment n : 0 < size -> 0 < alignment -> n * size + alignment < word ->
  aligned_alloc malloc size alignment n = Throw \/
  exists s, aligned_alloc malloc size alignment n = Ok s /\ malloc s = true /\ n * size <= s /\ exists k, s = k * alignment.
Proof.
  intros Hs Ha Hw. unfold aligned_alloc. destruct (N.ltb_spec ((word - 1) / size) n); [left; reflexivity|].
  rewrite wmul_small by lia. destruct (round_up_partial (n * size) alignment Ha Hw) as (r & -> & K & L & _). cbn [obind].
  destruct (malloc r) eqn:E; [right|left; reflexivity]. exists r. auto.
Qed.
Print Assumptions aligned_alloc_partial.

(** It never throws for lack of room when the product fits and the allocator finds the block. *)
Theorem aligned_alloc_succeeds size alignment n : 0 < size -> 0 < alignment -> n * size + alignment < word ->
  exists s, aligned_alloc (fun _ => true) size alignment n = Ok s.
Proof.
  intros Hs Ha Hw. unfold aligned_alloc. destruct (N.ltb_spec ((word - 1) / size) n) as [L|L].
  - exfalso.
    pose proof (N.mul_succ_div_gt (word - 1) size ltac:(lia)) as D.
    assert (size * N.succ ((word - 1) / size) <= size * n) by (apply N.mul_le_mono_l; lia). lia.
  - rewrite wmul_small by lia. destruct (round_up_partial (n * size) alignment Ha Hw) as (r & -> & _). cbn [obind]. eauto.
Qed.
Print Assumptions aligned_alloc_succeeds.

(** For 2^62 - 1 floats in blocks of 32 bytes, the block has no bytes at all. *)
Theorem aligned_alloc_refuted : exists size alignment n, aligned_alloc (fun _ => true) size alignment n = Ok 0 /\ 0 < n * size.
Proof. exists 4, 32, (2 ^ 62 - 1). split; vm_compute; reflexivity. Qed.
Print Assumptions aligned_alloc_refuted.

(** computeOffset returns the least offset that aligns the data, for every address of floats. *)
Theorem compute_offset_correct alignment address : 0 < alignment -> alignment < word -> alignment mod 4 = 0 -> address mod 4 = 0 ->
  least_offset alignment address (compute_offset alignment address).
Proof.
  intros Ha Hw A4 D4. unfold compute_offset.
  assert (Ea : exists a, alignment = 4 * a) by (exists (alignment / 4); pose proof (N.div_mod' alignment 4); lia).
  assert (Ed : exists d, address = 4 * d) by (exists (address / 4); pose proof (N.div_mod' address 4); lia).
  destruct Ea as [a ->], Ed as [d ->]. rewrite N.mul_mod_distr_l by lia.
  rewrite !(N.mul_comm 4), !N.div_mul by discriminate.
  pose proof (N.mod_lt d a ltac:(lia)) as M. pose proof (N.div_mod' d a) as DM.
  set (m := d mod a) in *. set (k := d / a) in *. clearbody m k.
  rewrite wsub_small by lia. destruct (N.eqb_spec (a - m) a) as [E|E].
  - split; [exists k; nia|]. intros; lia.
  - split; [exists (k + 1); nia|]. intros o' j H.
    assert (J : d + o' = j * a) by nia. destruct (N.le_gt_cases (a - m) o') as [|C]; [assumption|]. exfalso.
    assert (L1 : k * a < j * a) by (rewrite (N.mul_comm k); lia). assert (L2 : j * a < (k + 1) * a) by (rewrite N.mul_add_distr_r, (N.mul_comm k); lia).
    apply N.mul_lt_mono_pos_r in L1; [|lia]. apply N.mul_lt_mono_pos_r in L2; lia.
Qed.
Print Assumptions compute_offset_correct.

(** With that offset checkAlignment passes. *)
Theorem offset_passes_check alignment address : 0 < alignment -> alignment mod 4 = 0 -> address mod 4 = 0 ->
  address + alignment < word -> check_alignment alignment address (compute_offset alignment address) = Ok tt.
Proof.
  intros Ha A4 D4 Hw. destruct (compute_offset_correct alignment address Ha ltac:(lia) A4 D4) as [[k E] Least].
  assert (B : 4 * compute_offset alignment address < alignment).
  { assert (Ea : exists a, alignment = 4 * a) by (exists (alignment / 4); pose proof (N.div_mod' alignment 4); lia).
    assert (Ed : exists d, address = 4 * d) by (exists (address / 4); pose proof (N.div_mod' address 4); lia).
    destruct Ea as [a Ea], Ed as [d Ed].
    pose proof (N.mod_lt d a ltac:(lia)) as M. pose proof (N.div_mod' d a) as DM.
    set (m := d mod a) in *. set (k' := d / a) in *. clearbody m k'.
    destruct (N.eq_dec m 0) as [Z|Z].
    - specialize (Least 0 k'). assert (X : address + 4 * 0 = k' * alignment) by (rewrite Ea, Ed; rewrite Z in DM; nia).
      specialize (Least X). lia.
    - specialize (Least (a - m) (k' + 1)).
      assert (X : address + 4 * (a - m) = (k' + 1) * alignment) by (rewrite Ea, Ed; nia).
      specialize (Least X). lia. }
  unfold check_alignment. rewrite wmul_small by lia. rewrite wadd_small by lia. rewrite E, N.mod_mul by lia. reflexivity.
Qed.
Print Assumptions offset_passes_check.

(** The span of frames is the wanted one, if first + most fits. *)
Theorem frame_span_partial total first most : total < word -> first <= total -> first + most < word ->
  exists count, frame_span total first most = Ok (first, count) /\ frames_wanted total first most count.
Proof.
  intros Ht Hf Hm. unfold frame_span. destruct (N.ltb_spec total first); [lia|].
  rewrite wadd_small by lia. destruct (N.ltb_spec 0 most) as [P|P].
  - rewrite wsub_small by lia. eexists. split; [reflexivity|]. unfold frames_wanted. lia.
  - rewrite wsub_small by lia. eexists. split; [reflexivity|]. unfold frames_wanted. lia.
Qed.
Print Assumptions frame_span_partial.

(** A first frame beyond the data is refused. *)
Theorem frame_span_refuses total first most : total < first -> frame_span total first most = Throw.
Proof. intros H. unfold frame_span. apply N.ltb_lt in H. rewrite H. reflexivity. Qed.
Print Assumptions frame_span_refuses.

(** With a very large number of frames the sum wraps, and the span reaches behind the data. *)
Theorem frame_span_refuted : exists total first most count, first <= total /\ most < word /\
  frame_span total first most = Ok (first, count) /\ total < first + count.
Proof. exists 10, 5, (2 ^ 64 - 3), (2 ^ 64 - 3). repeat split; vm_compute; congruence. Qed.
Print Assumptions frame_span_refuted.

Example align_case :
  round_up 17 16 = Ok 32 /\ 17 + 16 < word /\ aligned_alloc (fun _ => true) 4 32 7 = Ok 32 /\ 7 * 4 + 32 < word /\
  compute_offset 32 20 = 3 /\ 20 mod 4 = 0 /\ frame_span 10 4 3 = Ok (4, 3) /\ frame_span 10 8 5 = Ok (8, 2).
Proof. repeat split; vm_compute; reflexivity. Qed.
