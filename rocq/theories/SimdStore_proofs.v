(** Proofs about the SIMD constraint stores. *)

From Coq Require Import Bool Reals List Arith Lia Permutation.
From Verif Require Import Prelude Loops SimdStore_model SimdStore_spec.
Import ListNotations.
Local Open Scope nat_scope.

(** ** Addresses *)

Lemma addr_eq D n b j s : ss_addr D n b j s = (b * n + j) * d_cap D + s.
Proof. unfold ss_addr. ring. Qed.
Lemma addr_lt D n b j s : b < d_blocks D -> j < n -> s < d_cap D ->
  ss_addr D n b j s < d_cap D * n * d_blocks D.
Proof.
  intros Hb Hj Hs. rewrite addr_eq.
  assert (H : b * n + j + 1 <= n * d_blocks D).
  { apply Nat.le_trans with ((b + 1) * n); [lia|]. rewrite (Nat.mul_comm n). apply Nat.mul_le_mono_r. lia. }
  apply Nat.lt_le_trans with ((b * n + j + 1) * d_cap D); [lia|].
  rewrite <- Nat.mul_assoc, (Nat.mul_comm (d_cap D)). apply Nat.mul_le_mono_r. exact H.
Qed.
Lemma div_unique_pair K a s a' s' : s < K -> s' < K -> a * K + s = a' * K + s' -> a = a' /\ s = s'.
Proof.
  intros Hs Hs' H. assert (a = a') as ->; [|split; [reflexivity|lia]].
  rewrite (Nat.div_unique (a * K + s) K a s) by lia.
  symmetry. apply (Nat.div_unique _ K a' s'); lia.
Qed.
Lemma addr_inj D n b j s b' j' s' : j < n -> s < d_cap D -> j' < n -> s' < d_cap D ->
  ss_addr D n b j s = ss_addr D n b' j' s' -> b = b' /\ j = j' /\ s = s'.
Proof.
  intros Hj Hs Hj' Hs'. rewrite !addr_eq. intros H.
  apply div_unique_pair in H as [H ->]; [|exact Hs|exact Hs'].
  apply div_unique_pair in H as [-> ->]; auto.
Qed.
Lemma cell_addr D st b j s : cell D st b j s = nth_error (ss_data st) (ss_addr D (ss_n st) b j s).
Proof. unfold cell. rewrite addr_eq. reflexivity. Qed.

Lemma cell_some D st b j s : store_ok D st -> b < d_blocks D -> j < ss_n st -> s < d_cap D ->
  exists x, cell D st b j s = Some x.
Proof.
  intros S Hb Hj Hs. rewrite cell_addr. apply nth_error_lt. rewrite (so_data D st S).
  apply addr_lt; assumption.
Qed.

(** ** Filling *)

Lemma fill_ok {A} (l : list A) first k v : first + k <= length l ->
  exists l', fill l first k v = Ok l' /\ length l' = length l /\
    (forall i, first <= i < first + k -> nth_error l' i = Some v) /\
    (forall i, i < first \/ first + k <= i -> nth_error l' i = nth_error l i).
Proof.
  intros H. unfold fill.
  set (P := fun m (l' : list A) => length l' = length l /\
    (forall i, first <= i < first + m -> nth_error l' i = Some v) /\
    (forall i, i < first \/ first + m <= i -> nth_error l' i = nth_error l i)).
  assert (Q : exists l', ofold (fun i l => wr l (first + i) v) (seq 0 k) l = Ok l' /\ P k l').
  { apply (ofold_seq_inv _ P).
    - split; [reflexivity|]. split; [intros; lia|reflexivity].
    - intros m l1 Hm [L [N1 N2]]. destruct (wr_ok l1 (first + m) v) as (l2 & E & L2 & M1 & M2); [lia|].
      exists l2. split; [exact E|]. split; [congruence|]. split.
      + intros i Hi. destruct (Nat.eq_dec i (first + m)) as [->|N]; [exact M1|].
        rewrite M2 by exact N. apply N1. lia.
      + intros i Hi. rewrite M2 by lia. apply N2. lia. }
  destruct Q as [l' [E [L [N1 N2]]]]. exists l'. auto.
Qed.

(** ** One thread *)

Lemma write_lane_ok D st j s vals : store_ok D st -> j < ss_n st -> s < d_cap D ->
  length vals = d_blocks D ->
  exists data, write_lane D (ss_n st) j s vals (ss_data st) = Ok data /\
    length data = length (ss_data st) /\
    (forall b, b < d_blocks D -> nth_error data (ss_addr D (ss_n st) b j s) = nth_error vals b) /\
    (forall a, (forall b, b < d_blocks D -> a <> ss_addr D (ss_n st) b j s) ->
       nth_error data a = nth_error (ss_data st) a).
Proof.
  intros S Hj Hs Lv. unfold write_lane.
  set (P := fun m (data : list R) => length data = length (ss_data st) /\
    (forall b, b < m -> nth_error data (ss_addr D (ss_n st) b j s) = nth_error vals b) /\
    (forall a, (forall b, b < m -> a <> ss_addr D (ss_n st) b j s) ->
       nth_error data a = nth_error (ss_data st) a)).
  match goal with |- context [ofold ?f _ _] =>
    assert (Q : exists d, ofold f (seq 0 (d_blocks D)) (ss_data st) = Ok d /\ P (d_blocks D) d) end.
  { apply (ofold_seq_inv _ P).
    - split; [reflexivity|]. split; [intros; lia|reflexivity].
    - intros m d1 Hm [L [N1 N2]].
      destruct (nth_error_lt vals m) as [v Ev]; [lia|]. rewrite Ev.
      destruct (wr_ok d1 (ss_addr D (ss_n st) m j s) v) as (d2 & E & L2 & M1 & M2).
      { rewrite L, (so_data D st S). apply addr_lt; [lia|assumption|assumption]. }
      exists d2. split; [exact E|]. split; [congruence|]. split.
      + intros b Hb. destruct (Nat.eq_dec b m) as [->|N]; [congruence|].
        rewrite M2; [apply N1; lia|]. intros C. apply addr_inj in C; try assumption. tauto.
      + intros a Ha. rewrite M2 by (apply Ha; lia). apply N2. intros b Hb. apply Ha. lia. }
  destruct Q as [d [E [L [N1 N2]]]]. exists d. auto.
Qed.

Lemma count_some D st j : store_ok D st -> j < ss_n st -> exists c, nth_error (ss_count st) j = Some c.
Proof. intros S Hj. apply nth_error_lt. rewrite (so_count D st S). pose proof (so_joints D st S). lia. Qed.

(** The effect of adding one lane at the end of a list. *)
Lemma add_lane_shows D st lists j vals data count : sdim_ok D -> shows D st lists -> j < ss_n st ->
  length (lists j) < d_cap D -> length vals = d_blocks D ->
  length data = length (ss_data st) -> length count = length (ss_count st) ->
  (forall b, b < d_blocks D -> nth_error data (ss_addr D (ss_n st) b j (length (lists j))) = nth_error vals b) ->
  (forall a, (forall b, b < d_blocks D -> a <> ss_addr D (ss_n st) b j (length (lists j))) ->
     nth_error data a = nth_error (ss_data st) a) ->
  nth_error count j = Some (length (lists j) + 1) ->
  (forall k, k <> j -> nth_error count k = nth_error (ss_count st) k) ->
  shows D (SS (ss_n st) data count)
    (fun j' => if Nat.eqb j' j && Nat.ltb (length (lists j)) (d_cap D) then lists j ++ [vals] else lists j').
Proof.
  intros DO [S C1 C2 C3] Hj Hl Lv Ld Lc N1 N2 M1 M2.
  destruct (Nat.ltb_spec (length (lists j)) (d_cap D)) as [_|]; [|lia].
  assert (OLD : forall b j' s, b < d_blocks D -> j' < ss_n st -> s < d_cap D -> j' <> j \/ s <> length (lists j) ->
    cell D (SS (ss_n st) data count) b j' s = cell D st b j' s).
  { intros b j' s Hb Hj' Hs NE. rewrite !cell_addr. cbn [ss_data ss_n]. apply N2. intros b' _ E.
    apply addr_inj in E; try assumption. lia. }
  constructor; cbn [ss_n ss_count].
  - constructor; cbn [ss_n ss_data ss_count].
    + apply (so_joints D st S).
    + rewrite Ld. apply (so_data D st S).
    + rewrite Lc. apply (so_count D st S).
    + intros j' c Hj' E. destruct (Nat.eq_dec j' j) as [->|N].
      * rewrite M1 in E. injection E as <-. lia.
      * rewrite M2 in E by exact N. apply (so_full D st S j' c Hj' E).
  - intros j' Hj'. rewrite andb_true_r. destruct (Nat.eqb_spec j' j) as [E|N].
    + rewrite E, M1, app_length. reflexivity.
    + rewrite M2 by exact N. apply C1. exact Hj'.
  - intros j' s v Hj' E. rewrite andb_true_r in E. destruct (Nat.eqb_spec j' j) as [E1|N].
    + subst j'. destruct (Nat.lt_ge_cases s (length (lists j))) as [L|L].
      * rewrite nth_error_app1 in E by exact L. destruct (C2 j s v Hj' E) as [H1 H2].
        split; [exact H1|]. intros b Hb. rewrite OLD by (try assumption; lia). apply H2. exact Hb.
      * rewrite nth_error_app2 in E by exact L.
        destruct (s - length (lists j)) as [|x] eqn:Ex; [|destruct x; discriminate].
        injection E as <-. split; [exact Lv|]. intros b Hb. rewrite cell_addr. cbn [ss_data ss_n].
        replace s with (length (lists j)) by lia. apply N1. exact Hb.
    + destruct (C2 j' s v Hj' E) as [H1 H2]. split; [exact H1|]. intros b Hb.
      rewrite OLD; [apply H2; exact Hb|exact Hb|exact Hj'| |left; exact N].
      apply Nat.lt_le_trans with (length (lists j')); [eapply nth_error_len; exact E|].
      apply (so_full D st S j'); [exact Hj'|apply C1; exact Hj'].
  - intros j' s Hj' HL Hs. rewrite andb_true_r in HL.
    assert (B : d_blocks D - 1 < d_blocks D) by (pose proof (sd_blocks D DO); lia).
    destruct (Nat.eqb_spec j' j) as [E1|N].
    + subst j'. rewrite app_length in HL. cbn in HL. rewrite OLD by (try assumption; lia).
      apply C3; [assumption|lia|assumption].
    + rewrite OLD; [apply C3; assumption|assumption|assumption|assumption|left; exact N].
Qed.

Lemma ss_add_shows D st lists j vals : sdim_ok D -> shows D st lists -> j < ss_n st ->
  length vals = d_blocks D ->
  exists st', ss_add D st j vals = Ok st' /\ ss_n st' = ss_n st /\
    shows D st' (expected1 (d_cap D) lists (SAdd j vals)).
Proof.
  intros DO SH Hj Lv. pose proof SH as [S C1 C2 C3]. unfold ss_add, expected1.
  pose proof (so_joints D st S) as HJ.
  destruct (Nat.ltb_spec j (d_joints D)) as [_|]; [|lia].
  rewrite (rd_some _ _ _ (C1 j Hj)). cbn [obind].
  assert (Lc : j < length (ss_count st)) by (rewrite (so_count D st S); lia).
  destruct (wr_ok (ss_count st) j (length (lists j) + 1) Lc) as (c1 & E1 & L1 & M1 & M2).
  rewrite E1. cbn [obind].
  destruct (Nat.ltb_spec (length (lists j)) (d_cap D)) as [Hl|Hl].
  - destruct (write_lane_ok D st j (length (lists j)) vals S Hj Hl Lv) as (d & Ed & Ld & N1 & N2).
    rewrite Ed. cbn [obind]. eexists. split; [reflexivity|]. split; [reflexivity|].
    pose proof (add_lane_shows D st lists j vals d c1 DO SH Hj Hl Lv Ld L1 N1 N2 M1 M2) as X.
    destruct (Nat.ltb_spec (length (lists j)) (d_cap D)) in X; [exact X|lia].
  - rewrite (rd_some _ _ _ M1). cbn [obind].
    destruct (wr_ok c1 j (length (lists j) + 1 - 1)) as (c2 & E2 & L2 & K1 & K2); [lia|].
    rewrite E2. cbn [obind]. eexists. split; [reflexivity|]. split; [reflexivity|].
    assert (c2 = ss_count st) as ->.
    { apply nth_error_ext. intros k. destruct (Nat.eq_dec k j) as [->|N].
      - rewrite K1, (C1 j Hj). f_equal. lia.
      - rewrite K2, M2 by exact N. reflexivity. }
    destruct st as [n0 d0 k0]. cbn [ss_n ss_data ss_count] in *.
    constructor; cbn [ss_n ss_count].
    + exact S.
    + intros j'. rewrite andb_false_r. apply C1.
    + intros j' s v. rewrite andb_false_r. apply C2.
    + intros j' s. rewrite andb_false_r. apply C3.
Qed.

Lemma ss_add_normal_shows D st lists j vals : sdim_ok D -> shows D st lists -> j < ss_n st ->
  length vals = d_blocks D ->
  exists st', ss_add_normal D st j vals = Ok (st', Nat.ltb (length (lists j)) (d_cap D)) /\
    ss_n st' = ss_n st /\ shows D st' (expected1 (d_cap D) lists (SAdd j vals)).
Proof.
  intros DO SH Hj Lv. pose proof SH as [S C1 C2 C3]. unfold ss_add_normal, expected1.
  pose proof (so_joints D st S) as HJ.
  destruct (Nat.ltb_spec j (d_joints D)) as [_|]; [|lia].
  rewrite (rd_some _ _ _ (C1 j Hj)). cbn [obind].
  pose proof (so_full D st S j _ Hj (C1 j Hj)) as Cap.
  assert (Lc : j < length (ss_count st)) by (rewrite (so_count D st S); lia).
  destruct (Nat.eqb_spec (length (lists j)) (d_cap D)) as [Hl|Hl].
  - destruct (Nat.ltb_spec (length (lists j)) (d_cap D)) as [|_]; [lia|].
    eexists. split; [reflexivity|]. split; [reflexivity|].
    constructor.
    + exact S.
    + intros j'. rewrite andb_false_r. apply C1.
    + intros j' s v. rewrite andb_false_r. apply C2.
    + intros j' s. rewrite andb_false_r. apply C3.
  - assert (Hl2 : length (lists j) < d_cap D) by lia.
    destruct (wr_ok (ss_count st) j (length (lists j) + 1) Lc) as (c1 & E1 & L1 & M1 & M2).
    rewrite E1. cbn [obind].
    destruct (write_lane_ok D st j (length (lists j)) vals S Hj Hl2 Lv) as (d & Ed & Ld & N1 & N2).
    rewrite Ed. cbn [obind]. pose proof (proj2 (Nat.ltb_lt _ _) Hl2) as B. rewrite B.
    eexists. split; [reflexivity|]. split; [reflexivity|].
    pose proof (add_lane_shows D st lists j vals d c1 DO SH Hj Hl2 Lv Ld L1 N1 N2 M1 M2) as X.
    rewrite B in X. exact X.
Qed.

(** Only the sizes matter for clearing. *)
Lemma ss_clear_shows D st : sdim_ok D -> ss_n st <= d_joints D ->
  length (ss_data st) = d_cap D * ss_n st * d_blocks D -> length (ss_count st) = d_joints D ->
  exists st', ss_clear D st = Ok st' /\ ss_n st' = ss_n st /\ shows D st' (fun _ => []).
Proof.
  intros DO HJ HD HC. unfold ss_clear. pose proof (sd_blocks D DO) as HB.
  destruct (fill_ok (ss_data st) (ss_addr D (ss_n st) (d_blocks D - 1) 0 0) (d_cap D * ss_n st) 0%R) as (d & E & L & N1 & N2).
  { rewrite HD, addr_eq. nia. }
  rewrite E. cbn [obind].
  destruct (fill_ok (ss_count st) 0 (ss_n st) 0) as (c & E2 & L2 & M1 & M2); [lia|].
  rewrite E2. cbn [obind]. eexists. split; [reflexivity|]. split; [reflexivity|].
  constructor; cbn [ss_n ss_count].
  - constructor; cbn [ss_n ss_count ss_data]; [exact HJ|congruence|congruence|].
    intros j k Hj Ek. rewrite M1 in Ek by lia. injection Ek as <-. lia.
  - intros j Hj. rewrite M1 by lia. reflexivity.
  - intros j s vals _ Es. destruct s; discriminate.
  - intros j s Hj _ Hs. rewrite cell_addr. cbn [ss_data ss_n]. apply N1. rewrite !addr_eq. nia.
Qed.

Lemma run_history D os : sdim_ok D -> forall st lists, shows D st lists ->
  (forall o, In o os -> sop_ok D (ss_n st) o) ->
  exists st', ofold (run_op D) os st = Ok st' /\ ss_n st' = ss_n st /\
    shows D st' (fold_left (expected1 (d_cap D)) os lists).
Proof.
  intros DO. induction os as [|o os IH]; intros st lists SH H; [exists st; auto|].
  cbn [ofold fold_left].
  assert (Q : exists st1, run_op D o st = Ok st1 /\ ss_n st1 = ss_n st /\ shows D st1 (expected1 (d_cap D) lists o)).
  { pose proof (H o (or_introl eq_refl)) as HO. destruct o as [j vals|]; cbn in HO.
    - apply ss_add_shows; tauto.
    - pose proof (sh_ok D st lists SH) as [H1 H2 H3 _]. apply ss_clear_shows; assumption. }
  destruct Q as [st1 [E1 [E2 SH1]]]. rewrite E1. cbn [obind].
  destruct (IH st1 _ SH1) as [st2 [E3 [E4 SH2]]].
  { intros o' Ho'. rewrite E2. apply H. right. exact Ho'. }
  exists st2. split; [exact E3|]. split; [congruence|exact SH2].
Qed.
Lemma run_history_normal D os : sdim_ok D -> forall st lists, shows D st lists ->
  (forall o, In o os -> sop_ok D (ss_n st) o) ->
  exists st', ofold (run_op_normal D) os st = Ok st' /\ ss_n st' = ss_n st /\
    shows D st' (fold_left (expected1 (d_cap D)) os lists).
Proof.
  intros DO. induction os as [|o os IH]; intros st lists SH H; [exists st; auto|].
  cbn [ofold fold_left].
  assert (Q : exists st1, run_op_normal D o st = Ok st1 /\ ss_n st1 = ss_n st /\ shows D st1 (expected1 (d_cap D) lists o)).
  { pose proof (H o (or_introl eq_refl)) as HO. destruct o as [j vals|]; cbn in HO.
    - destruct (ss_add_normal_shows D st lists j vals DO SH (proj1 HO) (proj2 HO)) as [s1 [E1 E2]].
      exists s1. cbn [run_op_normal]. unfold omap. rewrite E1. cbn [obind fst]. tauto.
    - pose proof (sh_ok D st lists SH) as [H1 H2 H3 _]. apply ss_clear_shows; assumption. }
  destruct Q as [st1 [E1 [E2 SH1]]]. rewrite E1. cbn [obind].
  destruct (IH st1 _ SH1) as [st2 [E3 [E4 SH2]]].
  { intros o' Ho'. rewrite E2. apply H. right. exact Ho'. }
  exists st2. split; [exact E3|]. split; [congruence|exact SH2].
Qed.

Lemma aligned_mod D n : sdim_ok D -> (d_cap D * n) mod (d_packet D * 4) = 0.
Proof.
  intros [P [k Hk] _]. rewrite Hk. apply Nat.mod_divides; [lia|]. exists (k * n). ring.
Qed.
Lemma ss_alloc_ok D raw n : sdim_ok D -> n <= d_joints D ->
  ss_alloc D raw n = Ok (SS n (repeat 0%R (d_cap D * n * d_blocks D)) raw).
Proof.
  intros DO Hn. unfold ss_alloc. destruct (Nat.leb_spec n (d_joints D)); [|lia].
  rewrite aligned_mod by exact DO. reflexivity.
Qed.
Lemma ss_new_shows D raw n : sdim_ok D -> n <= d_joints D -> length raw = d_joints D ->
  exists st, ss_new D raw n = Ok st /\ ss_n st = n /\ shows D st (fun _ => []).
Proof.
  intros DO Hn Lr. unfold ss_new. rewrite ss_alloc_ok by assumption. cbn [obind].
  apply ss_clear_shows; cbn [ss_n ss_data ss_count]; [exact DO|exact Hn|apply repeat_length|exact Lr].
Qed.

Lemma read_counts_ok count f js : (forall j, In j js -> nth_error count j = Some (f j)) ->
  read_counts count js = Ok (map f js).
Proof.
  induction js as [|j js IH]; intros H; [reflexivity|]. cbn [read_counts map].
  rewrite (rd_some _ _ _ (H j (or_introl eq_refl))). cbn [obind].
  rewrite IH by (intros; apply H; right; assumption). reflexivity.
Qed.
Lemma ss_num_shows D st lists : shows D st lists ->
  ss_num st = Ok (map (fun j => length (lists j)) (seq 0 (ss_n st))).
Proof.
  intros SH. unfold ss_num. apply (read_counts_ok _ (fun j => length (lists j))). intros j Hj. apply in_seq in Hj.
  apply (sh_count D st lists SH). lia.
Qed.

Lemma write_lane_bad D n j s vals data : 0 < d_blocks D -> length data = d_cap D * n * d_blocks D -> n <= j ->
  write_lane D n j s vals data = UB.
Proof.
  intros HB. unfold write_lane.
  replace (d_blocks D) with (0 + (d_blocks D - 1) + 1) at 2 by lia.
  rewrite seq_app, ofold_app. cbn [seq plus].
  match goal with |- context [ofold ?g (seq 0 (d_blocks D - 1)) _] => set (f := g) end.
  intros L Hj.
  assert (Q : forall l d, length d = d_cap D * n * d_blocks D ->
     ofold f l d = UB \/ exists d', ofold f l d = Ok d' /\ length d' = d_cap D * n * d_blocks D).
  { induction l as [|b l IH]; intros d Ld; [right; exists d; auto|]. cbn [ofold]. unfold f at 1 3.
    destruct (nth_error vals b); [|left; reflexivity].
    unfold wr. destruct (upd d (ss_addr D n b j s) r) as [d'|] eqn:E; [|left; reflexivity]. cbn [obind].
    apply IH. rewrite <- Ld. eapply upd_length. exact E. }
  destruct (Q (seq 0 (d_blocks D - 1)) data L) as [E|[d' [E Ld]]]; rewrite E; [reflexivity|]. cbn [obind ofold].
  unfold f. destruct (nth_error vals (d_blocks D - 1)); [|reflexivity].
  unfold wr. destruct (upd d' (ss_addr D n (d_blocks D - 1) j s) r) as [x|] eqn:Eu; [|reflexivity].
  exfalso. assert (H : ss_addr D n (d_blocks D - 1) j s < length d').
  { apply upd_nth with (k := ss_addr D n (d_blocks D - 1) j s) in Eu as Eu2. rewrite Nat.eqb_refl in Eu2.
    rewrite <- (upd_length _ _ _ _ Eu). eapply nth_error_len. exact Eu2. }
  rewrite Ld, addr_eq in H.
  assert (G : n * d_blocks D <= (d_blocks D - 1) * n + j).
  { replace (d_blocks D) with (d_blocks D - 1 + 1) at 1 by lia. lia. }
  apply (Nat.mul_le_mono_r _ _ (d_cap D)) in G. lia.
Qed.

(** ** Calls in parallel *)

Definition slot_of (p : cpc) : option nat :=
  match p with PStore s _ => Some s | PDone r => r | _ => None end.
Definition w_alloc (j : nat) (t : call * cpc) : nat :=
  if Nat.eqb (c_joint (fst t)) j then match slot_of (snd t) with Some _ => 1 | None => 0 end else 0.
Definition w_dec (j : nat) (t : call * cpc) : nat :=
  if Nat.eqb (c_joint (fst t)) j then match snd t with PDec => 1 | _ => 0 end else 0.
Definition cnt {A} (f : A -> nat) (l : list A) : nat := list_sum (map f l).

Lemma cnt_cons {A} (f : A -> nat) a l : cnt f (a :: l) = f a + cnt f l. Proof. reflexivity. Qed.
Lemma cnt_upd {A} (f : A -> nat) (l : list A) i x y l' :
  nth_error l i = Some x -> upd l i y = Some l' -> cnt f l' + f x = cnt f l + f y.
Proof.
  revert i l'. induction l as [|a l IH]; intros [|i] l' H1 H2; cbn in H1, H2; try discriminate.
  - injection H1 as ->. injection H2 as <-. rewrite !cnt_cons. lia.
  - destruct (upd l i y) as [t|] eqn:E; [|discriminate]. injection H2 as <-.
    specialize (IH i t H1 E). rewrite !cnt_cons. lia.
Qed.
Lemma cnt_pos {A} (f : A -> nat) (l : list A) : 0 < cnt f l -> exists i x, nth_error l i = Some x /\ 0 < f x.
Proof.
  induction l as [|a l IH]; [intros H; cbv in H; lia|]. rewrite cnt_cons. intros H.
  destruct (f a) as [|m] eqn:E.
  - destruct IH as [i [x [H1 H2]]]; [exact H|]. exists (S i), x. auto.
  - exists 0, a. cbn. split; [reflexivity|lia].
Qed.
Lemma cnt_ge {A} (f : A -> nat) (l : list A) i x : nth_error l i = Some x -> f x <= cnt f l.
Proof.
  revert i. induction l as [|a l IH]; intros [|i] H; cbn in H; try discriminate; rewrite cnt_cons.
  - injection H as ->. lia.
  - specialize (IH i H). lia.
Qed.

(** What holds at every point of every run: [a j] slots of joint [j] have been
    given out. *)
Record pinv (D : sdim) (st0 : sstore) (calls : list call) (st : sstore) (ts : list (call * cpc)) : Prop := {
  pi_calls : map fst ts = calls;
  pi_n : ss_n st = ss_n st0;
  pi_len_d : length (ss_data st) = length (ss_data st0);
  pi_len_c : length (ss_count st) = length (ss_count st0);
  pi_count : forall j c, j < ss_n st0 -> nth_error (ss_count st0) j = Some c ->
     nth_error (ss_count st) j = Some (c + cnt (w_alloc j) ts + cnt (w_dec j) ts);
  pi_cap : forall j c, j < ss_n st0 -> nth_error (ss_count st0) j = Some c -> c + cnt (w_alloc j) ts <= d_cap D;
  pi_full : forall i k p c, nth_error ts i = Some (k, p) -> p = PDec \/ p = PDone None ->
     nth_error (ss_count st0) (c_joint k) = Some c -> c + cnt (w_alloc (c_joint k)) ts = d_cap D;
  pi_range : forall i k p c s, nth_error ts i = Some (k, p) -> slot_of p = Some s ->
     nth_error (ss_count st0) (c_joint k) = Some c -> c <= s < c + cnt (w_alloc (c_joint k)) ts;
  pi_distinct : forall i i' k k' p p' s, nth_error ts i = Some (k, p) -> nth_error ts i' = Some (k', p') ->
     c_joint k = c_joint k' -> slot_of p = Some s -> slot_of p' = Some s -> i = i';
  pi_all : forall j c s, j < ss_n st0 -> nth_error (ss_count st0) j = Some c ->
     c <= s < c + cnt (w_alloc j) ts ->
     exists i k p, nth_error ts i = Some (k, p) /\ c_joint k = j /\ slot_of p = Some s;
  pi_store : forall i k s b, nth_error ts i = Some (k, PStore s b) -> b < d_blocks D /\
     forall b', b' < b -> cell D st b' (c_joint k) s = nth_error (c_vals k) b';
  pi_done : forall i k s, nth_error ts i = Some (k, PDone (Some s)) ->
     forall b', b' < d_blocks D -> cell D st b' (c_joint k) s = nth_error (c_vals k) b';
  pi_old : forall b j s c, b < d_blocks D -> j < ss_n st0 -> s < d_cap D ->
     nth_error (ss_count st0) j = Some c -> s < c \/ c + cnt (w_alloc j) ts <= s ->
     cell D st b j s = cell D st0 b j s
}.

Section Par.
Context (D : sdim) (DO : sdim_ok D) (st0 : sstore) (SO : store_ok D st0) (calls : list call)
  (HC : forall c, In c calls -> c_joint c < ss_n st0 /\ length (c_vals c) = d_blocks D).

Lemma thread_call st ts i k p : pinv D st0 calls st ts -> nth_error ts i = Some (k, p) ->
  c_joint k < ss_n st0 /\ length (c_vals k) = d_blocks D /\
  exists c, nth_error (ss_count st0) (c_joint k) = Some c /\ c <= d_cap D.
Proof.
  intros I H. destruct (HC k) as [H1 H2].
  { rewrite <- (pi_calls D st0 calls st ts I). apply nth_error_In with i.
    rewrite nth_error_map, H. reflexivity. }
  split; [exact H1|]. split; [exact H2|]. destruct (count_some D st0 _ SO H1) as [c Hc].
  exists c. split; [exact Hc|]. eapply so_full; eassumption.
Qed.

(** A thread moves from [p] to [p'] while the shared state is unchanged, both
    without a slot. *)
Lemma upd_cases {A} (l l' : list A) i y : upd l i y = Some l' -> forall k x, nth_error l' k = Some x ->
  (k = i /\ x = y) \/ (k <> i /\ nth_error l k = Some x).
Proof.
  intros H k x E. rewrite (upd_nth _ _ _ _ H) in E. destruct (Nat.eqb_spec k i) as [->|N].
  - left. split; congruence.
  - right. auto.
Qed.
Lemma upd_map_fst (ts ts' : list (call * cpc)) i k p p' :
  nth_error ts i = Some (k, p) -> upd ts i (k, p') = Some ts' -> map fst ts' = map fst ts.
Proof.
  revert i ts'. induction ts as [|a ts IH]; intros [|i] ts' H1 H2; cbn in *; try discriminate.
  - injection H1 as ->. injection H2 as <-. reflexivity.
  - destruct (upd ts i (k, p')) as [t|] eqn:E; [|discriminate]. injection H2 as <-. cbn.
    f_equal. eauto.
Qed.
Lemma upd_hit {A} (l l' : list A) i y : upd l i y = Some l' -> nth_error l' i = Some y.
Proof. intros H. rewrite (upd_nth _ _ _ _ H), Nat.eqb_refl. reflexivity. Qed.
Lemma upd_miss {A} (l l' : list A) i y k : upd l i y = Some l' -> k <> i -> nth_error l' k = nth_error l k.
Proof. intros H N. rewrite (upd_nth _ _ _ _ H). destruct (Nat.eqb_spec k i); [contradiction|reflexivity]. Qed.

(** Moves that give out no slot: the counter changes with the number of pending
    decrements. *)
Lemma pinv_noslot st ts i k p p' ts' count :
  pinv D st0 calls st ts -> nth_error ts i = Some (k, p) -> upd ts i (k, p') = Some ts' ->
  slot_of p = None -> slot_of p' = None ->
  length count = length (ss_count st) ->
  (forall j x, j <> c_joint k -> nth_error (ss_count st) j = Some x -> nth_error count j = Some x) ->
  (forall x, nth_error (ss_count st) (c_joint k) = Some x ->
     exists y, nth_error count (c_joint k) = Some y /\
       y + w_dec (c_joint k) (k, p) = x + w_dec (c_joint k) (k, p')) ->
  (p' = PDec \/ p' = PDone None -> forall c, nth_error (ss_count st0) (c_joint k) = Some c ->
     c + cnt (w_alloc (c_joint k)) ts = d_cap D) ->
  pinv D st0 calls (SS (ss_n st) (ss_data st) count) ts'.
Proof.
  intros I Hi Hu S1 S2 Lc C1 C2 C3.
  assert (A : forall j, cnt (w_alloc j) ts' = cnt (w_alloc j) ts).
  { intros j. pose proof (cnt_upd (w_alloc j) ts i _ _ ts' Hi Hu) as H. unfold w_alloc at 2 4 in H.
    cbn [fst snd] in H. rewrite S1, S2 in H. destruct (Nat.eqb (c_joint k) j); lia. }
  constructor; cbn [ss_n ss_data ss_count].
  - rewrite (upd_map_fst _ _ _ _ _ _ Hi Hu). apply (pi_calls D st0 calls st ts I).
  - apply (pi_n D st0 calls st ts I).
  - apply (pi_len_d D st0 calls st ts I).
  - rewrite Lc. apply (pi_len_c D st0 calls st ts I).
  - intros j c Hj Hc. rewrite A. pose proof (pi_count D st0 calls st ts I j c Hj Hc) as H.
    pose proof (cnt_upd (w_dec j) ts i _ _ ts' Hi Hu) as HD.
    destruct (Nat.eq_dec j (c_joint k)) as [E|N].
    + subst j. destruct (C2 _ H) as [y [Hy E]]. rewrite Hy. f_equal. lia.
    + rewrite (C1 j _ N H). f_equal.
      assert (w_dec j (k, p) = 0 /\ w_dec j (k, p') = 0) as [Z1 Z2].
      { unfold w_dec. cbn [fst]. destruct (Nat.eqb_spec (c_joint k) j); [congruence|auto]. }
      lia.
  - intros j c Hj Hc. rewrite A. apply (pi_cap D st0 calls st ts I j c Hj Hc).
  - intros i' k' q c H Hq Hc. rewrite A. destruct (upd_cases _ _ _ _ Hu _ _ H) as [[-> E]|[N E]].
    + injection E as -> ->. apply C3; assumption.
    + apply (pi_full D st0 calls st ts I i' k' q c E Hq Hc).
  - intros i' k' q c s H Hq Hc. rewrite A. destruct (upd_cases _ _ _ _ Hu _ _ H) as [[-> E]|[N E]].
    + injection E as -> ->. congruence.
    + apply (pi_range D st0 calls st ts I i' k' q c s E Hq Hc).
  - intros i1 i2 k1 k2 q1 q2 s H1 H2 Hj Q1 Q2.
    destruct (upd_cases _ _ _ _ Hu _ _ H1) as [[_ E1]|[N1 E1]]; [injection E1 as -> ->; congruence|].
    destruct (upd_cases _ _ _ _ Hu _ _ H2) as [[_ E2]|[N2 E2]]; [injection E2 as -> ->; congruence|].
    eapply (pi_distinct D st0 calls st ts I); eassumption.
  - intros j c s Hj Hc. rewrite A. intros Hs.
    destruct (pi_all D st0 calls st ts I j c s Hj Hc Hs) as (i' & k' & q & E & Ej & Eq).
    exists i', k', q. split; [|auto]. rewrite (upd_miss _ _ _ _ _ Hu); [exact E|].
    intros ->. congruence.
  - intros i' k' s b H. destruct (upd_cases _ _ _ _ Hu _ _ H) as [[_ E]|[N E]]; [injection E as -> <-; discriminate|].
    apply (pi_store D st0 calls st ts I i' k' s b E).
  - intros i' k' s H. destruct (upd_cases _ _ _ _ Hu _ _ H) as [[_ E]|[N E]]; [injection E as -> <-; discriminate|].
    apply (pi_done D st0 calls st ts I i' k' s E).
  - intros b j s c Hb Hj Hs Hc. rewrite A. apply (pi_old D st0 calls st ts I b j s c Hb Hj Hs Hc).
Qed.

(** A slot is given out. *)
Lemma pinv_alloc st ts i k p ts' count c :
  pinv D st0 calls st ts -> nth_error ts i = Some (k, p) -> slot_of p = None -> p <> PDec ->
  nth_error (ss_count st0) (c_joint k) = Some c ->
  c + cnt (w_alloc (c_joint k)) ts < d_cap D ->
  upd ts i (k, PStore (c + cnt (w_alloc (c_joint k)) ts) 0) = Some ts' ->
  upd (ss_count st) (c_joint k) (c + cnt (w_alloc (c_joint k)) ts + 1) = Some count ->
  pinv D st0 calls (SS (ss_n st) (ss_data st) count) ts'.
Proof.
  intros I Hi S1 ND Hc Hlt Hu Hw. set (s0 := c + cnt (w_alloc (c_joint k)) ts) in *.
  destruct (thread_call st ts i k p I Hi) as [Hjk [Lv _]].
  assert (A1 : cnt (w_alloc (c_joint k)) ts' = cnt (w_alloc (c_joint k)) ts + 1).
  { pose proof (cnt_upd (w_alloc (c_joint k)) ts i _ _ ts' Hi Hu) as H. unfold w_alloc at 2 4 in H.
    cbn [fst snd slot_of] in H. rewrite S1, Nat.eqb_refl in H. lia. }
  assert (A2 : forall j, j <> c_joint k -> cnt (w_alloc j) ts' = cnt (w_alloc j) ts).
  { intros j N. pose proof (cnt_upd (w_alloc j) ts i _ _ ts' Hi Hu) as H. unfold w_alloc at 2 4 in H.
    cbn [fst snd] in H. destruct (Nat.eqb_spec (c_joint k) j); [congruence|lia]. }
  assert (AM : forall j, cnt (w_alloc j) ts <= cnt (w_alloc j) ts').
  { intros j. destruct (Nat.eq_dec j (c_joint k)) as [->|N]; [lia|rewrite A2 by exact N; lia]. }
  assert (B : forall j, cnt (w_dec j) ts' = cnt (w_dec j) ts).
  { intros j. pose proof (cnt_upd (w_dec j) ts i _ _ ts' Hi Hu) as H. unfold w_dec at 2 4 in H.
    cbn [fst snd] in H. destruct (Nat.eqb (c_joint k) j); [|lia]. destruct p; try contradiction; lia. }
  (* no decrement is pending and no call on this joint has failed *)
  assert (NF : forall i' k' q, nth_error ts i' = Some (k', q) -> q = PDec \/ q = PDone None ->
            c_joint k' <> c_joint k).
  { intros i' k' q H Hq E. pose proof (pi_full D st0 calls st ts I i' k' q c H Hq) as X.
    rewrite E in X. specialize (X Hc). unfold s0 in Hlt. lia. }
  assert (Z : cnt (w_dec (c_joint k)) ts = 0).
  { destruct (cnt (w_dec (c_joint k)) ts) as [|m] eqn:E; [reflexivity|exfalso].
    destruct (cnt_pos (w_dec (c_joint k)) ts) as [i' [[k' q] [H1 H2]]]; [lia|].
    unfold w_dec in H2. cbn [fst snd] in H2. destruct (Nat.eqb_spec (c_joint k') (c_joint k)) as [E'|]; [|lia].
    destruct q; try lia. eapply NF; [exact H1|left; reflexivity|exact E']. }
  constructor; cbn [ss_n ss_data ss_count].
  - rewrite (upd_map_fst _ _ _ _ _ _ Hi Hu). apply (pi_calls D st0 calls st ts I).
  - apply (pi_n D st0 calls st ts I).
  - apply (pi_len_d D st0 calls st ts I).
  - rewrite (upd_length _ _ _ _ Hw). apply (pi_len_c D st0 calls st ts I).
  - intros j c' Hj Hc'. rewrite B. destruct (Nat.eq_dec j (c_joint k)) as [E|N].
    + subst j. rewrite (upd_hit _ _ _ _ Hw), A1, Z. f_equal. unfold s0. rewrite Hc in Hc'. injection Hc' as <-. lia.
    + rewrite (upd_miss _ _ _ _ _ Hw N), (A2 j N). apply (pi_count D st0 calls st ts I j c' Hj Hc').
  - intros j c' Hj Hc'. destruct (Nat.eq_dec j (c_joint k)) as [E|N].
    + subst j. rewrite A1. rewrite Hc in Hc'. injection Hc' as <-. unfold s0 in Hlt. lia.
    + rewrite (A2 j N). apply (pi_cap D st0 calls st ts I j c' Hj Hc').
  - intros i' k' q c' H Hq Hc'. destruct (upd_cases _ _ _ _ Hu _ _ H) as [[_ E]|[N E]].
    + injection E as -> ->. destruct Hq; discriminate.
    + rewrite A2 by (eapply NF; eassumption). apply (pi_full D st0 calls st ts I i' k' q c' E Hq Hc').
  - intros i' k' q c' s H Hq Hc'. destruct (upd_cases _ _ _ _ Hu _ _ H) as [[_ E]|[N E]].
    + injection E as -> ->. cbn in Hq. injection Hq as <-. rewrite A1.
      rewrite Hc in Hc'. injection Hc' as <-. unfold s0. lia.
    + pose proof (pi_range D st0 calls st ts I i' k' q c' s E Hq Hc'). specialize (AM (c_joint k')). lia.
  - intros i1 i2 k1 k2 q1 q2 s H1 H2 Hj Q1 Q2.
    destruct (upd_cases _ _ _ _ Hu _ _ H1) as [[-> E1]|[N1 E1]];
      destruct (upd_cases _ _ _ _ Hu _ _ H2) as [[-> E2]|[N2 E2]].
    + reflexivity.
    + exfalso. injection E1 as -> ->. cbn in Q1. injection Q1 as <-.
      pose proof (pi_range D st0 calls st ts I i2 k2 q2 c _ E2 Q2) as X. rewrite <- Hj in X. specialize (X Hc). unfold s0 in X. lia.
    + exfalso. injection E2 as -> ->. cbn in Q2. injection Q2 as <-.
      pose proof (pi_range D st0 calls st ts I i1 k1 q1 c _ E1 Q1) as X. rewrite Hj in X. specialize (X Hc). unfold s0 in X. lia.
    + eapply (pi_distinct D st0 calls st ts I); eassumption.
  - intros j c' s Hj Hc' Hs. destruct (Nat.eq_dec j (c_joint k)) as [E|N].
    + subst j. rewrite Hc in Hc'. injection Hc' as <-. destruct (Nat.eq_dec s s0) as [->|N].
      * exists i, k, (PStore s0 0). split; [exact (upd_hit _ _ _ _ Hu)|auto].
      * destruct (pi_all D st0 calls st ts I (c_joint k) c s Hj Hc) as (i' & k' & q & E & Ej & Eq); [unfold s0 in N; lia|].
        exists i', k', q. split; [|auto]. rewrite (upd_miss _ _ _ _ _ Hu); [exact E|]. intros ->. congruence.
    + rewrite (A2 j N) in Hs. destruct (pi_all D st0 calls st ts I j c' s Hj Hc' Hs) as (i' & k' & q & E & Ej & Eq).
      exists i', k', q. split; [|auto]. rewrite (upd_miss _ _ _ _ _ Hu); [exact E|]. intros ->. congruence.
  - intros i' k' s b H. destruct (upd_cases _ _ _ _ Hu _ _ H) as [[_ E]|[N E]].
    + injection E as -> -> ->. split; [apply (sd_blocks D DO)|intros; lia].
    + apply (pi_store D st0 calls st ts I i' k' s b E).
  - intros i' k' s H. destruct (upd_cases _ _ _ _ Hu _ _ H) as [[_ E]|[N E]]; [discriminate|].
    apply (pi_done D st0 calls st ts I i' k' s E).
  - intros b j s c' Hb Hj Hs Hc' Ho. apply (pi_old D st0 calls st ts I b j s c' Hb Hj Hs Hc').
    specialize (AM j). lia.
Qed.

(** A number is stored. *)
Lemma pinv_store st ts i k s b v ts' data :
  pinv D st0 calls st ts -> nth_error ts i = Some (k, PStore s b) ->
  nth_error (c_vals k) b = Some v ->
  upd ts i (k, if Nat.eqb (S b) (d_blocks D) then PDone (Some s) else PStore s (S b)) = Some ts' ->
  upd (ss_data st) (ss_addr D (ss_n st) b (c_joint k) s) v = Some data ->
  pinv D st0 calls (SS (ss_n st) data (ss_count st)) ts'.
Proof.
  intros I Hi Hv Hu Hw. set (p' := if Nat.eqb (S b) (d_blocks D) then PDone (Some s) else PStore s (S b)) in *.
  assert (S2 : slot_of p' = Some s) by (unfold p'; destruct (Nat.eqb (S b) (d_blocks D)); reflexivity).
  destruct (thread_call st ts i k _ I Hi) as [Hjk [Lv [c0 [Hc0 Hcap0]]]].
  destruct (pi_store D st0 calls st ts I i k s b Hi) as [Hb Hdone].
  assert (Hs : s < d_cap D).
  { pose proof (pi_range D st0 calls st ts I i k _ c0 s Hi eq_refl Hc0).
    pose proof (pi_cap D st0 calls st ts I _ c0 Hjk Hc0). lia. }
  pose proof (pi_n D st0 calls st ts I) as En.
  assert (A : forall j, cnt (w_alloc j) ts' = cnt (w_alloc j) ts).
  { intros j. pose proof (cnt_upd (w_alloc j) ts i _ _ ts' Hi Hu) as H. unfold w_alloc at 2 4 in H.
    cbn [fst snd] in H. rewrite S2 in H. cbn [slot_of] in H. destruct (Nat.eqb (c_joint k) j); lia. }
  assert (B : forall j, cnt (w_dec j) ts' = cnt (w_dec j) ts).
  { intros j. pose proof (cnt_upd (w_dec j) ts i _ _ ts' Hi Hu) as H. unfold w_dec at 2 4 in H.
    cbn [fst snd] in H. destruct (Nat.eqb (c_joint k) j); [|lia]. unfold p' in H. destruct (Nat.eqb (S b) (d_blocks D)); lia. }
  assert (OTHER : forall b' j' s', j' < ss_n st0 -> s' < d_cap D -> b' <> b \/ j' <> c_joint k \/ s' <> s ->
     cell D (SS (ss_n st) data (ss_count st)) b' j' s' = cell D st b' j' s').
  { intros b' j' s' Hj' Hs' NE. rewrite !cell_addr. cbn [ss_n ss_data]. apply (upd_miss _ _ _ _ _ Hw).
    intros E. apply addr_inj in E; try assumption; try lia. }
  assert (SLOT : forall i' k' q s', nth_error ts i' = Some (k', q) -> slot_of q = Some s' ->
     c_joint k' < ss_n st0 /\ s' < d_cap D).
  { intros i' k' q s' H Hq. destruct (thread_call st ts i' k' q I H) as [H1 [_ [c1 [Hc1 _]]]]. split; [exact H1|].
    pose proof (pi_range D st0 calls st ts I i' k' q c1 s' H Hq Hc1).
    pose proof (pi_cap D st0 calls st ts I _ c1 H1 Hc1). lia. }
  assert (HIT : cell D (SS (ss_n st) data (ss_count st)) b (c_joint k) s = nth_error (c_vals k) b).
  { rewrite cell_addr. cbn [ss_n ss_data]. rewrite (upd_hit _ _ _ _ Hw). congruence. }
  constructor; cbn [ss_n ss_data ss_count].
  - rewrite (upd_map_fst _ _ _ _ _ _ Hi Hu). apply (pi_calls D st0 calls st ts I).
  - exact En.
  - rewrite (upd_length _ _ _ _ Hw). apply (pi_len_d D st0 calls st ts I).
  - apply (pi_len_c D st0 calls st ts I).
  - intros j c Hj Hc. rewrite A, B. apply (pi_count D st0 calls st ts I j c Hj Hc).
  - intros j c Hj Hc. rewrite A. apply (pi_cap D st0 calls st ts I j c Hj Hc).
  - intros i' k' q c H Hq Hc. rewrite A. destruct (upd_cases _ _ _ _ Hu _ _ H) as [[-> E]|[N E]].
    + injection E as -> ->. exfalso. destruct Hq as [Hq|Hq]; rewrite Hq in S2; discriminate.
    + apply (pi_full D st0 calls st ts I i' k' q c E Hq Hc).
  - intros i' k' q c s' H Hq Hc. rewrite A. destruct (upd_cases _ _ _ _ Hu _ _ H) as [[-> E]|[N E]].
    + injection E as -> ->. rewrite S2 in Hq. injection Hq as <-.
      apply (pi_range D st0 calls st ts I i k _ c s Hi eq_refl Hc).
    + apply (pi_range D st0 calls st ts I i' k' q c s' E Hq Hc).
  - intros i1 i2 k1 k2 q1 q2 s' H1 H2 Hj Q1 Q2.
    destruct (upd_cases _ _ _ _ Hu _ _ H1) as [[-> E1]|[N1 E1]];
      destruct (upd_cases _ _ _ _ Hu _ _ H2) as [[-> E2]|[N2 E2]].
    + reflexivity.
    + injection E1 as -> ->. rewrite S2 in Q1. injection Q1 as <-.
      exact (pi_distinct D st0 calls st ts I i i2 k k2 (PStore s b) q2 s Hi E2 Hj eq_refl Q2).
    + injection E2 as -> ->. rewrite S2 in Q2. injection Q2 as <-.
      exact (pi_distinct D st0 calls st ts I i1 i k1 k q1 (PStore s b) s E1 Hi Hj Q1 eq_refl).
    + eapply (pi_distinct D st0 calls st ts I); eassumption.
  - intros j c s' Hj Hc. rewrite A. intros Hs'.
    destruct (pi_all D st0 calls st ts I j c s' Hj Hc Hs') as (i' & k' & q & E & Ej & Eq).
    destruct (Nat.eq_dec i' i) as [->|N].
    + rewrite Hi in E. injection E as <- <-. cbn in Eq. injection Eq as <-.
      exists i, k, p'. split; [exact (upd_hit _ _ _ _ Hu)|auto].
    + exists i', k', q. split; [|auto]. rewrite (upd_miss _ _ _ _ _ Hu N). exact E.
  - intros i' k' s' b' H. destruct (upd_cases _ _ _ _ Hu _ _ H) as [[-> E]|[N E]].
    + unfold p' in E. destruct (Nat.eqb_spec (S b) (d_blocks D)) as [|NB]; [discriminate|].
      injection E as -> -> ->. split; [lia|]. intros b' Hb'.
      destruct (Nat.eq_dec b' b) as [->|Nb]; [exact HIT|]. rewrite OTHER by (try assumption; auto).
      apply Hdone. lia.
    + destruct (pi_store D st0 calls st ts I i' k' s' b' E) as [H1 H2]. split; [exact H1|].
      intros b2 Hb2. destruct (SLOT i' k' _ s' E eq_refl) as [J1 J2].
      rewrite OTHER; [apply H2; exact Hb2|exact J1|exact J2|].
      destruct (Nat.eq_dec (c_joint k') (c_joint k)) as [EJ|]; [|auto].
      destruct (Nat.eq_dec s' s) as [ES|]; [|auto]. exfalso. apply N. subst s'.
      exact (pi_distinct D st0 calls st ts I i' i k' k _ _ s E Hi EJ eq_refl eq_refl).
  - intros i' k' s' H. destruct (upd_cases _ _ _ _ Hu _ _ H) as [[-> E]|[N E]].
    + unfold p' in E. destruct (Nat.eqb_spec (S b) (d_blocks D)) as [EB|]; [|discriminate].
      injection E as -> ->. intros b' Hb'.
      destruct (Nat.eq_dec b' b) as [->|Nb]; [exact HIT|]. rewrite OTHER by (try assumption; auto).
      apply Hdone. lia.
    + intros b2 Hb2. destruct (SLOT i' k' _ s' E eq_refl) as [J1 J2].
      rewrite OTHER; [apply (pi_done D st0 calls st ts I i' k' s' E); exact Hb2|exact J1|exact J2|].
      destruct (Nat.eq_dec (c_joint k') (c_joint k)) as [EJ|]; [|auto].
      destruct (Nat.eq_dec s' s) as [ES|]; [|auto]. exfalso. apply N. subst s'.
      exact (pi_distinct D st0 calls st ts I i' i k' k _ _ s E Hi EJ eq_refl eq_refl).
  - intros b' j s' c Hb' Hj Hs' Hc. rewrite A. intros Ho. rewrite OTHER; [apply (pi_old D st0 calls st ts I b' j s' c Hb' Hj Hs' Hc Ho)|exact Hj|exact Hs'|].
    destruct (Nat.eq_dec j (c_joint k)) as [EJ|]; [|auto]. destruct (Nat.eq_dec s' s) as [ES|]; [|auto].
    exfalso. subst j s'. rewrite Hc in Hc0. injection Hc0 as <-.
    pose proof (pi_range D st0 calls st ts I i k _ c s Hi eq_refl Hc). lia.
Qed.

Lemma pinv_start : pinv D st0 calls st0 (started calls).
Proof.
  assert (A : forall f : call * cpc -> nat, (forall c, f (c, PStart) = 0) -> cnt f (started calls) = 0).
  { intros f Hf. clear - Hf. unfold started. induction calls as [|c l IH]; [reflexivity|].
    cbn [map]. rewrite cnt_cons, Hf, IH. reflexivity. }
  assert (A1 : forall j, cnt (w_alloc j) (started calls) = 0).
  { intros j. apply A. intros c. unfold w_alloc. cbn. destruct (Nat.eqb (c_joint c) j); reflexivity. }
  assert (A2 : forall j, cnt (w_dec j) (started calls) = 0).
  { intros j. apply A. intros c. unfold w_dec. cbn. destruct (Nat.eqb (c_joint c) j); reflexivity. }
  assert (T : forall i k p, nth_error (started calls) i = Some (k, p) -> p = PStart).
  { intros i k p H. unfold started in H. rewrite nth_error_map in H. destruct (nth_error calls i); [|discriminate].
    injection H as _ <-. reflexivity. }
  constructor.
  - unfold started. rewrite map_map. apply map_id.
  - reflexivity.
  - reflexivity.
  - reflexivity.
  - intros j c _ Hc. rewrite A1, A2, Hc. f_equal. lia.
  - intros j c Hj Hc. rewrite A1. pose proof (so_full D st0 SO j c Hj Hc). lia.
  - intros i k p c H [Hp|Hp]; apply T in H; congruence.
  - intros i k p c s H Hp. apply T in H. subst p. discriminate.
  - intros i i' k k' p p' s H _ _ Hp. apply T in H. subst p. discriminate.
  - intros j c s _ _ Hs. rewrite A1 in Hs. lia.
  - intros i k s b H. apply T in H. discriminate.
  - intros i k s H. apply T in H. discriminate.
  - reflexivity.
Qed.

Lemma dec_full st ts j c : pinv D st0 calls st ts -> nth_error (ss_count st0) j = Some c ->
  0 < cnt (w_dec j) ts -> c + cnt (w_alloc j) ts = d_cap D.
Proof.
  intros I Hc H. destruct (cnt_pos _ _ H) as [i [[k q] [H1 H2]]].
  unfold w_dec in H2. cbn [fst snd] in H2. destruct (Nat.eqb_spec (c_joint k) j) as [<-|]; [|lia].
  destruct q; try lia. eapply (pi_full D st0 calls st ts I); [exact H1|left; reflexivity|exact Hc].
Qed.

Lemma step_fetch_inv st ts i : pinv D st0 calls st ts ->
  (forall k x, ~ In (k, PTry x) ts) ->
  exists st' ts', step_at (step_fetch D) i (st, ts) = Ok (st', ts') /\ pinv D st0 calls st' ts' /\
    (forall k x, ~ In (k, PTry x) ts').
Proof.
  intros I NT. unfold step_at. cbn [fst snd].
  destruct (nth_error ts i) as [[k p]|] eqn:Hi; [|exists st, ts; auto].
  destruct (thread_call st ts i k p I Hi) as [Hjk [Lv [c [Hc Hcap]]]].
  pose proof (pi_count D st0 calls st ts I _ c Hjk Hc) as Hcount.
  pose proof (pi_cap D st0 calls st ts I _ c Hjk Hc) as Hle.
  pose proof (so_joints D st0 SO) as HJ.
  assert (NT' : forall p' ts', (forall x, p' <> PTry x) -> upd ts i (k, p') = Some ts' -> forall k' x, ~ In (k', PTry x) ts').
  { intros p' ts' Np Hu k' x Hin. apply In_nth_error in Hin as [m Hm].
    destruct (upd_cases _ _ _ _ Hu _ _ Hm) as [[_ E]|[_ E]]; [injection E; intros; apply (Np x); congruence|].
    apply nth_error_In in E. eapply NT; exact E. }
  assert (WR : forall p', exists ts', upd ts i (k, p') = Some ts').
  { intros p'. apply upd_some. eapply nth_error_len. exact Hi. }
  assert (LC : c_joint k < length (ss_count st)) by (eapply nth_error_len; exact Hcount).
  destruct p as [|x|s b| |r]; cbn [step_fetch].
  - destruct (Nat.ltb_spec (c_joint k) (d_joints D)) as [_|]; [|lia].
    rewrite (rd_some _ _ _ Hcount). cbn [obind]. set (x := c + cnt (w_alloc (c_joint k)) ts + cnt (w_dec (c_joint k)) ts) in *.
    destruct (upd_some (ss_count st) (c_joint k) (x + 1) LC) as [count Ew]. unfold wr at 1. rewrite Ew. cbn [obind].
    destruct (Nat.ltb_spec x (d_cap D)) as [L|L].
    + assert (Z : cnt (w_dec (c_joint k)) ts = 0).
      { destruct (cnt (w_dec (c_joint k)) ts) eqn:E; [reflexivity|]. exfalso.
        pose proof (dec_full st ts _ c I Hc ltac:(lia)). unfold x in L. lia. }
      assert (Ex : x = c + cnt (w_alloc (c_joint k)) ts) by (unfold x; lia).
      destruct (WR (PStore x 0)) as [ts' Hu]. unfold wr. rewrite Hu. cbn [obind].
      eexists _, ts'. split; [reflexivity|]. split.
      * rewrite Ex in Hu, Ew, L. eapply pinv_alloc; try eassumption; [reflexivity|discriminate].
      * eapply NT'; [|exact Hu]. discriminate.
    + assert (F : c + cnt (w_alloc (c_joint k)) ts = d_cap D).
      { destruct (cnt (w_dec (c_joint k)) ts) eqn:E; [unfold x in L; lia|].
        apply (dec_full st ts _ c I Hc). lia. }
      destruct (WR PDec) as [ts' Hu]. unfold wr. rewrite Hu. cbn [obind].
      eexists _, ts'. split; [reflexivity|]. split.
      * eapply pinv_noslot; [exact I|exact Hi|exact Hu|reflexivity|reflexivity| | | |].
        -- apply (upd_length _ _ _ _ Ew).
        -- intros j y N Hy. rewrite (upd_miss _ _ _ _ _ Ew N). exact Hy.
        -- intros y Hy. exists (x + 1). split; [apply (upd_hit _ _ _ _ Ew)|].
           rewrite Hcount in Hy. injection Hy as <-. unfold w_dec. cbn. rewrite Nat.eqb_refl. lia.
        -- intros _ c' Hc'. rewrite Hc in Hc'. injection Hc' as <-. exact F.
      * eapply NT'; [|exact Hu]. discriminate.
  - exfalso. eapply NT. eapply nth_error_In. exact Hi.
  - destruct (pi_store D st0 calls st ts I i k s b Hi) as [Hb _].
    destruct (nth_error_lt (c_vals k) b) as [v Ev]; [lia|]. rewrite Ev.
    assert (Hs : s < d_cap D).
    { pose proof (pi_range D st0 calls st ts I i k _ c s Hi eq_refl Hc). lia. }
    destruct (upd_some (ss_data st) (ss_addr D (ss_n st) b (c_joint k) s) v) as [data Ew].
    { rewrite (pi_len_d D st0 calls st ts I), (so_data D st0 SO), (pi_n D st0 calls st ts I). apply addr_lt; assumption. }
    unfold wr at 1. rewrite Ew. cbn [obind].
    destruct (WR (if Nat.eqb (S b) (d_blocks D) then PDone (Some s) else PStore s (S b))) as [ts' Hu].
    unfold wr. rewrite Hu. cbn [obind]. eexists _, ts'. split; [reflexivity|]. split.
    + eapply pinv_store; eassumption.
    + eapply NT'; [|exact Hu]. intros y. destruct (Nat.eqb (S b) (d_blocks D)); discriminate.
  - rewrite (rd_some _ _ _ Hcount). cbn [obind]. set (x := c + cnt (w_alloc (c_joint k)) ts + cnt (w_dec (c_joint k)) ts) in *.
    destruct (upd_some (ss_count st) (c_joint k) (x - 1) LC) as [count Ew]. unfold wr at 1. rewrite Ew. cbn [obind].
    destruct (WR (PDone None)) as [ts' Hu]. unfold wr. rewrite Hu. cbn [obind].
    assert (P : 1 <= cnt (w_dec (c_joint k)) ts).
    { pose proof (cnt_ge (w_dec (c_joint k)) ts i _ Hi) as H. unfold w_dec at 1 in H. cbn in H.
      rewrite Nat.eqb_refl in H. exact H. }
    eexists _, ts'. split; [reflexivity|]. split.
    + eapply pinv_noslot; [exact I|exact Hi|exact Hu|reflexivity|reflexivity| | | |].
      * apply (upd_length _ _ _ _ Ew).
      * intros j y N Hy. rewrite (upd_miss _ _ _ _ _ Ew N). exact Hy.
      * intros y Hy. exists (x - 1). split; [apply (upd_hit _ _ _ _ Ew)|].
        rewrite Hcount in Hy. injection Hy as <-. unfold w_dec. cbn. rewrite Nat.eqb_refl. unfold x. lia.
      * intros _ c' Hc'. rewrite Hc in Hc'. injection Hc' as <-. apply (dec_full st ts _ c I Hc). lia.
    + eapply NT'; [|exact Hu]. discriminate.
  - cbn [obind]. destruct (WR (PDone r)) as [ts' Hu]. unfold wr. rewrite Hu. cbn [obind].
    assert (ts' = ts) as ->.
    { apply nth_error_ext. intros m. rewrite (upd_nth _ _ _ _ Hu). destruct (Nat.eqb_spec m i) as [->|]; [|reflexivity].
      symmetry. exact Hi. }
    exists st, ts. auto.
Qed.

Lemma step_cas_inv sp st ts i : pinv D st0 calls st ts ->
  (forall k, ~ In (k, PDec) ts) -> (forall k x, In (k, PTry x) ts -> x < d_cap D) ->
  exists st' ts', step_at (step_cas D sp) i (st, ts) = Ok (st', ts') /\ pinv D st0 calls st' ts' /\
    (forall k, ~ In (k, PDec) ts') /\ (forall k x, In (k, PTry x) ts' -> x < d_cap D).
Proof.
  intros I ND NT. unfold step_at. cbn [fst snd].
  destruct (nth_error ts i) as [[k p]|] eqn:Hi; [|exists st, ts; auto].
  destruct (thread_call st ts i k p I Hi) as [Hjk [Lv [c [Hc Hcap]]]].
  pose proof (pi_count D st0 calls st ts I _ c Hjk Hc) as Hcount.
  pose proof (pi_cap D st0 calls st ts I _ c Hjk Hc) as Hle.
  pose proof (so_joints D st0 SO) as HJ.
  assert (Z : cnt (w_dec (c_joint k)) ts = 0).
  { destruct (cnt (w_dec (c_joint k)) ts) as [|m] eqn:E; [reflexivity|exfalso].
    destruct (cnt_pos (w_dec (c_joint k)) ts) as [i' [[k' q] [H1 H2]]]; [lia|].
    unfold w_dec in H2. cbn [fst snd] in H2. destruct (Nat.eqb (c_joint k') (c_joint k)); [|lia].
    destruct q; try lia. eapply ND. eapply nth_error_In. exact H1. }
  rewrite Z, Nat.add_0_r in Hcount. set (x := c + cnt (w_alloc (c_joint k)) ts) in *.
  assert (ND' : forall p' ts', p' <> PDec -> upd ts i (k, p') = Some ts' -> forall k', ~ In (k', PDec) ts').
  { intros p' ts' Np Hu k' Hin. apply In_nth_error in Hin as [m Hm].
    destruct (upd_cases _ _ _ _ Hu _ _ Hm) as [[_ E]|[_ E]]; [injection E; intros; apply Np; congruence|].
    apply nth_error_In in E. eapply ND; exact E. }
  assert (NT' : forall p' ts', (forall y, p' = PTry y -> y < d_cap D) -> upd ts i (k, p') = Some ts' ->
     forall k' y, In (k', PTry y) ts' -> y < d_cap D).
  { intros p' ts' Np Hu k' y Hin. apply In_nth_error in Hin as [m Hm].
    destruct (upd_cases _ _ _ _ Hu _ _ Hm) as [[_ E]|[_ E]]; [injection E; intros; apply Np; congruence|].
    apply nth_error_In in E. eapply NT; exact E. }
  assert (WR : forall p', exists ts', upd ts i (k, p') = Some ts').
  { intros p'. apply upd_some. eapply nth_error_len. exact Hi. }
  assert (LC : c_joint k < length (ss_count st)) by (eapply nth_error_len; exact Hcount).
  assert (STAY : forall p' ts', slot_of p = None -> p <> PDec -> slot_of p' = None -> p' <> PDec ->
     upd ts i (k, p') = Some ts' ->
     (p' = PDone None -> x = d_cap D) -> pinv D st0 calls st ts').
  { intros p' ts' S1 Q1 S2 Q2 Hu F. destruct st as [n0 d0 k0].
    apply (pinv_noslot (SS n0 d0 k0) ts i k p p' ts' k0 I Hi Hu S1 S2); cbn [ss_count] in *.
    - reflexivity.
    - auto.
    - intros y Hy. exists y. split; [exact Hy|]. unfold w_dec. cbn. destruct (Nat.eqb (c_joint k) (c_joint k)); [|lia].
      destruct p, p'; try congruence; lia.
    - intros [Hd|Hd] c' Hc'; [congruence|]. rewrite Hc in Hc'. injection Hc' as <-. apply F. exact Hd. }
  destruct p as [|y|s b| |r]; cbn [step_cas].
  - destruct (Nat.ltb_spec (c_joint k) (d_joints D)) as [_|]; [|lia].
    rewrite (rd_some _ _ _ Hcount). cbn [obind].
    destruct (Nat.eqb_spec x (d_cap D)) as [F|F].
    + destruct (WR (PDone None)) as [ts' Hu]. unfold wr. rewrite Hu. cbn [obind].
      exists st, ts'. split; [reflexivity|]. split; [eapply STAY; try eassumption; try reflexivity; try discriminate; auto|].
      split; [eapply ND'; [|exact Hu]; discriminate|eapply NT'; [|exact Hu]; discriminate].
    + destruct (WR (PTry x)) as [ts' Hu]. unfold wr. rewrite Hu. cbn [obind].
      exists st, ts'. split; [reflexivity|]. split; [eapply STAY; try eassumption; try reflexivity; discriminate|].
      split; [eapply ND'; [|exact Hu]; discriminate|eapply NT'; [|exact Hu]]. intros y E. injection E as <-. unfold x in *. lia.
  - rewrite (rd_some _ _ _ Hcount). cbn [obind].
    destruct (Nat.eqb_spec x y) as [E|N]; cbn [andb].
    + destruct sp; cbn [negb].
      * destruct (WR PStart) as [ts' Hu]. cbn [obind]. unfold wr. rewrite Hu. cbn [obind].
        exists st, ts'. split; [reflexivity|]. split; [eapply STAY; try eassumption; try reflexivity; discriminate|].
        split; [eapply ND'; [|exact Hu]; discriminate|eapply NT'; [|exact Hu]; discriminate].
      * subst y. assert (L : x < d_cap D) by (eapply NT; eapply nth_error_In; exact Hi).
        destruct (upd_some (ss_count st) (c_joint k) (x + 1) LC) as [count Ew]. unfold wr at 1. rewrite Ew. cbn [obind].
        destruct (WR (PStore x 0)) as [ts' Hu]. unfold wr. rewrite Hu. cbn [obind].
        eexists _, ts'. split; [reflexivity|]. split.
        -- eapply pinv_alloc; try eassumption; [reflexivity|discriminate].
        -- split; [eapply ND'; [|exact Hu]; discriminate|eapply NT'; [|exact Hu]; discriminate].
    + destruct (WR PStart) as [ts' Hu]. cbn [obind]. unfold wr. rewrite Hu. cbn [obind].
      exists st, ts'. split; [reflexivity|]. split; [eapply STAY; try eassumption; try reflexivity; discriminate|].
      split; [eapply ND'; [|exact Hu]; discriminate|eapply NT'; [|exact Hu]; discriminate].
  - destruct (pi_store D st0 calls st ts I i k s b Hi) as [Hb _].
    destruct (nth_error_lt (c_vals k) b) as [v Ev]; [lia|]. rewrite Ev.
    assert (Hs : s < d_cap D).
    { pose proof (pi_range D st0 calls st ts I i k _ c s Hi eq_refl Hc). unfold x in *. lia. }
    destruct (upd_some (ss_data st) (ss_addr D (ss_n st) b (c_joint k) s) v) as [data Ew].
    { rewrite (pi_len_d D st0 calls st ts I), (so_data D st0 SO), (pi_n D st0 calls st ts I). apply addr_lt; assumption. }
    unfold wr at 1. rewrite Ew. cbn [obind].
    destruct (WR (if Nat.eqb (S b) (d_blocks D) then PDone (Some s) else PStore s (S b))) as [ts' Hu].
    unfold wr. rewrite Hu. cbn [obind]. eexists _, ts'. split; [reflexivity|]. split.
    + eapply pinv_store; eassumption.
    + split; [eapply ND'; [|exact Hu]|eapply NT'; [|exact Hu]]; destruct (Nat.eqb (S b) (d_blocks D)); discriminate.
  - exfalso. eapply ND. eapply nth_error_In. exact Hi.
  - cbn [obind]. destruct (WR (PDone r)) as [ts' Hu]. unfold wr. rewrite Hu. cbn [obind].
    assert (ts' = ts) as ->.
    { apply nth_error_ext. intros m. rewrite (upd_nth _ _ _ _ Hu). destruct (Nat.eqb_spec m i) as [->|]; [|reflexivity].
      symmetry. exact Hi. }
    exists st, ts. auto.
Qed.

Lemma run_fetch_inv sched : exists st ts, run_fetch D sched (st0, started calls) = Ok (st, ts) /\ pinv D st0 calls st ts /\
  (forall k x, ~ In (k, PTry x) ts).
Proof.
  unfold run_fetch.
  assert (H : forall sched st ts, pinv D st0 calls st ts -> (forall k x, ~ In (k, PTry x) ts) ->
     exists st' ts', ofold (fun i ps => step_at (step_fetch D) i ps) sched (st, ts) = Ok (st', ts') /\ pinv D st0 calls st' ts' /\
       (forall k x, ~ In (k, PTry x) ts')).
  { clear sched. induction sched as [|i sched IH]; intros st ts I NT; [exists st, ts; auto|].
    cbn [ofold]. destruct (step_fetch_inv st ts i I NT) as (st1 & ts1 & E & I1 & NT1). rewrite E. cbn [obind].
    apply IH; assumption. }
  apply H; [exact pinv_start|]. intros k x Hin. unfold started in Hin. apply in_map_iff in Hin as [c [E _]]. discriminate.
Qed.
Lemma run_cas_inv sched : exists st ts, run_cas D sched (st0, started calls) = Ok (st, ts) /\ pinv D st0 calls st ts /\
  (forall k, ~ In (k, PDec) ts).
Proof.
  unfold run_cas.
  assert (H : forall sched st ts, pinv D st0 calls st ts -> (forall k, ~ In (k, PDec) ts) ->
     (forall k x, In (k, PTry x) ts -> x < d_cap D) ->
     exists st' ts', ofold (fun x ps => step_at (step_cas D (snd x)) (fst x) ps) sched (st, ts) = Ok (st', ts') /\
       pinv D st0 calls st' ts' /\ (forall k, ~ In (k, PDec) ts')).
  { clear sched. induction sched as [|[i sp] sched IH]; intros st ts I ND NT; [exists st, ts; auto|].
    cbn [ofold fst snd]. destruct (step_cas_inv sp st ts i I ND NT) as (st1 & ts1 & E & I1 & ND1 & NT1).
    rewrite E. cbn [obind]. apply IH; assumption. }
  apply H; [exact pinv_start| |].
  - intros k Hin. unfold started in Hin. apply in_map_iff in Hin as [c [E _]]. discriminate.
  - intros k x Hin. unfold started in Hin. apply in_map_iff in Hin as [c [E _]]. discriminate.
Qed.

(** At the end. *)
Definition result_of (ts : list (call * cpc)) (i : nat) : option nat :=
  match nth_error ts i with Some (_, p) => slot_of p | None => None end.

Lemma calls_for_cnt (ts : list (call * cpc)) j :
  calls_for j (map fst ts) = cnt (fun t => if Nat.eqb (c_joint (fst t)) j then 1 else 0) ts.
Proof.
  unfold calls_for. clear. induction ts as [|[c p] ts IH]; [reflexivity|]. rewrite cnt_cons. cbn [map fst filter].
  destruct (Nat.eqb (c_joint c) j); cbn [length]; lia.
Qed.
Lemma cnt_le {A} (f g : A -> nat) l : (forall x, In x l -> f x <= g x) -> cnt f l <= cnt g l.
Proof.
  induction l as [|a l IH]; intros H; [reflexivity|]. rewrite !cnt_cons.
  pose proof (H a (or_introl eq_refl)). specialize (IH (fun x Hx => H x (or_intror Hx))). lia.
Qed.
Lemma cnt_lt_ex {A} (f g : A -> nat) l : cnt f l < cnt g l -> exists i x, nth_error l i = Some x /\ f x < g x.
Proof.
  induction l as [|a l IH]; [intros H; cbv in H; lia|]. rewrite !cnt_cons. intros H.
  destruct (Nat.lt_ge_cases (f a) (g a)) as [L|L]; [exists 0, a; auto|].
  destruct IH as [i [x Hx]]; [lia|]. exists (S i), x. exact Hx.
Qed.

Lemma pinv_added st ts : pinv D st0 calls st ts -> all_done ts -> added D st0 st calls (result_of ts).
Proof.
  intros I AD.
  assert (Z : forall j, cnt (w_dec j) ts = 0).
  { intros j. destruct (cnt (w_dec j) ts) as [|m] eqn:E; [reflexivity|exfalso].
    destruct (cnt_pos (w_dec j) ts) as [i [[k q] [H1 H2]]]; [lia|].
    unfold w_dec in H2. cbn [fst snd] in H2. destruct (Nat.eqb (c_joint k) j); [|lia].
    destruct q; try lia. apply nth_error_In in H1. apply AD in H1 as [r E1]. discriminate. }
  assert (M : forall j c, j < ss_n st0 -> nth_error (ss_count st0) j = Some c ->
     c + cnt (w_alloc j) ts = Nat.min (d_cap D) (c + calls_for j calls)).
  { intros j c Hj Hc. pose proof (pi_cap D st0 calls st ts I j c Hj Hc) as Cap.
    rewrite <- (pi_calls D st0 calls st ts I), calls_for_cnt.
    set (g := fun t : call * cpc => if Nat.eqb (c_joint (fst t)) j then 1 else 0).
    assert (LE : cnt (w_alloc j) ts <= cnt g ts).
    { apply cnt_le. intros [k q] _. unfold w_alloc, g. cbn. destruct (Nat.eqb (c_joint k) j); [|lia].
      destruct (slot_of q); lia. }
    destruct (Nat.eq_dec (cnt (w_alloc j) ts) (cnt g ts)) as [E|N]; [lia|].
    destruct (cnt_lt_ex (w_alloc j) g ts) as [i [[k q] [H1 H2]]]; [lia|].
    unfold w_alloc, g in H2. cbn [fst snd] in H2. destruct (Nat.eqb_spec (c_joint k) j) as [EJ|]; [|lia].
    pose proof (AD k q (nth_error_In _ _ H1)) as [r ->]. cbn [slot_of] in H2. destruct r as [s|]; [lia|].
    rewrite <- EJ in Hc. pose proof (pi_full D st0 calls st ts I i k _ c H1 (or_intror eq_refl) Hc). rewrite EJ in H. lia. }
  assert (RES : forall i k s, nth_error calls i = Some k -> result_of ts i = Some s ->
     nth_error ts i = Some (k, PDone (Some s))).
  { intros i k s H1 H2. rewrite <- (pi_calls D st0 calls st ts I), nth_error_map in H1. unfold result_of in H2.
    destruct (nth_error ts i) as [[k' q]|] eqn:E; [|discriminate]. cbn in H1. injection H1 as ->.
    pose proof (AD k q (nth_error_In _ _ E)) as [r ->]. cbn in H2. congruence. }
  constructor.
  - apply (pi_n D st0 calls st ts I).
  - constructor.
    + rewrite (pi_n D st0 calls st ts I). apply (so_joints D st0 SO).
    + rewrite (pi_n D st0 calls st ts I), (pi_len_d D st0 calls st ts I). apply (so_data D st0 SO).
    + rewrite (pi_len_c D st0 calls st ts I). apply (so_count D st0 SO).
    + intros j c Hj Hc. rewrite (pi_n D st0 calls st ts I) in Hj. destruct (count_some D st0 j SO Hj) as [c0 Hc0].
      rewrite (pi_count D st0 calls st ts I j c0 Hj Hc0), Z in Hc. injection Hc as <-.
      pose proof (pi_cap D st0 calls st ts I j c0 Hj Hc0). lia.
  - intros j c Hj Hc. rewrite (pi_count D st0 calls st ts I j c Hj Hc), Z, Nat.add_0_r, (M j c Hj Hc). reflexivity.
  - intros i k s c H1 H2 Hc. pose proof (RES i k s H1 H2) as Hi.
    destruct (thread_call st ts i k _ I Hi) as [Hj [Lv _]].
    pose proof (pi_range D st0 calls st ts I i k _ c s Hi eq_refl Hc) as Rg. rewrite (M _ c Hj Hc) in Rg.
    split; [lia|]. split; [lia|]. split; [exact Lv|]. apply (pi_done D st0 calls st ts I i k s Hi).
  - intros i i' k k' s H1 H2 EJ R1 R2.
    eapply (pi_distinct D st0 calls st ts I); [exact (RES _ _ _ H1 R1)|exact (RES _ _ _ H2 R2)|exact EJ|reflexivity|reflexivity].
  - intros j c s Hj Hc H1 H2. rewrite <- (M j c Hj Hc) in H2.
    destruct (pi_all D st0 calls st ts I j c s Hj Hc) as (i & k & q & E & Ej & Eq); [lia|].
    exists i, k. split; [|split; [exact Ej|]].
    + rewrite <- (pi_calls D st0 calls st ts I), nth_error_map, E. reflexivity.
    + unfold result_of. rewrite E. exact Eq.
  - intros b j s c Hb Hj Hs Hc Ho. rewrite <- (M j c Hj Hc) in Ho.
    apply (pi_old D st0 calls st ts I b j s c Hb Hj Hs Hc Ho).
Qed.
End Par.

(** ** Every call finishes after its own steps, whatever the others do *)

Definition left (D : sdim) (p : cpc) : nat :=
  match p with PStart => d_blocks D + 1 | PStore _ b => d_blocks D - b | PDec => 1 | PTry _ | PDone _ => 0 end.

Lemma step_fetch_left D st c p st' p' : step_fetch D st c p = Ok (st', p') -> 0 < d_blocks D -> left D p' <= left D p - 1.
Proof.
  intros H HB. destruct p as [|x|s b| |r]; cbn [step_fetch] in H.
  - destruct (Nat.ltb (c_joint c) (d_joints D)); [|discriminate].
    destruct (rd (ss_count st) (c_joint c)); cbn [obind] in H; try discriminate.
    destruct (wr (ss_count st) (c_joint c) (a + 1)); cbn [obind] in H; try discriminate.
    injection H as _ <-. destruct (Nat.ltb a (d_cap D)); cbn [left]; lia.
  - injection H as _ <-. cbn. lia.
  - destruct (nth_error (c_vals c) b); [|discriminate].
    destruct (wr (ss_data st) (ss_addr D (ss_n st) b (c_joint c) s) r); cbn [obind] in H; try discriminate.
    injection H as _ <-. match goal with |- left _ (if ?x then _ else _) <= _ => destruct x end; cbn [left]; lia.
  - destruct (rd (ss_count st) (c_joint c)); cbn [obind] in H; try discriminate.
    destruct (wr (ss_count st) (c_joint c) (a - 1)); cbn [obind] in H; try discriminate.
    injection H as _ <-. cbn. lia.
  - injection H as _ <-. cbn. lia.
Qed.

Lemma run_fetch_left D sched : 0 < d_blocks D -> forall st ts st' ts' i c p,
  run_fetch D sched (st, ts) = Ok (st', ts') -> nth_error ts i = Some (c, p) ->
  exists p', nth_error ts' i = Some (c, p') /\ left D p' <= left D p - count_occ Nat.eq_dec sched i.
Proof.
  intros HB. unfold run_fetch. induction sched as [|k sched IH]; intros st ts st' ts' i c p H Hi; cbn [ofold] in H.
  - injection H as _ <-. exists p. split; [exact Hi|cbn; lia].
  - unfold step_at in H at 1. cbn [fst snd] in H.
    destruct (nth_error ts k) as [[ck pk]|] eqn:Hk.
    2: { cbn [obind] in H. destruct (IH _ _ _ _ i c p H Hi) as [p' [E L]]. exists p'. split; [exact E|].
         rewrite count_occ_cons_neq; [exact L|]. intros ->. congruence. }
    destruct (step_fetch D st ck pk) as [[st1 p1]| | | |] eqn:Es; cbn [obind] in H; try discriminate.
    unfold wr in H. destruct (upd ts k (ck, p1)) as [ts1|] eqn:Eu; [|discriminate]. cbn [obind] in H.
    destruct (Nat.eq_dec k i) as [->|N].
    + rewrite Hk in Hi. injection Hi as -> ->.
      destruct (IH _ _ _ _ i c p1 H (upd_hit _ _ _ _ Eu)) as [p' [E L]].
      exists p'. split; [exact E|]. rewrite count_occ_cons_eq by reflexivity.
      pose proof (step_fetch_left D st c p st1 p1 Es HB). lia.
    + destruct (IH _ _ _ _ i c p H) as [p' [E L]].
      { rewrite (upd_miss _ _ _ _ _ Eu); [exact Hi|congruence]. }
      exists p'. split; [exact E|]. rewrite count_occ_cons_neq by exact N. exact L.
Qed.
