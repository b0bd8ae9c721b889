(** The block solver against the dense one: each call is a call of the dense solver on the unknowns
    of the block followed by the common ones. *)

From Coq Require Import FunctionalExtensionality Reals List Arith Bool Lia Lra.
From Verif Require Import Prelude LinAlg Rbool Loops QR_spec QR_model QR_gen_proofs QR_proofs BlockQR_spec BlockQR_model BlockQR_runs_spec.
Import ListNotations.
Local Open Scope R_scope.
Local Open Scope outcome_scope.

(** Two matrices side by side; a factor of a block over the common factor. *)
Definition glue (n : nat) (A C : mat) : mat := fun k c => if (c <? n)%nat then A k c else C k (c - n)%nat.
Definition bigR (n : nat) (Rm C Rn : mat) : mat := fun r c =>
  if (r <? n)%nat then glue n Rm C r c
  else if (c <? n)%nat then 0 else Rn (r - n)%nat (c - n)%nat.
Definition bigy (n : nat) (y yn : vec) : vec := fun r => if (r <? n)%nat then y r else yn (r - n)%nat.

Definition big (n : nat) (Rn : mat) (yn : vec) (s : dstate) : mat * vec * mat * vec :=
  (bigR n (ds_R s) (ds_C s) Rn, bigy n (ds_y s) yn, glue n (ds_A s) (ds_AC s), ds_b s).

Ltac ltb_split := repeat match goal with |- context [(?a <? ?b)%nat] => destruct (Nat.ltb_spec a b) end; try lia.

Lemma glue_l n A C k c : (c < n)%nat -> glue n A C k c = A k c.
Proof. intros. unfold glue. ltb_split; reflexivity. Qed.
Lemma glue_r n A C k c : (n <= c)%nat -> glue n A C k c = C k (c - n)%nat.
Proof. intros. unfold glue. ltb_split; reflexivity. Qed.
Lemma glue_r' n A C k c : glue n A C k (n + c)%nat = C k c.
Proof. rewrite glue_r by lia. f_equal. lia. Qed.

Lemma diag_step_big eps n nc m Rn yn s i :
  (i < n)%nat -> zero_means_zero eps m (col (ds_A s) i) ->
  big n Rn yn (diag_step eps n nc m s i) = qr_step (n + nc) m (big n Rn yn s) i.
Proof.
  intros Hi Hz. unfold diag_step, qr_step, big at 2.
  assert (Ec : col (glue n (ds_A s) (ds_AC s)) i = col (ds_A s) i).
  { extensionality k. unfold col. apply glue_l. exact Hi. }
  assert (Er : bigR n (ds_R s) (ds_C s) Rn i i = ds_R s i i).
  { unfold bigR. ltb_split. apply glue_l. exact Hi. }
  rewrite Ec, Er.
  destruct (is_zero eps m (col (ds_A s) i)) eqn:Z.
  - assert (Hs : sumn m (fun k => col (ds_A s) i k * col (ds_A s) i k) = 0).
    { apply sumn_zero. intros k Hk. rewrite (Hz Z k Hk). ring. }
    unfold hh_vec. rewrite Hs. destruct (Reqb_spec 0 0) as [_|?]; [|lra].
    destruct (Reqb_spec 0 0) as [_|?]; [|lra].
    unfold big. f_equal. f_equal. extensionality k. extensionality c.
    unfold upd_col, col. destruct (Nat.eqb_spec c i) as [->|_]; [|reflexivity].
    apply glue_l. exact Hi.
  - destruct (hh_vec (ds_R s i i) m (col (ds_A s) i)) as [[beta mu] v].
    destruct (Reqb beta 0).
    + unfold big. cbn. f_equal. f_equal. extensionality k. extensionality c.
      unfold upd_col, glue. destruct (Nat.eqb_spec c i) as [->|_]; [|reflexivity].
      ltb_split. reflexivity.
    + destruct (apply_cols beta m v (seq (S i) (n - S i)) (upd_at (ds_R s) i i mu i) (upd_col (ds_A s) i v))
        as [r A] eqn:E1.
      destruct (apply_cols beta m v (seq 0 nc) (ds_C s i) (ds_AC s)) as [cr AC] eqn:E2.
      destruct (apply_cols beta m v (seq (S i) (n + nc - S i))
        (upd_at (bigR n (ds_R s) (ds_C s) Rn) i i mu i) (upd_col (glue n (ds_A s) (ds_AC s)) i v))
        as [r3 A3] eqn:E3.
      pose proof (apply_cols_spec _ _ _ _ (seq_NoDup _ _) _ _ _ _ E1) as S1.
      pose proof (apply_cols_spec _ _ _ _ (seq_NoDup _ _) _ _ _ _ E2) as S2.
      pose proof (apply_cols_spec _ _ _ _ (seq_NoDup _ _) _ _ _ _ E3) as S3.
      clear E1 E2 E3.
      (* the row and the pending rows agree *)
      assert (G : forall c, (c < n + nc)%nat ->
        r3 c = (if (c <? n)%nat then r c else cr (c - n)%nat) /\
        forall k, A3 k c = glue n A AC k c).
      { intros c Hc. destruct (Nat.ltb_spec c n) as [L|L].
        - assert (F1 : upd_at (bigR n (ds_R s) (ds_C s) Rn) i i mu i c = upd_at (ds_R s) i i mu i c).
          { unfold upd_at. rewrite Nat.eqb_refl. cbn. destruct (c =? i)%nat; [reflexivity|].
            unfold bigR. destruct (Nat.ltb_spec i n); [|lia]. apply glue_l. exact L. }
          assert (F2 : forall k, upd_col (glue n (ds_A s) (ds_AC s)) i v k c = upd_col (ds_A s) i v k c).
          { intros k. unfold upd_col. destruct (c =? i)%nat; [reflexivity|]. apply glue_l. exact L. }
          destruct (le_lt_dec c i) as [Lc|Lc].
          + destruct (S3 c) as [_ H3]. destruct (S1 c) as [_ H1].
            destruct H3 as [-> H3]; [rewrite in_seq; lia|].
            destruct H1 as [-> H1]; [rewrite in_seq; lia|].
            split; [exact F1|]. intros k. rewrite H3, F2, glue_l, H1 by exact L. reflexivity.
          + destruct (S3 c) as [H3 _]. destruct (S1 c) as [H1 _].
            destruct H3 as [-> H3]; [rewrite in_seq; lia|].
            destruct H1 as [-> H1]; [rewrite in_seq; lia|].
            rewrite F1. rewrite (sumn_ext m (fun k => v k * upd_col (glue n (ds_A s) (ds_AC s)) i v k c)
              (fun k => v k * upd_col (ds_A s) i v k c)) in * by (intros; rewrite F2; reflexivity).
            split; [reflexivity|]. intros k. rewrite H3, F2, F1, glue_l, H1 by exact L. reflexivity.
        - assert (F1 : upd_at (bigR n (ds_R s) (ds_C s) Rn) i i mu i c = ds_C s i (c - n)%nat).
          { unfold upd_at. rewrite Nat.eqb_refl. cbn. destruct (Nat.eqb_spec c i); [lia|].
            unfold bigR. destruct (Nat.ltb_spec i n); [|lia]. apply glue_r. exact L. }
          assert (F2 : forall k, upd_col (glue n (ds_A s) (ds_AC s)) i v k c = ds_AC s k (c - n)%nat).
          { intros k. unfold upd_col. destruct (Nat.eqb_spec c i); [lia|]. apply glue_r. exact L. }
          destruct (S3 c) as [H3 _]. destruct (S2 (c - n)%nat) as [H1 _].
          destruct H3 as [-> H3]; [rewrite in_seq; lia|].
          destruct H1 as [-> H1]; [rewrite in_seq; lia|].
          rewrite F1. rewrite (sumn_ext m (fun k => v k * upd_col (glue n (ds_A s) (ds_AC s)) i v k c)
            (fun k => v k * ds_AC s k (c - n)%nat)) in * by (intros; rewrite F2; reflexivity).
          split; [reflexivity|]. intros k. rewrite H3, F2, F1, glue_r, H1 by exact L. reflexivity. }
      assert (Gout : forall c, (n + nc <= c)%nat ->
        r3 c = ds_C s i (c - n)%nat /\ cr (c - n)%nat = ds_C s i (c - n)%nat /\
        forall k, A3 k c = ds_AC s k (c - n)%nat /\ AC k (c - n)%nat = ds_AC s k (c - n)%nat).
      { intros c Hc. destruct (S3 c) as [_ H3]. destruct (S2 (c - n)%nat) as [_ H1].
        destruct H3 as [-> H3]; [rewrite in_seq; lia|].
        destruct H1 as [-> H1]; [rewrite in_seq; lia|].
        split; [|split; [reflexivity|]].
        - unfold upd_at. rewrite Nat.eqb_refl. cbn. destruct (Nat.eqb_spec c i); [lia|].
          unfold bigR. destruct (Nat.ltb_spec i n); [|lia]. apply glue_r. lia.
        - intros k. rewrite H3, H1. split; [|reflexivity].
          unfold upd_col. destruct (Nat.eqb_spec c i); [lia|]. apply glue_r. lia. }
      unfold hh_apply. unfold big. cbn [ds_R ds_C ds_y ds_A ds_AC ds_b].
      assert (Ey : bigy n (ds_y s) yn i = ds_y s i) by (unfold bigy; ltb_split; reflexivity).
      rewrite Ey. apply (f_equal2 pair); [apply (f_equal2 pair); [apply (f_equal2 pair)|]|reflexivity].
      * extensionality q. extensionality c. unfold bigR at 1, upd_row at 3.
        destruct (Nat.ltb_spec q n) as [Lq|Lq].
        -- destruct (Nat.eqb_spec q i) as [->|Nq].
           ++ destruct (Nat.lt_ge_cases c (n + nc)) as [Lc|Lc].
              ** rewrite (proj1 (G c Lc)). unfold glue. destruct (c <? n)%nat.
                 --- apply upd_row_same.
                 --- apply upd_row_same.
              ** destruct (Gout c Lc) as (-> & H2 & _). rewrite glue_r, upd_row_same by lia. exact H2.
           ++ rewrite upd_at_other by (left; exact Nq). unfold bigR. destruct (Nat.ltb_spec q n); [|lia].
              unfold glue. destruct (c <? n)%nat.
              ** rewrite upd_row_other, upd_at_other by auto. reflexivity.
              ** rewrite upd_row_other by auto. reflexivity.
        -- destruct (Nat.eqb_spec q i); [lia|]. rewrite upd_at_other by (left; lia).
           unfold bigR. destruct (Nat.ltb_spec q n); [lia|]. reflexivity.
      * extensionality q. unfold bigy, upd. destruct (Nat.eqb_spec q i) as [->|Nq]; ltb_split; reflexivity.
      * extensionality k. extensionality c. destruct (Nat.lt_ge_cases c (n + nc)) as [Lc|Lc].
        -- symmetry. apply (G c Lc).
        -- destruct (Gout c Lc) as (_ & _ & H3). destruct (H3 k) as [-> H4].
           rewrite glue_r by lia. exact H4.
Qed.

Lemma diag_loop_big eps n nc m Rn yn : forall len i s,
  (i + len <= n)%nat -> loop_exact eps n nc m i len s ->
  big n Rn yn (fold_left (diag_step eps n nc m) (seq i len) s) =
  fold_left (qr_step (n + nc) m) (seq i len) (big n Rn yn s).
Proof.
  induction len as [|len IH]; intros i s Hi He; [reflexivity|].
  destruct He as [He1 He2]. cbn [seq fold_left].
  rewrite IH by (assumption || lia). f_equal. apply diag_step_big; [lia|exact He1].
Qed.

(** ** The common columns *)
Definition bigc (n : nat) (Rm C : mat) (y : vec) (A : mat) (t : mat * vec * mat * vec) : mat * vec * mat * vec :=
  let '(Rn, yn, AC, b) := t in (bigR n Rm C Rn, bigy n y yn, glue n A AC, b).

Lemma common_step_big n nc m Rm C y A t i :
  (i < nc)%nat ->
  bigc n Rm C y A (qr_step nc m t i) = qr_step (n + nc) m (bigc n Rm C y A t) (n + i).
Proof.
  intros Hi. destruct t as [[[Rn yn] AC] b]. unfold qr_step, bigc at 2.
  assert (Ec : col (glue n A AC) (n + i) = col AC i).
  { extensionality k. unfold col. apply glue_r'. }
  assert (Er : bigR n Rm C Rn (n + i)%nat (n + i)%nat = Rn i i).
  { unfold bigR. ltb_split. f_equal; lia. }
  rewrite Ec, Er.
  destruct (hh_vec (Rn i i) m (col AC i)) as [[beta mu] v].
  assert (Eu : glue n A (upd_col AC i v) = upd_col (glue n A AC) (n + i) v).
  { extensionality k. extensionality c. unfold glue, upd_col.
    destruct (Nat.eqb_spec c (n + i)) as [->|Nc]; ltb_split; try reflexivity.
    - replace (n + i - n)%nat with i by lia. rewrite Nat.eqb_refl. reflexivity.
    - destruct (Nat.eqb_spec (c - n) i); [lia|reflexivity]. }
  destruct (Reqb beta 0).
  - unfold bigc. f_equal. f_equal. exact Eu.
  - destruct (apply_cols beta m v (seq (S i) (nc - S i)) (upd_at Rn i i mu i) (upd_col AC i v)) as [r A1] eqn:E1.
    destruct (apply_cols beta m v (seq (S (n + i)) (n + nc - S (n + i)))
      (upd_at (bigR n Rm C Rn) (n + i) (n + i) mu (n + i)%nat) (upd_col (glue n A AC) (n + i) v)) as [r3 A3] eqn:E3.
    pose proof (apply_cols_spec _ _ _ _ (seq_NoDup _ _) _ _ _ _ E1) as S1.
    pose proof (apply_cols_spec _ _ _ _ (seq_NoDup _ _) _ _ _ _ E3) as S3.
    clear E1 E3. rewrite <- Eu in S3.
    assert (F1 : forall c, upd_at (bigR n Rm C Rn) (n + i) (n + i) mu (n + i)%nat c =
                 if (c <? n)%nat then 0 else upd_at Rn i i mu i (c - n)%nat).
    { intros c. unfold upd_at. rewrite !Nat.eqb_refl. cbn [andb]. destruct (Nat.eqb_spec c (n + i)) as [->|Nc].
      - ltb_split. replace (n + i - n)%nat with i by lia. rewrite Nat.eqb_refl. reflexivity.
      - unfold bigR. destruct (Nat.ltb_spec (n + i) n); [lia|].
        destruct (Nat.ltb_spec c n); [reflexivity|]. destruct (Nat.eqb_spec (c - n) i); [lia|].
        f_equal. lia. }
    assert (G : forall c,
      r3 c = (if (c <? n)%nat then 0 else r (c - n)%nat) /\ forall k, A3 k c = glue n A A1 k c).
    { intros c. destruct (Nat.ltb_spec c n) as [L|L].
      - destruct (S3 c) as [_ H3]. destruct H3 as [-> H3]; [rewrite in_seq; lia|].
        rewrite F1. destruct (Nat.ltb_spec c n); [|lia]. split; [reflexivity|].
        intros k. rewrite H3, !glue_l by exact L. reflexivity.
      - assert (F2 : sumn m (fun k => v k * glue n A (upd_col AC i v) k c) =
                     sumn m (fun k => v k * upd_col AC i v k (c - n)%nat)).
        { apply sumn_ext. intros. rewrite glue_r by exact L. reflexivity. }
        specialize (F1 c). destruct (Nat.ltb_spec c n); [lia|].
        destruct (in_dec Nat.eq_dec c (seq (S (n + i)) (n + nc - S (n + i)))) as [I|I].
        + destruct (S3 c) as [H3 _]. destruct (S1 (c - n)%nat) as [H1 _].
          destruct (H3 I) as [-> H3']. apply in_seq in I.
          destruct H1 as [-> H1]; [rewrite in_seq; lia|].
          rewrite F1, F2. split; [reflexivity|].
          intros k. rewrite H3', F1, F2, !glue_r, H1 by exact L. reflexivity.
        + destruct (S3 c) as [_ H3]. destruct (S1 (c - n)%nat) as [_ H1].
          destruct (H3 I) as [-> H3']. rewrite in_seq in I.
          destruct H1 as [-> H1]; [rewrite in_seq; lia|].
          rewrite F1. split; [reflexivity|].
          intros k. rewrite H3', !glue_r, H1 by exact L. reflexivity. }
    unfold hh_apply, bigc.
    assert (Ey : bigy n y yn (n + i)%nat = yn i) by (unfold bigy; ltb_split; f_equal; lia).
    rewrite Ey. apply (f_equal2 pair); [apply (f_equal2 pair); [apply (f_equal2 pair)|]|reflexivity].
    + extensionality q. extensionality c. unfold bigR at 1, upd_row at 2.
      destruct (Nat.ltb_spec q n) as [Lq|Lq].
      * destruct (Nat.eqb_spec q (n + i)); [lia|]. rewrite upd_at_other by (left; lia).
        unfold bigR. destruct (Nat.ltb_spec q n); [reflexivity|lia].
      * destruct (Nat.eqb_spec q (n + i)) as [->|Nq].
        -- rewrite (proj1 (G c)). destruct (c <? n)%nat; [reflexivity|].
           replace (n + i - n)%nat with i by lia. apply upd_row_same.
        -- rewrite upd_at_other by (left; exact Nq). unfold bigR. destruct (Nat.ltb_spec q n); [lia|].
           destruct (c <? n)%nat; [reflexivity|].
           rewrite upd_row_other, upd_at_other by lia. reflexivity.
    + extensionality q. unfold bigy, upd. destruct (Nat.eqb_spec q (n + i)) as [->|Nq]; ltb_split; try reflexivity.
      * replace (n + i - n)%nat with i by lia. rewrite Nat.eqb_refl. reflexivity.
      * destruct (Nat.eqb_spec (q - n) i); [lia|reflexivity].
    + extensionality k. extensionality c. symmetry. apply (G c).
Qed.

Lemma common_loop_big n nc m Rm C y A : forall len i t,
  (i + len <= nc)%nat ->
  bigc n Rm C y A (fold_left (qr_step nc m) (seq i len) t) =
  fold_left (qr_step (n + nc) m) (seq (n + i) len) (bigc n Rm C y A t).
Proof.
  induction len as [|len IH]; intros i t Hi; [reflexivity|].
  cbn [seq fold_left]. rewrite IH by lia. rewrite common_step_big by lia.
  rewrite Nat.add_succ_r. reflexivity.
Qed.

(** One call on a block [k] and a common factor [q], as one call of the dense solver. *)
Definition bigq (k : obk) (q : qr) : qr :=
  {| q_n := ob_n k + q_n q; q_R := bigR (ob_n k) (ob_R k) (ob_C k) (q_R q); q_y := bigy (ob_n k) (ob_y k) (q_y q) |}.

Lemma add_big eps k q m A C b :
  let nc := q_n q in
  let s0 := {| ds_R := ob_R k; ds_C := ob_C k; ds_y := ob_y k; ds_A := A; ds_AC := C; ds_b := b |} in
  loop_exact eps (ob_n k) nc m 0 (ob_n k) s0 ->
  let s := diag_loop eps (ob_n k) nc m s0 in
  bigq {| ob_n := ob_n k; ob_nc := nc; ob_R := ds_R s; ob_C := ds_C s; ob_y := ds_y s |}
       (qr_add q m (ds_AC s) (ds_b s)) =
  qr_add (bigq k q) m (glue (ob_n k) A C) b.
Proof.
  intros nc s0 He s. set (n := ob_n k) in *.
  pose proof (diag_loop_big eps n nc m (q_R q) (q_y q) n 0 s0 ltac:(lia) He) as H1.
  fold (diag_loop eps n nc m s0) in H1. fold s in H1. clearbody s.
  pose proof (common_loop_big n nc m (ds_R s) (ds_C s) (ds_y s) (ds_A s) nc 0
    (q_R q, q_y q, ds_AC s, ds_b s) ltac:(lia)) as H2.
  change (bigc n (ds_R s) (ds_C s) (ds_y s) (ds_A s) (q_R q, q_y q, ds_AC s, ds_b s))
    with (big n (q_R q) (q_y q) s) in H2.
  rewrite H1 in H2.
  unfold qr_add, qr_add_mutating. cbn [bigq q_n q_R q_y]. fold n nc.
  assert (Es : seq 0 (n + nc) = seq 0 n ++ seq (n + 0) nc) by (rewrite seq_app; f_equal; f_equal; lia).
  rewrite Es, fold_left_app.
  change (bigR n (ob_R k) (ob_C k) (q_R q), bigy n (ob_y k) (q_y q), glue n A C, b) with (big n (q_R q) (q_y q) s0).
  rewrite <- H2. clear.
  destruct (fold_left (qr_step nc m) (seq 0 nc) (q_R q, q_y q, ds_AC s, ds_b s)) as [[[Rn yn] AC] b2].
  reflexivity.
Qed.
