(** The gradient of a sequence is the derivative of its error; the motion error function. *)

From Coq Require Import Bool List Arith Lia Reals Lra.
From Coquelicot Require Import Coquelicot.
From Verif Require Import Prelude LinAlg Rbool ListUtil Loops FK_deriv_proofs Limits_proofs
  Seq_spec Seq_model Seq_proofs SeqFn_model SeqFn_spec SeqFn_proofs.
Import ListNotations.
Local Open Scope outcome_scope.
Local Open Scope nat_scope.

Lemma nth_seen frames c sub : sub < c_n c -> nth sub (seen frames c) [] = nth (c_at c + sub) frames [].
Proof.
  intros H. unfold seen. rewrite <- (firstn_skipn (c_n c) (skipn (c_at c) frames)) at 1.
  generalize (c_at c) as a, (c_n c) as n, H. clear. intros a n H.
  assert (forall (l : list (list R)) n k d, k < n -> nth k (firstn n l) d = nth k l d) as F.
  { induction l as [|x l IH]; intros [|m] [|k] d Hk; cbn; try lia; auto. apply IH. lia. }
  rewrite F by exact H. rewrite firstn_skipn. clear F H.
  revert a. induction frames as [|x l IH]; intros [|a]; cbn [skipn Nat.add]; auto.
  - destruct sub; reflexivity.
  - rewrite IH. reflexivity.
Qed.
Lemma seen_length frames c : c_at c + c_n c <= length frames -> length (seen frames c) = c_n c.
Proof. intros H. unfold seen. rewrite firstn_length, skipn_length. lia. Qed.

Section Derivative.
Context (np : nat) (univ : nat -> bool) (nF : nat) (en : nat -> bool) (base : list (list R)) (v : list R).
Context (LB : length base = nF) (LV : length v = joined_size np univ en nF).
Let fr w := frames_from np univ en base w.

Lemma row_nth w f j : f < nF -> j < np ->
  nth j (nth f (fr w) []) 0%R =
  if en j then nth (slot np univ en nF f j) w 0%R else nth j (nth f base []) 0%R.
Proof.
  intros Hf Hj. pose proof (frames_from_value np univ en base w f j ltac:(lia) Hj) as H.
  rewrite LB in H. exact (value_at_nth _ _ _ _ H).
Qed.
Lemma row_length w f : f < nF -> length (nth f (fr w) []) = np.
Proof.
  intros Hf. unfold fr. rewrite (nth_error_nth0 _ _ [] _ (frames_from_nth np univ en base w f ltac:(lia))).
  rewrite map_length, seq_length. reflexivity.
Qed.

Lemma moved f0 i y c : f0 < nF -> i < np -> en i = true -> c_at c + c_n c <= nF ->
  seen (fr (store v (slot np univ en nF f0 i) y)) c =
  moved_window (seen (fr v) c) i (moves univ f0 i c) (y - nth (slot np univ en nF f0 i) v 0)%R.
Proof.
  intros Hf Hi He Hc. set (p0 := slot np univ en nF f0 i).
  assert (p0 < length v) as Hp by (rewrite LV; apply slot_bound; auto).
  assert (length (fr v) = nF) as L1 by (unfold fr; rewrite frames_from_length; exact LB).
  assert (length (fr (store v p0 y)) = nF) as L2 by (unfold fr; rewrite frames_from_length; exact LB).
  apply (nth_ext _ _ [] []).
  - rewrite seen_length by lia. unfold moved_window. rewrite map_length, seq_length, seen_length by lia. reflexivity.
  - rewrite seen_length by lia. intros sub Hsub. rewrite nth_seen by exact Hsub.
    unfold moved_window. rewrite nth_map_seq by (rewrite seen_length by lia; exact Hsub).
    rewrite nth_seen by exact Hsub. set (f := c_at c + sub). assert (f < nF) as Hff by (unfold f; lia).
    apply (nth_ext _ _ 0%R 0%R).
    + rewrite store_length. pose proof (row_length v f Hff) as Q1.
      pose proof (row_length (store v p0 y) f Hff) as Q2. rewrite Q1, Q2. reflexivity.
    + intros j Hj. pose proof (row_length (store v p0 y) f Hff) as Q2. rewrite Q2 in Hj.
      pose proof (row_length v f Hff) as Q1.
      rewrite row_nth by auto. rewrite (store_nth (nth f (fr v) []) i), !(row_nth v) by auto.
      rewrite Q1.
      assert ((i <? np) = true) as -> by (apply Nat.ltb_lt; exact Hi). rewrite andb_true_r.
      destruct (Nat.eqb_spec j i) as [->|D].
      * rewrite He. unfold moves. destruct (univ i) eqn:Hu.
        -- assert (slot np univ en nF f i = p0) as -> by (unfold p0, slot; rewrite Hu; reflexivity).
           rewrite store_nth_same by exact Hp. ring.
        -- fold f. destruct (Nat.eqb_spec f f0) as [->|Df].
           ++ fold p0. rewrite store_nth_same by exact Hp. ring.
           ++ rewrite store_nth_other; [ring|]. intros Q. apply Df.
              destruct (slot_inj np univ en nF f i f0 i) as [_ Z]; auto.
      * destruct (en j) eqn:Hej; [|reflexivity].
        apply store_nth_other. intros Q. apply D.
        destruct (slot_inj np univ en nF f j f0 i) as [Z _]; auto.
Qed.

Lemma call_derive f0 i c : f0 < nF -> i < np -> en i = true -> c_at c + c_n c <= nF ->
  good_gradient np (c_fn c) (seen (fr v) c) ->
  is_derive (fun y => se_error (c_fn c) (seen (fr (store v (slot np univ en nF f0 i) y)) c))
    (nth (slot np univ en nF f0 i) v 0%R)
    (sumn (c_n c) (fun sub =>
        (moves univ f0 i c sub * se_grad (c_fn c) (seen (fr v) c) (sub * np + i)%nat)%R)).
Proof.
  intros Hf Hi He Hc G. set (p0 := slot np univ en nF f0 i).
  apply (d_ext (fun y => se_error (c_fn c) (moved_window (seen (fr v) c) i (moves univ f0 i c) (y - nth p0 v 0%R)%R))).
  { intros y. rewrite <- moved by auto. reflexivity. }
  pose proof (gg_derive _ _ _ G i (moves univ f0 i c) Hi) as D.
  rewrite seen_length in D by (unfold fr; rewrite frames_from_length, LB; exact Hc).
  set (F := fun t : R => se_error (c_fn c) (moved_window (seen (fr v) c) i (moves univ f0 i c) t)) in *.
  apply (d_eq (fun y => F (y - nth p0 v 0)%R) _
     (1 * sumn (c_n c) (fun sub => (moves univ f0 i c sub * se_grad (c_fn c) (seen (fr v) c) (sub * np + i)%nat)%R))%R); [|apply Rmult_1_l].
  apply (is_derive_comp F (fun y => (y - nth p0 v 0)%R)).
  - replace (nth p0 v 0 - nth p0 v 0)%R with 0%R by ring. exact D.
  - auto_derive; [exact I|reflexivity].
Qed.
End Derivative.

(** getGradient returns getError's value and its partial derivatives. *)
Lemma gradient_is_derivative np univ nF en o v : so_wf np univ nF en o ->
  length v = joined_size np univ en nF ->
  (forall c, In c (calls o) ->
     good_gradient np (c_fn c) (seen (frames_from np univ en (sq_frames (so_fn o)) v) c)) ->
  exists err g, so_gradient o v = Ok (err, g) /\ length g = length v /\
    (exists s, so_error o v = Ok (err, s)) /\
    forall p, 0 < nF -> p < length v -> exists E : R -> R,
      (forall y, exists s, so_error o (store v p y) = Ok (E y, s)) /\
      is_derive E (nth p v 0%R) (nth p g 0%R).
Proof.
  intros W Lv G. destruct (so_gradient_spec _ _ _ _ _ v W Lv) as (g & Eg & Lg & A). cbv zeta in A.
  set (fr := frames_from np univ en (sq_frames (so_fn o))) in *.
  exists (total_error o (fr v)), g.
  assert (rsum (map (fun c => se_gerror (c_fn c) (seen (fr v) c)) (calls o)) = total_error o (fr v)) as Ee.
  { unfold total_error. apply rsum_map_ext. intros c Hc. apply (gg_error _ _ _ (G c Hc)). }
  rewrite Ee in Eg. split; [exact Eg|]. split; [exact Lg|].
  split; [eexists; apply (so_error_spec _ _ _ _ _ v W Lv)|].
  intros p HF Hp. exists (fun y => total_error o (fr (store v p y))). split.
  - intros y. eexists. apply (so_error_spec _ _ _ _ _ (store v p y) W). rewrite store_length. exact Lv.
  - rewrite Lv in Hp. destruct (slot_onto _ _ _ _ p HF Hp) as (f & i & Hf & Hi & He & <-).
    rewrite A by auto. unfold total_error.
    apply (d_rsum (fun c y => se_error (c_fn c) (seen (fr (store v (slot np univ en nF f i) y)) c))).
    intros c Hc. apply call_derive; auto.
    all: first [apply (w_nF _ _ _ _ _ (o_fn _ _ _ _ _ W)) | apply (calls_fit _ _ _ _ _ _ W Hc) | apply G; exact Hc].
Qed.

(** ** ModelParametersSequenceErrorFunction meets the contracts *)

Lemma divmod_sub np sub i : i < np -> (sub * np + i) mod np = i /\ (sub * np + i) / np = sub.
Proof.
  intros H. split.
  - rewrite Nat.add_comm, Nat.mod_add by lia. apply Nat.mod_small. exact H.
  - rewrite Nat.add_comm, Nat.div_add by lia. rewrite Nat.div_small by exact H. reflexivity.
Qed.

Lemma mps_diff_moved np weights w i c t j : length w = 2 ->
  length (nth 0 w []) = np -> length (nth 1 w []) = np -> i < np ->
  mps_diff weights (moved_window w i c t) j =
  (mps_diff weights w j + (if (j =? i)%nat then nth i weights 0 * (c 1%nat - c 0%nat) else 0) * t)%R.
Proof.
  intros L L0 L1 Hi. unfold mps_diff, moved_window. rewrite !nth_map_seq by lia.
  rewrite !store_nth, L0, L1.
  assert ((i <? np) = true) as -> by (apply Nat.ltb_lt; exact Hi). rewrite !andb_true_r.
  destruct (Nat.eqb_spec j i) as [->|D]; ring.
Qed.

Lemma mps_good_gradient np wt weights en w : length w = 2 ->
  length (nth 0 w []) = np -> length (nth 1 w []) = np ->
  good_gradient np (mps np wt weights en) w.
Proof.
  intros L L0 L1. constructor; [reflexivity|]. intros i c Hi. rewrite L. cbn [mps se_error se_grad].
  rewrite !sumn_S, sumn_0.
  destruct (divmod_sub np 0 i Hi) as [-> ->]. destruct (divmod_sub np 1 i Hi) as [-> ->].
  destruct (length weights =? np); cbn [andb].
  2:{ apply (d_eq _ _ 0%R); [apply d_const|ring]. }
  unfold mps_sum.
  apply (d_ext (fun t => (motion_weight * wt) * rsum (map (fun j => if mps_on weights en j then
      (mps_diff weights w j + (if (j =? i)%nat then nth i weights 0 * (c 1%nat - c 0%nat) else 0) * t) *
      (mps_diff weights w j + (if (j =? i)%nat then nth i weights 0 * (c 1%nat - c 0%nat) else 0) * t) else 0) (seq 0 np)))%R).
  { intros t. rewrite (rsum_map_ext (fun j => if mps_on weights en j then
       mps_diff weights (moved_window w i c t) j * mps_diff weights (moved_window w i c t) j else 0)%R
      (fun j => if mps_on weights en j then
      (mps_diff weights w j + (if (j =? i)%nat then nth i weights 0 * (c 1%nat - c 0%nat) else 0) * t) *
      (mps_diff weights w j + (if (j =? i)%nat then nth i weights 0 * (c 1%nat - c 0%nat) else 0) * t) else 0)%R).
    - ring.
    - intros j _. rewrite (mps_diff_moved np) by auto. reflexivity. }
  apply (d_eq _ _ ((motion_weight * wt) * rsum (map (fun j => if mps_on weights en j then
       2 * mps_diff weights w j * (if (j =? i)%nat then nth i weights 0 * (c 1%nat - c 0%nat) else 0) else 0) (seq 0 np)))%R).
  - apply d_scal. apply (d_rsum (fun j t => if mps_on weights en j then
      (mps_diff weights w j + (if (j =? i)%nat then nth i weights 0 * (c 1%nat - c 0%nat) else 0) * t) *
      (mps_diff weights w j + (if (j =? i)%nat then nth i weights 0 * (c 1%nat - c 0%nat) else 0) * t) else 0)%R
      (fun j => if mps_on weights en j then
       2 * mps_diff weights w j * (if (j =? i)%nat then nth i weights 0 * (c 1%nat - c 0%nat) else 0) else 0)%R).
    intros j _. destruct (mps_on weights en j); [|apply d_const].
    set (a := mps_diff weights w j). set (b := (if (j =? i)%nat then _ else _)).
    auto_derive; [exact I|]. ring.
  - rewrite (rsum_map_ext _ (fun j => if (j =? i)%nat then (if mps_on weights en j then
       2 * mps_diff weights w j * (nth i weights 0 * (c 1%nat - c 0%nat)) else 0)%R else 0%R)).
    2:{ intros j _. destruct (mps_on weights en j), (j =? i)%nat; ring. }
    rewrite (rsum_one _ (fun j => (j =? i)%nat) i).
    + cbn [Nat.eqb]. destruct (mps_on weights en i); ring.
    + apply seq_NoDup.
    + apply in_seq. lia.
    + apply Nat.eqb_refl.
    + intros j _ Hj. apply Nat.eqb_eq. exact Hj.
Qed.

Lemma count_on (weights : list R) en : forall a,
  length (filter (fun i => en i && Rltb 0 (nth (i - a) weights 0%R)) (seq a (length weights))) <=
  length (filter (fun x => Rltb 0 x) weights).
Proof.
  induction weights as [|x l IH]; intros a; cbn [length seq filter]; [lia|].
  rewrite Nat.sub_diag. change (nth 0 (x :: l) 0%R) with x.
  assert (length (filter (fun i => en i && Rltb 0 (nth (i - a) (x :: l) 0%R)) (seq (S a) (length l))) <=
          length (filter (fun x => Rltb 0 x) l)) as H.
  { rewrite <- (IH (S a)). apply Nat.eq_le_incl. f_equal. apply filter_ext_in. intros i Hi. apply in_seq in Hi.
    replace (i - a) with (S (i - S a)) by lia. reflexivity. }
  destruct (en a), (Rltb 0 x); cbn [andb length]; lia.
Qed.

Lemma mps_good_jacobian np wt weights en w : (0 <= wt)%R -> length w = 2 ->
  good_jacobian np (mps np wt weights en) w.
Proof.
  intros Hw L. constructor; [reflexivity| |].
  - cbn [mps se_rows se_used se_size]. destruct (Nat.eqb_spec (length weights) np) as [E|]; cbn [length]; [|lia].
    rewrite map_length. split; [lia|]. rewrite <- E. rewrite <- (count_on weights en 0).
    apply Nat.eq_le_incl. f_equal. apply filter_ext. intros i. unfold mps_on. rewrite Nat.sub_0_r. reflexivity.
  - intros sub i Hs Hi. rewrite L in Hs. cbn [mps se_rows se_grad].
    destruct (divmod_sub np sub i Hi) as [-> ->].
    destruct (length weights =? np); cbn [andb]; [|cbn; ring].
    rewrite map_map. cbn [fst snd].
    assert (sqrt (wt * motion_weight) * sqrt (wt * motion_weight) = wt * motion_weight)%R as SQ.
    { apply sqrt_sqrt. apply Rmult_le_pos; [exact Hw|]. unfold motion_weight. lra. }
    set (sw := sqrt (wt * motion_weight)) in *.
    rewrite (rsum_map_ext _ (fun j => if (j =? i)%nat then
       ((if (sub =? 0)%nat then - 1 else 1) * (sw * sw) * nth j weights 0 * mps_diff weights w j)%R else 0%R)).
    2:{ intros j Hj. apply filter_In in Hj. destruct Hj as [Hj _]. apply in_seq in Hj.
        destruct sub as [|[|sub]]; [| |lia]; cbn [Nat.mul Nat.add Nat.eqb].
        - destruct (Nat.eqb_spec i j) as [->|D].
          + rewrite Nat.eqb_refl. ring.
          + destruct (Nat.eqb_spec i (np + j)); [lia|]. destruct (Nat.eqb_spec j i); [lia|]. ring.
        - rewrite Nat.add_0_r. destruct (Nat.eqb_spec (np + i) j); [lia|].
          destruct (Nat.eqb_spec (np + i) (np + j)); destruct (Nat.eqb_spec j i); try lia.
          + ring.
          + ring. }
    rewrite rsum_filter.
    destruct (mps_on weights en i) eqn:On.
    + rewrite (rsum_map_ext _ (fun j => if (j =? i)%nat then
         ((if (sub =? 0)%nat then - 1 else 1) * (sw * sw) * nth j weights 0 * mps_diff weights w j)%R else 0%R)).
      2:{ intros j _. destruct (Nat.eqb_spec j i) as [->|]; [rewrite On; reflexivity|].
          destruct (mps_on weights en j); reflexivity. }
      rewrite (rsum_one _ (fun j => (j =? i)%nat) i); try apply seq_NoDup; try apply Nat.eqb_refl.
      * rewrite SQ. destruct (sub =? 0)%nat; ring.
      * apply in_seq. lia.
      * intros j _ Hj. apply Nat.eqb_eq. exact Hj.
    + rewrite rsum_map_zero; [ring|]. intros j _.
      destruct (mps_on weights en j) eqn:Oj; [|reflexivity].
      destruct (Nat.eqb_spec j i) as [->|]; [congruence|reflexivity].
Qed.
