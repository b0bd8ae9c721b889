(** The results of getJacobian: against the specification, the gradient and old contents. *)

From Coq Require Import Bool List Arith Lia Reals Lra.
From Coquelicot Require Import Coquelicot.
From Verif Require Import Prelude LinAlg Rbool ListUtil Loops
  Seq_spec Seq_model Seq_proofs SeqFn_model SeqFn_spec SeqFn_proofs SeqFn_grad_proofs SeqFn_jac_proofs.
Import ListNotations.
Local Open Scope outcome_scope.
Local Open Scope nat_scope.

Section Result.
Context (np : nat) (univ : nat -> bool) (nF : nat) (en : nat -> bool) (o : seqobj) (v : list R).
Context (W : so_wf np univ nF en o) (HF : 0 < nF) (Lv : length v = joined_size np univ en nF).
Let fr := frames_from np univ en (sq_frames (so_fn o)) v.
Let sl := slot np univ en nF.
Let N := joined_size np univ en nF.
Let s := with_frames (so_fn o) fr.

Lemma moved_wf : seq_wf np univ nF en s.
Proof.
  pose proof (o_fn _ _ _ _ _ W) as V. destruct V. constructor; cbn; auto.
  - unfold fr. rewrite frames_from_length. exact w_nF.
  - intros f x H. assert (f < length (sq_frames (so_fn o))) as Hf.
    { apply nth_error_len in H. unfold fr in H. rewrite frames_from_length in H. exact H. }
    unfold fr in H. rewrite frames_from_nth in H by exact Hf. injection H as <-.
    rewrite map_length, seq_length. reflexivity.
Qed.

Lemma calls_fits : rows_fit fr (calls o) -> fits nF s (calls o).
Proof.
  intros F. split; [exact F|]. intros c Hc. destruct (calls_fit _ _ _ _ _ _ W Hc) as (H1 & H2 & _). auto.
Qed.

(** The matrix and residual the loops start from. *)
Definition start (J0 : fmat) (r0 : fvec) : jstate :=
  if (fm_rows J0 <? rows_asked (calls o)) || negb (N =? fm_cols J0)
  then JState (FMat (rows_asked (calls o)) N (fun _ _ => 0%R)) (FVec (rows_asked (calls o)) (fun _ => 0%R)) 0 0
  else JState J0 r0 0 0.

Lemma jacobian_unfold J0 r0 :
  so_jacobian o v J0 r0 = let* st := ofold (jac_call s) (calls o) (start J0 r0) in
    Ok (j_J st, j_r st, rows_asked (calls o), j_err st).
Proof.
  unfold so_jacobian. rewrite (set_joined_frames np univ nF en) by (auto; apply (o_fn _ _ _ _ _ W)).
  cbn [obind]. fold fr. fold s. cbv zeta. rewrite jac_size_calls.
  rewrite (w_num _ _ _ _ _ moved_wf). fold N. unfold start.
  assert (length (sq_frames s) = nF) as L by apply (w_nF _ _ _ _ _ moved_wf).
  destruct ((fm_rows J0 <? rows_asked (calls o)) || negb (N =? fm_cols J0));
    rewrite <- (jac_loops np univ nF en o s _ W L);
    destruct (ofold _ (seq 0 (length (sq_frames s))) _) as [st1| | | |]; reflexivity.
Qed.

Lemma start_room J0 r0 : fm_rows J0 < rows_asked (calls o) \/ fm_cols J0 <> N \/ rows_asked (calls o) <= fv_len r0 ->
  room np univ nF en (calls o) (start J0 r0) /\ j_pos (start J0 r0) = 0 /\ j_err (start J0 r0) = 0%R.
Proof.
  intros H. unfold start, room.
  destruct (Nat.ltb_spec (fm_rows J0) (rows_asked (calls o))), (Nat.eqb_spec N (fm_cols J0));
    cbn [orb negb j_J j_r j_pos j_err fm_rows fm_cols fv_len]; unfold N in *; repeat split; lia || congruence.
Qed.

Lemma start_clean J0 r0 : clean J0 r0 (rows_asked (calls o)) N ->
  room np univ nF en (calls o) (start J0 r0) /\ j_pos (start J0 r0) = 0 /\ j_err (start J0 r0) = 0%R /\
  (forall q c, fm_at (j_J (start J0 r0)) q c = 0%R) /\ (forall q, fv_at (j_r (start J0 r0)) q = 0%R).
Proof.
  intros C. destruct (start_room J0 r0) as (H1 & H2 & H3).
  { destruct C as [[C|C]|(C & _)]; auto. }
  split; [exact H1|]. split; [exact H2|]. split; [exact H3|]. split; unfold start.
  - intros q c. destruct C as [[C|C]|(_ & C & _)].
    + apply Nat.ltb_lt in C. rewrite C. reflexivity.
    + destruct (Nat.eqb_spec N (fm_cols J0)) as [E|]; [congruence|]. rewrite orb_true_r. reflexivity.
    + destruct (_ || _); [reflexivity|apply C].
  - intros q. destruct C as [[C|C]|(_ & _ & C)].
    + apply Nat.ltb_lt in C. rewrite C. reflexivity.
    + destruct (Nat.eqb_spec N (fm_cols J0)) as [E|]; [congruence|]. rewrite orb_true_r. reflexivity.
    + destruct (_ || _); [reflexivity|apply C].
Qed.

Lemma jacobian_spec J0 r0 : rows_fit fr (calls o) -> clean J0 r0 (rows_asked (calls o)) N ->
  exists J r err, so_jacobian o v J0 r0 = Ok (J, r, rows_asked (calls o), err) /\
    rows_asked (calls o) <= fm_rows J /\ fm_cols J = N /\ rows_asked (calls o) <= fv_len r /\
    err = rsum (map (fun c => se_jerror (c_fn c) (seen fr c)) (calls o)) /\
    rows_used fr (calls o) <= rows_asked (calls o) /\
    (forall pre c post, calls o = pre ++ c :: post -> forall q, q < se_used (c_fn c) (seen fr c) ->
       fv_at r (rows_used fr pre + q) = row_value fr c q /\
       forall f i, f < nF -> i < np -> en i = true ->
         fm_at J (rows_used fr pre + q) (sl f i) = coefficient np univ fr c q f i) /\
    (forall q, rows_used fr (calls o) <= q -> fv_at r q = 0%R /\ forall p, p < N -> fm_at J q p = 0%R).
Proof.
  intros F C. destruct (start_clean J0 r0 C) as (Rm & P0 & E0 & Z1 & Z2).
  destruct (run_fresh np univ nF en s moved_wf HF (calls o) (start J0 r0)) as
    (st & E & [D1 D2] & L & P & Er & _ & High & Mid).
  - apply calls_fits. exact F.
  - exact Rm.
  - auto.
  - exists (j_J st), (j_r st), (j_err st). rewrite jacobian_unfold, E. cbn [obind].
    destruct Rm as (R1 & R2 & R3). rewrite P0 in *. cbn [Nat.add] in *.
    split; [reflexivity|]. split; [lia|]. split; [exact (eq_trans D2 R3)|]. split; [lia|].
    split; [rewrite Er, E0, Rplus_0_l; reflexivity|].
    split; [apply rows_used_le; exact F|]. split; [exact Mid|].
    intros q Hq. destruct (High q) as [H1 H2]; [rewrite P; exact Hq|]. split; [exact H1|].
    intros p Hp. destruct (slot_onto np univ en nF p HF Hp) as (f & i & Hf & Hi & He & <-). auto.
Qed.
End Result.

(** ** 2 Jᵀr is the gradient *)

Lemma block_sum frames cs : forall a F (G : call -> nat -> R),
  (forall pre c post, cs = pre ++ c :: post -> forall q, q < se_used (c_fn c) (seen frames c) ->
     F (a + rows_used frames pre + q) = G c q) ->
  sumn (rows_used frames cs) (fun q => F (a + q)) =
  rsum (map (fun c => sumn (se_used (c_fn c) (seen frames c)) (G c)) cs).
Proof.
  induction cs as [|c cs IH]; intros a F G H; [reflexivity|].
  change (rows_used frames (c :: cs)) with (se_used (c_fn c) (seen frames c) + rows_used frames cs).
  rewrite sumn_split. cbn [map rsum]. f_equal.
  - apply sumn_ext. intros q Hq. rewrite <- (H [] c cs eq_refl q Hq). cbn. f_equal. lia.
  - rewrite <- (IH (a + se_used (c_fn c) (seen frames c)) F G).
    + apply sumn_ext. intros q _. f_equal. lia.
    + intros pre c' post -> q Hq. rewrite <- (H (c :: pre) c' post eq_refl q Hq). f_equal.
      change (rows_used frames (c :: pre)) with (se_used (c_fn c) (seen frames c) + rows_used frames pre). lia.
Qed.

Lemma sumn_rows {A} (l : list A) n (h : A -> R) : length l <= n ->
  sumn n (fun q => match nth_error l q with Some x => h x | None => 0%R end) = rsum (map h l).
Proof.
  intros H. replace n with (length l + (n - length l)) by lia. rewrite sumn_split.
  rewrite (sumn_zero (n - length l)).
  2:{ intros i _. rewrite (proj2 (nth_error_None l _)) by lia. reflexivity. }
  rewrite Rplus_0_r, rsum_nth, map_length. apply sumn_ext. intros i Hi.
  destruct (nth_error_lt l i Hi) as [x E]. rewrite E. symmetry. apply nth_error_nth0.
  rewrite nth_error_map, E. reflexivity.
Qed.

Lemma call_gradient np univ frames c f i : i < np -> f < c_at c + c_n c \/ c_at c + c_n c <= f ->
  length (seen frames c) = c_n c -> good_jacobian np (c_fn c) (seen frames c) ->
  (2 * sumn (se_used (c_fn c) (seen frames c)) (fun q => coefficient np univ frames c q f i * row_value frames c q))%R =
  sumn (c_n c) (fun sub => (moves univ f i c sub * se_grad (c_fn c) (seen frames c) (sub * np + i)%nat)%R).
Proof.
  intros Hi _ L G. set (rows := se_rows (c_fn c) (seen frames c)).
  assert (forall sub, sub < c_n c ->
    (2 * sumn (se_used (c_fn c) (seen frames c)) (fun q =>
       match nth_error rows q with Some row => fst row (sub * np + i)%nat * snd row | None => 0 end))%R =
    se_grad (c_fn c) (seen frames c) (sub * np + i)) as Sub.
  { intros sub Hs. rewrite (sumn_rows rows _ (fun row => fst row (sub * np + i)%nat * snd row)%R).
    - apply (gj_grad _ _ _ G); [lia|exact Hi].
    - apply (gj_used _ _ _ G). }
  unfold moves, coefficient, row_value. fold rows. cbv zeta. destruct (univ i).
  - transitivity (sumn (c_n c) (fun sub => 2 * sumn (se_used (c_fn c) (seen frames c)) (fun q =>
       match nth_error rows q with Some row => fst row (sub * np + i)%nat * snd row | None => 0 end))%R).
    + rewrite sumn_scal, sumn_swap. f_equal. apply sumn_ext. intros q _.
      rewrite <- sumn_scal_r. apply sumn_ext. intros sub _. destruct (nth_error rows q); ring.
    + apply sumn_ext. intros sub Hs. rewrite Sub by exact Hs. ring.
  - destruct ((c_at c <=? f) && (f <? c_at c + c_n c)) eqn:Q.
    + apply andb_true_iff in Q. rewrite Nat.leb_le, Nat.ltb_lt in Q.
      rewrite (sumn_single (c_n c) (f - c_at c)).
      * assert ((c_at c + (f - c_at c) =? f) = true) as -> by (apply Nat.eqb_eq; lia).
        rewrite Rmult_1_l, <- Sub by lia. f_equal. apply sumn_ext. intros q _. destruct (nth_error rows q); ring.
      * lia.
      * intros j Hj Dj. destruct (Nat.eqb_spec (c_at c + j) f); [lia|ring].
    + rewrite sumn_zero by (intros; ring). rewrite sumn_zero; [ring|].
      intros sub Hs. destruct (Nat.eqb_spec (c_at c + sub) f) as [E|]; [|ring].
      exfalso. apply andb_false_iff in Q. rewrite Nat.leb_gt, Nat.ltb_ge in Q. lia.
Qed.

Lemma jacobian_gradient np univ nF en o v J0 r0 : so_wf np univ nF en o -> 0 < nF ->
  length v = joined_size np univ en nF ->
  let fr := frames_from np univ en (sq_frames (so_fn o)) v in
  (forall c, In c (calls o) -> good_jacobian np (c_fn c) (seen fr c)) ->
  clean J0 r0 (rows_asked (calls o)) (length v) ->
  exists J r rows err e g, so_jacobian o v J0 r0 = Ok (J, r, rows, err) /\
    so_gradient o v = Ok (e, g) /\ (exists s, so_error o v = Ok (err, s)) /\
    forall p, p < length v -> nth p g 0%R = (2 * sumn rows (fun q => fm_at J q p * fv_at r q))%R.
Proof.
  intros W HF Lv fr G C. rewrite Lv in C.
  assert (rows_fit fr (calls o)) as F by (intros c Hc; apply (gj_used _ _ _ (G c Hc))).
  destruct (jacobian_spec np univ nF en o v W HF Lv J0 r0 F C) as (J & r & err & E & _ & _ & _ & Er & Le & Mid & High).
  fold fr in Er, Le, Mid, High.
  destruct (so_gradient_spec _ _ _ _ _ v W Lv) as (g & Eg & Lg & A). cbv zeta in A, Eg. fold fr in A, Eg.
  exists J, r, (rows_asked (calls o)), err. eexists. exists g. split; [exact E|]. split; [exact Eg|]. split.
  - rewrite (so_error_spec _ _ _ _ _ v W Lv). eexists. f_equal. f_equal. fold fr. rewrite Er. unfold total_error.
    apply rsum_map_ext. intros c Hc. symmetry. apply (gj_error _ _ _ (G c Hc)).
  - intros p Hp. rewrite Lv in Hp. destruct (slot_onto np univ en nF p HF Hp) as (f & i & Hf & Hi & He & <-).
    rewrite A by auto.
    replace (rows_asked (calls o)) with (rows_used fr (calls o) + (rows_asked (calls o) - rows_used fr (calls o))) by lia.
    rewrite sumn_split. rewrite (sumn_zero (rows_asked (calls o) - rows_used fr (calls o))).
    2:{ intros q _. destruct (High (rows_used fr (calls o) + q)) as [-> _]; [lia|]. ring. }
    rewrite Rplus_0_r.
    pose proof (block_sum fr (calls o) 0 (fun q => fm_at J q (slot np univ en nF f i) * fv_at r q)%R
       (fun c q => coefficient np univ fr c q f i * row_value fr c q)%R) as B. cbn [Nat.add] in B.
    rewrite B; clear B.
    2:{ intros pre c post Ec q Hq. cbn [Nat.add]. destruct (Mid pre c post Ec q Hq) as [-> M].
        rewrite M by auto. reflexivity. }
    rewrite <- rsum_map_scal. apply rsum_map_ext. intros c Hc. symmetry. apply call_gradient; auto; [lia|].
    destruct (calls_fit _ _ _ _ _ _ W Hc) as (Hfit & _). apply seen_length.
    unfold fr. rewrite frames_from_length, (w_nF _ _ _ _ _ (o_fn _ _ _ _ _ W)). exact Hfit.
Qed.

(** ** Calling again *)

Lemma jacobian_again np univ nF en o v J0 r0 : so_wf np univ nF en o -> 0 < nF ->
  length v = joined_size np univ en nF ->
  let fr := frames_from np univ en (sq_frames (so_fn o)) v in
  rows_fit fr (calls o) ->
  (forall c, In c (calls o) -> c_seq c = true -> forall i, i < np -> en i = true -> univ i = false) ->
  fm_rows J0 < rows_asked (calls o) \/ fm_cols J0 <> length v \/ rows_asked (calls o) <= fv_len r0 ->
  exists J r rows err J' r', so_jacobian o v J0 r0 = Ok (J, r, rows, err) /\
    so_jacobian o v J r = Ok (J', r', rows, err) /\
    fm_rows J' = fm_rows J /\ fm_cols J' = fm_cols J /\ fv_len r' = fv_len r /\
    (forall q, fv_at r' q = fv_at r q) /\
    (forall q p, p < length v -> fm_at J' q p = fm_at J q p).
Proof.
  intros W HF Lv fr F NS HR. rewrite Lv in HR.
  set (s := with_frames (so_fn o) fr).
  pose proof (moved_wf np univ nF en o v W) as Ws. fold fr s in Ws.
  pose proof (calls_fits np univ nF en o v W F) as Fi. fold fr s in Fi.
  destruct (start_room np univ nF en o v HF Lv J0 r0 HR) as (Rm & P0 & E0).
  set (st := start np univ nF en o J0 r0) in *.
  destruct (run_again np univ nF en s Ws HF (calls o) (fun _ _ => 0%R) (fun _ => 0%R) NS st st Fi Rm Rm eq_refl)
    as (a & _ & Ea & _ & Da & _ & La & _).
  { intros q. split; auto. }
  destruct Rm as (R1 & R2 & R3). destruct Da as [D1 D2]. rewrite P0 in R1, R2. cbn [Nat.add] in R1, R2.
  assert (start np univ nF en o (j_J a) (j_r a) = JState (j_J a) (j_r a) 0 0) as Sa.
  { unfold start. rewrite D1, D2, R3, Nat.eqb_refl.
    assert ((fm_rows (j_J st) <? rows_asked (calls o)) = false) as -> by (apply Nat.ltb_ge; lia). reflexivity. }
  destruct (run_again np univ nF en s Ws HF (calls o) (fm_at (j_J a)) (fv_at (j_r a)) NS st
     (JState (j_J a) (j_r a) 0 0) Fi) as (a' & b & Ea' & Eb & _ & [D1b D2b] & _ & Lb & Eerr & Z).
  { unfold room. rewrite P0. cbn [Nat.add]. auto. }
  { unfold room. cbn [j_J j_r j_pos Nat.add]. rewrite D1, D2, La. auto. }
  { rewrite P0. reflexivity. }
  { intros q. cbn [j_J j_r]. split; auto. }
  rewrite Ea in Ea'. injection Ea' as <-. cbn [j_J j_r j_err] in *.
  exists (j_J a), (j_r a), (rows_asked (calls o)), (j_err a), (j_J b), (j_r b).
  split; [rewrite (jacobian_unfold np univ nF en o v W Lv); fold fr s st; rewrite Ea; reflexivity|].
  split.
  { rewrite (jacobian_unfold np univ nF en o v W Lv). fold fr s. rewrite Sa, Eb. cbn [obind].
    rewrite E0 in Eerr. replace (j_err b) with (j_err a) by lra. reflexivity. }
  split; [exact D1b|]. split; [exact D2b|]. split; [exact Lb|]. split.
  - intros q. destruct (Z q) as [[Q|Q] _]; exact Q.
  - intros q p Hp. rewrite Lv in Hp. destruct (slot_onto np univ en nF p HF Hp) as (f & i & Hf & Hi & He & <-).
    destruct (Z q) as [_ Q]. destruct (Q f i Hf Hi He) as [Q'|Q']; exact Q'.
Qed.
