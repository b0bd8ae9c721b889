(** The result of the parallel pass, for every schedule; no deadlock; every schedule ends. *)

From Coq Require Import Reals List Arith Bool Lia FunctionalExtensionality.
From Verif Require Import LinAlg Rbool ListUtil QR_spec QRBanded_spec QR_model QRBanded_model
  SeqPar_model SeqPar_mem SeqPar_inv.
Import ListNotations.
Local Open Scope R_scope.

Section Final.
Context (I : inputs).
Local Notation nF := (in_frames I).
Local Notation w := (in_per I).
Local Notation nc := (in_univ I).
Local Notation nb := (in_frames I * in_per I)%nat.
Local Notation bw := (in_band I * in_per I)%nat.
Local Notation q0 := (fresh_qr I).

(** Every frame eliminated and frames [0, d) folded in. *)
Record folded (d : nat) (q : bqr) : Prop := {
  f_dims : bq_nb q = nb /\ bq_nc q = nc /\ bq_bw q = bw /\ bq_lambda q = in_lambda I;
  f_rest : forall r c, (nb <= c)%nat -> bq_band q r c = bq_band q0 r c;
  f_win : forall f, (f < nF)%nat ->
    win_eq (f * w) w (bq_band q) (bq_common q) (bq_y q)
      (bs_band (solo I f w)) (bs_common (solo I f w)) (bs_y (solo I f w));
  f_bot : bot_eq nb (bq_common q) (bq_y q) (bq_common (botq I d)) (bq_y (botq I d))
}.

Lemma in_window c : (c < nb)%nat -> exists f, (f < nF)%nat /\ (f * w <= c < f * w + w)%nat.
Proof.
  intros H. assert (Hw : w <> 0%nat) by (intros E; rewrite E, Nat.mul_0_r in H; lia).
  exists (c / w)%nat. pose proof (Nat.div_mod c w Hw) as E. pose proof (Nat.mod_upper_bound c w Hw).
  split; [|rewrite (Nat.mul_comm (c / w)); lia]. apply Nat.div_lt_upper_bound; [exact Hw|]. rewrite Nat.mul_comm. exact H.
Qed.

Lemma folded_unique d q q' : folded d q -> folded d q' -> q = q'.
Proof.
  intros [D1 R1 W1 B1] [D2 R2 W2 B2]. destruct q as [nb1 nc1 bw1 l1 b1 c1 y1], q' as [nb2 nc2 bw2 l2 b2 c2 y2].
  cbn [bq_nb bq_nc bq_bw bq_lambda bq_band bq_common bq_y] in *.
  destruct D1 as (-> & -> & -> & ->). destruct D2 as (-> & -> & -> & ->).
  f_equal.
  - apply functional_extensionality; intros r. apply functional_extensionality; intros c.
    destruct (Nat.lt_ge_cases c nb) as [L|L].
    + destruct (in_window c L) as (f & Hf & Hc). destruct (W1 f Hf) as (X & _). destruct (W2 f Hf) as (Y & _).
      rewrite X, Y by exact Hc. reflexivity.
    + rewrite R1, R2 by exact L. reflexivity.
  - apply functional_extensionality; intros r. apply functional_extensionality; intros c.
    destruct (Nat.lt_ge_cases r nb) as [L|L].
    + destruct (in_window r L) as (f & Hf & Hc). destruct (W1 f Hf) as (_ & X & _). destruct (W2 f Hf) as (_ & Y & _).
      rewrite X, Y by exact Hc. reflexivity.
    + destruct B1 as (X & _), B2 as (Y & _). rewrite X, Y by exact L. reflexivity.
  - apply functional_extensionality; intros r.
    destruct (Nat.lt_ge_cases r nb) as [L|L].
    + destruct (in_window r L) as (f & Hf & Hc). destruct (W1 f Hf) as (_ & _ & X). destruct (W2 f Hf) as (_ & _ & Y).
      rewrite X, Y by exact Hc. reflexivity.
    + destruct B1 as (_ & X), B2 as (_ & Y). rewrite X, Y by exact L. reflexivity.
Qed.

(** addMutating(A_common, b) from any memory that agrees on the common rows. *)
Lemma add_common_local q q' m C b : bq_nb q = nb -> bq_nc q = nc -> bq_nb q' = nb -> bq_nc q' = nc ->
  bot_eq nb (bq_common q) (bq_y q) (bq_common q') (bq_y q') ->
  let a := add_common q m C b in let a' := add_common q' m C b in
  bot_eq nb (bq_common a) (bq_y a) (bq_common a') (bq_y a') /\ bq_band a = bq_band q /\
  (forall r c, (r < nb)%nat -> bq_common a r c = bq_common q r c) /\ (forall r, (r < nb)%nat -> bq_y a r = bq_y q r).
Proof.
  intros E1 E2 E3 E4 H. unfold add_common. rewrite E1, E2, E3, E4.
  pose proof (common_loop_local nb nc m nc _ _ _ _ C b H) as L.
  destruct (fold_left (common_step nb nc m) (seq 0 nc) (bq_common q, bq_y q, C, b)) as [[[? ?] ?] ?].
  destruct (fold_left (common_step nb nc m) (seq 0 nc) (bq_common q', bq_y q', C, b)) as [[[? ?] ?] ?].
  cbn. destruct L as (L1 & _ & _ & L4 & L5). auto.
Qed.
Lemma add_common_rows q m m' C b : bq_nc q = 0%nat -> add_common q m C b = add_common q m' C b.
Proof. intros E. unfold add_common. rewrite E. reflexivity. Qed.

Lemma folded_add d q : folded d q -> folded (S d) (add_common q (it_rows (itm I d)) (it_C (itm I d)) (it_b (itm I d))).
Proof.
  intros [(D1 & D2 & D3 & D4) R1 W1 B1]. destruct (botq_dims I d) as [E1 E2].
  destruct (add_common_local q (botq I d) (it_rows (itm I d)) (it_C (itm I d)) (it_b (itm I d)) D1 D2 E1 E2 B1)
    as (L1 & L2 & L3 & L4).
  pose proof (add_common_dims q (it_rows (itm I d)) (it_C (itm I d)) (it_b (itm I d))) as DD. cbv zeta in DD.
  destruct DD as (X1 & X2 & X3 & X4 & X5).
  constructor.
  - rewrite X1, X2, X3, X4. auto.
  - rewrite L2. exact R1.
  - intros f Hf. destruct (W1 f Hf) as (Y1 & Y2 & Y3). pose proof (mul_lt I f nF Hf).
    split; [rewrite L2; exact Y1|]. split; intros; [rewrite L3 by lia; auto | rewrite L4 by lia; auto].
  - rewrite botq_S. exact L1.
Qed.

(** ** The serial pass *)
Record serially (n : nat) (q : bqr) : Prop := {
  s_dims : bq_nb q = nb /\ bq_nc q = nc /\ bq_bw q = bw /\ bq_lambda q = in_lambda I;
  s_rest : forall r c, (nb <= c)%nat -> bq_band q r c = bq_band q0 r c;
  s_win : forall f, (f < n)%nat -> win_eq (f * w) w (bq_band q) (bq_common q) (bq_y q)
      (bs_band (solo I f w)) (bs_common (solo I f w)) (bs_y (solo I f w));
  s_todo : forall f, (n <= f)%nat -> (f < nF)%nat -> win_eq (f * w) w (bq_band q) (bq_common q) (bq_y q)
      (bq_band q0) (bq_common q0) (bq_y q0);
  s_bot : bot_eq nb (bq_common q) (bq_y q) (bq_common (botq I n)) (bq_y (botq I n))
}.

Lemma serially_give n q : (n < nF)%nat -> serially n q -> serially (S n) (bq_give q (frame_block I n)).
Proof.
  intros Hn [(D1 & D2 & D3 & D4) R1 W1 T1 B1].
  unfold bq_give, frame_block, bq_add, zero_banded. cbn [bb_off bb_w bb_rows bb_A bb_C bb_b].
  rewrite D2, D3.
  pose proof (zero_loop_local bw nc (n * w) w (fd_rows (in_data I n)) w
    (bq_band q) (bq_common q) (bq_y q) (bq_band q0) (bq_common q0) (bq_y q0)
    (fd_A (in_data I n)) (fd_C (in_data I n)) (fd_b (in_data I n)) (le_n _) (T1 n (le_n n) Hn)) as L.
  cbv zeta in L. fold (solo I n w) in L.
  set (r := fold_left _ (seq 0 w) {| bs_band := bq_band q |}) in *.
  destruct L as (L1 & _ & L3 & L4 & L5). cbv zeta.
  set (q1 := {| bq_nb := bq_nb q; bq_nc := nc; bq_bw := bw; bq_lambda := bq_lambda q;
     bq_band := bs_band r; bq_common := bs_common r; bq_y := bs_y r |}).
  pose proof (mul_lt I n nF Hn) as Hw.
  assert (B2 : bot_eq nb (bq_common q1) (bq_y q1) (bq_common (botq I n)) (bq_y (botq I n))).
  { destruct B1 as (X & Y), L5 as (_ & O2 & O3). split; cbn [q1 bq_common bq_y]; intros;
      [rewrite O2 by lia; auto | rewrite O3 by lia; auto]. }
  destruct (botq_dims I n) as [E1 E2].
  assert (EA : add_common q1 (fd_rows (in_data I n)) (bs_C r) (bs_b r) =
               add_common q1 (it_rows (itm I n)) (it_C (itm I n)) (it_b (itm I n))).
  { rewrite L3, L4. unfold itm at 2 3. cbn [make_item it_C it_b].
    unfold itm. cbn [make_item it_rows]. destruct (Nat.eqb_spec nc 0) as [Z|Z]; [|reflexivity].
    apply add_common_rows. cbn [q1 bq_nc]. exact Z. }
  rewrite EA.
  destruct (add_common_local q1 (botq I n) (it_rows (itm I n)) (it_C (itm I n)) (it_b (itm I n)) D1 eq_refl E1 E2 B2)
    as (M1 & M2 & M3 & M4).
  pose proof (add_common_dims q1 (it_rows (itm I n)) (it_C (itm I n)) (it_b (itm I n))) as DD. cbv zeta in DD.
  destruct DD as (X1 & X2 & X3 & X4 & X5).
  assert (HW : forall f k B' Rc' y', (f < nF)%nat -> k = w ->
    win_eq (f * w) w (bs_band r) (bs_common r) (bs_y r) B' Rc' y' ->
    win_eq (f * w) w (bq_band (add_common q1 (it_rows (itm I n)) (it_C (itm I n)) (it_b (itm I n))))
      (bq_common (add_common q1 (it_rows (itm I n)) (it_C (itm I n)) (it_b (itm I n))))
      (bq_y (add_common q1 (it_rows (itm I n)) (it_C (itm I n)) (it_b (itm I n)))) B' Rc' y').
  { intros f k B' Rc' y' Hf _ (Y1 & Y2 & Y3). pose proof (mul_lt I f nF Hf).
    split; [rewrite M2; exact Y1|].
    split; intros; [rewrite M3 by lia; apply Y2; assumption | rewrite M4 by lia; apply Y3; assumption]. }
  constructor.
  - rewrite X1, X2, X3, X4. cbn. auto.
  - intros r' c Hc. rewrite M2. cbn [q1 bq_band]. destruct L5 as (O1 & _). rewrite O1 by lia. apply R1. exact Hc.
  - intros f Hf. apply (HW f w); [lia|reflexivity|]. destruct (Nat.eq_dec f n) as [->|Hfn]; [exact L1|].
    apply (win_other I f n w _ _ _ _ _ _ Hfn L5). apply W1. lia.
  - intros f Hf Hf2. apply (HW f w); [lia|reflexivity|].
    destruct (T1 f ltac:(lia) Hf2) as (Y1 & Y2 & Y3). destruct L5 as (O1 & O2 & O3).
    assert (n * w + w <= f * w)%nat by (apply mul_lt; lia).
    split; [intros; rewrite O1 by lia; apply Y1; assumption|].
    split; intros; [rewrite O2 by lia; apply Y2; assumption | rewrite O3 by lia; apply Y3; assumption].
  - rewrite botq_S. exact M1.
Qed.

Lemma serial_spec n : (n <= nF)%nat ->
  let s := fold_left (serial_frame I) (seq 0 n) {| t_qr := q0; t_error := 0; t_progress := 0 |} in
  serially n (t_qr s) /\
  t_qr s = fold_left bq_give (map (frame_block I) (seq 0 n)) q0 /\
  t_error s = fold_left (fun e f => e + fd_error (in_data I f)) (seq 0 n) 0 /\
  t_progress s = fold_left (fun m f => m + fd_functions (in_data I f))%nat (seq 0 n) 0%nat.
Proof.
  induction n as [|n IH]; intros Hn.
  - cbn. split; [|auto]. constructor.
    + cbn. auto.
    + reflexivity.
    + intros f Hf. lia.
    + intros f _ _. repeat split; reflexivity.
    + split; reflexivity.
  - rewrite seq_S, map_app, !fold_left_app. cbn [fold_left plus map].
    specialize (IH ltac:(lia)). cbv zeta in IH |- *.
    set (s := fold_left (serial_frame I) (seq 0 n) _) in *. destruct IH as (I1 & I2 & I3 & I4).
    assert (Eg : t_qr (serial_frame I s n) = bq_give (t_qr s) (frame_block I n)).
    { cbn [serial_frame t_qr]. destruct (Nat.eqb_spec (fd_rows (in_data I n)) 0) as [Z|]; [|reflexivity].
      unfold bq_give, frame_block. cbn [bb_off bb_w bb_rows bb_A bb_C bb_b]. rewrite Z, bq_add_none. reflexivity. }
    split; [rewrite Eg; apply serially_give; [lia|exact I1]|].
    split; [rewrite Eg, I2; reflexivity|].
    cbn [serial_frame t_error t_progress]. rewrite I3, I4. auto.
Qed.

Lemma serial_folded : folded nF (t_qr (serial_pass I)).
Proof.
  destruct (serial_spec nF (le_n _)) as ([D R1 W T B] & _). constructor; assumption.
Qed.

(** ** The end of the parallel pass *)
Record finished (d : nat) (s : shared) : Prop := {
  n_qr : folded d (sh_qr s);
  n_log : sh_log s = seq 0 d;
  n_error : sh_error s = fold_left (fun e f => e + fd_error (in_data I f)) (seq 0 d) 0;
  n_prog : sh_progress s = fold_left (fun n f => n + fd_functions (in_data I f))%nat (seq 0 d) 0%nat
}.

Lemma finished_fold d s : finished d s -> finished (S d) (fold_item s (itm I d)).
Proof.
  intros [Q L E P]. constructor.
  - pose proof (folded_add d _ Q) as F.
    pose proof (add_common_dims (sh_qr s) (it_rows (itm I d)) (it_C (itm I d)) (it_b (itm I d))) as DD.
    cbv zeta in DD. unfold fold_item. cbv zeta. cbn [set_counts set_mem sh_qr].
    destruct DD as (X1 & X2 & X3 & X4 & X5).
    destruct (add_common (sh_qr s) (it_rows (itm I d)) (it_C (itm I d)) (it_b (itm I d))) as [a1 a2 a3 a4 a5 a6 a7].
    cbn [bq_nb bq_nc bq_bw bq_lambda bq_band bq_common bq_y] in *. subst a1 a2 a3 a4. exact F.
  - cbn. rewrite L. exact (eq_sym (seq_S d 0)).
  - cbn [fold_item set_counts sh_error]. rewrite E, seq_S, fold_left_app. reflexivity.
  - cbn [fold_item set_counts sh_progress]. rewrite P, seq_S, fold_left_app. reflexivity.
Qed.

Lemma finished_same d s s' : sh_qr s' = sh_qr s -> sh_log s' = sh_log s -> sh_error s' = sh_error s ->
  sh_progress s' = sh_progress s -> finished d s -> finished d s'.
Proof. intros E1 E2 E3 E4 [Q L E P]. constructor; congruence. Qed.

Lemma drain_ready_spec n : forall d s, finished d s ->
  let s' := drain_ready (map (itm I) (seq d n)) s in
  finished (d + n) s' /\ sh_reorder s' = sh_reorder s /\ sh_ready s' = [].
Proof.
  induction n as [|n IH]; intros d s H; cbn [seq map drain_ready].
  - rewrite Nat.add_0_r. split; [|auto]. eapply finished_same; [| | | |exact H]; reflexivity.
  - specialize (IH (S d) (set_ready (fold_item s (itm I d)) (map (itm I) (seq (S d) n)))).
    cbv zeta in IH |- *. destruct IH as (I1 & I2 & I3).
    { eapply finished_same; [| | | |exact (finished_fold d s H)]; reflexivity. }
    replace (d + S n)%nat with (S d + n)%nat by lia. split; [exact I1|]. split; [rewrite I2; reflexivity | exact I3].
Qed.

Lemma drain_reorder_spec n : forall d s, finished d s ->
  NoDup (map it_frame (sh_reorder s)) ->
  (forall x, In x (sh_reorder s) <-> exists f, (d <= f < d + n)%nat /\ x = itm I f) ->
  length (sh_reorder s) = n /\
  let s' := drain_reorder n s in finished (d + n) s' /\ sh_reorder s' = [] /\ sh_ready s' = sh_ready s.
Proof.
  induction n as [|n IH]; intros d s H HN HS.
  - assert (E : sh_reorder s = []).
    { destruct (sh_reorder s) as [|x l]; [reflexivity|]. exfalso.
      destruct (proj1 (HS x) (or_introl eq_refl)) as (f & Hf & _). lia. }
    rewrite E. cbn. rewrite Nat.add_0_r. auto.
  - cbn [drain_reorder].
    destruct (extract_min (sh_reorder s)) as [[x l]|] eqn:Ex.
    + destruct (extract_min_in _ _ _ Ex) as (I1 & I2 & I3 & I4). destruct (I3 HN) as [N1 N2].
      assert (Hx : x = itm I d).
      { destruct (proj1 (HS x) (proj2 (I1 x) (or_introl eq_refl))) as (f & Hf & ->).
        assert (Hd : In (itm I d) (sh_reorder s)) by (apply HS; exists d; split; [lia|reflexivity]).
        apply I1 in Hd. destruct Hd as [Hd|Hd]; [exact (eq_sym Hd)|].
        specialize (I2 _ Hd). cbn in I2. assert (f = d) by lia. subst f. reflexivity. }
      subst x.
      destruct (IH (S d) (set_reorder (fold_item s (itm I d)) l (sh_next s))) as (J1 & J2 & J3 & J4).
      * eapply finished_same; [| | | |exact (finished_fold d s H)]; reflexivity.
      * exact N1.
      * cbn [set_reorder sh_reorder]. intros y. split.
        { intros Hy. destruct (proj1 (HS y) (proj2 (I1 y) (or_intror Hy))) as (f & Hf & ->). exists f.
          split; [|reflexivity]. assert (f <> d); [|lia]. intros ->. apply N2. cbn. apply in_map_iff.
          exists (itm I d). auto. }
        { intros (f & Hf & ->). assert (Hi : In (itm I f) (sh_reorder s)) by (apply HS; exists f; split; [lia|reflexivity]).
          apply I1 in Hi. destruct Hi as [E|Hi]; [|exact Hi]. exfalso.
          assert (it_frame (itm I f) = it_frame (itm I d)) by (rewrite E; reflexivity). cbn in *. lia. }
      * split; [rewrite I4; cbn [set_reorder sh_reorder] in J1; rewrite J1; reflexivity|].
        cbv zeta. cbv zeta in J2, J3, J4. replace (d + S n)%nat with (S d + n)%nat by lia. auto.
    + apply extract_min_none in Ex.
      assert (Hd : In (itm I d) (sh_reorder s)) by (apply HS; exists d; split; [lia|reflexivity]).
      rewrite Ex in Hd. destruct Hd.
Qed.

Lemma done_at s t p : all_done s -> nth_error (sys_tasks s) t = Some p -> p = Done.
Proof. intros H Hp. apply nth_error_In in Hp. unfold all_done in H. rewrite Forall_forall in H. auto. Qed.
Lemma unowned holds m s : holds Done = false -> all_done s -> owned holds m (sys_tasks s) -> m = None.
Proof.
  intros Hh HD (H1 & H2). destruct m as [t|]; [|reflexivity]. exfalso. specialize (H2 t eq_refl).
  destruct (nth_error (sys_tasks s) t) as [p|] eqn:Ep; [|apply nth_error_None in Ep; lia].
  rewrite (done_at s t p HD Ep) in Ep. destruct (H1 t Done Ep) as [_ H]. rewrite (H eq_refl) in Hh. discriminate.
Qed.

Lemma parallel_end a : schedule I (start_system I) a -> all_done a ->
  let s := final_drain (sys_sh a) in
  finished nF s /\ sh_reorder s = [] /\ sh_ready s = [] /\
  m_reorder (sys_sh a) = None /\ m_ready (sys_sh a) = None /\ m_qr (sys_sh a) = None.
Proof.
  intros HS HD. destruct (reach_inv I a HS) as (d & M & H).
  pose proof (unowned _ _ _ eq_refl HD (i_lr _ _ _ _ _ H)) as L1.
  pose proof (unowned _ _ _ eq_refl HD (i_ly _ _ _ _ _ H)) as L2.
  pose proof (unowned _ _ _ eq_refl HD (i_lq _ _ _ _ _ H)) as L3.
  pose proof (i_reorder _ _ _ _ _ H) as HR. rewrite L1 in HR. cbn in HR. subst M.
  pose proof (i_qr _ _ _ _ _ H) as HQ. rewrite L3 in HQ. cbn in HQ.
  pose proof (i_ready _ _ _ _ _ H) as HY. rewrite L3 in HY. cbn in HY. rewrite Nat.add_0_r in HY.
  destruct HY as [Y1 Y2].
  destruct (i_has _ _ _ _ _ H) as (N1 & N2 & N3).
  assert (Hlen : length (sys_tasks a) = nF) by apply (i_len _ _ _ _ _ H).
  assert (Hget : forall f, (f < nF)%nat -> nth_error (sys_tasks a) f = Some Done).
  { intros f Hf. destruct (nth_error (sys_tasks a) f) as [p|] eqn:Ep; [|apply nth_error_None in Ep; lia].
    rewrite (done_at a f p HD Ep). reflexivity. }
  assert (Hnext : (sh_next (sys_sh a) <= nF)%nat).
  { destruct (Nat.le_gt_cases (sh_next (sys_sh a)) nF) as [L|L]; [exact L|].
    destruct (N3 nF L) as (p & Hp & _). assert (nF < length (sys_tasks a))%nat by (apply nth_error_Some; congruence). lia. }
  assert (HF : finished d (sys_sh a)).
  { constructor; [|exact (i_log _ _ _ _ _ H)|exact (i_error _ _ _ _ _ H)|exact (i_prog _ _ _ _ _ H)].
    constructor; [exact (i_dims _ _ _ _ _ H)|exact (i_rest _ _ _ _ _ H)| |exact HQ].
    intros f Hf. exact (i_task _ _ _ _ _ H f Done (Hget f Hf)). }
  unfold final_drain. cbv zeta. rewrite Y2.
  destruct (drain_ready_spec (sh_next (sys_sh a) - d) d (sys_sh a) HF) as (F1 & F2 & F3).
  set (s1 := drain_ready _ (sys_sh a)) in *.
  replace (d + (sh_next (sys_sh a) - d))%nat with (sh_next (sys_sh a)) in F1 by lia.
  destruct (drain_reorder_spec (nF - sh_next (sys_sh a)) (sh_next (sys_sh a)) s1 F1) as (G1 & G2 & G3 & G4).
  - rewrite F2. exact N1.
  - rewrite F2. intros x. rewrite N2. split.
    + intros (f & p & Hf & _ & Hn & ->). exists f. split; [|reflexivity].
      assert (f < length (sys_tasks a))%nat by (apply nth_error_Some; congruence). lia.
    + intros (f & Hf & ->). exists f, Done. repeat split; try lia. apply Hget. lia.
  - rewrite G1. replace (sh_next (sys_sh a) + (nF - sh_next (sys_sh a)))%nat with nF in G2 by lia.
    split; [exact G2|]. split; [exact G3|]. split; [rewrite G4; exact F3|]. auto.
Qed.

Lemma parallel_equals_serial a : schedule I (start_system I) a -> all_done a ->
  let s := final_drain (sys_sh a) in
  {| t_qr := sh_qr s; t_error := sh_error s; t_progress := sh_progress s |} = serial_pass I /\
  sh_log s = seq 0 nF /\ sh_reorder s = [] /\ sh_ready s = [].
Proof.
  intros HS HD. destruct (parallel_end a HS HD) as ([Q L E P] & R1 & R2 & _). cbv zeta.
  set (s := final_drain (sys_sh a)) in *.
  destruct (serial_spec nF (le_n _)) as (_ & _ & S3 & S4). fold (serial_pass I) in S3, S4.
  split; [|auto]. pose proof (folded_unique _ _ _ Q serial_folded) as EQ.
  destruct (serial_pass I) as [a1 a2 a3] eqn:ES. cbn [t_qr t_error t_progress] in *.
  rewrite EQ, E, P, S3, S4. reflexivity.
Qed.
End Final.
