(** Which cells of the banded solver one frame's elimination reads and writes. *)

From Coq Require Import Reals List Arith Bool Lia FunctionalExtensionality.
From Verif Require Import LinAlg Rbool QR_spec QRBanded_spec QR_model QRBanded_model.
Import ListNotations.
Local Open Scope R_scope.

(** Two memories agree on the cells of the window [off, off + w) ... *)
Definition win_eq (off w : nat) (B Rc : mat) (y : vec) (B' Rc' : mat) (y' : vec) : Prop :=
  (forall r c, (off <= c < off + w)%nat -> B r c = B' r c) /\
  (forall r c, (off <= r < off + w)%nat -> Rc r c = Rc' r c) /\
  (forall r, (off <= r < off + w)%nat -> y r = y' r).
(** ... on the cells of every other row and column ... *)
Definition out_eq (off w : nat) (B Rc : mat) (y : vec) (B' Rc' : mat) (y' : vec) : Prop :=
  (forall r c, (c < off \/ off + w <= c)%nat -> B r c = B' r c) /\
  (forall r c, (r < off \/ off + w <= r)%nat -> Rc r c = Rc' r c) /\
  (forall r, (r < off \/ off + w <= r)%nat -> y r = y' r).
(** ... on the rows of the common unknowns. *)
Definition bot_eq (nb : nat) (Rc : mat) (y : vec) (Rc' : mat) (y' : vec) : Prop :=
  (forall r c, (nb <= r)%nat -> Rc r c = Rc' r c) /\ (forall r, (nb <= r)%nat -> y r = y' r).

Lemma apply_band_local bw g off w beta m v js : (forall j, In j js -> (j < w)%nat) ->
  forall S0 S0' A S1 A1 S1' A1',
  (forall r c, (off <= c < off + w)%nat -> S0 r c = S0' r c) ->
  apply_band bw g off beta m v js S0 A = (S1, A1) ->
  apply_band bw g off beta m v js S0' A = (S1', A1') ->
  (forall r c, (off <= c < off + w)%nat -> S1 r c = S1' r c) /\ A1 = A1' /\
  (forall r c, (c < off \/ off + w <= c)%nat -> S1 r c = S0 r c).
Proof.
  unfold apply_band. induction js as [|j js IH]; intros Hj S0 S0' A S1 A1 S1' A1' H E E'.
  - cbn in E, E'. injection E as <- <-. injection E' as <- <-. auto.
  - cbn [fold_left] in E, E'.
    assert (Hjw : (j < w)%nat) by (apply Hj; left; reflexivity).
    rewrite (H (band_row bw g (off + j)) (off + j)%nat) in E by lia.
    destruct (hh_apply beta m v (S0' (band_row bw g (off + j)) (off + j)%nat) (col A j)) as [y1 y2].
    assert (HS : forall r c, (off <= c < off + w)%nat ->
      upd_at S0 (band_row bw g (off + j)) (off + j) y1 r c = upd_at S0' (band_row bw g (off + j)) (off + j) y1 r c).
    { intros r c Hc; unfold upd_at; destruct ((r =? band_row bw g (off + j))%nat && (c =? off + j)%nat);
        [reflexivity | apply H; exact Hc]. }
    destruct (IH (fun k Hk => Hj k (or_intror Hk)) _ _ _ _ _ _ _ HS E E') as (Ha & Hb & Hc).
    split; [exact Ha|]. split; [exact Hb|].
    intros r c Hrc. rewrite (Hc r c Hrc). unfold upd_at.
    destruct (Nat.eqb_spec c (off + j)); [lia|]. rewrite andb_false_r. reflexivity.
Qed.

Lemma zero_step_local bw nc off w m i B Rc y B' Rc' y' A C b :
  (i < w)%nat -> win_eq off w B Rc y B' Rc' y' ->
  let r := zero_step bw nc off w m
    {| bs_band := B; bs_common := Rc; bs_y := y; bs_A := A; bs_C := C; bs_b := b |} i in
  let r' := zero_step bw nc off w m
    {| bs_band := B'; bs_common := Rc'; bs_y := y'; bs_A := A; bs_C := C; bs_b := b |} i in
  win_eq off w (bs_band r) (bs_common r) (bs_y r) (bs_band r') (bs_common r') (bs_y r') /\
  bs_A r = bs_A r' /\ bs_C r = bs_C r' /\ bs_b r = bs_b r' /\
  out_eq off w (bs_band r) (bs_common r) (bs_y r) B Rc y.
Proof.
  intros Hi (HB & HR & Hy). unfold zero_step.
  cbn [bs_band bs_common bs_y bs_A bs_C bs_b].
  set (g := (i + off)%nat). assert (Hg : (off <= g < off + w)%nat) by (unfold g; lia).
  rewrite <- (HB (band_row bw g g) g Hg).
  destruct (hh_vec (B (band_row bw g g) g) m (col A i)) as [[beta mu] v].
  destruct (Reqb beta 0).
  { cbn. repeat split; auto. }
  assert (ER : Rc g = Rc' g) by (apply functional_extensionality; intros c; apply HR; exact Hg).
  rewrite <- ER, <- (Hy g Hg).
  destruct (apply_band bw g off beta m v (seq (S i) (w - S i)) (upd_at B (band_row bw g g) g mu) (upd_col A i v))
    as [S1 A1] eqn:E1.
  destruct (apply_band bw g off beta m v (seq (S i) (w - S i)) (upd_at B' (band_row bw g g) g mu) (upd_col A i v))
    as [S2 A2] eqn:E2.
  destruct (apply_cols beta m v (seq 0 nc) (Rc g) C) as [rc C1].
  destruct (hh_apply beta m v (y g) b) as [y1 b1].
  cbn [bs_band bs_common bs_y bs_A bs_C bs_b].
  assert (HS : forall r c, (off <= c < off + w)%nat ->
    upd_at B (band_row bw g g) g mu r c = upd_at B' (band_row bw g g) g mu r c).
  { intros r c Hc; unfold upd_at;
      destruct ((r =? band_row bw g g)%nat && (c =? g)%nat); [reflexivity | apply HB; exact Hc]. }
  assert (Hjs : forall j, In j (seq (S i) (w - S i)) -> (j < w)%nat) by (intros j Hj; apply in_seq in Hj; lia).
  destruct (apply_band_local bw g off w beta m v _ Hjs _ _ _ _ _ _ _ HS E1 E2)
    as (Ha & Hb & Hc).
  split.
  { split; [exact Ha|]. split.
    - intros r c Hr. unfold upd_row. destruct (r =? g)%nat; [reflexivity|]. apply HR. exact Hr.
    - intros r Hr. unfold upd. destruct (r =? g)%nat; [reflexivity|]. apply Hy. exact Hr. }
  split; [exact Hb|]. split; [reflexivity|]. split; [reflexivity|].
  split.
  { intros r c Hrc. rewrite (Hc r c Hrc). unfold upd_at. destruct (Nat.eqb_spec c g); [lia|].
    rewrite andb_false_r. reflexivity. }
  split.
  - intros r c Hr. unfold upd_row. destruct (Nat.eqb_spec r g); [lia|reflexivity].
  - intros r Hr. unfold upd. destruct (Nat.eqb_spec r g); [lia|reflexivity].
Qed.

Lemma common_step_local nb nc m i Rc y Rc' y' C b :
  bot_eq nb Rc y Rc' y' ->
  let '(R1, y1, C1, b1) := common_step nb nc m (Rc, y, C, b) i in
  let '(R2, y2, C2, b2) := common_step nb nc m (Rc', y', C, b) i in
  bot_eq nb R1 y1 R2 y2 /\ C1 = C2 /\ b1 = b2 /\
  (forall r c, (r < nb)%nat -> R1 r c = Rc r c) /\ (forall r, (r < nb)%nat -> y1 r = y r).
Proof.
  intros (HR & Hy). unfold common_step.
  assert (ER : Rc (i + nb)%nat = Rc' (i + nb)%nat)
    by (apply functional_extensionality; intros c; apply HR; lia).
  rewrite <- ER. rewrite <- (Hy (nb + i)%nat) by lia.
  destruct (hh_vec (Rc (i + nb)%nat i) m (col C i)) as [[beta mu] v].
  destruct (Reqb beta 0).
  { repeat split; auto. }
  assert (EU : upd_at Rc (i + nb) i mu (i + nb)%nat = upd_at Rc' (i + nb) i mu (i + nb)%nat).
  { unfold upd_at. apply functional_extensionality; intros c. rewrite ER. reflexivity. }
  rewrite <- EU.
  destruct (apply_cols beta m v (seq (S i) (nc - S i)) (upd_at Rc (i + nb) i mu (i + nb)%nat) (upd_col C i v))
    as [r C1].
  destruct (hh_apply beta m v (y (nb + i)%nat) b) as [y1 b1].
  split.
  { split.
    - intros r' c Hr. unfold upd_row, upd_at. destruct (Nat.eqb_spec r' (i + nb)); [reflexivity|].
      cbn [andb]. apply HR. exact Hr.
    - intros r' Hr. unfold upd. destruct (r' =? nb + i)%nat; [reflexivity|]. apply Hy. exact Hr. }
  split; [reflexivity|]. split; [reflexivity|]. split.
  - intros r' c Hr. unfold upd_row, upd_at. destruct (Nat.eqb_spec r' (i + nb)); [lia|]. reflexivity.
  - intros r' Hr. unfold upd. destruct (Nat.eqb_spec r' (nb + i)); [lia|]. reflexivity.
Qed.

(** A whole loop over the columns, from any memory that agrees on the window. *)
Lemma zero_loop_local bw nc off w m k : forall B Rc y B' Rc' y' A C b, (k <= w)%nat ->
  win_eq off w B Rc y B' Rc' y' ->
  let r := fold_left (zero_step bw nc off w m) (seq 0 k)
    {| bs_band := B; bs_common := Rc; bs_y := y; bs_A := A; bs_C := C; bs_b := b |} in
  let r' := fold_left (zero_step bw nc off w m) (seq 0 k)
    {| bs_band := B'; bs_common := Rc'; bs_y := y'; bs_A := A; bs_C := C; bs_b := b |} in
  win_eq off w (bs_band r) (bs_common r) (bs_y r) (bs_band r') (bs_common r') (bs_y r') /\
  bs_A r = bs_A r' /\ bs_C r = bs_C r' /\ bs_b r = bs_b r' /\
  out_eq off w (bs_band r) (bs_common r) (bs_y r) B Rc y.
Proof.
  induction k as [|k IH]; intros B Rc y B' Rc' y' A C b Hk HW.
  - cbn. repeat split; auto; apply HW.
  - rewrite seq_S, !fold_left_app. cbn [fold_left plus].
    specialize (IH B Rc y B' Rc' y' A C b ltac:(lia) HW). cbv zeta in IH |- *.
    destruct (fold_left (zero_step bw nc off w m) (seq 0 k) {| bs_band := B |}) as [B1 R1 y1 A1 C1 b1].
    destruct (fold_left (zero_step bw nc off w m) (seq 0 k) {| bs_band := B' |}) as [B2 R2 y2 A2 C2 b2].
    cbn [bs_band bs_common bs_y bs_A bs_C bs_b] in IH.
    destruct IH as (HW1 & <- & <- & <- & HO).
    destruct (zero_step_local bw nc off w m k B1 R1 y1 B2 R2 y2 A1 C1 b1 ltac:(lia) HW1)
      as (Ha & Hb & Hc & Hd & He).
    split; [exact Ha|]. split; [exact Hb|]. split; [exact Hc|]. split; [exact Hd|].
    destruct HO as (O1 & O2 & O3), He as (E1 & E2 & E3).
    split; [intros; rewrite E1 by assumption; apply O1; assumption|].
    split; [intros; rewrite E2 by assumption; apply O2; assumption|].
    intros; rewrite E3 by assumption; apply O3; assumption.
Qed.

Lemma common_loop_local nb nc m k : forall Rc y Rc' y' C b,
  bot_eq nb Rc y Rc' y' ->
  let '(R1, y1, C1, b1) := fold_left (common_step nb nc m) (seq 0 k) (Rc, y, C, b) in
  let '(R2, y2, C2, b2) := fold_left (common_step nb nc m) (seq 0 k) (Rc', y', C, b) in
  bot_eq nb R1 y1 R2 y2 /\ C1 = C2 /\ b1 = b2 /\
  (forall r c, (r < nb)%nat -> R1 r c = Rc r c) /\ (forall r, (r < nb)%nat -> y1 r = y r).
Proof.
  induction k as [|k IH]; intros Rc y Rc' y' C b H.
  - cbn. repeat split; auto; apply H.
  - rewrite seq_S, !fold_left_app. cbn [fold_left plus].
    specialize (IH Rc y Rc' y' C b H).
    destruct (fold_left (common_step nb nc m) (seq 0 k) (Rc, y, C, b)) as [[[R1 y1] C1] b1].
    destruct (fold_left (common_step nb nc m) (seq 0 k) (Rc', y', C, b)) as [[[R2 y2] C2] b2].
    destruct IH as (Hb & <- & <- & Ht & Hty).
    pose proof (common_step_local nb nc m k R1 y1 R2 y2 C1 b1 Hb) as L.
    destruct (common_step nb nc m (R1, y1, C1, b1) k) as [[[R3 y3] C3] b3].
    destruct (common_step nb nc m (R2, y2, C1, b1) k) as [[[R4 y4] C4] b4].
    destruct L as (L1 & L2 & L3 & L4 & L5).
    split; [exact L1|]. split; [exact L2|]. split; [exact L3|].
    split; [intros; rewrite L4 by assumption; auto | intros; rewrite L5 by assumption; auto].
Qed.

(** A block without rows changes nothing. *)
Lemma hh_vec_none x1 x : hh_vec x1 0 x = (0, x1, x).
Proof. unfold hh_vec, sumn. cbn. destruct (Reqb_spec 0 0); [reflexivity|congruence]. Qed.
Lemma zero_none bw nc off w k : forall s,
  let r := fold_left (zero_step bw nc off w 0) (seq 0 k) s in
  bs_band r = bs_band s /\ bs_common r = bs_common s /\ bs_y r = bs_y s.
Proof.
  induction k as [|k IH]; intros s; [cbn; auto|].
  rewrite seq_S, fold_left_app. cbn [fold_left plus]. specialize (IH s). cbv zeta in IH |- *.
  destruct (fold_left (zero_step bw nc off w 0) (seq 0 k) s) as [B R1 y A C b]. cbn in IH.
  unfold zero_step. cbn [bs_band bs_common bs_y bs_A bs_C bs_b]. rewrite hh_vec_none.
  destruct (Reqb_spec 0 0); [|congruence]. cbn. exact IH.
Qed.
Lemma common_none nb nc k : forall Rc y C b,
  exists C' b', fold_left (common_step nb nc 0) (seq 0 k) (Rc, y, C, b) = (Rc, y, C', b').
Proof.
  induction k as [|k IH]; intros Rc y C b; [cbn; eauto|].
  rewrite seq_S, fold_left_app. destruct (IH Rc y C b) as (C' & b' & E). rewrite E.
  cbn [fold_left plus]. unfold common_step. rewrite hh_vec_none.
  destruct (Reqb_spec 0 0); [|congruence]. eauto.
Qed.
Lemma bq_add_none q off w A C b : bq_add q off w 0 A C b = q.
Proof.
  unfold bq_add, zero_banded. cbv zeta.
  match goal with |- context [fold_left (zero_step ?a ?b ?c ?d 0) ?l ?s] =>
    pose proof (zero_none a b c d w s) as H; cbv zeta in H;
    destruct (fold_left (zero_step a b c d 0) l s) as [B Rc y A1 C1 b1] end.
  cbn [bs_band bs_common bs_y bs_C bs_b] in *. destruct H as (-> & -> & ->).
  unfold add_common. cbn [bq_nb bq_nc bq_bw bq_lambda bq_band bq_common bq_y].
  destruct (common_none (bq_nb q) (bq_nc q) (bq_nc q) (bq_common q) (bq_y q) C1 b1) as (C' & b' & E).
  rewrite E. destruct q; reflexivity.
Qed.
