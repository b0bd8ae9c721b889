(** The block solver: what it keeps, and the minimiser it returns. *)

From Coq Require Import FunctionalExtensionality Reals List Arith Bool Lia Lra.
From Verif Require Import Prelude LinAlg Rbool Loops QR_spec QR_model QR_gen_proofs QR_proofs BlockQR_spec BlockQR_model BlockQR_runs_spec BlockQR_proofs.
Import ListNotations.
Local Open Scope R_scope.
Local Open Scope outcome_scope.

Definition ob_left (nc : nat) (k : obk) (x z : vec) (r : nat) : R :=
  sumn (ob_n k) (fun j => ob_R k r j * x j) + sumn nc (fun j => ob_C k r j * z j) - ob_y k r.
Definition ob_res (nc : nat) (k : obk) (x z : vec) : R :=
  sumn (ob_n k) (fun r => ob_left nc k x z r * ob_left nc k x z r).
Definition nn_left (q : qr) (z : vec) (r : nat) : R := sumn (q_n q) (fun j => q_R q r j * z j) - q_y q r.
Definition nn_res (q : qr) (z : vec) : R := sumn (q_n q) (fun r => nn_left q z r * nn_left q z r).

Definition as_block (q : qr) : lsq_block := {| lb_rows := q_n q; lb_A := q_R q; lb_b := q_y q |}.

Lemma bigy_l n (x z : vec) j : (j < n)%nat -> bigy n x z j = x j.
Proof. intros. unfold bigy. ltb_split; reflexivity. Qed.
Lemma bigy_r n (x z : vec) j : bigy n x z (n + j)%nat = z j.
Proof. intros. unfold bigy. ltb_split. f_equal. lia. Qed.

Lemma res_of_big k q x z :
  objective (ob_n k + q_n q) 0 [as_block (bigq k q)] (bigy (ob_n k) x z) = ob_res (q_n q) k x z + nn_res q z.
Proof.
  unfold objective. cbn [map rsum as_block lb_rows lb_A lb_b bigq q_n q_R q_y].
  set (n := ob_n k). set (nc := q_n q).
  rewrite Rmult_0_l, Rmult_0_l, Rplus_0_l, Rplus_0_r. rewrite (sumn_split n nc). f_equal.
  - unfold ob_res. fold n. apply sumn_ext. intros r Hr.
    assert (E : sumn (n + nc) (fun j => bigR n (ob_R k) (ob_C k) (q_R q) r j * bigy n x z j) -
                bigy n (ob_y k) (q_y q) r = ob_left nc k x z r).
    { unfold ob_left. fold n. rewrite sumn_split, bigy_l by exact Hr. f_equal. f_equal.
      - apply sumn_ext. intros j Hj. rewrite bigy_l by exact Hj. unfold bigR. ltb_split. rewrite glue_l by exact Hj. reflexivity.
      - apply sumn_ext. intros j Hj. rewrite bigy_r. unfold bigR. destruct (Nat.ltb_spec r n); [|lia]. rewrite glue_r'. reflexivity. }
    rewrite E. reflexivity.
  - unfold nn_res. fold nc. apply sumn_ext. intros r Hr.
    assert (E : sumn (n + nc) (fun j => bigR n (ob_R k) (ob_C k) (q_R q) (n + r)%nat j * bigy n x z j) -
                bigy n (ob_y k) (q_y q) (n + r)%nat = nn_left q z r).
    { unfold nn_left. fold nc. rewrite sumn_split, bigy_r. f_equal.
      rewrite (sumn_zero n).
      - rewrite Rplus_0_l. apply sumn_ext. intros j Hj. rewrite bigy_r. unfold bigR. ltb_split.
        f_equal. f_equal; lia.
      - intros j Hj. unfold bigR. ltb_split. ring. }
    rewrite E. reflexivity.
Qed.

Lemma same_quad n Bs Bs' :
  (forall i j, (i < n)%nat -> (j < n)%nat -> gram 0 Bs i j = gram 0 Bs' i j) ->
  (forall i, (i < n)%nat -> rhs Bs i = rhs Bs' i) ->
  exists K, forall x, objective n 0 Bs x + K = objective n 0 Bs' x.
Proof.
  intros HG Hr.
  exists (rsum (map (fun B => sumn (lb_rows B) (fun k => lb_b B k * lb_b B k)) Bs') -
          rsum (map (fun B => sumn (lb_rows B) (fun k => lb_b B k * lb_b B k)) Bs)).
  intros x. rewrite !objective_expand.
  rewrite (sumn_ext n (fun i => sumn n (fun j => gram 0 Bs i j * x i * x j))
    (fun i => sumn n (fun j => gram 0 Bs' i j * x i * x j))).
  - rewrite (sumn_ext n (fun i => rhs Bs i * x i) (fun i => rhs Bs' i * x i)).
    + ring.
    + intros i Hi. rewrite Hr by exact Hi. reflexivity.
  - intros i Hi. apply sumn_ext. intros j Hj. rewrite HG by assumption. reflexivity.
Qed.

Definition good_block (lam : R) (k : obk) : Prop :=
  upper (ob_n k) (ob_R k) /\ (forall r, (r < ob_n k)%nat -> lam * lam <= ob_R k r r * ob_R k r r).
Definition good_nn (lam : R) (q : qr) : Prop :=
  upper (q_n q) (q_R q) /\ (forall r, (r < q_n q)%nat -> lam * lam <= q_R q r r * q_R q r r).

Lemma upper_big k q : upper (ob_n k) (ob_R k) -> upper (q_n q) (q_R q) ->
  upper (ob_n k + q_n q) (bigR (ob_n k) (ob_R k) (ob_C k) (q_R q)).
Proof.
  intros H1 H2 r c Hr Hc. unfold bigR. destruct (Nat.ltb_spec r (ob_n k)).
  - rewrite glue_l by lia. apply H1; assumption.
  - destruct (Nat.ltb_spec c (ob_n k)); [reflexivity|]. apply H2; lia.
Qed.

(** One call, on the block it touches and on the common part. *)
Lemma step_facts eps lam k q m A C b :
  let nc := q_n q in
  let s0 := {| ds_R := ob_R k; ds_C := ob_C k; ds_y := ob_y k; ds_A := A; ds_AC := C; ds_b := b |} in
  loop_exact eps (ob_n k) nc m 0 (ob_n k) s0 ->
  good_block lam k -> good_nn lam q ->
  let s := diag_loop eps (ob_n k) nc m s0 in
  let k' := {| ob_n := ob_n k; ob_nc := nc; ob_R := ds_R s; ob_C := ds_C s; ob_y := ds_y s |} in
  let q' := qr_add q m (ds_AC s) (ds_b s) in
  q_n q' = nc /\ good_block lam k' /\ good_nn lam q' /\
  (exists K, forall x z,
     ob_res nc k' x z + nn_res q' z + K =
     ob_res nc k x z + nn_res q z +
     sumn m (fun r => (sumn (ob_n k) (fun j => A r j * x j) + sumn nc (fun j => C r j * z j) - b r) *
                      (sumn (ob_n k) (fun j => A r j * x j) + sumn nc (fun j => C r j * z j) - b r))) /\
  (forall j, (j < ob_n k)%nat ->
     sumn (ob_n k) (fun r => ob_R k' r j * ob_y k' r) =
     sumn (ob_n k) (fun r => ob_R k r j * ob_y k r) + sumn m (fun r => A r j * b r)) /\
  (forall j, (j < nc)%nat ->
     sumn (ob_n k) (fun r => ob_C k' r j * ob_y k' r) + sumn nc (fun r => q_R q' r j * q_y q' r) =
     sumn (ob_n k) (fun r => ob_C k r j * ob_y k r) + sumn nc (fun r => q_R q r j * q_y q r) +
     sumn m (fun r => C r j * b r)).
Proof.
  intros nc s0 He [Uk Dk] [Uq Dq] s k' q'.
  pose proof (add_big eps k q m A C b He) as HB. cbv zeta in HB. fold nc s0 in HB. fold s in HB.
  fold k' in HB. fold q' in HB.
  pose proof (qr_add_spec (bigq k q) m (glue (ob_n k) A C) b (upper_big k q Uk Uq)) as HS.
  cbv zeta in HS. rewrite <- HB in HS. clear HB.
  destruct HS as (Hn & Hu & HG & Hr & Hd).
  assert (Hq : q_n q' = nc).
  { cbn [bigq q_n] in Hn. unfold k' in Hn. cbn [ob_n] in Hn. lia. }
  change (q_n (bigq k q)) with (ob_n k + nc)%nat in *.
  set (n := ob_n k) in *.
  assert (Hn' : ob_n k' = n) by reflexivity.
  change (q_R (bigq k' q')) with (bigR n (ob_R k') (ob_C k') (q_R q')) in *.
  change (q_y (bigq k' q')) with (bigy n (ob_y k') (q_y q')) in *.
  change (q_R (bigq k q)) with (bigR n (ob_R k) (ob_C k) (q_R q)) in *.
  change (q_y (bigq k q)) with (bigy n (ob_y k) (q_y q)) in *.
  assert (B11 : forall (R0 C0 Rn : mat) r c, (r < n)%nat -> (c < n)%nat -> bigR n R0 C0 Rn r c = R0 r c).
  { intros. unfold bigR. destruct (Nat.ltb_spec r n); [|lia]. apply glue_l. assumption. }
  assert (B12 : forall (R0 C0 Rn : mat) r c, (r < n)%nat -> bigR n R0 C0 Rn r (n + c)%nat = C0 r c).
  { intros. unfold bigR. destruct (Nat.ltb_spec r n); [|lia]. apply glue_r'. }
  assert (B21 : forall (R0 C0 Rn : mat) r c, (c < n)%nat -> bigR n R0 C0 Rn (n + r)%nat c = 0).
  { intros. unfold bigR. ltb_split; reflexivity. }
  assert (B22 : forall (R0 C0 Rn : mat) r c, bigR n R0 C0 Rn (n + r)%nat (n + c)%nat = Rn r c).
  { intros. unfold bigR. ltb_split. f_equal; lia. }
  assert (Col1 : forall (R0 C0 Rn : mat) (y0 yn : vec) j, (j < n)%nat ->
     sumn (n + nc) (fun r => bigR n R0 C0 Rn r j * bigy n y0 yn r) = sumn n (fun r => R0 r j * y0 r)).
  { intros. rewrite sumn_split, (sumn_zero nc), Rplus_0_r.
    - apply sumn_ext. intros r Hr0. rewrite B11, bigy_l by assumption. reflexivity.
    - intros r Hr0. rewrite B21 by assumption. ring. }
  assert (Col2 : forall (R0 C0 Rn : mat) (y0 yn : vec) j,
     sumn (n + nc) (fun r => bigR n R0 C0 Rn r (n + j)%nat * bigy n y0 yn r) =
     sumn n (fun r => C0 r j * y0 r) + sumn nc (fun r => Rn r j * yn r)).
  { intros. rewrite sumn_split. f_equal.
    - apply sumn_ext. intros r Hr0. rewrite B12, bigy_l by assumption. reflexivity.
    - apply sumn_ext. intros r Hr0. rewrite B22, bigy_r. reflexivity. }
  split; [exact Hq|]. split; [|split; [|split; [|split]]].
  - split.
    + rewrite Hn'. intros r c Hr0 Hc. rewrite <- (B11 (ob_R k') (ob_C k') (q_R q')) by lia.
      apply Hu; lia.
    + rewrite Hn'. intros r Hr0. specialize (Hd r ltac:(lia)). rewrite !B11 in Hd by assumption.
      specialize (Dk r Hr0). lra.
  - split; rewrite Hq.
    + intros r c Hr0 Hc. rewrite <- (B22 (ob_R k') (ob_C k') (q_R q')). apply Hu; lia.
    + intros r Hr0. specialize (Hd (n + r)%nat ltac:(lia)). rewrite !B22 in Hd.
      specialize (Dq r Hr0). lra.
  - destruct (same_quad (n + nc) [as_block (bigq k' q')]
      [as_block (bigq k q); {| lb_rows := m; lb_A := glue n A C; lb_b := b |}]) as [K HK].
    + intros i j Hi Hj. unfold gram. cbn [map rsum as_block lb_rows lb_A lb_b].
      cbn [bigq q_n q_R q_y]. rewrite ?Hn', Hq. fold n nc.
      rewrite !Rplus_0_r. rewrite HG by assumption. reflexivity.
    + intros i Hi. unfold rhs. cbn [map rsum as_block lb_rows lb_A lb_b].
      cbn [bigq q_n q_R q_y]. rewrite ?Hn', Hq. fold n nc.
      rewrite !Rplus_0_r. rewrite Hr by assumption. reflexivity.
    + exists K. intros x z. specialize (HK (bigy n x z)).
      pose proof (res_of_big k' q' x z) as E1. rewrite Hn', Hq in E1. rewrite E1 in HK. rewrite HK.
      pose proof (res_of_big k q x z) as E2. fold n nc in E2.
      unfold objective in HK, E2 |- *. cbn [map rsum] in HK, E2 |- *.
      rewrite !Rmult_0_l, !Rplus_0_l, !Rplus_0_r in *. rewrite E2. f_equal.
      cbn [lb_rows lb_A lb_b]. apply sumn_ext. intros r Hr0.
      rewrite sumn_split.
      rewrite (sumn_ext n (fun j => glue n A C r j * bigy n x z j) (fun j => A r j * x j))
        by (intros j Hj; rewrite glue_l, bigy_l by exact Hj; reflexivity).
      rewrite (sumn_ext nc (fun j => glue n A C r (n + j)%nat * bigy n x z (n + j)%nat) (fun j => C r j * z j))
        by (intros j Hj; rewrite glue_r', bigy_r; reflexivity).
      reflexivity.
  - intros j Hj. specialize (Hr j ltac:(lia)). rewrite !Col1 in Hr by exact Hj.
    rewrite Hr. f_equal. apply sumn_ext. intros r Hr0. rewrite glue_l by exact Hj. reflexivity.
  - intros j Hj. specialize (Hr (n + j)%nat ltac:(lia)). rewrite !Col2 in Hr.
    rewrite Hr. f_equal. apply sumn_ext. intros r Hr0. rewrite glue_r'. reflexivity.
Qed.

(** ** The blocks *)
Record inv (nb : nat) (w : nat -> nat) (nc : nat) (lam : R) (Bs : list block_rows) (q : obq) : Prop := {
  iv_nc : q_n (oq_nn q) = nc;
  iv_lam : oq_lambda q = lam;
  iv_len : (length (oq_blocks q) <= nb)%nat;
  iv_nn : good_nn lam (oq_nn q);
  iv_blk : forall i, good_block lam (blk q i) /\
     ((blk q i = ob_empty /\ (forall B, In B Bs -> br_blk B <> i)) \/
      ((i < length (oq_blocks q))%nat /\ ob_n (blk q i) = w i /\ ob_nc (blk q i) = nc));
  iv_sum : exists K, forall x z,
     sumn nb (fun i => ob_res nc (blk q i) (x i) z) + nn_res (oq_nn q) z + K =
     block_objective nb (fun i => ob_n (blk q i)) nc lam Bs x z;
  iv_rhs : forall i j, (j < ob_n (blk q i))%nat ->
     sumn (ob_n (blk q i)) (fun r => ob_R (blk q i) r j * ob_y (blk q i) r) = block_rhs Bs i j;
  iv_crhs : forall j, (j < nc)%nat ->
     sumn nb (fun i => sumn (ob_n (blk q i)) (fun r => ob_C (blk q i) r j * ob_y (blk q i) r)) +
     sumn nc (fun r => q_R (oq_nn q) r j * q_y (oq_nn q) r) = common_rhs Bs j
}.

Lemma sumn_change n i f g : (i < n)%nat -> (forall r, r <> i -> f r = g r) -> sumn n f = sumn n g - g i + f i.
Proof.
  intros Hi H. assert (E : sumn n (fun r => f r - g r) = f i - g i).
  { apply (sumn_single n i); [exact Hi|]. intros r _ Hr. rewrite H by exact Hr. ring. }
  rewrite sumn_minus in E. lra.
Qed.

Lemma fresh_upper n nc lam : good_block lam (ob_fresh n nc lam).
Proof.
  split.
  - intros r c _ Hc. cbn. destruct (Nat.eqb_spec r c); [lia|reflexivity].
  - intros r _. cbn. rewrite Nat.eqb_refl. lra.
Qed.

Lemma new_inv nb w nc lam : inv nb w nc lam [] (oq_new nc lam).
Proof.
  assert (Eb : forall i, blk (oq_new nc lam) i = ob_empty) by (intros [|i]; reflexivity).
  split; try reflexivity.
  - cbn. lia.
  - split.
    + intros r c _ Hc. cbn. destruct (Nat.eqb_spec r c); [lia|reflexivity].
    + intros r _. cbn. rewrite Nat.eqb_refl. lra.
  - intros i. rewrite Eb. split.
    + split; intros r; [intros c _ Hc; reflexivity|cbn; lia].
    + left. split; [reflexivity|]. intros B [].
  - exists 0. intros x z. unfold block_objective. cbn [map rsum].
    rewrite (sumn_zero nb (fun i => ob_res nc (blk (oq_new nc lam) i) (x i) z))
      by (intros; rewrite Eb; reflexivity).
    rewrite (sumn_zero nb (fun i => sumn (ob_n (blk (oq_new nc lam) i)) (fun j => x i j * x i j)))
      by (intros; rewrite Eb; reflexivity).
    rewrite Rplus_0_l, !Rplus_0_r, Rplus_0_l. unfold nn_res. cbn [oq_new oq_nn qr_reset q_n].
    rewrite <- sumn_scal. apply sumn_ext. intros r Hr.
    assert (E : nn_left (qr_reset nc lam) z r = lam * z r).
    { unfold nn_left. cbn [qr_reset q_n q_R q_y]. rewrite (sumn_single nc r); [rewrite Nat.eqb_refl; ring|exact Hr|].
      intros j _ Hj. destruct (Nat.eqb_spec r j); [congruence|ring]. }
    rewrite E. ring.
  - intros i j. rewrite Eb. cbn. lia.
  - intros j Hj. unfold common_rhs. cbn [map rsum].
    rewrite (sumn_zero nb) by (intros; rewrite Eb; reflexivity).
    rewrite sumn_zero; [ring|]. intros r Hr. cbn. ring.
Qed.

Lemma nth_pad {A} (l : list A) n d i : nth i (l ++ repeat d n) d = nth i l d.
Proof.
  destruct (Nat.lt_ge_cases i (length l)).
  - apply app_nth1. assumption.
  - rewrite app_nth2 by lia. rewrite (nth_overflow l) by lia.
    destruct (Nat.lt_ge_cases (i - length l) n).
    + rewrite nth_repeat. reflexivity.
    + rewrite nth_overflow; [reflexivity|]. rewrite repeat_length. lia.
Qed.

Lemma add_inv eps nb w nc lam Bs q B :
  inv nb w nc lam Bs q -> (br_blk B < nb)%nat -> br_w B = w (br_blk B) -> add_exact eps q B ->
  exists q', oq_add eps q B = Ok q' /\ inv nb w nc lam (Bs ++ [B]) q' /\
    (length (oq_blocks q') = Nat.max (length (oq_blocks q)) (S (br_blk B))).
Proof.
  intros I HB Hw He. destruct I as [I1 I2 I3 I4 I5 [K I6] I7 I8].
  set (i := br_blk B) in *.
  set (bl := oq_blocks q ++ repeat ob_empty (S i - length (oq_blocks q))).
  assert (Lbl : length bl = Nat.max (length (oq_blocks q)) (S i)).
  { unfold bl. rewrite app_length, repeat_length. lia. }
  assert (Nbl : forall j, nth j bl ob_empty = blk q j).
  { intros j. unfold bl. apply nth_pad. }
  assert (Eold : nth_error bl i = Some (blk q i)).
  { rewrite (nth_error_nth' bl ob_empty) by lia. f_equal. apply Nbl. }
  set (old := blk q i) in *.
  set (k := start_block q B).
  assert (Hk : ob_n k = br_w B).
  { unfold k, start_block. fold i old. destruct (Nat.eqb_spec (ob_n old) 0) as [E|E]; [reflexivity|].
    destruct (I5 i) as [_ [[E1 _]|(_ & E1 & _)]]; fold old in E1.
    - rewrite E1 in E. cbn in E. lia.
    - rewrite E1, Hw. reflexivity. }
  assert (Gk : good_block lam k).
  { unfold k, start_block. fold i old. destruct (ob_n old =? 0)%nat.
    - rewrite I2. apply fresh_upper.
    - apply (I5 i). }
  (* starting the block changes nothing *)
  assert (Rk : forall x z, ob_res nc k x z - lam * lam * sumn (ob_n k) (fun j => x j * x j) =
                           ob_res nc old x z - lam * lam * sumn (ob_n old) (fun j => x j * x j)).
  { intros x z. unfold k, start_block. fold i old. destruct (Nat.eqb_spec (ob_n old) 0) as [E|E]; [|reflexivity].
    unfold ob_res. rewrite E, I1, I2. cbn [ob_fresh ob_n]. unfold sumn at 3 4. cbn [seq map rsum].
    rewrite <- sumn_scal. rewrite <- sumn_minus.
    rewrite sumn_zero; [ring|]. intros r Hr.
    assert (El : ob_left nc (ob_fresh (br_w B) nc lam) x z r = lam * x r).
    { unfold ob_left. cbn [ob_fresh ob_n ob_R ob_C ob_y].
      rewrite (sumn_zero nc) by (intros; ring).
      rewrite (sumn_single (br_w B) r); [rewrite Nat.eqb_refl; ring|exact Hr|].
      intros j _ Hj. destruct (Nat.eqb_spec r j); [congruence|ring]. }
    rewrite El. ring. }
  assert (Ck : forall j, sumn (ob_n k) (fun r => ob_C k r j * ob_y k r) = sumn (ob_n old) (fun r => ob_C old r j * ob_y old r)).
  { intros j. unfold k, start_block. fold i old. destruct (Nat.eqb_spec (ob_n old) 0) as [E|E]; [|reflexivity].
    rewrite E. cbn [ob_fresh ob_n ob_C ob_y]. rewrite sumn_zero by (intros; ring). reflexivity. }
  assert (Bk : forall j, (j < ob_n k)%nat -> sumn (ob_n k) (fun r => ob_R k r j * ob_y k r) = block_rhs Bs i j).
  { intros j Hj. destruct (Nat.eq_dec (ob_n old) 0) as [E|E].
    - destruct (I5 i) as [_ [[_ E1]|(_ & E1 & _)]].
      + unfold k, start_block. fold i old. destruct (Nat.eqb_spec (ob_n old) 0) as [_|?]; [|contradiction].
        cbn [ob_fresh ob_n ob_R ob_y]. rewrite sumn_zero by (intros; ring).
        unfold block_rhs. symmetry. apply rsum_map_zero. intros B0 HB0.
        destruct (Nat.eqb_spec (br_blk B0) i) as [E0|_]; [|reflexivity]. destruct (E1 B0 HB0 E0).
      + fold old in E1. rewrite Hk, Hw, <- E1, E in Hj. lia.
    - assert (Ek : k = old).
      { unfold k, start_block. fold i old. destruct (Nat.eqb_spec (ob_n old) 0); [contradiction|reflexivity]. }
      rewrite Ek in *. apply I7. exact Hj. }
  unfold add_exact in He. fold k in He. rewrite <- Hk in He.
  pose proof (step_facts eps lam k (oq_nn q) (br_rows B) (br_A B) (br_C B) (br_b B) He Gk I4) as SF.
  cbv zeta in SF. rewrite Hk in SF.
  unfold oq_add. fold i bl. rewrite (rd_some _ _ _ Eold). cbn [obind].
  assert (Est : (if (ob_n old =? 0)%nat then Ok (ob_fresh (br_w B) (q_n (oq_nn q)) (oq_lambda q))
                 else if (ob_n old =? br_w B)%nat then Ok old else CheckFail) = Ok k).
  { unfold k, start_block. fold i old. destruct (Nat.eqb_spec (ob_n old) 0) as [E|E]; [reflexivity|].
    destruct (Nat.eqb_spec (ob_n old) (br_w B)) as [_|N]; [reflexivity|].
    exfalso. apply N. rewrite <- Hk. unfold k, start_block. fold i old.
    destruct (Nat.eqb_spec (ob_n old) 0); [contradiction|reflexivity]. }
  rewrite Est. cbn [obind]. clear Est.
  match type of SF with q_n (qr_add _ _ (ds_AC ?s) _) = _ /\ _ => set (s1 := s) in * end.
  set (k' := {| ob_n := br_w B; ob_nc := q_n (oq_nn q); ob_R := ds_R s1; ob_C := ds_C s1; ob_y := ds_y s1 |}) in *.
  set (nn' := qr_add (oq_nn q) (br_rows B) (ds_AC s1) (ds_b s1)) in *.
  destruct SF as (S1 & S2 & S3 & [K' S4] & S5 & S6).
  destruct (wr_ok bl i k' ltac:(lia)) as (bl' & Ew & Lw & Nw & Ow).
  rewrite Ew. cbn [obind].
  eexists. split; [reflexivity|]. split; [|cbn [oq_blocks]; lia].
  set (q' := {| oq_lambda := oq_lambda q; oq_blocks := bl'; oq_nn := nn' |}).
  assert (Eb : blk q' i = k').
  { unfold blk. cbn [q' oq_blocks]. apply nth_error_nth. exact Nw. }
  assert (Ob : forall j, j <> i -> blk q' j = blk q j).
  { intros j Hj. rewrite <- Nbl. unfold blk. cbn [q' oq_blocks].
    specialize (Ow j Hj). destruct (Nat.lt_ge_cases j (length bl)).
    - rewrite (nth_error_nth' bl ob_empty), (nth_error_nth' bl' ob_empty) in Ow by lia. congruence.
    - rewrite !nth_overflow by lia. reflexivity. }
  assert (Hk' : ob_n k' = ob_n k) by (rewrite Hk; reflexivity).
  assert (Hkc : ob_nc k' = q_n (oq_nn q)) by reflexivity.
  clearbody k' nn'. rewrite I1 in *.
  assert (Hnk : ob_n k' = br_w B) by lia.
  split.
  - exact S1.
  - exact I2.
  - cbn [q' oq_blocks]. lia.
  - exact S3.
  - intros j. destruct (Nat.eq_dec j i) as [->|Nj].
    + rewrite Eb. split; [exact S2|]. right. cbn [q' oq_blocks]. split; [lia|]. split; [lia|]. exact Hkc.
    + rewrite Ob by exact Nj. destruct (I5 j) as [G [[E1 E2]|(E1 & E2 & E3)]]; (split; [exact G|]).
      * left. split; [exact E1|]. intros B0 H0. apply in_app_or in H0.
        destruct H0 as [H0|[<-|[]]]; [exact (E2 B0 H0)|]. intros E. apply Nj. symmetry. exact E.
      * right. cbn [q' oq_blocks]. split; [lia|]. split; assumption.
  - exists (K + K'). intros x z. specialize (I6 x z). specialize (S4 (x i) z).
    unfold block_objective in I6 |- *. rewrite map_app, rsum_app. cbn [map rsum].
    rewrite (sumn_change nb i (fun j => ob_res nc (blk q' j) (x j) z) (fun j => ob_res nc (blk q j) (x j) z) HB)
      by (intros j Hj; rewrite Ob by exact Hj; reflexivity).
    rewrite (sumn_change nb i (fun j => sumn (ob_n (blk q' j)) (fun l => x j l * x j l))
      (fun j => sumn (ob_n (blk q j)) (fun l => x j l * x j l)) HB)
      by (intros j Hj; rewrite Ob by exact Hj; reflexivity).
    rewrite Eb. fold old. change (oq_nn q') with nn'.
    specialize (Rk (x i) z). rewrite Hk'.
    unfold row_left in I6 |- *. fold i. rewrite Hk in Rk |- *.
    set (X1 := sumn nb (fun j => ob_res nc (blk q j) (x j) z)) in *.
    set (X2 := sumn nb (fun j => sumn (ob_n (blk q j)) (fun l => x j l * x j l))) in *.
    lra.
  - intros j l Hl. unfold block_rhs. rewrite map_app, rsum_app. cbn [map rsum]. fold (block_rhs Bs j l). fold i.
    destruct (Nat.eq_dec j i) as [->|Nj].
    + rewrite Eb in *. rewrite Nat.eqb_refl. rewrite Hnk in *. rewrite S5 by lia.
      rewrite <- Hk, Bk by lia. ring.
    + rewrite Ob in * by exact Nj. destruct (Nat.eqb_spec i j); [congruence|].
      rewrite (I7 j l Hl). ring.
  - intros j Hj. unfold common_rhs. rewrite map_app, rsum_app. cbn [map rsum]. fold (common_rhs Bs j).
    rewrite <- (I8 j Hj).
    rewrite (sumn_change nb i (fun l => sumn (ob_n (blk q' l)) (fun r => ob_C (blk q' l) r j * ob_y (blk q' l) r))
      (fun l => sumn (ob_n (blk q l)) (fun r => ob_C (blk q l) r j * ob_y (blk q l) r)) HB)
      by (intros l Hl; rewrite Ob by exact Hl; reflexivity).
    rewrite Eb. fold old. change (oq_nn q') with nn'. rewrite Hnk.
    specialize (S6 j Hj). specialize (Ck j). rewrite Hk in Ck.
    set (X1 := sumn nb (fun l => sumn (ob_n (blk q l)) (fun r => ob_C (blk q l) r j * ob_y (blk q l) r))) in *.
    lra.
Qed.

Lemma inv_app eps nb w nc lam : forall Bs Bs0 q,
  inv nb w nc lam Bs0 q -> rows_fit nb w Bs -> run_exact eps q Bs ->
  exists q', oq_run eps q Bs = Ok q' /\ inv nb w nc lam (Bs0 ++ Bs) q' /\
    (length (oq_blocks q) <= length (oq_blocks q'))%nat /\
    (forall B, In B Bs -> (br_blk B < length (oq_blocks q'))%nat).
Proof.
  induction Bs as [|B Bs IH]; intros Bs0 q I Hf He.
  - exists q. rewrite app_nil_r. split; [reflexivity|]. split; [exact I|]. split; [lia|]. intros B [].
  - destruct He as [He1 He2]. destruct (Hf B (or_introl eq_refl)) as [F1 F2].
    destruct (add_inv eps nb w nc lam Bs0 q B I F1 F2 He1) as (q1 & E1 & I1 & L1).
    destruct (IH (Bs0 ++ [B]) q1 I1) as (q2 & E2 & I2 & L2 & L3).
    + intros B0 H0. apply Hf. right. exact H0.
    + apply He2. exact E1.
    + exists q2. unfold oq_run in *. cbn [ofold]. rewrite E1. cbn [obind]. split; [exact E2|].
      rewrite <- app_assoc in I2. split; [exact I2|]. split; [lia|].
      intros B0 [<-|H0]; [lia|apply L3; exact H0].
Qed.

Lemma run_inv eps nb w nc lam Bs :
  rows_fit nb w Bs -> run_exact eps (oq_new nc lam) Bs ->
  exists q, oq_run eps (oq_new nc lam) Bs = Ok q /\ inv nb w nc lam Bs q /\
    (forall B, In B Bs -> (br_blk B < length (oq_blocks q))%nat).
Proof.
  intros Hf He. destruct (inv_app eps nb w nc lam Bs [] _ (new_inv nb w nc lam) Hf He) as (q & E & I & _ & L).
  exists q. auto.
Qed.

(** When every block got rows, the solver holds [nb] blocks of the right sizes. *)
Lemma inv_full nb w nc lam Bs q :
  inv nb w nc lam Bs q -> every_block nb Bs -> (forall B, In B Bs -> (br_blk B < length (oq_blocks q))%nat) ->
  length (oq_blocks q) = nb /\
  forall i, (i < nb)%nat -> ob_n (blk q i) = w i /\ ob_nc (blk q i) = nc.
Proof.
  intros I He HL. split.
  - apply Nat.le_antisymm; [apply (iv_len _ _ _ _ _ _ I)|]. destruct nb as [|n]; [lia|].
    destruct (He n ltac:(lia)) as (B & HB & E). specialize (HL B HB). lia.
  - intros i Hi. destruct (He i Hi) as (B & HB & E).
    destruct (iv_blk _ _ _ _ _ _ I i) as [_ [[_ H]|(_ & H1 & H2)]]; [destruct (H B HB E)|auto].
Qed.

(** ** The solution *)

Lemma tri_unique n (U : mat) (y x z : vec) :
  upper n U -> (forall i, (i < n)%nat -> U i i <> 0) ->
  (forall i, (i < n)%nat -> sumn n (fun j => U i j * x j) = y i) ->
  (forall i, (i < n)%nat -> sumn n (fun j => U i j * z j) = y i) ->
  forall j, (j < n)%nat -> z j = x j.
Proof.
  intros Hu Hd Hx Hz.
  pose proof (factor_minimises n 0 [{| lb_rows := n; lb_A := U; lb_b := y |}] U y x) as H.
  assert (M : unique_minimiser n (objective n 0 [{| lb_rows := n; lb_A := U; lb_b := y |}]) x).
  { apply H; auto.
    - intros i j Hi Hj. unfold gram. cbn [map rsum lb_rows lb_A lb_b]. destruct (i =? j)%nat; ring.
    - intros i Hi. unfold rhs. cbn [map rsum lb_rows lb_A lb_b]. ring. }
  destruct (M z) as [_ M2]. apply M2.
  assert (Z : forall v, (forall i, (i < n)%nat -> sumn n (fun j => U i j * v j) = y i) ->
     objective n 0 [{| lb_rows := n; lb_A := U; lb_b := y |}] v = 0).
  { intros v Hv. unfold objective. cbn [map rsum lb_rows lb_A lb_b].
    rewrite !Rmult_0_l, Rplus_0_l, Rplus_0_r. apply sumn_zero. intros k Hk. rewrite Hv by exact Hk. ring. }
  rewrite !Z by assumption. reflexivity.
Qed.

Lemma sumn_sq0 n (f : nat -> R) : sumn n (fun r => f r * f r) = 0 <-> (forall r, (r < n)%nat -> f r = 0).
Proof.
  split.
  - apply sumn_sq_zero.
  - intros H. apply sumn_zero. intros r Hr. rewrite H by exact Hr. ring.
Qed.

Definition sol_z (q : obq) : vec := oq_xn q.
Definition sol_x (q : obq) (i : nat) : vec :=
  let k := blk q i in
  tri_solve (ob_n k) (ob_R k) (fun r => ob_y k r - sumn (ob_nc k) (fun c => ob_C k r c * oq_xn q c)).

Section Sol.
Context (nb : nat) (w : nat -> nat) (nc : nat) (lam : R) (Bs : list block_rows) (q : obq).
Context (I : inv nb w nc lam Bs q) (Len : length (oq_blocks q) = nb)
  (Full : forall i, (i < nb)%nat -> ob_n (blk q i) = w i /\ ob_nc (blk q i) = nc).

Lemma dense_ok : oq_x_dense q = Ok (pack nb w nc (sol_x q) (sol_z q)).
Proof.
  unfold oq_x_dense, pack. rewrite (iv_nc _ _ _ _ _ _ I).
  assert (G : forall l acc, (forall k, In k l -> ob_nc k = nc) ->
    ofold (fun k acc => let* x := ob_solve q k in Ok (acc ++ x)) l acc =
    Ok (acc ++ flat_map (fun k => map (tri_solve (ob_n k) (ob_R k)
          (fun r => ob_y k r - sumn (ob_nc k) (fun c => ob_C k r c * oq_xn q c))) (seq 0 (ob_n k))) l)).
  { induction l as [|k l IH]; intros acc Hl.
    - cbn. rewrite app_nil_r. reflexivity.
    - cbn [ofold flat_map]. unfold ob_solve at 1. rewrite (Hl k (or_introl eq_refl)), (iv_nc _ _ _ _ _ _ I).
      rewrite Nat.eqb_refl. cbn [obind]. rewrite IH by (intros; apply Hl; right; assumption).
      rewrite <- app_assoc. reflexivity. }
  assert (Eb : oq_blocks q = map (blk q) (seq 0 nb)).
  { apply nth_ext with (d := ob_empty) (d' := ob_empty).
    - rewrite map_length, seq_length. exact Len.
    - intros i Hi. rewrite Len in Hi. rewrite (nth_indep _ ob_empty (blk q 0)) at 1 by lia.
      rewrite (nth_indep (map _ _) ob_empty (blk q 0)) by (rewrite map_length, seq_length; exact Hi).
      rewrite map_nth, seq_nth by exact Hi. cbn [Nat.add]. unfold blk at 2. apply nth_indep. lia. }
  rewrite G.
  - cbn [obind app]. rewrite Eb, flat_map_concat_map, map_map. do 2 f_equal.
    rewrite flat_map_concat_map. f_equal. apply map_ext_in. intros i Hi. apply in_seq in Hi.
    destruct (Full i ltac:(lia)) as [E _]. rewrite <- E. reflexivity.
  - intros k Hk. rewrite Eb in Hk. apply in_map_iff in Hk. destruct Hk as (i & <- & Hi).
    apply in_seq in Hi. apply Full. lia.
Qed.

Lemma xi_ok i : (i < nb)%nat -> oq_xi q i = Ok (map (sol_x q i) (seq 0 (w i))).
Proof.
  intros Hi. unfold oq_xi.
  assert (E : nth_error (oq_blocks q) i = Some (blk q i)) by (apply nth_error_nth'; lia).
  rewrite (rd_some _ _ _ E). cbn [obind]. unfold ob_solve.
  destruct (Full i Hi) as [F1 F2]. rewrite F2, (iv_nc _ _ _ _ _ _ I), Nat.eqb_refl.
  unfold sol_x. rewrite F2, F1. reflexivity.
Qed.

Context (Dk : forall i r, (i < nb)%nat -> (r < w i)%nat -> ob_R (blk q i) r r <> 0)
  (Dn : forall r, (r < nc)%nat -> q_R (oq_nn q) r r <> 0).

Lemma nn_sol r : (r < nc)%nat -> nn_left (oq_nn q) (sol_z q) r = 0.
Proof.
  intros Hr. unfold nn_left, sol_z, oq_xn. pose proof (iv_nc _ _ _ _ _ _ I) as E.
  rewrite (tri_solve_eqs (q_n (oq_nn q)) (q_R (oq_nn q)) (q_y (oq_nn q))).
  - ring.
  - rewrite E. exact Dn.
  - apply (iv_nn _ _ _ _ _ _ I).
  - lia.
Qed.

Lemma blk_sol i r : (i < nb)%nat -> (r < w i)%nat -> ob_left nc (blk q i) (sol_x q i) (sol_z q) r = 0.
Proof.
  intros Hi Hr. destruct (Full i Hi) as [F1 F2]. unfold ob_left, sol_x.
  rewrite (tri_solve_eqs (ob_n (blk q i)) (ob_R (blk q i))).
  - rewrite F2. unfold sol_z. ring.
  - rewrite F1. intros j Hj. apply Dk; assumption.
  - apply (iv_blk _ _ _ _ _ _ I i).
  - lia.
Qed.

Lemma block_sol : block_minimiser nb w nc (block_objective nb w nc lam Bs) (sol_x q) (sol_z q).
Proof.
  destruct (iv_sum _ _ _ _ _ _ I) as [K HK].
  assert (HK' : forall x z, block_objective nb w nc lam Bs x z =
     sumn nb (fun i => ob_res nc (blk q i) (x i) z) + nn_res (oq_nn q) z + K).
  { intros x z. rewrite HK. unfold block_objective. f_equal. f_equal. f_equal.
    apply sumn_ext. intros i Hi. destruct (Full i Hi) as [-> _]. reflexivity. }
  pose proof (iv_nc _ _ _ _ _ _ I) as Enc.
  assert (Z : block_objective nb w nc lam Bs (sol_x q) (sol_z q) = K).
  { rewrite HK'. rewrite sumn_zero.
    - unfold nn_res. rewrite Enc. rewrite sumn_zero; [ring|]. intros r Hr. rewrite nn_sol by exact Hr. ring.
    - intros i Hi. unfold ob_res. apply sumn_zero. destruct (Full i Hi) as [-> _].
      intros r Hr. rewrite blk_sol by assumption. ring. }
  intros x' z'. rewrite Z. rewrite HK'.
  assert (N1 : forall i, 0 <= ob_res nc (blk q i) (x' i) z').
  { intros i. apply sumn_sq_nonneg with (x := ob_left nc (blk q i) (x' i) z'). }
  assert (N2 : 0 <= nn_res (oq_nn q) z').
  { apply sumn_sq_nonneg with (x := nn_left (oq_nn q) z'). }
  assert (N3 : 0 <= sumn nb (fun i => ob_res nc (blk q i) (x' i) z')) by (apply sumn_nonneg; auto).
  split; [lra|]. intros E.
  assert (E2 : nn_res (oq_nn q) z' = 0) by lra.
  assert (E1 : sumn nb (fun i => ob_res nc (blk q i) (x' i) z') = 0) by lra.
  assert (Ez : forall j, (j < nc)%nat -> z' j = sol_z q j).
  { apply (tri_unique nc (q_R (oq_nn q)) (q_y (oq_nn q))).
    - rewrite <- Enc. apply (iv_nn _ _ _ _ _ _ I).
    - exact Dn.
    - intros i Hi. pose proof (nn_sol i Hi) as H. unfold nn_left in H. rewrite Enc in H. lra.
    - intros i Hi. unfold nn_res in E2. rewrite sumn_sq0 in E2. specialize (E2 i ltac:(lia)).
      unfold nn_left in E2. rewrite Enc in E2. lra. }
  split; [|exact Ez].
  intros i j Hi Hj. destruct (Full i Hi) as [F1 F2]. revert j Hj.
  assert (E3 : ob_res nc (blk q i) (x' i) z' = 0).
  { unfold sumn in E1. rewrite rsum_zero_iff in E1 by (intros; apply N1). apply E1. apply in_seq. lia. }
  unfold ob_res in E3. rewrite sumn_sq0 in E3.
  assert (Ec : forall r, sumn nc (fun j => ob_C (blk q i) r j * z' j) = sumn nc (fun j => ob_C (blk q i) r j * sol_z q j)).
  { intros r. apply sumn_ext. intros c Hc. rewrite Ez by exact Hc. reflexivity. }
  apply (tri_unique (w i) (ob_R (blk q i)) (fun r => ob_y (blk q i) r - sumn nc (fun j => ob_C (blk q i) r j * sol_z q j))).
  - rewrite <- F1. apply (iv_blk _ _ _ _ _ _ I i).
  - intros r Hr. apply Dk; assumption.
  - intros r Hr. pose proof (blk_sol i r Hi Hr) as H. unfold ob_left in H. rewrite F1 in H. lra.
  - intros r Hr. specialize (E3 r ltac:(lia)). unfold ob_left in E3. rewrite F1, Ec in E3. lra.
Qed.

End Sol.

Lemma pivots_nonzero nb w nc lam Bs q : inv nb w nc lam Bs q -> lam <> 0 ->
  (forall i, (i < nb)%nat -> ob_n (blk q i) = w i /\ ob_nc (blk q i) = nc) ->
  (forall i r, (i < nb)%nat -> (r < w i)%nat -> ob_R (blk q i) r r <> 0) /\
  (forall r, (r < nc)%nat -> q_R (oq_nn q) r r <> 0).
Proof.
  intros I Hl Full. assert (Hp : 0 < lam * lam) by (pose proof (Rle_0_sqr lam); unfold Rsqr in *; assert (lam * lam <> 0) by (apply Rmult_integral_contrapositive; auto); lra).
  split.
  - intros i r Hi Hr E. destruct (iv_blk _ _ _ _ _ _ I i) as [[_ D] _]. destruct (Full i Hi) as [F _].
    specialize (D r ltac:(lia)). rewrite E in D. lra.
  - intros r Hr E. destruct (iv_nn _ _ _ _ _ _ I) as [_ D].
    specialize (D r ltac:(rewrite (iv_nc _ _ _ _ _ _ I); exact Hr)). rewrite E in D. lra.
Qed.

(** ** A^T b *)
Lemma At_b_dense_ok nb w nc lam Bs q :
  inv nb w nc lam Bs q -> length (oq_blocks q) = nb ->
  (forall i, (i < nb)%nat -> ob_n (blk q i) = w i /\ ob_nc (blk q i) = nc) ->
  oq_At_b_n q = Ok (map (common_rhs Bs) (seq 0 nc)) /\
  oq_At_b_dense q = Ok (pack nb w nc (block_rhs Bs) (common_rhs Bs)).
Proof.
  intros I Len Full. pose proof (iv_nc _ _ _ _ _ _ I) as Enc.
  assert (Eb : oq_blocks q = map (blk q) (seq 0 nb)).
  { apply nth_ext with (d := ob_empty) (d' := ob_empty).
    - rewrite map_length, seq_length. exact Len.
    - intros i Hi. rewrite Len in Hi. rewrite (nth_indep _ ob_empty (blk q 0)) at 1 by lia.
      rewrite (nth_indep (map _ _) ob_empty (blk q 0)) by (rewrite map_length, seq_length; exact Hi).
      rewrite map_nth, seq_nth by exact Hi. cbn [Nat.add]. unfold blk at 2. apply nth_indep. lia. }
  assert (N : oq_At_b_n q = Ok (map (common_rhs Bs) (seq 0 nc))).
  { unfold oq_At_b_n. rewrite Enc.
    assert (G : forall is f, (forall i, In i is -> (i < nb)%nat) ->
      ofold (fun k acc => if (ob_nc k =? nc)%nat
             then Ok (map (fun '(a, j) => a + sumn (ob_n k) (fun r => ob_C k r j * ob_y k r)) (combine acc (seq 0 nc)))
             else CheckFail) (map (blk q) is) (map f (seq 0 nc)) =
      Ok (map (fun j => f j + rsum (map (fun i => sumn (ob_n (blk q i)) (fun r => ob_C (blk q i) r j * ob_y (blk q i) r)) is)) (seq 0 nc))).
    { induction is as [|i is IH]; intros f Hl; cbn [ofold map].
      - f_equal. apply map_ext. intros j. cbn. ring.
      - destruct (Full i ltac:(apply Hl; left; reflexivity)) as [_ ->]. rewrite Nat.eqb_refl. cbn [obind].
        assert (E : map (fun '(a, j) => a + sumn (ob_n (blk q i)) (fun r => ob_C (blk q i) r j * ob_y (blk q i) r))
                      (combine (map f (seq 0 nc)) (seq 0 nc)) =
                    map (fun j => f j + sumn (ob_n (blk q i)) (fun r => ob_C (blk q i) r j * ob_y (blk q i) r)) (seq 0 nc)).
        { generalize (seq 0 nc). induction l as [|a l IHl]; [reflexivity|]. cbn [map combine]. f_equal. exact IHl. }
        rewrite E, IH by (intros; apply Hl; right; assumption). f_equal. apply map_ext. intros j. cbn [map rsum]. ring. }
    rewrite Eb, G by (intros i Hi; apply in_seq in Hi; lia).
    f_equal. apply map_ext_in. intros j Hj. apply in_seq in Hj.
    rewrite <- (iv_crhs _ _ _ _ _ _ I j ltac:(lia)). rewrite Rplus_comm. reflexivity. }
  split; [exact N|]. unfold oq_At_b_dense. rewrite N. cbn [obind]. unfold pack. do 2 f_equal.
  rewrite Eb, !flat_map_concat_map, map_map. f_equal. apply map_ext_in. intros i Hi. apply in_seq in Hi.
  destruct (Full i ltac:(lia)) as [E _]. rewrite <- E. apply map_ext_in. intros j Hj. apply in_seq in Hj.
  apply (iv_rhs _ _ _ _ _ _ I). lia.
Qed.
