(** C115: the block solver. *)

From Coq Require Import Reals List Arith Bool Lia Lra.
From Verif Require Import Prelude LinAlg Rbool Loops QR_spec QR_model QR_gen_proofs QR_proofs QRBanded_proofs
  BlockQR_spec BlockQR_model BlockQR_runs_spec BlockQR_proofs BlockQR_inv_proofs.
Import ListNotations.
Local Open Scope R_scope.
Local Open Scope outcome_scope.

(** Rows are added to [nb] blocks, in any number and order.  If no column was taken for zero that is
    not, and lambda is not zero, all the calls succeed and x_dense() is the one minimiser of the
    regularised least-squares objective of all the rows; x_i() and x_n() are its parts. *)
Theorem block_qr_minimises_partial eps nb w nc lambda rows :
  lambda <> 0 -> rows_fit nb w rows -> every_block nb rows -> run_exact eps (oq_new nc lambda) rows ->
  exists q x z, oq_run eps (oq_new nc lambda) rows = Ok q /\
    block_minimiser nb w nc (block_objective nb w nc lambda rows) x z /\
    oq_x_dense q = Ok (pack nb w nc x z) /\
    (forall i, (i < nb)%nat -> oq_xi q i = Ok (map (x i) (seq 0 (w i)))) /\
    (forall j, (j < nc)%nat -> oq_xn q j = z j).
Proof.
  intros Hl Hf He Hx. destruct (run_inv eps nb w nc lambda rows Hf Hx) as (q & E & I & L).
  destruct (inv_full _ _ _ _ _ _ I He L) as [Len Full].
  destruct (pivots_nonzero _ _ _ _ _ _ I Hl Full) as [Dk Dn].
  exists q, (sol_x q), (sol_z q). split; [exact E|].
  split; [exact (block_sol _ _ _ _ _ _ I Len Full Dk Dn)|].
  split; [exact (dense_ok _ _ _ _ _ _ I Len Full)|].
  split; [intros i Hi; exact (xi_ok _ _ _ _ _ _ I Len Full i Hi)|]. reflexivity.
Qed.
Print Assumptions block_qr_minimises_partial.

(** Without regularisation the same holds as long as no pivot is zero. *)
Theorem block_qr_minimises_unregularised_partial eps nb w nc rows q :
  rows_fit nb w rows -> every_block nb rows -> run_exact eps (oq_new nc 0) rows ->
  oq_run eps (oq_new nc 0) rows = Ok q ->
  (forall i r, (i < nb)%nat -> (r < w i)%nat -> ob_R (blk q i) r r <> 0) ->
  (forall r, (r < nc)%nat -> q_R (oq_nn q) r r <> 0) ->
  exists x z, block_minimiser nb w nc (block_objective nb w nc 0 rows) x z /\
    oq_x_dense q = Ok (pack nb w nc x z).
Proof.
  intros Hf He Hx Eq Dk Dn. destruct (run_inv eps nb w nc 0 rows Hf Hx) as (q0 & E & I & L).
  rewrite Eq in E. injection E as <-.
  destruct (inv_full _ _ _ _ _ _ I He L) as [Len Full].
  exists (sol_x q), (sol_z q).
  split; [exact (block_sol _ _ _ _ _ _ I Len Full Dk Dn)|].
  exact (dense_ok _ _ _ _ _ _ I Len Full).
Qed.
Print Assumptions block_qr_minimises_unregularised_partial.

(** One block with one unknown and the equation 4 x = 8. *)
Example block_qr_unregularised_case :
  let B := {| br_blk := 0; br_w := 1; br_rows := 1; br_A := fun _ _ => 4; br_C := fun _ _ => 0; br_b := fun _ => 8 |} in
  exists q, oq_run (1 / 100000) (oq_new 0 0) [B] = Ok q /\ ob_R (blk q 0) 0%nat 0%nat <> 0.
Proof.
  intros B. eexists. split; [reflexivity|]. cbn. unfold diag_step. cbn [ds_A ds_R].
  assert (Z : is_zero (1 / 100000) 1 (col (fun _ _ => 4) 0) = false).
  { cbn. unfold col. rewrite Rabs_right by lra. destruct (Rleb_spec 4 (1 / 100000)); [lra|reflexivity]. }
  rewrite Z. cbn [Nat.eqb].
  destruct (hh_vec 0 1 (col (fun _ _ => 4) 0)) as [[beta mu] v] eqn:E.
  destruct (hh_vec_facts _ _ _ _ _ _ E) as (_ & Hm & Hp & _).
  unfold sumn, col in Hm, Hp. cbn in Hm, Hp.
  destruct (Reqb_spec beta 0) as [->|N].
  - exfalso. assert (E0 : mu = 0) by lra. rewrite E0 in Hm. lra.
  - cbn. intros E0. unfold upd_row, upd_at in E0. cbn in E0. rewrite E0 in Hm. lra.
Qed.

(** At_times_b_n(), At_times_b_dense() and At_times_b_dot() are A^T b and its products, under the same
    conditions and for every lambda. *)
Theorem block_qr_gradient_partial eps nb w nc lambda rows :
  rows_fit nb w rows -> every_block nb rows -> run_exact eps (oq_new nc lambda) rows ->
  exists q, oq_run eps (oq_new nc lambda) rows = Ok q /\
    oq_At_b_n q = Ok (map (common_rhs rows) (seq 0 nc)) /\
    oq_At_b_dense q = Ok (pack nb w nc (block_rhs rows) (common_rhs rows)) /\
    (forall v, length v = length (pack nb w nc (block_rhs rows) (common_rhs rows)) ->
       oq_At_b_dot q v =
       Ok (rsum (map (fun '(a, b) => a * b) (combine (pack nb w nc (block_rhs rows) (common_rhs rows)) v)))).
Proof.
  intros Hf He Hx. destruct (run_inv eps nb w nc lambda rows Hf Hx) as (q & E & I & L).
  destruct (inv_full _ _ _ _ _ _ I He L) as [Len Full].
  destruct (At_b_dense_ok _ _ _ _ _ _ I Len Full) as [H1 H2].
  exists q. split; [exact E|]. split; [exact H1|]. split; [exact H2|].
  intros v Hv. unfold oq_At_b_dot. rewrite H2. cbn [obind]. rewrite Hv, Nat.eqb_refl. reflexivity.
Qed.
Print Assumptions block_qr_gradient_partial.

(** The condition on the columns holds for all rows if the test for zero is exact... *)
Lemma is_zero_exact m v : zero_means_zero 0 m v.
Proof.
  intros H k Hk. unfold is_zero in H. rewrite forallb_forall in H.
  specialize (H k). rewrite in_seq in H. specialize (H ltac:(lia)).
  destruct (Rleb_spec (Rabs (v k)) 0) as [L|]; [|discriminate].
  pose proof (Rabs_pos (v k)). destruct (Req_dec (v k) 0) as [E|N]; [exact E|].
  pose proof (Rabs_pos_lt _ N). lra.
Qed.
Theorem block_qr_exact_test nc lambda rows : run_exact 0 (oq_new nc lambda) rows.
Proof.
  generalize (oq_new nc lambda). induction rows as [|B rows IH]; intros q; [exact I|].
  cbn [run_exact]. split; [|intros q' _; apply IH].
  unfold add_exact.
  match goal with |- loop_exact _ _ _ _ _ _ ?s => generalize s end.
  generalize (br_w B) at 2. intros len. generalize 0%nat. induction len as [|len IHl]; intros i s; [exact I|].
  cbn [loop_exact]. split; [apply is_zero_exact|apply IHl].
Qed.
Print Assumptions block_qr_exact_test.

(** ...and, with the test of the code, when each block has at most one unknown and each column holds
    a large entry or only zeros. *)
Theorem block_qr_single_columns eps nc lambda rows :
  (forall B, In B rows -> (br_w B <= 1)%nat) ->
  (forall B, In B rows -> (forall k, (k < br_rows B)%nat -> br_A B k 0%nat = 0) \/
                          (exists k, (k < br_rows B)%nat /\ eps < Rabs (br_A B k 0%nat))) ->
  run_exact eps (oq_new nc lambda) rows.
Proof.
  generalize (oq_new nc lambda). induction rows as [|B rows IH]; intros q Hw Ha; [exact I|].
  cbn [run_exact]. split.
  - unfold add_exact. specialize (Hw B (or_introl eq_refl)). specialize (Ha B (or_introl eq_refl)).
    assert (G : forall s, ds_A s = br_A B -> zero_means_zero eps (br_rows B) (col (ds_A s) 0)).
    { intros s -> Z. destruct Ha as [H|(k & Hk & H)]; [exact H|].
      unfold is_zero in Z. rewrite forallb_forall in Z. specialize (Z k). rewrite in_seq in Z.
      specialize (Z ltac:(lia)). unfold col in Z.
      destruct (Rleb_spec (Rabs (br_A B k 0%nat)) eps); [lra|discriminate]. }
    destruct (br_w B) as [|[|n]]; [exact I| |lia].
    cbn [loop_exact]. split; [apply G; reflexivity|exact I].
  - intros q' _. apply IH; intros B0 H0; [apply Hw|apply Ha]; right; exact H0.
Qed.
Print Assumptions block_qr_single_columns.

(** Two blocks of one unknown each, one common unknown, rows added out of order, float precision. *)
Definition case_rows : list block_rows :=
  [ {| br_blk := 1; br_w := 1; br_rows := 2; br_A := fun k _ => INR k; br_C := fun _ _ => 2; br_b := fun k => 3 |};
    {| br_blk := 0; br_w := 1; br_rows := 1; br_A := fun _ _ => -4; br_C := fun _ _ => 1; br_b := fun _ => 5 |};
    {| br_blk := 1; br_w := 1; br_rows := 1; br_A := fun _ _ => 0; br_C := fun _ _ => 1; br_b := fun _ => 1 |} ].
Example block_qr_case :
  rows_fit 2 (fun _ => 1%nat) case_rows /\ every_block 2 case_rows /\
  run_exact (1 / 100000) (oq_new 1 (1 / 2)) case_rows.
Proof.
  split; [|split].
  - intros B [<- | [<- | [<- | []]]]; cbn; lia.
  - intros [|[|i]] Hi; [| |lia].
    + eexists. split; [right; left; reflexivity|reflexivity].
    + eexists. split; [left; reflexivity|reflexivity].
  - apply block_qr_single_columns.
    + intros B [<- | [<- | [<- | []]]]; cbn; lia.
    + intros B [<- | [<- | [<- | []]]]; cbn [br_rows br_A].
      * right. exists 1%nat. split; [lia|]. cbn. rewrite Rabs_R1. lra.
      * right. exists 0%nat. split; [lia|]. rewrite Rabs_left; lra.
      * left. reflexivity.
Qed.

(** The solver does not minimise its objective in general: a column whose entries are all within the
    precision of isZero() is skipped as if it were zero, so the rows that use it are lost. *)
Theorem block_qr_small_columns_refuted :
  forall eps, 0 < eps ->
  exists nb w nc lambda rows, lambda <> 0 /\ rows_fit nb w rows /\ every_block nb rows /\
    exists q l, oq_run eps (oq_new nc lambda) rows = Ok q /\ oq_x_dense q = Ok l /\
      forall x z, l = pack nb w nc x z -> ~ block_minimiser nb w nc (block_objective nb w nc lambda rows) x z.
Proof.
  intros eps He.
  set (B := {| br_blk := 0; br_w := 1; br_rows := 1; br_A := fun _ _ => eps; br_C := fun _ _ => 0; br_b := fun _ => 1 |}).
  exists 1%nat, (fun _ => 1%nat), 0%nat, eps, [B].
  split; [lra|]. split; [intros B0 [<- | []]; cbn; lia|].
  split; [intros [|i] Hi; [|lia]; exists B; cbn; auto|].
  assert (Z : is_zero eps 1 (col (fun _ _ => eps) 0) = true).
  { cbn. unfold col. rewrite Rabs_right by lra. destruct (Rleb_spec eps eps); [reflexivity|lra]. }
  assert (D : forall s, ds_A s = (fun _ _ => eps) -> diag_step eps 1 0 1 s 0 = s).
  { intros s E. unfold diag_step. rewrite E, Z. reflexivity. }
  eexists. exists [0]. split; [|split].
  - unfold oq_run. cbn [ofold]. unfold oq_add. cbn [B br_blk br_w br_rows oq_new oq_blocks oq_nn qr_reset q_n].
    cbn [length Nat.sub repeat app rd nth_error obind ob_empty ob_n Nat.eqb].
    unfold diag_loop. cbn [seq fold_left]. rewrite D by reflexivity.
    cbn. reflexivity.
  - cbn. unfold ob_solve. cbn. unfold tri_solve, sumn. cbn. do 2 f_equal. field. lra.
  - intros x z E M. cbn in E. injection E as E.
    destruct (M (fun _ _ => 1 / (2 * eps)) (fun _ => 0)) as [M1 _].
    unfold block_objective, row_left, sumn in M1. cbn in M1. rewrite <- E in M1.
    replace (eps * (1 / (2 * eps))) with (1 / 2) in M1 by (field; lra).
    replace (eps * eps * (1 / (2 * eps) * (1 / (2 * eps)) + 0 + 0 + 0)) with (1 / 4) in M1 by (field; lra).
    lra.
Qed.
Print Assumptions block_qr_small_columns_refuted.

(** At_times_b_i() is not the part of A^T b that belongs to the block, even when it returns. *)
Theorem block_qr_block_gradient_refuted :
  forall eps, eps < 1 ->
  exists nb w nc lambda rows, rows_fit nb w rows /\ every_block nb rows /\ run_exact eps (oq_new nc lambda) rows /\
    exists q l, oq_run eps (oq_new nc lambda) rows = Ok q /\ oq_At_b_i q 0 = Ok l /\
      l <> map (block_rhs rows 0) (seq 0 (w 0%nat)).
Proof.
  intros eps He.
  set (B := {| br_blk := 0; br_w := 1; br_rows := 1; br_A := fun _ _ => 4; br_C := fun _ _ => 1; br_b := fun _ => 1 |}).
  exists 1%nat, (fun _ => 1%nat), 1%nat, 3, [B].
  split; [intros B0 [<- | []]; cbn; lia|].
  split; [intros [|i] Hi; [|lia]; exists B; cbn; auto|].
  split.
  { apply block_qr_single_columns.
    - intros B0 [<- | []]; cbn; lia.
    - intros B0 [<- | []]. right. exists 0%nat. cbn [B br_rows br_A]. split; [lia|]. rewrite Rabs_right; lra. }
  assert (Z : is_zero eps 1 (col (fun _ _ => 4) 0) = false).
  { cbn. unfold col. rewrite Rabs_right by lra. destruct (Rleb_spec 4 eps); [lra|reflexivity]. }
  assert (D : forall s, ds_A s = (fun _ _ => 4) -> ds_R s 0%nat 0%nat = 3 ->
     diag_step eps 1 1 1 s 0 =
     (let v := fun _ => 4 / -2 in
      let '(c, AC) := apply_cols (2 / 5) 1 v [0%nat] (ds_C s 0%nat) (ds_AC s) in
      let '(y1, b) := hh_apply (2 / 5) 1 v (ds_y s 0%nat) (ds_b s) in
      {| ds_R := upd_row (upd_at (ds_R s) 0 0 5) 0 (upd_at (ds_R s) 0 0 5 0%nat); ds_C := upd_row (ds_C s) 0 c;
         ds_y := upd (ds_y s) 0 y1; ds_A := upd_col (fun _ _ => 4) 0 v; ds_AC := AC; ds_b := b |})).
  { intros s E1 E2. unfold diag_step. rewrite E1, Z, E2.
    rewrite (hh_vec_eval1 3 (col (fun _ _ => 4) 0) 4 5 (-2) (2 / 5)) by (unfold col; lra).
    rewrite Reqb_ne by lra. cbn [Nat.sub seq]. unfold apply_cols at 1. cbn [fold_left]. reflexivity. }
  eexists. eexists. split; [|split].
  - unfold oq_run. cbn [ofold]. unfold oq_add. cbn [B br_blk br_w br_rows oq_new oq_blocks oq_nn qr_reset q_n].
    cbn [length Nat.sub repeat app rd nth_error obind ob_empty ob_n Nat.eqb].
    unfold diag_loop. cbn [seq fold_left]. rewrite D by reflexivity. cbn. reflexivity.
  - reflexivity.
  - unfold block_rhs, sumn, col. cbn. unfold upd, upd_row, upd_at. cbn. intros E. injection E as E. lra.
Qed.
Print Assumptions block_qr_block_gradient_refuted.

(** It does not return at all when the block and the common part have different numbers of unknowns:
    vectors of these two sizes are added. *)
Theorem block_qr_block_gradient_sizes_refuted eps nb w nc lambda rows i :
  rows_fit nb w rows -> every_block nb rows -> run_exact eps (oq_new nc lambda) rows ->
  (i < nb)%nat -> w i <> nc ->
  exists q, oq_run eps (oq_new nc lambda) rows = Ok q /\ oq_At_b_i q i = UB.
Proof.
  intros Hf He Hx Hi Hn. destruct (run_inv eps nb w nc lambda rows Hf Hx) as (q & E & I & L).
  destruct (inv_full _ _ _ _ _ _ I He L) as [Len Full].
  exists q. split; [exact E|]. unfold oq_At_b_i.
  assert (En : nth_error (oq_blocks q) i = Some (blk q i)) by (apply nth_error_nth'; lia).
  rewrite (rd_some _ _ _ En). cbn [obind]. destruct (Full i Hi) as [-> ->].
  destruct (Nat.eqb_spec (w i) nc); [contradiction|reflexivity].
Qed.
Print Assumptions block_qr_block_gradient_sizes_refuted.

(** Two blocks of one unknown and two common unknowns. *)
Example block_qr_block_gradient_sizes_case :
  rows_fit 2 (fun _ => 1%nat) case_rows /\ every_block 2 case_rows /\
  run_exact 0 (oq_new 2 1) case_rows /\ (1 <> 2)%nat.
Proof.
  destruct block_qr_case as (H1 & H2 & _). split; [exact H1|]. split; [exact H2|].
  split; [apply block_qr_exact_test|lia].
Qed.

(** A block that is skipped over leaves the solver without a solution: its entry in the factor has no
    columns, so x_dense(), At_times_b_n() and At_times_b_dense() fail. *)
Theorem block_qr_skipped_block_refuted :
  forall eps nc lambda B q, (0 < nc)%nat -> (0 < br_blk B)%nat ->
  oq_run eps (oq_new nc lambda) [B] = Ok q ->
  oq_x_dense q = CheckFail /\ oq_At_b_n q = CheckFail /\ oq_At_b_dense q = CheckFail.
Proof.
  intros eps nc lambda B q Hn Hb H. unfold oq_run in H. cbn [ofold] in H.
  unfold oq_add in H. cbn [oq_new oq_blocks oq_nn oq_lambda qr_reset q_n length] in H.
  destruct (br_blk B) as [|b] eqn:Eb; [lia|].
  rewrite Nat.sub_0_r in H. cbn [app] in H.
  assert (Er : rd (repeat ob_empty (S (S b))) (S b) = Ok ob_empty).
  { apply rd_some. rewrite (nth_error_nth' _ ob_empty) by (rewrite repeat_length; lia).
    f_equal. apply nth_repeat. }
  rewrite Er in H. cbn [obind ob_empty ob_n Nat.eqb] in H.
  match type of H with context [wr _ _ ?k] => set (k' := k) in H end.
  destruct (wr_ok (repeat ob_empty (S (S b))) (S b) k') as (bl & Ew & Lw & Nw & Ow);
    [rewrite repeat_length; lia|].
  rewrite Ew in H. cbn [obind] in H. injection H as <-.
  specialize (Ow 0%nat ltac:(lia)). cbn [repeat nth_error] in Ow.
  destruct bl as [|k0 bl]; [discriminate|]. injection Ow as ->.
  assert (En : forall C b0, q_n (qr_add (qr_reset nc lambda) (br_rows B) C b0) = nc).
  { intros C b0. unfold qr_add, qr_add_mutating.
    destruct (fold_left _ _ _) as [[[? ?] ?] ?]. reflexivity. }
  assert (F : (0 =? nc)%nat = false) by (apply Nat.eqb_neq; lia).
  assert (N : forall q0, oq_blocks q0 = ob_empty :: bl -> q_n (oq_nn q0) = nc -> oq_At_b_n q0 = CheckFail).
  { intros q0 H1 H2. unfold oq_At_b_n. rewrite H1, H2. cbn [ofold ob_nc ob_empty]. rewrite F. reflexivity. }
  split; [|split].
  - unfold oq_x_dense. cbn [oq_blocks ofold]. unfold ob_solve at 1. cbn [ob_nc ob_empty oq_nn].
    rewrite En, F. reflexivity.
  - apply N; [reflexivity|apply En].
  - unfold oq_At_b_dense. rewrite N; [reflexivity|reflexivity|apply En].
Qed.
Print Assumptions block_qr_skipped_block_refuted.

(** Rows for block 1 only. *)
Example block_qr_skipped_block_case :
  exists B q, In B case_rows /\ (0 < br_blk B)%nat /\ oq_run (1 / 100000) (oq_new 1 1) [B] = Ok q.
Proof. eexists. eexists. split; [left; reflexivity|]. split; [cbn; lia|reflexivity]. Qed.

(** After any history of additions and resets that went well, the solver is as if only the rows since
    the last reset had been added; the regularisation is kept. *)
Theorem block_qr_history eps nc lambda ops q :
  ofold (oq_do eps) ops (oq_new nc lambda) = Ok q ->
  oq_run eps (oq_new nc lambda) (since_reset ops []) = Ok q.
Proof.
  assert (P : forall q0 B q1, oq_add eps q0 B = Ok q1 -> q_n (oq_nn q1) = q_n (oq_nn q0) /\ oq_lambda q1 = oq_lambda q0).
  { intros q0 B q1 H. unfold oq_add in H.
    destruct (rd _ _); try discriminate. cbn [obind] in H.
    destruct (if (ob_n a =? 0)%nat then _ else _); try discriminate. cbn [obind] in H.
    destruct (wr _ _ _); try discriminate. cbn [obind] in H. injection H as <-.
    cbn [oq_nn oq_lambda]. split; [|reflexivity]. unfold qr_add, qr_add_mutating.
    destruct (fold_left _ _ (q_R _, _, _, _)) as [[[? ?] ?] ?]. reflexivity. }
  assert (G : forall ops acc q0, oq_run eps (oq_new nc lambda) acc = Ok q0 ->
     q_n (oq_nn q0) = nc -> oq_lambda q0 = lambda ->
     ofold (oq_do eps) ops q0 = Ok q -> oq_run eps (oq_new nc lambda) (since_reset ops acc) = Ok q).
  { clear ops. induction ops as [|[B|] ops IH]; intros acc q0 H0 Hn Hl H; cbn [ofold since_reset oq_do] in *.
    - rewrite H0. exact H.
    - destruct (oq_add eps q0 B) as [q1| | | |] eqn:E; try discriminate. cbn [obind] in H.
      destruct (P _ _ _ E) as [P1 P2].
      apply (IH (acc ++ [B]) q1); [|congruence|congruence|exact H].
      unfold oq_run in *. rewrite ofold_app, H0. cbn [obind ofold]. rewrite E. reflexivity.
    - cbn [obind] in H. apply (IH [] (oq_reset q0)); [| | |exact H].
      + unfold oq_reset. rewrite Hn, Hl. reflexivity.
      + exact Hn.
      + exact Hl. }
  intros H. apply (G ops [] (oq_new nc lambda)); auto.
Qed.
Print Assumptions block_qr_history.

Example block_qr_history_case : forall B, In B case_rows ->
  exists q, ofold (oq_do (1 / 100000)) [Some B; None; Some B; Some B] (oq_new 1 2) = Ok q.
Proof. intros B [<- | [<- | [<- | []]]]; eexists; reflexivity. Qed.
