(** Properties of the online QR solvers (C27, C28, C29, C68). *)

From Coq Require Import Reals List Arith Bool Lia Lra.
From Verif Require Import LinAlg Rbool QR_model QR_spec QR_gen_proofs QR_proofs
  QRBanded_model QRBanded_spec QRBanded_proofs.
Import ListNotations.
Local Open Scope R_scope.

(** ** C27: the elimination step is a reflection *)

(** The reflection computed from a column sends that column to (mu, 0, ..., 0), where mu^2 is the
    squared length of the column. *)
Theorem householder_annihilates x1 m x beta mu v :
  hh_vec x1 m x = (beta, mu, v) ->
  fst (hh_apply beta m v x1 x) = mu /\
  (forall k, (k < m)%nat -> snd (hh_apply beta m v x1 x) k = 0) /\
  mu * mu = x1 * x1 + sumn m (fun k => x k * x k).
Proof. exact (hh_apply_self x1 m x beta mu v). Qed.
Print Assumptions householder_annihilates.

(** Applying it keeps the inner product of any two vectors. *)
Theorem householder_isometry x1 m x beta mu v p a q c :
  hh_vec x1 m x = (beta, mu, v) ->
  let '(p', a') := hh_apply beta m v p a in
  let '(q', c') := hh_apply beta m v q c in
  dot_split m p' a' q' c' = dot_split m p a q c.
Proof. exact (hh_apply_isometry x1 m x beta mu v p a q c). Qed.
Print Assumptions householder_isometry.

(** The new pivot is positive as soon as there was something to eliminate. *)
Theorem householder_pivot_positive x1 m x beta mu v :
  hh_vec x1 m x = (beta, mu, v) ->
  (exists k, (k < m)%nat /\ x k <> 0) -> 0 < mu.
Proof. exact (hh_mu_nonneg x1 m x beta mu v). Qed.
Print Assumptions householder_pivot_positive.

Example householder_example :
  hh_vec 3 1 (fun _ => 4) = (2 / 5, 5, fun k => 4 / -2) /\ (exists k, (k < 1)%nat /\ 4 <> 0).
Proof.
  split; [|exists 0%nat; split; [lia|lra]].
  apply (hh_vec_eval1 3 (fun _ => 4) 4 5 (-2) (2 / 5)); lra.
Qed.

(** ** C28: the dense solver *)

(** After any blocks whatsoever: R is upper triangular, R^T R is the regularised Gram matrix of
    everything added, and A^T b is read back exactly. *)
Theorem online_qr_factorises n lambda blocks :
  let q := qr_run n lambda blocks in
  (forall r c, (r < n)%nat -> (c < r)%nat -> q_R q r c = 0) /\
  (forall i j, (i < n)%nat -> (j < n)%nat ->
     sumn n (fun r => q_R q r i * q_R q r j) = gram lambda blocks i j) /\
  qr_At_times_b q = map (rhs blocks) (seq 0 n).
Proof.
  destruct (qr_run_spec n lambda blocks) as (_ & Hu & HG & _).
  split; [exact Hu|]. split; [exact HG|]. exact (qr_At_times_b_spec n lambda blocks).
Qed.
Print Assumptions online_qr_factorises.

(** With a nonzero regularisation, result() is the one minimiser of the regularised least-squares
    objective of all the blocks, whatever their number, sizes and order. *)
Theorem online_qr_result_minimises n lambda blocks :
  lambda <> 0 ->
  unique_minimiser n (objective n lambda blocks) (qr_result (qr_run n lambda blocks)).
Proof. exact (qr_result_minimises n lambda blocks). Qed.
Print Assumptions online_qr_result_minimises.

(** A history of resets and additions of any length leaves the solver as if only the blocks since
    the last reset had been added. *)
Theorem online_qr_history n lambda ops :
  fold_left qr_do ops (qr_reset n lambda) =
  (let '(n', l', blocks) := fold_left live_step ops (n, lambda, []) in qr_run n' l' blocks).
Proof. exact (qr_history_live ops n lambda []). Qed.
Print Assumptions online_qr_history.

(** Without regularisation the same holds as long as no pivot is zero. *)
Theorem online_qr_result_minimises_unregularised n blocks :
  (forall r, (r < n)%nat -> q_R (qr_run n 0 blocks) r r <> 0) ->
  unique_minimiser n (objective n 0 blocks) (qr_result (qr_run n 0 blocks)).
Proof. exact (qr_result_minimises_diag n 0 blocks). Qed.
Print Assumptions online_qr_result_minimises_unregularised.

(** One unknown, one equation 4 x = 8: the pivot is nonzero. *)
Example online_qr_example :
  let B := {| lb_rows := 1; lb_A := fun _ _ => 4; lb_b := fun _ => 8 |} in
  q_R (qr_run 1 3 [B]) 0%nat 0%nat = 5 /\ qr_result (qr_run 1 3 [B]) 0%nat = 32 / 25.
Proof.
  cbv zeta. unfold qr_result, qr_run. cbn [fold_left qr_add].
  unfold qr_add, qr_add_mutating. cbn [qr_reset q_n q_R q_y seq fold_left lb_rows lb_A lb_b].
  unfold qr_step. cbn [Nat.eqb].
  rewrite (hh_vec_eval1 3 (col (fun _ _ => 4) 0) 4 5 (-2) (2 / 5)) by (unfold col; lra).
  rewrite Reqb_ne by lra. cbn. unfold tri_solve, sumn. cbn. unfold col. split; lra.
Qed.

(** reset() does not bring a solver back to the state it was constructed in: the regularisation
    is lost, so an underdetermined system that was solvable no longer is. *)
Theorem online_qr_reset_keeps_regularisation_refuted :
  exists n lambda blocks,
    q_R (qr_reset_same (qr_run n lambda blocks)) 0%nat 0%nat <> q_R (qr_reset n lambda) 0%nat 0%nat.
Proof. exists 1%nat, 1, []. cbn. lra. Qed.
Print Assumptions online_qr_reset_keeps_regularisation_refuted.

(** What reset() does do: the solver is the fresh one without regularisation. *)
Theorem online_qr_reset_is_fresh n lambda blocks :
  qr_reset_same (qr_run n lambda blocks) = qr_reset n 0.
Proof.
  unfold qr_reset_same. destruct (qr_run_spec n lambda blocks) as (-> & _). reflexivity.
Qed.
Print Assumptions online_qr_reset_is_fresh.

(** ** C29: products with a column selection *)

(** transpose_times does not multiply by the selected columns. *)
Theorem column_selection_transpose_times_refuted :
  exists a b,
    (forall c, In c (match cim_idx a with Some l => l | None => [] end) -> (c < cim_matcols a)%nat) /\
    cim_transpose_times a b <>
    map (fun c => sumn (cim_rows a) (fun k => cim_view a k c * b k)) (seq 0 (cim_cols a)).
Proof.
  exists {| cim_rows := 1; cim_matcols := 2; cim_mat := fun _ c => INR c; cim_idx := Some [1%nat] |},
         (fun _ => 1).
  split.
  - intros c [<-|[]]. cbn. lia.
  - unfold sumn. cbn. intros H. injection H as H. lra.
Qed.
Print Assumptions column_selection_transpose_times_refuted.

(** It does when every column is selected, or the first ones in order. *)
Theorem column_selection_transpose_times_partial a b :
  cim_idx a = None \/ (exists p, cim_idx a = Some (seq 0 p)) ->
  cim_transpose_times a b =
  map (fun c => sumn (cim_rows a) (fun k => cim_view a k c * b k)) (seq 0 (cim_cols a)).
Proof.
  intros [H|[p H]]; [exact (cim_transpose_times_all a b H)|exact (cim_transpose_times_prefix a b p H)].
Qed.
Print Assumptions column_selection_transpose_times_partial.

Example column_selection_example :
  let a := {| cim_rows := 1; cim_matcols := 3; cim_mat := fun _ c => INR c; cim_idx := Some [0%nat; 1%nat] |} in
  cim_idx a = Some (seq 0 2) /\ cim_transpose_times a (fun _ => 2) = [0; 2].
Proof.
  cbv zeta. split; [reflexivity|]. unfold cim_transpose_times, sumn. cbn.
  repeat (f_equal; try ring).
Qed.

(** ** C68: the banded solver *)

(** With a nonzero regularisation and windows that never stop inside an earlier one, x_dense() is
    the one minimiser of the regularised least-squares objective over all the unknowns. *)
Theorem banded_qr_result_minimises nb nc bw lambda blocks :
  (0 < bw)%nat -> lambda <> 0 ->
  Forall (block_fits nb bw) blocks -> windows_ordered blocks ->
  unique_minimiser (nb + nc) (objective (nb + nc) lambda (map (full_block nb) blocks))
    (bq_x_dense (bq_run nb nc bw lambda blocks)).
Proof. exact (bq_x_dense_minimises nb nc bw lambda blocks). Qed.
Print Assumptions banded_qr_result_minimises.

(** R_dense() is a factor of the Gram matrix and At_times_b() is exact. *)
Theorem banded_qr_factorises nb nc bw lambda blocks :
  (0 < bw)%nat -> Forall (block_fits nb bw) blocks -> windows_ordered blocks ->
  let q := bq_run nb nc bw lambda blocks in
  (forall i j, (i < nb + nc)%nat -> (j < nb + nc)%nat ->
     sumn (nb + nc) (fun r => bq_R_dense q r i * bq_R_dense q r j) =
     gram lambda (map (full_block nb) blocks) i j) /\
  bq_At_times_b q = map (rhs (map (full_block nb) blocks)) (seq 0 (nb + nc)).
Proof.
  intros Hb Hf Ho. split.
  - destruct (bq_run_spec nb nc bw lambda blocks Hb Hf Ho) as (_ & _ & HG & _). exact HG.
  - exact (bq_At_times_b_spec nb nc bw lambda blocks Hb Hf Ho).
Qed.
Print Assumptions banded_qr_factorises.

(** Two windows, one after the other, meet the hypotheses. *)
Example banded_qr_example :
  let B o := {| bb_off := o; bb_w := 2; bb_rows := 1; bb_A := fun _ _ => 1;
                bb_C := fun _ _ => 1; bb_b := fun _ => 1 |} in
  Forall (block_fits 3 2) [B 0%nat; B 1%nat] /\ windows_ordered [B 0%nat; B 1%nat].
Proof.
  cbv zeta. split.
  - repeat constructor; cbn; lia.
  - intros l1 B1 l2 B2 l3 H.
    destruct l1 as [|b1 [|b2 [|b3 l1]]]; cbn in H; try discriminate; injection H as H1 H2.
    + destruct l2 as [|b4 l2]; cbn in H2; injection H2 as H2 H3.
      * subst. right; left. cbn. lia.
      * destruct l2; discriminate.
    + destruct l2 as [|b4 l2]; discriminate.
Qed.

(** When a later window stops inside an earlier one, sizes that the code accepts give an answer
    that is not the minimiser. *)
Theorem banded_qr_any_window_order_refuted :
  exists nb nc bw lambda blocks,
    (0 < bw)%nat /\ lambda <> 0 /\ Forall (block_fits nb bw) blocks /\
    ~ unique_minimiser (nb + nc) (objective (nb + nc) lambda (map (full_block nb) blocks))
        (bq_x_dense (bq_run nb nc bw lambda blocks)).
Proof.
  exists 2%nat, 0%nat, 2%nat, 3, [short_W1; short_W2].
  split; [lia|]. split; [lra|]. split; [repeat constructor; cbn; lia|].
  destruct short_window_eval as [E0 E1]. cbv zeta in E0, E1.
  revert E0 E1. generalize (bq_x_dense (bq_run 2 0 2 3 [short_W1; short_W2])). intros x E0 E1 H.
  destruct (H (fun j => match j with 0%nat => 12 / 13 | _ => - (1 / 10) end)) as [L _].
  unfold objective, sumn in L. cbn in L. rewrite E0, E1 in L. lra.
Qed.
Print Assumptions banded_qr_any_window_order_refuted.
