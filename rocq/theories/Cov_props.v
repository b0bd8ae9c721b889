(** Property C86: low-rank covariance matrices. *)

From Coq Require Import Reals List Arith Bool Lia Lra.
From Verif Require Import Prelude Loops LinAlg Rbool QR_spec QR_model QR_gen_proofs QR_proofs Det Cov_model Cov_spec Cov_proofs.
Import ListNotations.
Local Open Scope R_scope.

(** Multiplication is by sigma^2 I + A^T A. *)
Theorem cov_times_correct sigma m n A x :
  exists y, cov_times (cov_reset sigma m n A) n x = Ok y /\ is_product n (covariance sigma m A) x y.
Proof.
  unfold cov_times. cbn [cov_reset cv_dim]. rewrite Nat.eqb_refl. eexists. split; [reflexivity|]. intros i Hi.
  rewrite covariance_times by exact Hi. reflexivity.
Qed.
Print Assumptions cov_times_correct.

(** The inverse product is the one solution of C y = x. *)
Theorem cov_inverse_correct sigma m n A x : sigma <> 0 ->
  exists y, cov_inverse_times (cov_reset sigma m n A) n x = Ok y /\ is_product n (covariance sigma m A) y x /\
    forall z, is_product n (covariance sigma m A) z x -> forall i, (i < n)%nat -> z i = y i.
Proof.
  intros Hs. destruct (cov_factor sigma m n A Hs) as (En & Hu & Hd & HG & _). unfold cov_inverse_times. rewrite En, Nat.eqb_refl.
  eexists. split; [reflexivity|]. assert (P := gram_solve n _ _ x Hu Hd HG). split; [exact P|].
  intros z Hz i Hi. apply (covariance_inj sigma m n A z _ x Hs Hz P i Hi).
Qed.
Print Assumptions cov_inverse_correct.

(** Each undoes the other. *)
Theorem cov_times_inverse sigma m n A x : sigma <> 0 ->
  exists y x', cov_inverse_times (cov_reset sigma m n A) n x = Ok y /\ cov_times (cov_reset sigma m n A) n y = Ok x' /\
    forall i, (i < n)%nat -> x' i = x i.
Proof.
  intros Hs. destruct (cov_inverse_correct sigma m n A x Hs) as (y & E & P & _). destruct (cov_times_correct sigma m n A y) as (x' & E' & P').
  exists y, x'. split; [exact E|]. split; [exact E'|]. intros i Hi. rewrite (P i Hi), (P' i Hi). reflexivity.
Qed.
Print Assumptions cov_times_inverse.
Theorem cov_inverse_times_undoes sigma m n A x : sigma <> 0 ->
  exists y x', cov_times (cov_reset sigma m n A) n x = Ok y /\ cov_inverse_times (cov_reset sigma m n A) n y = Ok x' /\
    forall i, (i < n)%nat -> x' i = x i.
Proof.
  intros Hs. destruct (cov_times_correct sigma m n A x) as (y & E & P). destruct (cov_inverse_correct sigma m n A y Hs) as (x' & E' & _ & U').
  exists y, x'. split; [exact E|]. split; [exact E'|]. intros i Hi. symmetry. apply U'; assumption.
Qed.
Print Assumptions cov_inverse_times_undoes.

(** The versions for matrices. *)
Theorem cov_times_mat_correct sigma m n A cols M :
  exists Y, cov_times_mat (cov_reset sigma m n A) n cols M = Ok Y /\
    forall j, (j < cols)%nat -> is_product n (covariance sigma m A) (fun i => M i j) (fun i => Y i j).
Proof.
  destruct (columnwise_ok (cov_times (cov_reset sigma m n A) n) M cols
    (fun j i => sigma * sigma * M i j + sumn m (fun k => A k i * sumn n (fun l => A k l * M l j)))) as (Y & E & H).
  { intros j Hj. unfold cov_times. cbn [cov_reset cv_dim cv_sigma cv_rows cv_A]. rewrite Nat.eqb_refl. reflexivity. }
  exists Y. split; [exact E|]. intros j Hj i Hi. rewrite H by exact Hj. symmetry. apply (covariance_times sigma m n A (fun i => M i j)), Hi.
Qed.
Print Assumptions cov_times_mat_correct.
Theorem cov_inverse_mat_correct sigma m n A cols M : sigma <> 0 ->
  exists Y, cov_inverse_times_mat (cov_reset sigma m n A) n cols M = Ok Y /\
    forall j, (j < cols)%nat -> is_product n (covariance sigma m A) (fun i => Y i j) (fun i => M i j).
Proof.
  intros Hs. destruct (cov_factor sigma m n A Hs) as (En & Hu & Hd & HG & _).
  set (U := q_R (cv_qr (cov_reset sigma m n A))) in *.
  destruct (columnwise_ok (cov_inverse_times (cov_reset sigma m n A) n) M cols
    (fun j => tri_solve n U (fwd_solve n U (col M j)))) as (Y & E & H).
  { intros j Hj. unfold cov_inverse_times. rewrite En, Nat.eqb_refl. reflexivity. }
  exists Y. split; [exact E|]. intros j Hj i Hi. rewrite (gram_solve n U _ (col M j) Hu Hd HG i Hi : M i j = _).
  apply sumn_ext. intros k Hk. rewrite H by exact Hj. reflexivity.
Qed.
Print Assumptions cov_inverse_mat_correct.

(** The logarithm of the determinant. *)
Theorem cov_logdet_correct sigma m n A : 0 < sigma ->
  0 < mdet n (covariance sigma m A) /\
  cov_logdet (cov_reset sigma m n A) = Ok (ln (mdet n (covariance sigma m A))) /\
  cov_inverse_logdet (cov_reset sigma m n A) = Ok (- ln (mdet n (covariance sigma m A))).
Proof.
  intros Hs. destruct (cov_factor sigma m n A ltac:(lra)) as (En & Hu & Hd & HG & Hp). specialize (Hp Hs).
  set (U := q_R (cv_qr (cov_reset sigma m n A))) in *. destruct (logs_sum U n Hp) as [E P].
  rewrite (mdet_gram n U _ Hu HG). split; [apply Rmult_lt_0_compat; exact P|].
  assert (L : cov_logdet (cov_reset sigma m n A) = Ok (ln (prodn n (fun i => U i i) * prodn n (fun i => U i i)))).
  { unfold cov_logdet. fold U. cbn [cov_reset cv_dim]. rewrite E. cbn [obind]. f_equal. rewrite ln_mult by exact P. ring. }
  unfold cov_inverse_logdet. rewrite L. split; reflexivity.
Qed.
Print Assumptions cov_logdet_correct.

(** A negative sigma gives the same matrix, but the check on the diagonal fails. *)
Theorem cov_logdet_refuted : exists sigma m n A, 0 < mdet n (covariance sigma m A) /\ cov_logdet (cov_reset sigma m n A) = CheckFail.
Proof.
  exists (-1), 0%nat, 1%nat, (fun _ _ => 0). split.
  - assert (E : mdet 1 (covariance (-1) 0 (fun _ _ => 0)) = mdet 1 (covariance 1 0 (fun _ _ => 0))).
    { apply mdet_ext. intros i j Hi Hj. unfold covariance. destruct (i =? j)%nat; [|reflexivity]. f_equal. ring. }
    rewrite E. apply cov_logdet_correct. lra.
  - unfold cov_logdet, cov_reset, qr_add, qr_add_mutating. cbn [qr_reset q_n q_R q_y seq fold_left qr_step cv_dim cv_qr]. unfold hh_vec.
    unfold sumn. cbn [seq map rsum]. destruct (Reqb_spec 0 0) as [_|X]; [|exfalso; apply X; reflexivity].
    destruct (Reqb_spec 0 0) as [_|X]; [|exfalso; apply X; reflexivity]. cbn [fst q_R ofold Nat.eqb].
    destruct (Rltb_spec 0 (-1)); [lra|]. reflexivity.
Qed.
Print Assumptions cov_logdet_refuted.

(** The case of the theorems: two dimensions, one row (1, 1), sigma 1; the matrix is ((2, 1), (1, 2)). *)
Example cov_case :
  covariance 1 1 (fun _ _ => 1) 0 0 = 2 /\ covariance 1 1 (fun _ _ => 1) 0 1 = 1 /\ mdet 2 (covariance 1 1 (fun _ _ => 1)) = 3.
Proof.
  unfold covariance, sumn. rewrite mdet2. cbn. repeat split; ring.
Qed.
