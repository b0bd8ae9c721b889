(** Lemmas for low-rank covariance matrices. *)

From Coq Require Import Reals List Arith Bool Lia Lra.
From Verif Require Import Prelude Loops LinAlg Rbool QR_spec QR_model QR_gen_proofs QR_proofs Det Cov_model Cov_spec.
Import ListNotations.
Local Open Scope R_scope.

(** ** Forward substitution *)

Lemma fwd_solve_spec n U y : (forall i, (i < n)%nat -> U i i <> 0) ->
  forall i, (i < n)%nat -> sumn (S i) (fun j => U j i * fwd_solve n U y j) = y i.
Proof.
  unfold fwd_solve. set (f := fun x i => _). induction n as [|n IH]; intros Hd i Hi; [lia|].
  rewrite seq_S, fold_left_app. cbn [fold_left Nat.add]. set (x := fold_left f (seq 0 n) (fun _ => 0)) in *. unfold f at 1.
  destruct (Nat.eq_dec i n) as [->|Ne].
  - rewrite sumn_S. rewrite upd_same. rewrite (sumn_ext n _ (fun j => U j n * x j)).
    + unfold sumn. field. apply Hd. lia.
    + intros j Hj. unfold f. rewrite upd_other by lia. reflexivity.
  - rewrite (sumn_ext (S i) _ (fun j => U j i * x j)).
    + apply IH; [intros; apply Hd; lia|lia].
    + intros j Hj. unfold f. rewrite upd_other by lia. reflexivity.
Qed.
Lemma fwd_solve_eqs n U y : (forall i, (i < n)%nat -> U i i <> 0) -> upper n U ->
  forall i, (i < n)%nat -> sumn n (fun j => U j i * fwd_solve n U y j) = y i.
Proof.
  intros Hd Hu i Hi. rewrite <- (fwd_solve_spec n U y Hd i Hi) at 1. replace n with (S i + (n - S i))%nat at 1 by lia.
  rewrite sumn_split. rewrite (sumn_zero (n - S i)); [ring|]. intros k Hk. rewrite Hu; [ring|lia|lia].
Qed.

(** ** The factor *)

Lemma cov_qr_run sigma m n A : cv_qr (cov_reset sigma m n A) = qr_run n sigma [{| lb_rows := m; lb_A := A; lb_b := fun _ => 0 |}].
Proof. reflexivity. Qed.

Lemma qr_step_diag n m i s r : (i < n)%nat -> (r < n)%nat -> (forall q, (q < n)%nat -> 0 <= fst (fst (fst s)) q q) ->
  0 <= fst (fst (fst (qr_step n m s i))) r r.
Proof.
  destruct s as [[[Rm y] A] b]. cbn [fst]. intros Hi Hr H. unfold qr_step.
  destruct (hh_vec (Rm i i) m (col A i)) as [[beta mu] v] eqn:E. destruct (Reqb beta 0) eqn:B.
  - cbn [fst]. apply H, Hr.
  - destruct (apply_cols beta m v (seq (S i) (n - S i)) (upd_at Rm i i mu i) (upd_col A i v)) as [r' A1] eqn:EA. cbn [hh_apply fst].
    destruct (Nat.eq_dec r i) as [->|Ne].
    + rewrite upd_row_same. pose proof (apply_cols_spec beta m v _ (seq_NoDup (n - S i) (S i)) _ _ _ _ EA i) as [_ H2].
      destruct H2 as [-> _]; [intros X; apply in_seq in X; lia|]. rewrite upd_at_same. unfold hh_vec in E.
      destruct (Reqb (sumn m (fun k => col A i k * col A i k)) 0); injection E as _ <- _; [apply H, Hr|apply sqrt_pos].
    + rewrite upd_row_other by exact Ne. rewrite upd_at_other by (left; exact Ne). apply H, Hr.
Qed.

Lemma qr_fold_diag n m len : forall i s, (i + len <= n)%nat -> (forall q, (q < n)%nat -> 0 <= fst (fst (fst s)) q q) ->
  forall q, (q < n)%nat -> 0 <= fst (fst (fst (fold_left (qr_step n m) (seq i len) s))) q q.
Proof.
  induction len as [|len IH]; intros i s Hl H; [exact H|]. cbn [seq fold_left]. apply IH; [lia|]. intros q Hq. apply qr_step_diag; [lia|exact Hq|exact H].
Qed.

Lemma qr_add_R q m A b : q_R (qr_add q m A b) = fst (fst (fst (fold_left (qr_step (q_n q) m) (seq 0 (q_n q)) (q_R q, q_y q, A, b)))).
Proof. unfold qr_add, qr_add_mutating. destruct (fold_left _ _ _) as [[[Rm y] A'] b']. reflexivity. Qed.

Lemma cov_factor sigma m n A : sigma <> 0 ->
  let U := q_R (cv_qr (cov_reset sigma m n A)) in
  q_n (cv_qr (cov_reset sigma m n A)) = n /\ upper n U /\ (forall r, (r < n)%nat -> U r r <> 0) /\
  (forall i j, (i < n)%nat -> (j < n)%nat -> sumn n (fun r => U r i * U r j) = covariance sigma m A i j) /\
  (0 < sigma -> forall r, (r < n)%nat -> 0 < U r r).
Proof.
  intros Hs. cbv zeta. destruct (qr_run_spec n sigma [{| lb_rows := m; lb_A := A; lb_b := fun _ => 0 |}]) as (En & Hu & HG & _ & Hd).
  rewrite <- cov_qr_run in *. split; [exact En|]. split; [exact Hu|].
  assert (D : forall r, (r < n)%nat -> q_R (cv_qr (cov_reset sigma m n A)) r r <> 0).
  { intros r Hr E. specialize (Hd r Hr). rewrite E in Hd. nra. }
  split; [exact D|]. split.
  - intros i j Hi Hj. rewrite HG by assumption. unfold gram, covariance. cbn [map rsum lb_rows lb_A]. ring.
  - intros Hp r Hr. assert (N : 0 <= q_R (cv_qr (cov_reset sigma m n A)) r r).
    { cbn [cov_reset cv_qr]. rewrite qr_add_R. apply qr_fold_diag; [cbn [qr_reset q_n]; lia| |exact Hr].
      intros q Hq. cbn [fst qr_reset q_R]. rewrite Nat.eqb_refl. lra. }
    specialize (D r Hr). lra.
Qed.

(** ** The matrix *)

Lemma covariance_times sigma m n A x i : (i < n)%nat ->
  sumn n (fun j => covariance sigma m A i j * x j) = sigma * sigma * x i + sumn m (fun k => A k i * sumn n (fun j => A k j * x j)).
Proof.
  intros Hi. unfold covariance.
  rewrite (sumn_ext n _ (fun j => (if (i =? j)%nat then sigma * sigma else 0) * x j + sumn m (fun k => A k i * A k j * x j))).
  - rewrite sumn_plus. f_equal.
    + rewrite (sumn_single n i); [rewrite Nat.eqb_refl; reflexivity|exact Hi|]. intros j Hj Ne. apply Nat.neq_sym, Nat.eqb_neq in Ne. rewrite Ne. ring.
    + rewrite sumn_swap. apply sumn_ext. intros k Hk. rewrite <- sumn_scal. apply sumn_ext. intros; ring.
  - intros j Hj. rewrite Rmult_plus_distr_r, <- sumn_scal_r. reflexivity.
Qed.
Lemma covariance_sym sigma m A i j : covariance sigma m A i j = covariance sigma m A j i.
Proof. unfold covariance. rewrite Nat.eqb_sym. f_equal. apply sumn_ext. intros; ring. Qed.
Lemma covariance_quad sigma m n A x : quad n (covariance sigma m A) x =
  sigma * sigma * sumn n (fun i => x i * x i) + sumn m (fun k => sumn n (fun j => A k j * x j) * sumn n (fun j => A k j * x j)).
Proof.
  unfold quad. rewrite (sumn_ext n _ (fun i => sigma * sigma * (x i * x i) + sumn m (fun k => (A k i * x i) * sumn n (fun j => A k j * x j)))).
  - rewrite sumn_plus, sumn_scal. f_equal. rewrite sumn_swap. apply sumn_ext. intros k Hk. rewrite sumn_scal_r. reflexivity.
  - intros i Hi. rewrite covariance_times by exact Hi. rewrite Rmult_plus_distr_l, <- sumn_scal. f_equal; [ring|]. apply sumn_ext. intros; ring.
Qed.
Lemma covariance_pos sigma m n A x : sigma <> 0 -> quad n (covariance sigma m A) x = 0 -> forall i, (i < n)%nat -> x i = 0.
Proof.
  intros Hs. rewrite covariance_quad. intros E i Hi.
  assert (S1 : 0 <= sumn m (fun k => sumn n (fun j => A k j * x j) * sumn n (fun j => A k j * x j))) by (apply sumn_nonneg; intros; nra).
  assert (S2 : 0 <= sumn n (fun i => x i * x i)) by (apply sumn_nonneg; intros; nra).
  assert (S3 : sumn n (fun i => x i * x i) = 0).
  { assert (0 < sigma * sigma) by nra. nra. }
  apply rsum_zero_iff with (x := i) in S3; [nra|intros; nra|apply in_seq; lia].
Qed.
Lemma covariance_inj sigma m n A x z y : sigma <> 0 ->
  is_product n (covariance sigma m A) x y -> is_product n (covariance sigma m A) z y -> forall i, (i < n)%nat -> x i = z i.
Proof.
  intros Hs Hx Hz i Hi. assert (E : x i - z i = 0); [|lra]. apply (covariance_pos sigma m n A (fun i => x i - z i) Hs); [|exact Hi].
  unfold quad. apply sumn_zero. intros k Hk. replace (sumn n _) with (y k - y k); [ring|].
  rewrite (Hx k Hk) at 1. rewrite (Hz k Hk). rewrite <- sumn_minus. apply sumn_ext. intros; ring.
Qed.

(** Solving with the factor and its transposed solves with the matrix. *)
Lemma gram_solve n U C x : upper n U -> (forall r, (r < n)%nat -> U r r <> 0) ->
  (forall i j, (i < n)%nat -> (j < n)%nat -> sumn n (fun r => U r i * U r j) = C i j) ->
  is_product n C (tri_solve n U (fwd_solve n U x)) x.
Proof.
  intros Hu Hd HG i Hi. set (f := fwd_solve n U x). set (y := tri_solve n U f).
  rewrite (sumn_ext n _ (fun j => sumn n (fun r => U r i * U r j * y j))).
  - rewrite sumn_swap. rewrite (sumn_ext n _ (fun r => U r i * f r)).
    + symmetry. apply fwd_solve_eqs; assumption.
    + intros r Hr. rewrite <- (tri_solve_eqs n U f Hd Hu r Hr). rewrite <- sumn_scal. apply sumn_ext. intros; unfold y; ring.
  - intros j Hj. rewrite <- HG by assumption. rewrite <- sumn_scal_r. reflexivity.
Qed.

Lemma logs_sum (U : mat) n : (forall r, (r < n)%nat -> 0 < U r r) ->
  ofold (fun i s => if Rltb 0 (U i i) then Ok (s + ln (U i i)) else CheckFail) (seq 0 n) 0 = Ok (ln (prodn n (fun i => U i i))) /\
  0 < prodn n (fun i => U i i).
Proof.
  induction n as [|n IH]; intros H; [split; [cbn; rewrite ln_1; reflexivity|cbn; lra]|].
  destruct (IH (fun r Hr => H r ltac:(lia))) as [E P]. rewrite seq_S, ofold_app, E. cbn [obind ofold Nat.add prodn].
  pose proof (H n ltac:(lia)) as Hn. destruct (Rltb_spec 0 (U n n)) as [_|X]; [|lra].
  cbn [obind]. split; [rewrite ln_mult by assumption; reflexivity|apply Rmult_lt_0_compat; assumption].
Qed.

Lemma columnwise_ok (f : vec -> outcome vec) M cols g : (forall j, (j < cols)%nat -> f (col M j) = Ok (g j)) ->
  exists M', columnwise f M cols = Ok M' /\ forall i j, (j < cols)%nat -> M' i j = g j i.
Proof.
  unfold columnwise. induction cols as [|cols IH]; intros H.
  - exists (fun _ _ => 0). split; [reflexivity|]. intros i j Hj; lia.
  - destruct (IH (fun j Hj => H j ltac:(lia))) as (M' & E & HM). rewrite seq_S, ofold_app, E. cbn [obind ofold Nat.add].
    rewrite (H cols ltac:(lia)). cbn [obind]. eexists. split; [reflexivity|]. intros i j Hj. unfold upd_col.
    destruct (Nat.eqb_spec j cols) as [->|Ne]; [reflexivity|apply HM; lia].
Qed.
