(** Low-rank covariance matrices: momentum/math/covariance_matrix.{h,cpp}, over the reals.

    A matrix is a function of row and column, of a size kept apart; the solver is the one of QR_model. *)

From Coq Require Import Reals List Arith Bool.
From Verif Require Import Prelude Loops LinAlg Rbool QR_spec QR_model.
Import ListNotations.
Local Open Scope R_scope.
Local Open Scope outcome_scope.

(** The members, covariance_matrix.h:60-66: sigma, the basis A with its numbers of rows and columns,
    the factorization. *)
Record cov := { cv_sigma : R; cv_rows : nat; cv_dim : nat; cv_A : mat; cv_qr : qr }.

(** reset, covariance_matrix.cpp:14-26. *)
Definition cov_reset (sigma : R) (m n : nat) (A : mat) : cov :=
  {| cv_sigma := sigma; cv_rows := m; cv_dim := n; cv_A := A;
     cv_qr := qr_add (qr_reset n sigma) m A (fun _ => 0) |}.

(** Eigen's triangularView<Upper>().transpose().solve: forward substitution with the transposed of
    the upper triangle, first row first. *)
Definition fwd_solve (n : nat) (U : mat) (y : vec) : vec :=
  fold_left
    (fun x i => upd x i ((y i - rsum (map (fun j => U j i * x j) (seq 0 i))) / U i i))
    (seq 0 n) (fun _ => 0).

(** inverse_times_vec, covariance_matrix.cpp:43-51, for a vector of [size] entries. *)
Definition cov_inverse_times (c : cov) (size : nat) (x : vec) : outcome vec :=
  if (q_n (cv_qr c) =? size)%nat
  then Ok (tri_solve (q_n (cv_qr c)) (q_R (cv_qr c)) (fwd_solve (q_n (cv_qr c)) (q_R (cv_qr c)) x))
  else CheckFail.

(** times_vec, covariance_matrix.cpp:53-59; a wrong size fails Eigen's assertion. *)
Definition cov_times (c : cov) (size : nat) (x : vec) : outcome vec :=
  if (cv_dim c =? size)%nat
  then Ok (fun i => cv_sigma c * cv_sigma c * x i +
                    sumn (cv_rows c) (fun k => cv_A c k i * sumn (cv_dim c) (fun j => cv_A c k j * x j)))
  else CheckFail.

(** inverse_times_mat and times_mat, covariance_matrix.cpp:61-79, for a matrix of [rows] rows: Eigen
    works on the columns one by one. *)
Definition columnwise (f : vec -> outcome vec) (M : mat) (cols : nat) : outcome mat :=
  ofold (fun j (M' : mat) => let* y := f (col M j) in Ok (upd_col M' j y)) (seq 0 cols) (fun _ _ => 0).
Definition cov_inverse_times_mat (c : cov) (rows cols : nat) (M : mat) : outcome mat :=
  columnwise (cov_inverse_times c rows) M cols.
Definition cov_times_mat (c : cov) (rows cols : nat) (M : mat) : outcome mat :=
  columnwise (cov_times c rows) M cols.

(** logDeterminant, covariance_matrix.cpp:86-102. *)
Definition cov_logdet (c : cov) : outcome R :=
  let* s := ofold (fun i s => if Rltb 0 (q_R (cv_qr c) i i) then Ok (s + ln (q_R (cv_qr c) i i)) else CheckFail)
                  (seq 0 (cv_dim c)) 0 in
  Ok (2 * s).

(** inverse_logDeterminant, covariance_matrix.cpp:104-107. *)
Definition cov_inverse_logdet (c : cov) : outcome R := let* d := cov_logdet c in Ok (- d).
