(** Model of the dense online QR solver and of the column selection view.

    Models momentum/math/online_householder_qr.{h,cpp}.  Scalars are exact reals; an Eigen
    matrix is a function from (row, column) to R whose size is kept separately, and every loop
    below stays inside the sizes, so no entry outside them is ever read or written. *)

From Coq Require Import Reals List Arith Bool.
From Verif Require Import LinAlg Rbool QR_spec.
Import ListNotations.
Local Open Scope R_scope.

Definition mat := nat -> nat -> R.
Definition vec := nat -> R.

(** Storing one entry of a vector, one entry of a matrix, one column of a matrix. *)
Definition upd (v : vec) (i : nat) (x : R) : vec := fun k => if (k =? i)%nat then x else v k.
Definition upd_at (M : mat) (i j : nat) (x : R) : mat :=
  fun r c => if (r =? i)%nat && (c =? j)%nat then x else M r c.
Definition upd_row (M : mat) (i : nat) (v : vec) : mat :=
  fun r c => if (r =? i)%nat then v c else M r c.
Definition upd_col (M : mat) (j : nat) (v : vec) : mat :=
  fun r c => if (c =? j)%nat then v r else M r c.
Definition col (M : mat) (j : nat) : vec := fun k => M k j.

(** ** ColumnIndexedMatrix (online_householder_qr.h:25-78)

    [cim_idx = None] is the constructor at :29 (all columns), [Some l] the one at :31-34. *)
Record cim := { cim_rows : nat; cim_matcols : nat; cim_mat : mat; cim_idx : option (list nat) }.

(** online_householder_qr.h:48-54. *)
Definition cim_cols (a : cim) : nat :=
  match cim_idx a with Some l => length l | None => cim_matcols a end.

(** online_householder_qr.h:36-42.  The stored column that logical column [c] selects. *)
Definition cim_phys (a : cim) (c : nat) : nat :=
  match cim_idx a with Some l => nth c l 0%nat | None => c end.
Definition cim_view (a : cim) : mat := fun k c => cim_mat a k (cim_phys a c).

(** online_householder_qr.h:60-70: the product of the transposed view with [b].  The loop at
    :63-65 reads [mat_.col(iCol)], not the selected column. *)
Definition cim_transpose_times (a : cim) (b : vec) : list R :=
  match cim_idx a with
  | Some l => map (fun i => sumn (cim_rows a) (fun k => cim_mat a k i * b k)) (seq 0 (length l))
  | None => map (fun i => sumn (cim_rows a) (fun k => cim_mat a k i * b k)) (seq 0 (cim_matcols a))
  end.

(** ** Householder reflections *)

(** computeHouseholderVec, online_householder_qr.cpp:52-69: given the pivot [x1] and the [m]
    entries below it, returns beta, mu and the new contents of the vector. *)
Definition hh_vec (x1 : R) (m : nat) (x : vec) : R * R * vec :=
  let sigma := sumn m (fun k => x k * x k) in
  if Reqb sigma 0 then (0, x1, x)
  else
    let mu := sqrt (x1 * x1 + sigma) in
    let v1 := if Rleb x1 0 then x1 - mu else - sigma / (x1 + mu) in
    let beta := 2 * (v1 * v1) / (sigma + v1 * v1) in
    (beta, mu, fun k => x k / v1).

(** applyHouseholderTransformation, online_householder_qr.cpp:27-43. *)
Definition hh_apply (beta : R) (m : nat) (v : vec) (y1 : R) (y : vec) : R * vec :=
  let dotProd := y1 + sumn m (fun k => v k * y k) in
  let scalar := dotProd * beta in
  (y1 - scalar, fun k => y k - scalar * v k).

(** The loops "for jCol ... applyHouseholderTransformation(beta, v2m, R(iCol, jCol), A.col(jCol))"
    (online_householder_qr.cpp:151-153 and their siblings at :247-253, :281-283, :529-540,
    :571-574).  [r] is the row of R being updated.  The code passes [v2m] by reference into A; it
    is passed by value here because the columns of the view are distinct
    (validateColumnIndices, :96-111), so no iteration writes it. *)
Definition apply_cols (beta : R) (m : nat) (v : vec) (js : list nat) (r : vec) (A : mat)
  : vec * mat :=
  fold_left
    (fun rA j => let '(r, A) := rA in
       let '(y1, y2) := hh_apply beta m v (r j) (col A j) in
       (upd r j y1, upd_col A j y2))
    js (r, A).

(** ** OnlineHouseholderQR *)

Record qr := { q_n : nat; q_R : mat; q_y : vec }.

(** reset(n, lambda), online_householder_qr.cpp:84-93 (and the constructor :72-75). *)
Definition qr_reset (n : nat) (lambda : R) : qr :=
  {| q_n := n;
     q_R := fun i j => if (i =? j)%nat then lambda else 0;
     q_y := fun _ => 0 |}.

(** reset(), online_householder_qr.cpp:78-81: calls reset(n) whose lambda defaults to 0
    (online_householder_qr.h:204). *)
Definition qr_reset_same (q : qr) : qr := qr_reset (q_n q) 0.

(** One pass of the loop at online_householder_qr.cpp:124-159. *)
Definition qr_step (n m : nat) (s : mat * vec * mat * vec) (i : nat) : mat * vec * mat * vec :=
  let '(Rm, y, A, b) := s in
  let '(beta, mu, v) := hh_vec (Rm i i) m (col A i) in
  let A := upd_col A i v in
  if Reqb beta 0 then (Rm, y, A, b)
  else
    let Rm := upd_at Rm i i mu in
    let '(r, A) := apply_cols beta m v (seq (S i) (n - S i)) (Rm i) A in
    let '(y1, b) := hh_apply beta m v (y i) b in
    (upd_row Rm i r, upd y i y1, A, b).

(** addMutating, online_householder_qr.cpp:118-160: the loop over the columns, in order.  The
    matrix and right-hand side left behind in the caller's storage are returned too. *)
Definition qr_add_mutating (q : qr) (m : nat) (A : mat) (b : vec) : qr * mat * vec :=
  let '(Rm, y, A, b) := fold_left (qr_step (q_n q) m) (seq 0 (q_n q)) (q_R q, q_y q, A, b) in
  ({| q_n := q_n q; q_R := Rm; q_y := y |}, A, b).

(** add, online_householder_qr.cpp:113-116 (by value: the caller's storage is untouched). *)
Definition qr_add (q : qr) (m : nat) (A : mat) (b : vec) : qr := fst (fst (qr_add_mutating q m A b)).

(** At_times_b, online_householder_qr.cpp:162-170. *)
Definition qr_At_times_b (q : qr) : list R :=
  map (fun j => sumn (q_n q) (fun i => q_R q i j * q_y q i)) (seq 0 (q_n q)).

(** Eigen's triangularView<Upper>().solve: back substitution, last row first. *)
Definition tri_solve (n : nat) (U : mat) (y : vec) : vec :=
  fold_left
    (fun x i => upd x i ((y i - rsum (map (fun j => U i j * x j) (seq (S i) (n - S i)))) / U i i))
    (rev (seq 0 n)) (fun _ => 0).

(** result, online_householder_qr.cpp:172-177. *)
Definition qr_result (q : qr) : vec := tri_solve (q_n q) (q_R q) (q_y q).

(** A solver reset to [n] unknowns and then given some blocks. *)
Definition qr_run (n : nat) (lambda : R) (Bs : list lsq_block) : qr :=
  fold_left (fun q B => qr_add q (lb_rows B) (lb_A B) (lb_b B)) Bs (qr_reset n lambda).

(** One call on a solver. *)
Definition qr_do (q : qr) (o : qr_op) : qr :=
  match o with
  | OpReset n lambda => qr_reset n lambda
  | OpResetSame => qr_reset_same q
  | OpAdd B => qr_add q (lb_rows B) (lb_A B) (lb_b B)
  end.
