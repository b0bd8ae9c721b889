(** Model of OnlineBlockHouseholderQR (momentum/math/online_householder_qr.h:229-343,
    online_householder_qr.cpp:181-433).

    Matrices are functions with separate sizes as in QR_model and scalars are exact reals.  The rows
    of A_ii, A_in and b agree and A_in has n_common columns (MT_CHECK at :197-199). *)

From Coq Require Import Reals List Arith Bool.
From Verif Require Import Prelude LinAlg Rbool Loops BlockQR_spec QR_model.
Import ListNotations.
Local Open Scope R_scope.
Local Open Scope outcome_scope.

(** One entry of R_ii_, R_in_ and y_i_ (online_householder_qr.h:331-341).  [ob_nc] is the number of
    columns of R_in_[i]. *)
Record obk := { ob_n : nat; ob_nc : nat; ob_R : mat; ob_C : mat; ob_y : vec }.

(** push_back(MatrixType()), online_householder_qr.cpp:201-209. *)
Definition ob_empty : obk :=
  {| ob_n := 0; ob_nc := 0; ob_R := fun _ _ => 0; ob_C := fun _ _ => 0; ob_y := fun _ => 0 |}.

(** The first rows of a block, online_householder_qr.cpp:211-217. *)
Definition ob_fresh (n nc : nat) (lambda : R) : obk :=
  {| ob_n := n; ob_nc := nc;
     ob_R := fun i j => if (i =? j)%nat then lambda else 0;
     ob_C := fun _ _ => 0; ob_y := fun _ => 0 |}.

(** [oq_nn] holds R_nn_ and y_n_. *)
Record obq := { oq_lambda : R; oq_blocks : list obk; oq_nn : qr }.

(** The constructor, online_householder_qr.cpp:181-187. *)
Definition oq_new (nc : nat) (lambda : R) : obq :=
  {| oq_lambda := lambda; oq_blocks := []; oq_nn := qr_reset nc lambda |}.

(** reset, online_householder_qr.cpp:421-430. *)
Definition oq_reset (q : obq) : obq := oq_new (q_n (oq_nn q)) (oq_lambda q).

(** Eigen's isZero() with its default precision [eps] (1e-5 for float, 1e-12 for double): no entry
    is larger than [eps]. *)
Definition is_zero (eps : R) (m : nat) (v : vec) : bool :=
  forallb (fun k => Rleb (Rabs (v k)) eps) (seq 0 m).

(** The block, and A_ii, A_in and b while they are eliminated. *)
Record dstate := { ds_R : mat; ds_C : mat; ds_y : vec; ds_A : mat; ds_AC : mat; ds_b : vec }.

(** One pass of the loop at online_householder_qr.cpp:228-268. *)
Definition diag_step (eps : R) (n nc m : nat) (s : dstate) (i : nat) : dstate :=
  if is_zero eps m (col (ds_A s) i) then s
  else
    let '(beta, mu, v) := hh_vec (ds_R s i i) m (col (ds_A s) i) in
    let A := upd_col (ds_A s) i v in
    if Reqb beta 0 then
      {| ds_R := ds_R s; ds_C := ds_C s; ds_y := ds_y s; ds_A := A; ds_AC := ds_AC s; ds_b := ds_b s |}
    else
      let Rm := upd_at (ds_R s) i i mu in
      let '(r, A) := apply_cols beta m v (seq (S i) (n - S i)) (Rm i) A in
      let '(c, AC) := apply_cols beta m v (seq 0 nc) (ds_C s i) (ds_AC s) in
      let '(y1, b) := hh_apply beta m v (ds_y s i) (ds_b s) in
      {| ds_R := upd_row Rm i r; ds_C := upd_row (ds_C s) i c; ds_y := upd (ds_y s) i y1;
         ds_A := A; ds_AC := AC; ds_b := b |}.

(** The whole loop. *)
Definition diag_loop (eps : R) (n nc m : nat) (s : dstate) : dstate :=
  fold_left (diag_step eps n nc m) (seq 0 n) s.

(** addMutating, online_householder_qr.cpp:189-287.  The loop over the common columns (:271-286) is
    the one of the dense solver, on R_nn_ and y_n_. *)
Definition oq_add (eps : R) (q : obq) (B : block_rows) : outcome obq :=
  let nc := q_n (oq_nn q) in
  let n := br_w B in
  let bl := oq_blocks q ++ repeat ob_empty (S (br_blk B) - length (oq_blocks q)) in
  let* old := rd bl (br_blk B) in
  let* k := (if (ob_n old =? 0)%nat then Ok (ob_fresh n nc (oq_lambda q))
             else if (ob_n old =? n)%nat then Ok old else CheckFail) in
  let s := diag_loop eps n nc (br_rows B)
    {| ds_R := ob_R k; ds_C := ob_C k; ds_y := ob_y k; ds_A := br_A B; ds_AC := br_C B; ds_b := br_b B |} in
  let* bl := wr bl (br_blk B) {| ob_n := n; ob_nc := nc; ob_R := ds_R s; ob_C := ds_C s; ob_y := ds_y s |} in
  Ok {| oq_lambda := oq_lambda q; oq_blocks := bl;
        oq_nn := qr_add (oq_nn q) (br_rows B) (ds_AC s) (ds_b s) |}.

(** The calls on a solver: addMutating and reset(). *)
Definition oq_do (eps : R) (o : option block_rows) (q : obq) : outcome obq :=
  match o with Some B => oq_add eps q B | None => Ok (oq_reset q) end.
Definition oq_run (eps : R) (q : obq) (Bs : list block_rows) : outcome obq :=
  ofold (fun B q => oq_add eps q B) Bs q.

(** x_n, online_householder_qr.cpp:364-367. *)
Definition oq_xn (q : obq) : vec := tri_solve (q_n (oq_nn q)) (q_R (oq_nn q)) (q_y (oq_nn q)).

(** The right-hand side and the solve of one block (online_householder_qr.cpp:356-357 and :372-373).
    Eigen asserts that R_in_[i] has as many columns as x_n has rows. *)
Definition ob_solve (q : obq) (k : obk) : outcome (list R) :=
  if (ob_nc k =? q_n (oq_nn q))%nat then
    Ok (map (tri_solve (ob_n k) (ob_R k) (fun r => ob_y k r - sumn (ob_nc k) (fun c => ob_C k r c * oq_xn q c)))
            (seq 0 (ob_n k)))
  else CheckFail.

(** x_i, online_householder_qr.cpp:369-374. *)
Definition oq_xi (q : obq) (i : nat) : outcome (list R) := let* k := rd (oq_blocks q) i in ob_solve q k.

(** x_dense, online_householder_qr.cpp:338-362. *)
Definition oq_x_dense (q : obq) : outcome (list R) :=
  let* l := ofold (fun k acc => let* x := ob_solve q k in Ok (acc ++ x)) (oq_blocks q) [] in
  Ok (l ++ map (oq_xn q) (seq 0 (q_n (oq_nn q)))).

(** At_times_b_i, online_householder_qr.cpp:376-381.  The two vectors that are added have ob_n and
    ob_nc entries: Eigen asserts that these agree, and reads outside one of them without
    assertions. *)
Definition oq_At_b_i (q : obq) (i : nat) : outcome (list R) :=
  let* k := rd (oq_blocks q) i in
  if (ob_n k =? ob_nc k)%nat then
    Ok (map (fun j => sumn (ob_n k) (fun r => ob_R k r j * ob_y k r) +
                      sumn (ob_n k) (fun r => ob_C k r j * ob_y k r)) (seq 0 (ob_n k)))
  else UB.

(** At_times_b_n, online_householder_qr.cpp:383-390. *)
Definition oq_At_b_n (q : obq) : outcome (list R) :=
  let nc := q_n (oq_nn q) in
  ofold (fun k acc =>
      if (ob_nc k =? nc)%nat then
        Ok (map (fun '(a, j) => a + sumn (ob_n k) (fun r => ob_C k r j * ob_y k r)) (combine acc (seq 0 nc)))
      else CheckFail)
    (oq_blocks q)
    (map (fun j => sumn nc (fun r => q_R (oq_nn q) r j * q_y (oq_nn q) r)) (seq 0 nc)).

(** At_times_b_dense, online_householder_qr.cpp:392-414. *)
Definition oq_At_b_dense (q : obq) : outcome (list R) :=
  let* n := oq_At_b_n q in
  Ok (flat_map (fun k => map (fun j => sumn (ob_n k) (fun r => ob_R k r j * ob_y k r)) (seq 0 (ob_n k)))
        (oq_blocks q) ++ n).

(** At_times_b_dot, online_householder_qr.cpp:416-419 (Eigen asserts the sizes). *)
Definition oq_At_b_dot (q : obq) (v : list R) : outcome R :=
  let* a := oq_At_b_dense q in
  if (length a =? length v)%nat then Ok (rsum (map (fun '(x, y) => x * y) (combine a v))) else CheckFail.
