(** Model of OnlineBandedHouseholderQR (momentum/math/online_householder_qr.h:325-513,
    online_householder_qr.cpp:435-659), with its banded storage.  Matrices are functions with
    separate sizes as in QR_model; the sizes asserted by the code (MT_CHECK) are preconditions. *)

From Coq Require Import Reals List Arith Bool.
From Verif Require Import LinAlg Rbool QR_spec QRBanded_spec QR_model.
Import ListNotations.
Local Open Scope R_scope.

(** online_householder_qr.h:488-512: [bq_band] is the bandwidth x n_band store, [bq_common] the
    (n_band + n_common) x n_common part. *)
Record bqr := {
  bq_nb : nat; bq_nc : nat; bq_bw : nat; bq_lambda : R;
  bq_band : mat; bq_common : mat; bq_y : vec }.

(** R_band_entry, online_householder_qr.h:474-486: where entry (i, j) is stored. *)
Definition band_row (bw i j : nat) : nat := (bw + i - j - 1)%nat.

(** The constructor and initializeDiagonal, online_householder_qr.cpp:435-462. *)
Definition bq_new (nb nc bw : nat) (lambda : R) : bqr :=
  {| bq_nb := nb; bq_nc := nc; bq_bw := bw; bq_lambda := lambda;
     bq_band := fun s c => if (s =? bw - 1)%nat then lambda else 0;
     bq_common := fun r c => if (r =? nb + c)%nat then lambda else 0;
     bq_y := fun _ => 0 |}.

(** reset, online_householder_qr.cpp:464-471. *)
Definition bq_reset (q : bqr) : bqr := bq_new (bq_nb q) (bq_nc q) (bq_bw q) (bq_lambda q).

(** The loop at online_householder_qr.cpp:529-534 over the later columns of the window. *)
Definition apply_band (bw g off : nat) (beta : R) (m : nat) (v : vec) (js : list nat)
    (S0 A : mat) : mat * mat :=
  fold_left
    (fun SA j => let '(S0, A) := SA in
       let s := band_row bw g (off + j) in
       let '(y1, y2) := hh_apply beta m v (S0 s (off + j)%nat) (col A j) in
       (upd_at S0 s (off + j)%nat y1, upd_col A j y2))
    js (S0, A).

(** Banded store, common part, rhs; the window of A, its common part, its rhs. *)
Record bstate := {
  bs_band : mat; bs_common : mat; bs_y : vec; bs_A : mat; bs_C : mat; bs_b : vec }.

(** One pass of the loop in zeroBandedPart, online_householder_qr.cpp:499-543. *)
Definition zero_step (bw nc off w m : nat) (s : bstate) (i : nat) : bstate :=
  let g := (i + off)%nat in
  let d := band_row bw g g in
  let '(beta, mu, v) := hh_vec (bs_band s d g) m (col (bs_A s) i) in
  let A := upd_col (bs_A s) i v in
  if Reqb beta 0 then
    {| bs_band := bs_band s; bs_common := bs_common s; bs_y := bs_y s;
       bs_A := A; bs_C := bs_C s; bs_b := bs_b s |}
  else
    let B := upd_at (bs_band s) d g mu in
    let '(B, A) := apply_band bw g off beta m v (seq (S i) (w - S i)) B A in
    let '(rc, C) := apply_cols beta m v (seq 0 nc) (bs_common s g) (bs_C s) in
    let '(y1, b) := hh_apply beta m v (bs_y s g) (bs_b s) in
    {| bs_band := B; bs_common := upd_row (bs_common s) g rc; bs_y := upd (bs_y s) g y1;
       bs_A := A; bs_C := C; bs_b := b |}.

(** zeroBandedPart, online_householder_qr.cpp:484-544. *)
Definition zero_banded (q : bqr) (off w m : nat) (A C : mat) (b : vec) : bqr * mat * vec :=
  let s := fold_left (zero_step (bq_bw q) (bq_nc q) off w m) (seq 0 w)
    {| bs_band := bq_band q; bs_common := bq_common q; bs_y := bq_y q;
       bs_A := A; bs_C := C; bs_b := b |} in
  ({| bq_nb := bq_nb q; bq_nc := bq_nc q; bq_bw := bq_bw q; bq_lambda := bq_lambda q;
      bq_band := bs_band s; bq_common := bs_common s; bq_y := bs_y s |}, bs_C s, bs_b s).

(** One pass of the loop in addMutating(A_common, b), online_householder_qr.cpp:557-578. *)
Definition common_step (nb nc m : nat) (s : mat * vec * mat * vec) (i : nat)
  : mat * vec * mat * vec :=
  let '(Rc, y, C, b) := s in
  let '(beta, mu, v) := hh_vec (Rc (i + nb)%nat i) m (col C i) in
  let C := upd_col C i v in
  if Reqb beta 0 then (Rc, y, C, b)
  else
    let Rc := upd_at Rc (i + nb)%nat i mu in
    let '(r, C) := apply_cols beta m v (seq (S i) (nc - S i)) (Rc (i + nb)%nat) C in
    let '(y1, b) := hh_apply beta m v (y (nb + i)%nat) b in
    (upd_row Rc (i + nb)%nat r, upd y (nb + i)%nat y1, C, b).

(** addMutating(A_common, b), online_householder_qr.cpp:546-579. *)
Definition add_common (q : bqr) (m : nat) (C : mat) (b : vec) : bqr :=
  let '(Rc, y, _, _) :=
    fold_left (common_step (bq_nb q) (bq_nc q) m) (seq 0 (bq_nc q)) (bq_common q, bq_y q, C, b) in
  {| bq_nb := bq_nb q; bq_nc := bq_nc q; bq_bw := bq_bw q; bq_lambda := bq_lambda q;
     bq_band := bq_band q; bq_common := Rc; bq_y := y |}.

(** addMutating(iCol_offset, A_band, A_common, b), online_householder_qr.cpp:473-481. *)
Definition bq_add (q : bqr) (off w m : nat) (A C : mat) (b : vec) : bqr :=
  let '(q1, C1, b1) := zero_banded q off w m A C b in
  add_common q1 m C1 b1.

(** R_dense, online_householder_qr.cpp:581-604.  The two loops write each cell once, so the
    matrix they build is given by its entries. *)
Definition bq_R_dense (q : bqr) : mat := fun r c =>
  if (c <? bq_nb q)%nat then
    (if (r <=? c)%nat && (c - r <? bq_bw q)%nat
     then bq_band q (band_row (bq_bw q) r c) c else 0)
  else bq_common q r (c - bq_nb q)%nat.

(** x_dense, online_householder_qr.cpp:606-630: the common unknowns by back substitution on
    the bottom rows, then the banded ones from the last to the first. *)
Definition bq_x_dense (q : bqr) : vec :=
  let nb := bq_nb q in let nc := bq_nc q in
  let xc := tri_solve nc (fun r c => bq_common q (nb + r)%nat c) (fun r => bq_y q (nb + r)%nat) in
  let x0 : vec := fun j => if (j <? nb)%nat then 0 else xc (j - nb)%nat in
  fold_left
    (fun x i =>
       let dotC := sumn nc (fun k => bq_common q i k * x (nb + k)%nat) in
       let bwc := Nat.min (bq_bw q) (nb - i) in
       let dotB := rsum (map (fun o => bq_band q (band_row (bq_bw q) i (i + o)) (i + o)%nat
                                       * x (i + o)%nat) (seq 1 (bwc - 1))) in
       upd x i ((bq_y q i - (dotC + dotB)) / bq_band q (band_row (bq_bw q) i i) i))
    (rev (seq 0 nb)) x0.

(** At_times_b, online_householder_qr.cpp:632-655. *)
Definition bq_At_times_b (q : bqr) : list R :=
  let nb := bq_nb q in
  let top := fold_left
    (fun res i =>
       fold_left (fun res o =>
          upd res (i + o)%nat (res (i + o)%nat +
             bq_band q (band_row (bq_bw q) i (i + o)) (i + o)%nat * bq_y q i))
         (seq 0 (Nat.min (bq_bw q) (nb - i))) res)
    (seq 0 nb) (fun _ => 0) in
  map top (seq 0 nb) ++
  map (fun c => sumn (nb + bq_nc q) (fun r => bq_common q r c * bq_y q r)) (seq 0 (bq_nc q)).

(** A solver that is constructed and then given some blocks. *)
Definition bq_give (q : bqr) (B : band_block) : bqr :=
  bq_add q (bb_off B) (bb_w B) (bb_rows B) (bb_A B) (bb_C B) (bb_b B).
Definition bq_run (nb nc bw : nat) (lambda : R) (Bs : list band_block) : bqr :=
  fold_left bq_give Bs (bq_new nb nc bw lambda).
