(** When the block solver takes no column for zero that is not, and what is left of a history of calls. *)

From Coq Require Import Reals List Arith Bool.
From Verif Require Import Prelude LinAlg BlockQR_spec QR_model BlockQR_model.
Import ListNotations.
Local Open Scope R_scope.

(** Columns that the code leaves alone really are zero. *)
Definition zero_means_zero (eps : R) (m : nat) (v : vec) : Prop :=
  is_zero eps m v = true -> forall k, (k < m)%nat -> v k = 0.

(** The columns that the code leaves alone, along the whole loop. *)
Fixpoint loop_exact (eps : R) (n nc m i len : nat) (s : dstate) : Prop :=
  match len with
  | 0%nat => True
  | S l => zero_means_zero eps m (col (ds_A s) i) /\
           loop_exact eps n nc m (S i) l (diag_step eps n nc m s i)
  end.

(** The block with a given number. *)
Definition blk (q : obq) (i : nat) : obk := nth i (oq_blocks q) ob_empty.

(** The block a call works on. *)
Definition start_block (q : obq) (B : block_rows) : obk :=
  if (ob_n (blk q (br_blk B)) =? 0)%nat then ob_fresh (br_w B) (q_n (oq_nn q)) (oq_lambda q)
  else blk q (br_blk B).

(** No column is taken for zero during the call although it is not. *)
Definition add_exact (eps : R) (q : obq) (B : block_rows) : Prop :=
  let k := start_block q B in
  loop_exact eps (br_w B) (q_n (oq_nn q)) (br_rows B) 0 (br_w B)
    {| ds_R := ob_R k; ds_C := ob_C k; ds_y := ob_y k; ds_A := br_A B; ds_AC := br_C B; ds_b := br_b B |}.

Fixpoint run_exact (eps : R) (q : obq) (Bs : list block_rows) : Prop :=
  match Bs with
  | [] => True
  | B :: r => add_exact eps q B /\ forall q', oq_add eps q B = Ok q' -> run_exact eps q' r
  end.

(** The rows added since the last reset ([None] is a reset). *)
Fixpoint since_reset (ops : list (option block_rows)) (acc : list block_rows) : list block_rows :=
  match ops with
  | [] => acc
  | None :: r => since_reset r []
  | Some B :: r => since_reset r (acc ++ [B])
  end.
