(** What the block solver is asked to compute, stated without any factorisation.

    The unknowns come in blocks, block [i] with [w i] of them, and a common part of [nc] unknowns
    that every row may use. *)

From Coq Require Import Reals List Arith Bool.
From Verif Require Import LinAlg.
Import ListNotations.
Local Open Scope R_scope.

(** Rows handed to the solver: they use block [br_blk], which has [br_w] unknowns, through [br_A]
    and the common unknowns through [br_C]. *)
Record block_rows := {
  br_blk : nat; br_w : nat; br_rows : nat;
  br_A : nat -> nat -> R; br_C : nat -> nat -> R; br_b : nat -> R }.

(** What row [k] leaves at the unknowns [x] (per block) and [z] (common). *)
Definition row_left (nc : nat) (B : block_rows) (x : nat -> nat -> R) (z : nat -> R) (k : nat) : R :=
  sumn (br_w B) (fun j => br_A B k j * x (br_blk B) j) + sumn nc (fun j => br_C B k j * z j) - br_b B k.

(** lambda^2 (|x|^2 + |z|^2) + the sum over all the rows of their squares. *)
Definition block_objective (nb : nat) (w : nat -> nat) (nc : nat) (lambda : R) (Bs : list block_rows)
    (x : nat -> nat -> R) (z : nat -> R) : R :=
  lambda * lambda * (sumn nb (fun i => sumn (w i) (fun j => x i j * x i j)) + sumn nc (fun j => z j * z j)) +
  rsum (map (fun B => sumn (br_rows B) (fun k => row_left nc B x z k * row_left nc B x z k)) Bs).

(** [x], [z] is the one point where [f] is least. *)
Definition block_minimiser (nb : nat) (w : nat -> nat) (nc : nat) (f : (nat -> nat -> R) -> (nat -> R) -> R)
    (x : nat -> nat -> R) (z : nat -> R) : Prop :=
  forall x' z', f x z <= f x' z' /\
    (f x' z' = f x z ->
     (forall i j, (i < nb)%nat -> (j < w i)%nat -> x' i j = x i j) /\
     (forall j, (j < nc)%nat -> z' j = z j)).

(** The unknowns as one vector: the blocks in order, then the common part. *)
Definition pack (nb : nat) (w : nat -> nat) (nc : nat) (x : nat -> nat -> R) (z : nat -> R) : list R :=
  flat_map (fun i => map (x i) (seq 0 (w i))) (seq 0 nb) ++ map z (seq 0 nc).

(** A^T b: for unknown [j] of block [i] and for common unknown [j]. *)
Definition block_rhs (Bs : list block_rows) (i j : nat) : R :=
  rsum (map (fun B => if (br_blk B =? i)%nat
                      then sumn (br_rows B) (fun k => br_A B k j * br_b B k) else 0) Bs).
Definition common_rhs (Bs : list block_rows) (j : nat) : R :=
  rsum (map (fun B => sumn (br_rows B) (fun k => br_C B k j * br_b B k)) Bs).

(** The rows agree with the layout, and every block gets some. *)
Definition rows_fit (nb : nat) (w : nat -> nat) (Bs : list block_rows) : Prop :=
  forall B, In B Bs -> (br_blk B < nb)%nat /\ br_w B = w (br_blk B).
Definition every_block (nb : nat) (Bs : list block_rows) : Prop :=
  forall i, (i < nb)%nat -> exists B, In B Bs /\ br_blk B = i.
