(** What the trust-region solver sees of the objective (C26). *)

From Coq Require Import Reals List Arith Bool.
From Verif Require Import LinAlg.
Import ListNotations.
Local Open Scope R_scope.

(** The objective: number of parameters, getError, and at a parameter vector the error and the
    Jacobian rows (each with its residual) of every error function with positive weight. *)
Record tr_fn := {
  tr_n : nat;
  tr_error : list R -> R;
  tr_blocks : list R -> list (R * list (list R * R))
}.
(** The error the Jacobian evaluation reports. *)
Definition tr_reported (f : tr_fn) (p : list R) : R := rsum (map fst (tr_blocks f p)).

(** The reported error is nonnegative; it is the one getError returns. *)
Definition tr_nonneg (f : tr_fn) : Prop := forall p, length p = tr_n f -> 0 <= tr_reported f p.
Definition tr_consistent (f : tr_fn) : Prop :=
  forall p, length p = tr_n f -> tr_reported f p = tr_error f p.
