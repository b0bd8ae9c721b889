(** Motions by name (C96). *)

From Coq Require Import List Arith String.
Import ListNotations.

(** [nm] is at [k], and nowhere before. *)
Definition first_named (names : list string) (nm : string) (k : nat) : Prop :=
  nth_error names k = Some nm /\ forall k', k' < k -> nth_error names k' <> Some nm.
(** [nm] is at [i], and nowhere after. *)
Definition last_named (names : list string) (nm : string) (i : nat) : Prop :=
  nth_error names i = Some nm /\ forall i', i < i' -> nth_error names i' <> Some nm.
