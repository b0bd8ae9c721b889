(** Ancestors in a glTF file (C131). *)

From Coq Require Import List Arith.
Import ListNotations.

Section Parents.
Context (parents : list (option nat)).
(** [d] is [n] or above it. *)
Inductive above (d : nat) : nat -> Prop :=
| above_self : above d d
| above_parent : forall n p, nth_error parents n = Some (Some p) -> above d p -> above d n.
(** [n] and [m] are in different trees. *)
Definition unrelated (n m : nat) : Prop := forall d, above d n -> above d m -> False.
(** The parents are nodes, and there are no cycles. *)
Definition forest (rank : nat -> nat) : Prop := forall n p, nth_error parents n = Some (Some p) -> p < length parents /\ rank p < rank n.
End Parents.
