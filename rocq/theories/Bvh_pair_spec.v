(** What the pair and closest point queries are meant to find (C55, C56). *)

From Coq Require Import List Arith QArith Permutation.
From Verif Require Import Box_model Box_spec Bvh_model Bvh_spec.
Import ListNotations.
Local Open Scope nat_scope.

(** The pairs of boxes at different positions of a list, each unordered pair once. *)
Fixpoint pairs (l : list box) : list (box * box) :=
  match l with [] => [] | x :: l => map (pair x) l ++ pairs l end.
(** Those with both boxes in one leaf. *)
Fixpoint leaf_pairs (prims : list box) (tr : tree) : list (box * box) :=
  match tr with
  | Leaf _ s n => pairs (firstn n (skipn s prims))
  | Node _ _ _ l r => leaf_pairs prims l ++ leaf_pairs prims r
  end.

Definition overlap (p : box * box) : Prop := meet (fst p) (snd p).
Definition ids (p : box * box) : nat * nat := (bid (fst p), bid (snd p)).

(** The squared distance of the query to the projection on the primitive of [b]. *)
Definition reach (q : q3) (func : nat -> q3) (b : box) : Q := sq_dist (func (bid b)) q.
