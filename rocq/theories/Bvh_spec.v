(** What a bounding volume hierarchy is (C51-C54). *)

From Coq Require Import List Arith NArith QArith Bool Permutation.
From Verif Require Import Prelude Box_model Box_spec Bvh_model.
Import ListNotations.
Local Open Scope nat_scope.

(** Binary trees of boxes over ranges of a list. *)
Inductive tree :=
| Leaf (b : box) (start n : nat)
| Node (b : box) (start n : nat) (l r : tree).

Definition t_box (t : tree) : box := match t with Leaf b _ _ => b | Node b _ _ _ _ => b end.
Fixpoint size (t : tree) : nat := match t with Leaf _ _ _ => 1 | Node _ _ _ l r => 1 + size l + size r end.
Fixpoint height (t : tree) : nat := match t with Leaf _ _ _ => 0 | Node _ _ _ l r => 1 + Nat.max (height l) (height r) end.

(** How it is stored: each node is followed by its left subtree, then its right subtree; the offset
    leads to the right one, and is zero for leaves. *)
Fixpoint flatten (t : tree) : list node :=
  match t with
  | Leaf b s n => [{| n_box := b; n_start := s; n_prims := n; n_right := 0 |}]
  | Node b s n l r =>
    {| n_box := b; n_start := s; n_prims := n; n_right := N.of_nat (1 + size l) |} :: flatten l ++ flatten r
  end.

(** Box [b] contains all boxes of [seg]. *)
Definition covers (b : box) (seg : list box) : Prop := forall c, In c seg -> inside c b.
(** And it is the smallest such box. *)
Definition tight (b : box) (seg : list box) : Prop :=
  covers b seg /\ forall d, (exists c, In c seg /\ at3 (lo c) d == at3 (lo b) d)%Q /\
                            (exists c, In c seg /\ at3 (hi c) d == at3 (hi b) d)%Q.

(** [over good cap start seg t]: [t] is a hierarchy over the boxes [seg], which stand at position
    [start] of the list: its leaves hold between one and [cap] of them, the two children of a node
    split its range in two, and every node box is [good] for the boxes below it. *)
Inductive over (good : box -> list box -> Prop) (cap : nat) : nat -> list box -> tree -> Prop :=
| over_leaf : forall start seg b,
    1 <= length seg -> length seg <= cap -> good b seg -> over good cap start seg (Leaf b start (length seg))
| over_node : forall start seg1 seg2 b l r,
    over good cap start seg1 l -> over good cap (start + length seg1) seg2 r ->
    cap < length (seg1 ++ seg2) -> good b (seg1 ++ seg2) ->
    over good cap start (seg1 ++ seg2) (Node b start (length (seg1 ++ seg2)) l r).

(** A stored hierarchy. *)
Definition hierarchy (good : box -> list box -> Prop) (cap : nat) (t : bvh) (tr : tree) : Prop :=
  t_flat t = flatten tr /\ over good cap 0 (t_prims t) tr.

(** The boxes of the children lie inside the box of their parent, and the boxes of the leaves
    contain the primitives of the leaf. *)
Fixpoint nested (prims : list box) (t : tree) : Prop :=
  match t with
  | Leaf b s n => covers b (firstn n (skipn s prims))
  | Node b _ _ l r => inside (t_box l) b /\ inside (t_box r) b /\ nested prims l /\ nested prims r
  end.
(** No demand on the boxes: only the shape counts. *)
Definition any_box (_ : box) (_ : list box) : Prop := True.

(** The selected boxes of a list: [hits] are the ids of some of the boxes of [all], each one once,
    and none of the others satisfies [P]. *)
Definition selects (P : box -> Prop) (all : list box) (hits : list nat) : Prop :=
  exists chosen others, Permutation all (chosen ++ others) /\ hits = map bid chosen /\ forall b, In b others -> ~ P b.
(** And all the chosen ones satisfy it. *)
Definition selects_exactly (P : box -> Prop) (all : list box) (hits : list nat) : Prop :=
  exists chosen others, Permutation all (chosen ++ others) /\ hits = map bid chosen /\
    (forall b, In b others -> ~ P b) /\ (forall b, In b chosen -> P b).

(** The ray from [o] along [v] meets the box [b]; up to parameter [m] in the second version. *)
Definition ray_meets (o v : q3) (b : box) : Prop := exists t, (0 <= t)%Q /\ in_box (ray_point o v t) b.
Definition ray_meets_until (m : Q) (o v : q3) (b : box) : Prop := exists t, (0 <= t)%Q /\ (t <= m)%Q /\ in_box (ray_point o v t) b.
