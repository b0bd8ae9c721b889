(** Where the nodes of a glTF file are in a hierarchy (C130). *)

From Coq Require Import List Arith ZArith Ascii Bool String.
From Verif Require Import Prelude Str_model Lines_model LocIO_model GltfTree_model.
Import ListNotations.

Section Doc.
Context (nodes : list gnode) (use_ext : bool).
(** Node [n] is there and takes part: it has neither a skin nor a camera. *)
Definition takes_part (n : Z) (node : gnode) : Prop := (0 <= n)%Z /\ nth_error nodes (Z.to_nat n) = Some node /\ g_skin node = false /\ g_camera node = false.
(** What it becomes. Without the extension every node without a mesh is a joint. *)
Definition is_capsule (node : gnode) : Prop := g_type node = lit "collision_capsule".
Definition is_locator (node : gnode) : Prop := g_type node = lit "locator".
Definition is_joint (node : gnode) : Prop :=
  g_type node = lit "skeleton_joint" \/ (use_ext = false /\ g_mesh node = false /\ g_type node <> lit "collision_capsule" /\ g_type node <> lit "locator").
(** [below n a m b]: [m] is reached from [n] through nodes that take part; [b] is the last joint before [m], where [a] is the one before [n]. *)
Inductive below : Z -> option Z -> Z -> option Z -> Prop :=
| below_here : forall n a, below n a n a
| below_joint : forall n a node c m b, takes_part n node -> is_joint node -> In c (g_children node) -> below c (Some n) m b -> below n a m b
| below_other : forall n a node c m b, takes_part n node -> ~ is_joint node -> In c (g_children node) -> below c a m b -> below n a m b.
(** The parent of an object is the joint that was made from the last joint before it. *)
Definition parent_is (joints : list (Z * option nat)) (b : option Z) (q : option nat) : Prop :=
  match b, q with
  | None, None => True
  | Some m, Some i => exists p, nth_error joints i = Some (m, p)
  | _, _ => False
  end.
(** There are no cycles: something decreases from node to child. *)
Definition decreasing (rank : Z -> nat) : Prop := forall n node c, takes_part n node -> In c (g_children node) -> rank c < rank n.
(** The nodes are trees: no cycles, and a node is a child of one other node at most, and only once. *)
Definition trees : Prop :=
  (exists rank, decreasing rank) /\
  (forall n node, takes_part n node -> NoDup (g_children node)) /\
  (forall n n' node node' c, takes_part n node -> takes_part n' node' -> In c (g_children node) -> In c (g_children node') -> n = n').
End Doc.
