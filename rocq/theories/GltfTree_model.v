(** The skeleton of a glTF file: momentum/io/gltf/gltf_io.cpp, loadHierarchyRecursive and loadHierarchy.

    Simplifications: of a joint, capsule or locator there are the node that it is made from and its parent (what createJoint, createCollisionCapsule and createLocator take
    from the node is left out, and so are their errors); the roots that gatherSkeletonRoots finds are an argument; the map from nodes to objects has an entry for every
    node, so that the checks of its size hold; std::sort is a stable sort. *)

From Coq Require Import List Arith ZArith Ascii Bool String.
From Verif Require Import Prelude Loops Str_model Lines_model Marker_model LocIO_model.
Import ListNotations.
Local Open Scope outcome_scope.
Local Open Scope list_scope.

(** fx::gltf::Node: whether it has a skin, a camera and a mesh, the type in its extension (empty without one) and its children. *)
Record gnode := GNode { g_skin : bool; g_camera : bool; g_mesh : bool; g_type : str; g_children : list Z }.
(** What is made of a node, lines 284-312. *)
Inductive gkind := KCapsule | KLocator | KJoint | KNone.
Definition kind_of (use_ext : bool) (n : gnode) : gkind :=
  if s_eqb (g_type n) (lit "collision_capsule") then KCapsule
  else if s_eqb (g_type n) (lit "locator") then KLocator
  else if (negb use_ext && negb (g_mesh n)) || s_eqb (g_type n) (lit "skeleton_joint") then KJoint
  else KNone.
(** isHierarchyNode, lines 113-115. *)
Definition hierarchy_node (n : gnode) : bool := negb (g_skin n) && negb (g_camera n).

(** Joints, capsules and locators with their nodes and parents (None is kInvalidIndex), and nodeToObjectMap. *)
Record gstate := GS { g_joints : list (Z * option nat); g_capsules : list (Z * option nat); g_locators : list (Z * option nat); g_map : list (option nat) }.
(** l[i] = x. *)
Fixpoint upd {X} (l : list X) (i : nat) (x : X) : list X :=
  match l, i with
  | [], _ => []
  | _ :: r, O => x :: r
  | y :: r, S i => y :: upd r i x
  end.
(** Lines 283-312: the state and the new parent. *)
Definition visit (k : gkind) (n : Z) (q : option nat) (st : gstate) : outcome (gstate * option nat) :=
  match k with
  | KCapsule =>
    match q with
    | None => Throw
    | Some _ => Ok (GS (g_joints st) (g_capsules st ++ [(n, q)]) (g_locators st) (upd (g_map st) (Z.to_nat n) (Some (List.length (g_capsules st)))), q)
    end
  | KLocator =>
    match q with
    | None => Throw
    | Some _ => Ok (GS (g_joints st) (g_capsules st) (g_locators st ++ [(n, q)]) (upd (g_map st) (Z.to_nat n) (Some (List.length (g_locators st)))), q)
    end
  | KJoint => Ok (GS (g_joints st ++ [(n, q)]) (g_capsules st) (g_locators st) (upd (g_map st) (Z.to_nat n) (Some (List.length (g_joints st)))), Some (List.length (g_joints st)))
  | KNone => Ok (st, q)
  end.

Section Doc.
Context (nodes : list gnode) (use_ext : bool).
(** The loop over the children, lines 316-331. *)
Fixpoint each_child (f : Z -> gstate -> outcome gstate) (cs : list Z) (st : gstate) : outcome gstate :=
  match cs with
  | [] => Ok st
  | c :: r => let* st := f c st in each_child f r st
  end.
(** loadHierarchyRecursive, lines 259-332. The check of lines 268-271, which is made for children twice, lets the number of nodes pass. *)
Fixpoint load_node (fuel : nat) (n : Z) (q : option nat) (st : gstate) : outcome gstate :=
  match fuel with
  | O => OutOfFuel
  | S fuel =>
    if ((n <? 0) || (Z.of_nat (List.length nodes) <? n))%Z then Throw
    else
      match nth_error nodes (Z.to_nat n) with
      | None => UB
      | Some node =>
        if negb (hierarchy_node node) then Ok st
        else
          let* r := visit (kind_of use_ext node) n q st in
          each_child (fun c st => load_node fuel c (snd r) st) (g_children node) (fst r)
      end
  end.
(** Lines 347-353. *)
Fixpoint load_roots (fuel : nat) (roots : list Z) (st : gstate) : outcome gstate :=
  match roots with
  | [] => Ok st
  | r :: rs => let* st := load_node fuel r None st in match g_joints st with [] => load_roots fuel rs st | _ => Ok st end
  end.
(** Lines 355-365: sorting by parent, None first. *)
Definition parent_le (a b : Z * option nat) : bool :=
  match snd a, snd b with None, _ => true | Some _, None => false | Some i, Some k => i <=? k end.
Fixpoint ins (x : Z * option nat) (l : list (Z * option nat)) : list (Z * option nat) :=
  match l with [] => [x] | y :: r => if parent_le x y then x :: l else y :: ins x r end.
Definition by_parent (l : list (Z * option nat)) : list (Z * option nat) := fold_right ins [] l.
(** loadHierarchy, lines 333-367. *)
Definition load_hierarchy (fuel : nat) (roots : list Z) : outcome gstate :=
  let* st := load_roots fuel roots (GS [] [] [] (repeat None (List.length nodes))) in
  Ok (GS (g_joints st) (by_parent (g_capsules st)) (by_parent (g_locators st)) (g_map st)).
End Doc.
