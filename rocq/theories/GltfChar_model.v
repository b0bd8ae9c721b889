(** A character from a glTF file: momentum/io/gltf/gltf_io.cpp, populateCharacterFromModel.

    Simplifications: of joints, capsules and locators there are the parents; the mesh itself (C132), its weights (C133), the extensions (C128, C129) and the inverse bind pose are left out. *)

From Coq Require Import List Arith ZArith Bool.
From Verif Require Import Prelude GltfTree_model.
Import ListNotations.
Local Open Scope outcome_scope.
Local Open Scope list_scope.

(** The parents of joints, capsules and locators. *)
Record gchar := GC { gc_joints : list (option nat); gc_capsules : list (option nat); gc_locators : list (option nat) }.
(** Lines 661-668: the nodes that nothing was made from. *)
Fixpoint remaining (nodes : list gnode) (m : list (option nat)) : list gnode :=
  match nodes, m with
  | n :: nodes, None :: m => n :: remaining nodes m
  | _ :: nodes, Some _ :: m => remaining nodes m
  | _, _ => []
  end.
(** Lines 545-556: nodes with a mesh, with and without a skin. *)
Definition skinned_mesh (n : gnode) : bool := g_mesh n && g_skin n.
Definition plain_mesh (n : gnode) : bool := g_mesh n && negb (g_skin n).
(** populateCharacterFromModel, lines 643-688. A mesh without skin weights, lines 674-680, replaces the skeleton by a root (createSkeletonWithOnlyRoot, lines 597-603). *)
Definition populate (nodes : list gnode) (use_ext : bool) (fuel : nat) (roots : list Z) : outcome gchar :=
  let* st := load_hierarchy nodes use_ext fuel roots in
  let rest := remaining nodes (g_map st) in
  let joints := map snd (g_joints st) in
  let capsules := map snd (g_capsules st) in
  let locators := map snd (g_locators st) in
  if existsb skinned_mesh rest then Ok (GC joints capsules locators)
  else if existsb plain_mesh rest then Ok (GC [None] capsules (map (fun _ => Some 0) locators))
  else Ok (GC joints capsules locators).
