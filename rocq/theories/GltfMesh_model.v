(** The mesh of a glTF file: momentum/io/gltf/gltf_io.cpp, addMesh and the loops of loadSkinnedMesh that call it.

    Simplifications: the buffers that copyAccessorBuffer returns (C36, C37) are fields of a primitive, empty if there is no such attribute; positions are already in momentum units;
    indices are natural numbers, and sums of them fit an int. *)

From Coq Require Import List Arith Bool.
From Verif Require Import Prelude.
Import ListNotations.
Local Open Scope outcome_scope.
Local Open Scope list_scope.

Section Mesh.
Context {V N C T K : Type} (no_normal : N) (no_color : C) (sure : K).
(** fx::gltf::Primitive: whether it is made of triangles, and its buffers. *)
Record primitive := Prim { pr_triangles : bool; pr_idx : list nat; pr_pos : list V; pr_nml : list N; pr_col : list C; pr_tex : list T }.
(** Mesh, momentum/math/mesh.h lines 17-38: the fields that are loaded. *)
Record gmesh := GM { gm_vertices : list V; gm_faces : list (nat * nat * nat); gm_normals : list N; gm_colors : list C; gm_tex : list T; gm_tex_faces : list (nat * nat * nat); gm_confidence : list K }.

(** Lines 386-387: three indices are a face. *)
Fixpoint triples (l : list nat) : list (nat * nat * nat) :=
  match l with
  | a :: b :: c :: r => (a, b, c) :: triples r
  | _ => []
  end.
(** std::vector::resize. *)
Definition resize {X} (l : list X) (n : nat) (x : X) : list X := firstn n l ++ repeat x (n - length l).
(** The checks of lines 404, 412 and 420-424. *)
Definition fits {X Y} (l : list X) (pos : list Y) : bool := (length l =? 0) || (length l =? length pos).
(** Lines 427-434. *)
Definition shift (o : nat) (f : nat * nat * nat) : nat * nat * nat := (fst (fst f) + o, snd (fst f) + o, snd f + o).
(** addMesh, lines 369-451: the mesh and the number of new vertices. [&idx[0][0]] of an empty vector in line 387 is undefined. *)
Definition add_mesh (p : primitive) (m : gmesh) : outcome (gmesh * nat) :=
  if negb (pr_triangles p) then Ok (m, 0)
  else if negb (length (pr_idx p) mod 3 =? 0) then CheckFail
  else
    match pr_idx p with
    | [] => UB
    | _ =>
      match pr_pos p with
      | [] => Ok (m, 0)
      | _ =>
        if negb (fits (pr_nml p) (pr_pos p)) then CheckFail
        else if negb (fits (pr_col p) (pr_pos p)) then CheckFail
        else if negb (fits (pr_tex p) (pr_pos p)) then CheckFail
        else
          let vertices := gm_vertices m ++ pr_pos p in
          let faces := gm_faces m ++ map (shift (length (gm_vertices m))) (triples (pr_idx p)) in
          let tex := gm_tex m ++ pr_tex p in
          Ok (GM vertices faces
                 (resize (gm_normals m ++ pr_nml p) (length vertices) no_normal)
                 (resize (gm_colors m ++ pr_col p) (length vertices) no_color)
                 tex (match tex with [] => gm_tex_faces m | _ => faces end)
                 (resize (gm_confidence m) (length vertices) sure),
              length (pr_pos p))
      end
    end.
(** Lines 571-572 and 586-588, for the primitives of all nodes. *)
Fixpoint add_meshes (ps : list primitive) (m : gmesh) : outcome gmesh :=
  match ps with
  | [] => Ok m
  | p :: ps => let* r := add_mesh p m in add_meshes ps (fst r)
  end.
(** loadSkinnedMesh, lines 562-590: starting from an empty mesh. *)
Definition load_mesh (ps : list primitive) : outcome gmesh := add_meshes ps (GM [] [] [] [] [] [] []).
End Mesh.
Arguments Prim {V N C T}.
Arguments GM {V N C T K}.
