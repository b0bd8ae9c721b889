(** The roots of the skeletons of a glTF file: momentum/io/gltf/gltf_io.cpp, gatherSkeletonRoots.

    Simplifications: node indices are natural numbers that fit 32 bits and differ from kInvalidNodeId, which is [None]; the map of parents, which is built in lines 158-173 (GltfParents_model), is an
    argument; a loop over ancestors has a bound on the number of its steps. *)

From Coq Require Import List Arith Bool.
From Verif Require Import Prelude.
Import ListNotations.
Local Open Scope outcome_scope.
Local Open Scope list_scope.

Section Parents.
Context (parents : list (option nat)).
(** getAncestorsIncludingSelf, lines 117-128: the loop, and the reversal. *)
Fixpoint climb (fuel n : nat) : outcome (list nat) :=
  match fuel with
  | O => OutOfFuel
  | S fuel =>
    match nth_error parents n with
    | None => UB
    | Some None => Ok [n]
    | Some (Some p) => let* l := climb fuel p in Ok (n :: l)
    end
  end.
Definition ancestors (fuel n : nat) : outcome (list nat) := let* l := climb fuel n in Ok (rev l).
(** findClosestCommonAncestor, lines 130-146. *)
Fixpoint last_common (a b : list nat) (acc : option nat) : option nat :=
  match a, b with
  | x :: a, y :: b => if x =? y then last_common a b (Some x) else acc
  | _, _ => acc
  end.
Definition closest (fuel n m : nat) : outcome (option nat) :=
  let* a := ancestors fuel n in
  let* b := ancestors fuel m in
  Ok (last_common a b None).
(** Lines 188-199: the roots with the first one that has a common ancestor with [j] replaced by it; [None] if there is none. *)
Fixpoint merge (fuel j : nat) (roots : list nat) : outcome (option (list nat)) :=
  match roots with
  | [] => Ok None
  | r :: rs =>
    let* c := closest fuel j r in
    match c with
    | Some c => Ok (Some (c :: rs))
    | None => let* o := merge fuel j rs in Ok (option_map (cons r) o)
    end
  end.
(** std::find of a node that may be invalid. *)
Definition among (l : list nat) (n : option nat) : bool := match n with None => false | Some n => existsb (Nat.eqb n) l end.
(** Lines 180-202: the roots of one skin. *)
Fixpoint skin_roots_loop (fuel : nat) (joints todo roots : list nat) : outcome (list nat) :=
  match todo with
  | [] => Ok roots
  | j :: todo =>
    match nth_error parents j with
    | None => UB
    | Some p =>
      if among joints p then skin_roots_loop fuel joints todo roots
      else
        let* o := merge fuel j roots in
        skin_roots_loop fuel joints todo (match o with Some l => l | None => roots ++ [j] end)
    end
  end.
Definition skin_roots (fuel : nat) (joints : list nat) : outcome (list nat) := skin_roots_loop fuel joints joints [].

(** Lines 219-233: whether no other skin has a single root among the ancestors. *)
Fixpoint independent (anc : list nat) (self i : nat) (others : list (list nat)) : outcome bool :=
  match others with
  | [] => Ok true
  | rs :: others =>
    match rs with
    | [] => CheckFail
    | r :: more =>
      if (i =? self) || (1 <? List.length rs) then independent anc self (S i) others
      else if existsb (Nat.eqb r) anc then Ok false
      else independent anc self (S i) others
    end
  end.
(** Lines 204-240: the roots that skin [i] contributes. *)
Fixpoint merge_skins (fuel : nat) (all todo : list (list nat)) (i : nat) : outcome (list (list nat)) :=
  match todo with
  | [] => Ok []
  | rs :: todo =>
    match rs with
    | [] => CheckFail
    | [r] =>
      let* anc := ancestors fuel r in
      let* b := independent anc i 0 all in
      let* l := merge_skins fuel all todo (S i) in
      Ok ((if b : bool then [[r]] else []) ++ l)
    | _ => let* l := merge_skins fuel all todo (S i) in Ok (rs :: l)
    end
  end.
(** Lines 178-203. *)
Fixpoint all_skin_roots (fuel : nat) (skins : list (list nat)) : outcome (list (list nat)) :=
  match skins with
  | [] => Ok []
  | s :: skins => let* r := skin_roots fuel s in let* l := all_skin_roots fuel skins in Ok (r :: l)
  end.
(** gatherSkeletonRoots of a file with meshes and skins, lines 175-249; empty skeletons are left out as they come. *)
Definition skeleton_roots (fuel : nat) (skins : list (list nat)) : outcome (list (list nat)) :=
  let* all := all_skin_roots fuel skins in merge_skins fuel all all 0.
End Parents.
