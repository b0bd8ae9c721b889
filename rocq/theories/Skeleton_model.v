(** Joint hierarchy: momentum/character/skeleton.{h,cpp}.

    A skeleton's topology is the list of parent indices of its joints;
    kInvalidIndex (SIZE_MAX, momentum/character/types.h) is [None]. *)

From Coq Require Import List Arith.
From Verif Require Import Prelude.
Import ListNotations.
Local Open Scope outcome_scope.

Definition parents := list (option nat).

(** The constructor's loop, skeleton.cpp:17-22: MT_CHECK(parent ==
    kInvalidIndex || parent < iJoint) for iJoint = 0 .. size-1. *)
Fixpoint ctor_check_from (i : nat) (ps : parents) : bool :=
  match ps with
  | [] => true
  | p :: rest =>
      (match p with None => true | Some q => Nat.ltb q i end)
      && ctor_check_from (S i) rest
  end.

(** SkeletonT::SkeletonT(JointList), skeleton.cpp:17-22. *)
Definition make_skeleton (ps : parents) : outcome parents :=
  if ctor_check_from 0 ps then Ok ps else CheckFail.

(** The while loop of isAncestor, skeleton.cpp:28-35. [joints[jointId]] is a
    checked read. *)
Fixpoint is_ancestor_loop (fuel : nat) (ps : parents) (j : option nat) (anc : nat)
  : outcome bool :=
  match fuel with
  | 0 => OutOfFuel
  | S fuel' =>
      match j with
      | None => Ok false
      | Some jj =>
          if Nat.eqb jj anc then Ok true
          else let* p := rd ps jj in is_ancestor_loop fuel' ps p anc
      end
  end.

(** SkeletonT::isAncestor, skeleton.cpp:25-36. [fuel] bounds the loop. *)
Definition is_ancestor (fuel : nat) (ps : parents) (jointId ancestorJointId : nat)
  : outcome bool :=
  if Nat.ltb jointId (length ps) then
    if Nat.ltb ancestorJointId (length ps) then
      is_ancestor_loop fuel ps (Some jointId) ancestorJointId
    else CheckFail
  else CheckFail.

(** The while loop of commonAncestor, skeleton.cpp:43-51. kInvalidIndex is
    SIZE_MAX, so the loop condition excludes it before the comparison. *)
Fixpoint common_ancestor_loop (fuel : nat) (ps : parents) (j1 j2 : option nat)
  : outcome (option nat) :=
  match fuel with
  | 0 => OutOfFuel
  | S fuel' =>
      match j1, j2 with
      | Some a, Some b =>
          if Nat.eqb a b then Ok j1
          else if Nat.ltb a b
               then let* p := rd ps b in common_ancestor_loop fuel' ps j1 p
               else let* p := rd ps a in common_ancestor_loop fuel' ps p j2
      | _, _ => Ok j1
      end
  end.

Definition index_ok (ps : parents) (j : option nat) : bool :=
  match j with None => true | Some i => Nat.ltb i (length ps) end.

(** SkeletonT::commonAncestor, skeleton.cpp:39-52. *)
Definition common_ancestor (fuel : nat) (ps : parents) (j1 j2 : option nat)
  : outcome (option nat) :=
  if index_ok ps j1 then
    if index_ok ps j2 then common_ancestor_loop fuel ps j1 j2 else CheckFail
  else CheckFail.

(** SkeletonT::getJointIdByName, skeleton.h:30-35: linear search, first match,
    kInvalidIndex when absent. Names are abstracted to a type with a decidable
    equality test. *)
Fixpoint joint_id_from {name : Type} (eqb : name -> name -> bool) (i : nat)
  (names : list name) (nm : name) : option nat :=
  match names with
  | [] => None
  | x :: rest => if eqb x nm then Some i else joint_id_from eqb (S i) rest nm
  end.
Definition joint_id_by_name {name : Type} (eqb : name -> name -> bool)
  (names : list name) (nm : name) : option nat := joint_id_from eqb 0 names nm.

