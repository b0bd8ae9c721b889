(** The map of parents that gatherSkeletonRoots builds: momentum/io/gltf/gltf_io.cpp, lines 158-173.

    Simplifications: of a node there are its children; indices are natural numbers that fit 32 bits; the outer loop has a bound on its number of rounds. *)

From Coq Require Import List Arith Bool.
From Verif Require Import Prelude.
Import ListNotations.
Local Open Scope outcome_scope.
Local Open Scope list_scope.

Section Nodes.
Context (kids : list (list nat)).
(** parentMap[i] = p. *)
Fixpoint assign (m : list (option nat)) (i p : nat) : outcome (list (option nat)) :=
  match m, i with
  | [], _ => UB
  | _ :: r, O => Ok (Some p :: r)
  | x :: r, S i => let* r := assign r i p in Ok (x :: r)
  end.
(** Lines 168-170. *)
Fixpoint assign_all (cs : list nat) (p : nat) (m : list (option nat)) : outcome (list (option nat)) :=
  match cs with
  | [] => Ok m
  | c :: cs => let* m := assign m c p in assign_all cs p m
  end.
(** Lines 162-171: one round; the next stack and the map. *)
Fixpoint round (stack next : list nat) (m : list (option nat)) : outcome (list nat * list (option nat)) :=
  match stack with
  | [] => Ok (next, m)
  | n :: stack =>
    match nth_error kids n with
    | None => UB
    | Some cs => let* m := assign_all cs n m in round stack (next ++ cs) m
    end
  end.
(** Lines 161-173. *)
Fixpoint rounds (fuel : nat) (stack : list nat) (m : list (option nat)) : outcome (list (option nat)) :=
  match stack with
  | [] => Ok m
  | _ =>
    match fuel with
    | O => OutOfFuel
    | S fuel => let* r := round stack [] m in rounds fuel (fst r) (snd r)
    end
  end.
(** Lines 158-173. *)
Definition parent_map (fuel : nat) (roots : list nat) : outcome (list (option nat)) := rounds fuel roots (repeat None (length kids)).
End Nodes.
