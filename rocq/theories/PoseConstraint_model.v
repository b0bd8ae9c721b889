(** PoseConstraint::operator==, momentum/character/parameter_transform.h:30-49. *)

From Coq Require Import Reals List Arith.
From Verif Require Import Prelude.
Import ListNotations.
Local Open Scope R_scope.
Local Open Scope outcome_scope.

(** isApprox, momentum/math/utility.h:49-51, with the float epsilon 1e-4. *)
Definition is_approx (x y : R) : bool := if Rlt_dec (Rabs (x - y)) (1 / 10000) then true else false.

(** std::map::insert: a key already present keeps its value; the map iterates
    by increasing key. Lines 32-42 copy the vector through std::inserter. *)
Fixpoint map_insert (k : nat) (v : R) (m : list (nat * R)) : list (nat * R) :=
  match m with
  | [] => [(k, v)]
  | (k', v') :: r =>
      if Nat.ltb k k' then (k, v) :: (k', v') :: r
      else if Nat.eqb k k' then (k', v') :: r
      else (k', v') :: map_insert k v r
  end.
Fixpoint to_map (m : list (nat * R)) (l : list (nat * R)) : list (nat * R) :=
  match l with
  | [] => m
  | (k, v) :: r => to_map (map_insert k v m) r
  end.

(** std::equal with three iterators (47-48): walks the first range; reading the
    second range past its end is undefined behaviour; stops at a mismatch. *)
Fixpoint equal3 (a b : list (nat * R)) : outcome bool :=
  match a with
  | [] => Ok true
  | (k, v) :: r =>
      match b with
      | [] => UB
      | (k', v') :: r' =>
          if andb (Nat.eqb k k') (is_approx v v') then equal3 r r' else Ok false
      end
  end.

Definition pose_eq (a b : list (nat * R)) : outcome bool := equal3 (to_map [] a) (to_map [] b).
