(** What comparing pose constraints as sets means (C61). *)

From Coq Require Import Reals List Arith.
Import ListNotations.
Local Open Scope R_scope.

(** Value of a parameter: the first entry that mentions it. *)
Fixpoint value_of (k : nat) (l : list (nat * R)) : option R :=
  match l with
  | [] => None
  | (k', v) :: r => if Nat.eqb k k' then Some v else value_of k r
  end.

(** Same parameters with values closer than 1e-4. *)
Definition same_constraint (a b : list (nat * R)) : Prop :=
  forall k, match value_of k a, value_of k b with
            | Some x, Some y => Rabs (x - y) < 1 / 10000
            | None, None => True
            | _, _ => False
            end.

(** Number of distinct parameters. *)
Definition num_params (l : list (nat * R)) : nat := length (nodup Nat.eq_dec (map fst l)).
