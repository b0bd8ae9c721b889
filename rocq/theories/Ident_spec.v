(** Motions with and without identity parameters (C47). *)

From Coq Require Import List Arith.
Import ListNotations.

(** [m'] is [m] with the value [f x v] for every entry [x] of a row in [s], where [v] is the
    identity's value for that row; the other rows are the same. *)
Definition rows_changed {X} (f : X -> X -> X) (s : nat -> bool) (identity : list X) (m m' : list (list X)) : Prop :=
  length m' = length m /\
  forall i row, nth_error m i = Some row -> exists row', nth_error m' i = Some row' /\ length row' = length row /\
    forall j x, nth_error row j = Some x ->
      if s i then exists v, nth_error identity i = Some v /\ nth_error row' j = Some (f x v)
      else nth_error row' j = Some x.
