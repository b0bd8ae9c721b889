(** What writing to JSON and reading back keeps (C128). *)

From Coq Require Import List Arith Ascii Bool String Reals.
From Verif Require Import Prelude Str_model Lines_model LimIO_model.
Import ListNotations.

(** Names without repetitions: every parameter, or joint, has a name of its own. *)
Definition own_names (names : list str) : Prop := NoDup names.
(** A linear limit without its range. *)
Definition without_range {M} (l : plimit R M) : plimit R M :=
  match p_limit l with
  | LLinear i t s o _ _ => PL (LLinear i t s o 0%R 0%R) (p_weight l)
  | _ => l
  end.
(** A vector and a matrix of an ellipsoid limit have their sizes. *)
Definition sized (l : plimit R (list (list R))) : Prop :=
  match p_limit l with
  | LEllipsoid _ o _ m => List.length o = 3 /\ List.length m = 4 /\ List.Forall (fun c => List.length c = 4) m
  | _ => True
  end.
