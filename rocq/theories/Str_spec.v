(** What splitting and trimming mean (C42). *)

From Coq Require Import List Ascii.
From Verif Require Import Prelude Str_model.
Import ListNotations.

(** [splits ds s ps]: [s] is the pieces [ps] with exactly one delimiter between
    neighbours, and no piece contains a delimiter. *)
Inductive splits (ds : str) : str -> list str -> Prop :=
| splits_one : forall p, (forall c, In c p -> ~ In c ds) -> splits ds p [p]
| splits_cons : forall p d s ps,
    (forall c, In c p -> ~ In c ds) -> In d ds -> splits ds s ps -> splits ds (p ++ d :: s) (p :: ps).

(** A character trim removes: one of the white characters, or NUL. *)
Definition white (ws : str) (c : ascii) : Prop := In c ws \/ c = nul.

(** [r] is [s] without its longest white prefix and suffix. *)
Definition trimmed (ws s r : str) : Prop :=
  exists a b, s = a ++ r ++ b /\ (forall c, In c a -> white ws c) /\ (forall c, In c b -> white ws c) /\
    (forall c r', r = c :: r' -> ~ white ws c) /\ (forall c r', r = r' ++ [c] -> ~ white ws c).
