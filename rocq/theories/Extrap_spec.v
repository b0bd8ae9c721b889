(** What extrapolated parameters are (C118). *)

From Coq Require Import Reals List Arith.
From Verif Require Import Prelude.
Import ListNotations.
Local Open Scope R_scope.

(** [e] is [d] limited to [-m, m]. *)
Definition limited (m d e : R) : Prop :=
  (- m <= d <= m /\ e = d) \/ (m < d /\ e = m) \/ (d < - m /\ e = - m).
(** One value after another: [c] follows [p], [x] is the guess for the next. *)
Definition guess (factor m p c x : R) : Prop := exists e, limited m (c - p) e /\ x = c + factor * e.

(** Guessing [n] times without new data: the last two poses. *)
Fixpoint guessed (f : list R -> list R -> list R) (n : nat) (p c : list R) : list R * list R :=
  match n with 0%nat => (p, c) | S k => guessed f k c (f p c) end.
