(** What the main subject of a recording is (C126). *)

From Coq Require Import List Arith Ascii Bool String.
From Verif Require Import Prelude Str_model LocIO_model Subject_model.
Import ListNotations.
Local Open Scope list_scope.

(** [n] is the greatest number of markers that are visible in one frame. *)
Definition visible (frame : list bool) : nat := count_occ bool_dec frame false.
Definition most_visible (s : sequence) (n : nat) : Prop :=
  (forall f, In f (q_frames s) -> visible f <= n) /\ (n = 0 \/ exists f, In f (q_frames s) /\ visible f = n).

(** The letter, in either case. *)
Definition same_letter (c lower : ascii) : Prop := c = lower \/ exists i, nth_error (lit "ABCDEFGHIJKLMNOPQRSTUVWXYZ") i = Some c /\ nth_error (lit "abcdefghijklmnopqrstuvwxyz") i = Some lower.
Definition has_name (s : sequence) : Prop := q_name s <> [] /\ ~ Forall2 same_letter (q_name s) (lit "unlabeled").

(** The only sequence; or, of those with a name, the first with the most markers. Markers are visible in it. *)
Definition is_main (seqs : list sequence) (k : nat) : Prop :=
  exists s n, nth_error seqs k = Some s /\ most_visible s n /\ 0 < n /\
    (List.length seqs = 1 \/
     has_name s /\ forall j s' n', nth_error seqs j = Some s' -> has_name s' -> most_visible s' n' -> n' <= n /\ (j < k -> n' < n)).
