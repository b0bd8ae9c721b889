(** What a table of skin weights holds (C119). *)

From Coq Require Import Reals List Arith NArith.
From Verif Require Import LinAlg.
Import ListNotations.

(** Vertex [i] has the joints [ks] with the weights [ws]. *)
Definition given (ind : list (list N)) (wgt : list (list R)) (i : nat) (ks : list N) (ws : list R) : Prop :=
  nth_error ind i = Some ks /\ nth_error wgt i = Some ws.

(** The row as the skinning reads it. *)
Definition influences (row : list (N * R)) : list (nat * R) := map (fun x => (N.to_nat (fst x), snd x)) row.

(** Tables of eight entries per vertex. *)
Definition table (t : list (list (N * R))) : Prop := forall row, In row t -> length row = 8.
