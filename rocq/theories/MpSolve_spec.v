(** What one iteration over several poses should do (C116). *)

From Coq Require Import Reals List Arith Bool.
From Verif Require Import Prelude LinAlg Loops Seq_spec SeqFn_model SeqFn_spec MpFn_model MpFn_spec QR_model BlockQR_spec.
Import ListNotations.
Local Open Scope R_scope.

(** The Gauss-Newton objective of a change [d] of the joined vector at the poses [x]:
    reg |d|^2 + the sum over the rows of the functions in use of (row . d - residual)^2. *)
Definition step_objective (universal : list bool) (nF : nat) (reg : R) (o : mpobj) (x : nat -> list R) (d : nat -> R) : R :=
  reg * sumn (total_size universal nF) (fun p => d p * d p) +
  rsum (map (fun c => rsum (map (fun row =>
      (sumn (length universal) (fun i => fst row i * d (place universal nF (fst c) i)) - snd row) *
      (sumn (length universal) (fun i => fst row i * d (place universal nF (fst c) i)) - snd row))
    (se_rows (snd c) [x (fst c)]))) (mcalls o)).

(** Every frame has a function in use. *)
Definition every_frame (nF : nat) (o : mpobj) : Prop :=
  forall f, (f < nF)%nat -> exists e, In (f, e) (mcalls o).

(** The rows that the functions in use hand to the solver: those of the parameters that each frame has
    on its own and those of the shared ones, in the order of the parameters, padded with zeros. *)
Definition own (universal : list bool) : list nat := filter (fun i => negb (uset universal i)) (seq 0 (length universal)).
Definition common (universal : list bool) : list nat := filter (uset universal) (seq 0 (length universal)).
Definition solver_rows (universal : list bool) (o : mpobj) (x : nat -> list R) : list block_rows :=
  map (fun c =>
    {| br_blk := fst c; br_w := length (own universal); br_rows := padded (se_size (snd c));
       br_A := fun k j => fst (nth k (se_rows (snd c) [x (fst c)]) (fun _ => 0, 0)) (nth j (own universal) 0%nat);
       br_C := fun k j => fst (nth k (se_rows (snd c) [x (fst c)]) (fun _ => 0, 0)) (nth j (common universal) 0%nat);
       br_b := fun k => snd (nth k (se_rows (snd c) [x (fst c)]) (fun _ => 0, 0)) |}) (mcalls o).

(** [d] is the one vector of [n] entries at which [f] is least. *)
Definition one_minimum (n : nat) (f : (nat -> R) -> R) (d : nat -> R) : Prop :=
  forall d', f d <= f d' /\ (f d' = f d -> forall p, (p < n)%nat -> d' p = d p).

(** No function in use has a row with an entry at parameter [i] of frame [f] (any frame, if it is shared). *)
Definition unused (universal : list bool) (o : mpobj) (x : nat -> list R) (f i : nat) : Prop :=
  forall c row, In c (mcalls o) -> fst c = f \/ uset universal i = true -> In row (se_rows (snd c) [x (fst c)]) -> fst row i = 0.
