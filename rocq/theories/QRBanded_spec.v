(** What the banded solver is asked to compute. *)

From Coq Require Import Reals List Arith Bool.
From Verif Require Import LinAlg QR_spec.
Import ListNotations.
Local Open Scope R_scope.

(** A block of rows over the banded unknowns [off, off + w) and all the common unknowns. *)
Record band_block := {
  bb_off : nat; bb_w : nat; bb_rows : nat;
  bb_A : nat -> nat -> R; bb_C : nat -> nat -> R; bb_b : nat -> R }.

(** The same rows as equations over all the unknowns: the banded ones come first. *)
Definition full_block (nb : nat) (B : band_block) : lsq_block :=
  {| lb_rows := bb_rows B;
     lb_A := fun k c =>
       if (c <? nb)%nat then
         if (bb_off B <=? c)%nat && (c <? bb_off B + bb_w B)%nat then bb_A B k (c - bb_off B)%nat else 0
       else bb_C B k (c - nb)%nat;
     lb_b := bb_b B |}.

(** The window fits the solver (the sizes its code asserts). *)
Definition block_fits (nb bw : nat) (B : band_block) : Prop :=
  (bb_w B <= bw)%nat /\ (bb_off B + bb_w B <= nb)%nat.

(** No later window stops inside an earlier one. *)
Definition covers_earlier (earlier later : band_block) : Prop :=
  bb_w later = 0%nat \/
  (bb_off earlier + bb_w earlier <= bb_off later + bb_w later)%nat \/
  (bb_off later + bb_w later <= bb_off earlier)%nat.

(** Every window covers the windows given before it (in the sense above). *)
Definition windows_ordered (Bs : list band_block) : Prop :=
  forall l1 B1 l2 B2 l3, Bs = l1 ++ B1 :: l2 ++ B2 :: l3 -> covers_earlier B1 B2.
