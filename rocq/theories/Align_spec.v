(** Rounding up, aligned addresses and ranges of frames (C49, C50). *)

From Coq Require Import NArith.
Local Open Scope N_scope.

(** [r] is the least multiple of [a] that is not below [v]. *)
Definition least_multiple (a v r : N) : Prop :=
  (exists k, r = k * a) /\ v <= r /\ forall k, v <= k * a -> r <= k * a.

(** [o] is the least number of floats after which the address is a multiple of [a]. *)
Definition least_offset (a address o : N) : Prop :=
  (exists k, address + 4 * o = k * a) /\ forall o' k, address + 4 * o' = k * a -> o <= o'.

(** The frames to work on: from [first], at most [most] if that is not zero, and no more than there are. *)
Definition frames_wanted (total first most count : N) : Prop :=
  first + count <= total /\ (most = 0 -> first + count = total) /\
  (0 < most -> count <= most /\ (count < most -> first + count = total)).
