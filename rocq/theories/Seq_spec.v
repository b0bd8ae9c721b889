(** How the parameters of several frames are laid out in one vector.

    Every enabled parameter is either solved per frame or shared by all frames ("universal").
    The joined vector holds, frame after frame, the enabled per-frame parameters in increasing
    order, and after the last frame the enabled universal ones in increasing order. *)

From Coq Require Import Bool List Arith Reals.
Import ListNotations.

(** How many numbers below [i] satisfy [P]. *)
Definition rank (P : nat -> bool) (i : nat) : nat := length (filter P (seq 0 i)).

Definition per_frame (univ en : nat -> bool) (j : nat) : bool := en j && negb (univ j).
Definition shared (univ en : nat -> bool) (j : nat) : bool := en j && univ j.

(** The place of parameter [i] of frame [f] in the joined vector of [nF] frames. *)
Definition slot (np : nat) (univ en : nat -> bool) (nF f i : nat) : nat :=
  if univ i then rank (per_frame univ en) np * nF + rank (shared univ en) i
  else rank (per_frame univ en) np * f + rank (per_frame univ en) i.

(** The length of the joined vector. *)
Definition joined_size (np : nat) (univ en : nat -> bool) (nF : nat) : nat :=
  rank (per_frame univ en) np * nF + rank (shared univ en) np.

(** Parameter [i] of frame [f]. *)
Definition value_at (frames : list (list R)) (f i : nat) : option R :=
  match nth_error frames f with Some x => nth_error x i | None => None end.

(** All frames hold the same value of every enabled universal parameter. *)
Definition shared_agree (np : nat) (univ en : nat -> bool) (frames : list (list R)) : Prop :=
  forall f i, f < length frames -> i < np -> en i = true -> univ i = true ->
    value_at frames f i = value_at frames 0 i.

(** What a user can do to a SequenceSolverFunction between solves. *)
Inductive seq_op :=
| SetEnabled (en : nat -> bool)
| SetFrame (f : nat) (p : list R)
| SetJoined (v : list R).

(** The set passed to the last setEnabledParameters; everything is enabled at first. *)
Definition enabled_after (ops : list seq_op) : nat -> bool :=
  fold_left (fun e o => match o with SetEnabled en => en | _ => e end) ops (fun _ => true).

(** MultiposeSolverFunction lays out all parameters, whatever is enabled, and takes the universal
    ones as a list of flags. *)
Definition all_on : nat -> bool := fun _ => true.
Definition uset (universal : list bool) (i : nat) : bool := nth i universal false.
