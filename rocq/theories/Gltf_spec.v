(** Vocabulary of the theorems about glTF accessors. *)

From Coq Require Import List Arith Ascii NArith.
From Verif Require Import Prelude Bytes Gltf_model.
Import ListNotations.

(** Bytes in the buffer arrays are appended to. *)
Definition main_size (d : doc) : nat := match d_buffers d with [] => 0 | b :: _ => length (b_data b) end.

(** The place one element takes: its size, or that rounded up to a multiple of four. *)
Definition stored_size (e : etype) (align : bool) : nat :=
  if align then 4 * ((esize e + 3) / 4) else esize e.

Definition supported (e : etype) : Prop := match e with EOther _ => False | _ => True end.

(** A call with a supported type, and elements of that type. *)
Definition call_ok (k : call) : Prop :=
  let '(e, data, _, _) := k in supported e /\ forall x, In x data -> length x = esize e.
Definition call_bytes (k : call) : nat := let '(e, data, al, _) := k in length data * stored_size e al.

(** The distance between elements (glTF: a stride of zero means tightly packed). *)
Definition stride_of (v : view) (size : nat) : N :=
  if (v_stride v =? 0)%N then N.of_nat size else v_stride v.
