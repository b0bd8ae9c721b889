(** Model of momentum/io/gltf/utils/accessor_utils.h: arrays stored in and read from the buffers of
    a glTF document.

    Bytes are ascii characters. The fields of fx::gltf::Buffer, BufferView and Accessor used here
    are 32-bit unsigned numbers (fx/gltf.h), so sizes are reduced modulo 2^32 when stored. An index
    field is a natural number; negative indices are out of range like too large ones.
    gsl::span checks its arguments and calls std::terminate when they are wrong: [CheckFail] here.
    Reading outside the memory of a buffer is [UB]. Allocation failures are not modelled, and
    memcpy of no bytes at the end of a vector (empty arrays) counts as harmless. *)

From Coq Require Import List Arith Ascii NArith ZArith Bool.
From Verif Require Import Prelude Loops Bytes.
Import ListNotations.
Local Open Scope outcome_scope.

(** fx::gltf::Accessor::ComponentType and Type (fx/gltf.h); lines 17-52. *)
Inductive comp := CNone | CByte | CUByte | CShort | CUShort | CUInt | CFloat.
Inductive ctype := TNone | TScalar | TVec2 | TVec3 | TVec4 | TMat2 | TMat3 | TMat4.

Definition comp_size (c : comp) : Z :=
  match c with CByte | CUByte => 1 | CShort | CUShort => 2 | CUInt | CFloat => 4 | CNone => -1 end.
Definition type_size (t : ctype) : Z :=
  match t with
  | TScalar => 1 | TVec2 => 2 | TVec3 => 3 | TVec4 => 4 | TMat2 => 4 | TMat3 => 9 | TMat4 => 16
  | TNone => -1
  end.

Record view := { v_buffer : nat; v_offset : N; v_length : N; v_stride : N }.
Record accessor := { a_view : nat; a_offset : N; a_count : N; a_comp : comp; a_type : ctype; a_norm : bool }.
Record buffer := { b_data : list ascii; b_length : N }.
Record doc := { d_buffers : list buffer; d_views : list view; d_accs : list accessor }.

Definition u32 (n : nat) : N := (N.of_nat n mod 2 ^ 32)%N.

(** gsl::span::subspan(offset, count) and subspan(offset). The span is the offset of its first byte
    in the buffer and its length. *)
Definition subspan (s : N * N) (off len : N) : outcome (N * N) :=
  if (snd s <? off)%N then CheckFail
  else if (snd s - off <? len)%N then CheckFail
  else Ok ((fst s + off)%N, len).
Definition subspan_from (s : N * N) (off : N) : outcome (N * N) :=
  if (snd s <? off)%N then CheckFail else Ok ((fst s + off)%N, (snd s - off)%N).

(** std::memcpy(&r[i], &bytes[k], n): the index is checked against the span, the bytes that follow
    are not; they are read from the memory of the buffer. *)
Definition read_at (data : list ascii) (s : N * N) (k : N) (n : nat) : outcome (list ascii) :=
  if (k <? snd s)%N then
    let p := N.to_nat (fst s + k) in
    if p + n <=? length data then Ok (firstn n (skipn p data)) else UB
  else CheckFail.

Fixpoint omapl {A B} (f : A -> outcome B) (l : list A) : outcome (list B) :=
  match l with
  | [] => Ok []
  | a :: r => let* b := f a in let* br := omapl f r in Ok (b :: br)
  end.

(** copyAccessorBuffer, lines 54-85, for a type of [size] bytes. *)
Definition copy_accessor (size : nat) (d : doc) (id : nat) : outcome (list (list ascii)) :=
  let* a := rd (d_accs d) id in
  let elsize := (type_size (a_type a) * comp_size (a_comp a))%Z in
  if negb (elsize mod 2 ^ 64 =? Z.of_nat size)%Z then Ok []
  else
    let* v := rd (d_views d) (a_view a) in
    let stride := if (v_stride v =? 0)%N then N.of_nat size else v_stride v in
    let* b := rd (d_buffers d) (v_buffer v) in
    let* s := subspan (0%N, N.of_nat (length (b_data b))) (v_offset v) (v_length v) in
    let* s := subspan_from s (a_offset a) in
    omapl (fun i => read_at (b_data b) s (N.of_nat i * stride) size) (seq 0 (N.to_nat (a_count a))).

(** copyAlignedAccessorBuffer, lines 87-122. *)
Definition copy_aligned (size : nat) (d : doc) (id : nat) : outcome (list (list ascii)) :=
  let* a := rd (d_accs d) id in
  if (a_count a =? 0)%N then Ok [] else copy_accessor size d id.

(** The types with a setAccessorType specialisation (lines 206-258), their sizes and what they
    set; any other type throws (lines 125-128). *)
Inductive etype := EInt | EFloat | EVec2f | EVec3f | EVec4f | EVec3b | EVec3i | EVec4s | EMat4f | EOther (size : nat).

Definition esize (e : etype) : nat :=
  match e with
  | EInt => 4 | EFloat => 4 | EVec2f => 8 | EVec3f => 12 | EVec4f => 16 | EVec3b => 3
  | EVec3i => 12 | EVec4s => 8 | EMat4f => 64 | EOther n => n
  end.
Definition set_type (e : etype) : outcome (comp * ctype) :=
  match e with
  | EInt => Ok (CUInt, TScalar) | EFloat => Ok (CFloat, TScalar) | EVec2f => Ok (CFloat, TVec2)
  | EVec3f => Ok (CFloat, TVec3) | EVec4f => Ok (CFloat, TVec4) | EVec3b => Ok (CUByte, TVec3)
  | EVec3i => Ok (CUInt, TVec3) | EVec4s => Ok (CUShort, TVec4) | EMat4f => Ok (CFloat, TMat4)
  | EOther _ => Throw
  end.

(** Lines 154-162: the elements one by one at multiples of the aligned size; vector::resize has
    filled the rest with zeros. *)
Definition padded (n : nat) (e : list ascii) : list ascii := e ++ repeat Ascii.zero (n - length e).

(** createAccessorBuffer, lines 130-204; [data] is the list of elements as bytes. The document is
    changed in place; when the type is not supported the exception leaves it half changed, which is
    not modelled. *)
Definition create_accessor (d : doc) (e : etype) (data : list (list ascii)) (align norm : bool)
  : outcome (doc * nat) :=
  let buffers := match d_buffers d with [] => [{| b_data := []; b_length := 0 |}] | l => l end in
  let* b := rd buffers 0 in
  let start := length (b_data b) in
  let pad := align && negb (esize e mod 4 =? 0) in
  let asize := if pad then (esize e / 4 + 1) * 4 else esize e in
  let dsize := length data * asize in
  let bytes := flat_map (padded asize) data in
  let data' := b_data b ++ bytes in
  let* buffers' := wr buffers 0 {| b_data := data'; b_length := u32 (length data') |} in
  let v := {| v_buffer := 0; v_offset := u32 start; v_length := u32 dsize;
              v_stride := if pad then u32 asize else 0 |} in
  let* ct := set_type e in
  let a := {| a_view := length (d_views d); a_offset := 0; a_count := u32 (length data);
              a_comp := fst ct; a_type := snd ct; a_norm := norm |} in
  Ok ({| d_buffers := buffers'; d_views := d_views d ++ [v]; d_accs := d_accs d ++ [a] |},
      length (d_accs d)).

(** A history of calls, each with an element type, elements and flags; the results are the
    indices. *)
Definition call : Type := etype * list (list ascii) * bool * bool.
Fixpoint creates (d : doc) (l : list call) : outcome (doc * list nat) :=
  match l with
  | [] => Ok (d, [])
  | (e, data, al, no) :: r =>
    let* di := create_accessor d e data al no in
    let* dr := creates (fst di) r in
    Ok (fst dr, snd di :: snd dr)
  end.
