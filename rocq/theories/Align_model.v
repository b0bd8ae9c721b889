(** Model of the size computations of momentum/common/aligned.h, of computeOffset in
    momentum/simd/simd.h and of the frame range in momentum/marker_tracking/process_markers.cpp.
    std::size_t has 64 bits; its arithmetic wraps. *)

From Coq Require Import NArith.
From Verif Require Import Prelude.
Local Open Scope outcome_scope.
Local Open Scope N_scope.

Definition word : N := 2 ^ 64.
Definition wadd (a b : N) : N := (a + b) mod word.
Definition wsub (a b : N) : N := (a + (word - b mod word)) mod word.
Definition wmul (a b : N) : N := (a * b) mod word.

(** roundUpToAlignment, aligned.h:53-56. *)
Definition round_up (value alignment : N) : outcome N :=
  if alignment =? 0 then Throw
  else Ok (wmul (wsub (wadd value alignment) 1 / alignment) alignment).

(** alignedAlloc, aligned.h:62-73: [n] elements of [size] bytes. [malloc s] tells whether the
    allocator finds a block of [s] bytes; the result is the size of the block in bytes. *)
Definition aligned_alloc (malloc : N -> bool) (size alignment n : N) : outcome N :=
  if (word - 1) / size <? n then Throw
  else
    let* s := round_up (wmul n size) alignment in
    if malloc s then Ok s else Throw.

(** computeOffset, simd.h:54-65: [address] is mat.data(); sizeof(float) = 4. *)
Definition compute_offset (alignment address : N) : N :=
  let offset := wsub (alignment / 4) (address mod alignment / 4) in
  if offset =? alignment / 4 then 0 else offset.

(** checkAlignment, simd.h:69-77. *)
Definition check_alignment (alignment address offset : N) : outcome unit :=
  if (wadd address (wmul 4 offset)) mod alignment =? 0 then Ok tt else Throw.

(** processMarkers, process_markers.cpp:32-40: the first frame and the number of frames of the span
    of markers that is worked on. *)
Definition frame_span (total first most : N) : outcome (N * N) :=
  if total <? first then Throw
  else
    let last := if 0 <? most then N.min (wadd first most) total else total in
    Ok (first, wsub last first).
