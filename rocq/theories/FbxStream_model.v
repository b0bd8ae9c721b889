(** Model of momentum/io/fbx/fbx_memory_stream.{h,cpp}.

    long, FbxInt64 and FbxUInt64 are 64-bit, int is 32-bit. [modern] tells which of the two
    preprocessor branches is compiled (FBX SDK 2020.3.2 or later, or earlier). Signed overflow is
    [UB]. memcpy of zero bytes counts as harmless. *)

From Coq Require Import List Arith Ascii ZArith Bool.
From Verif Require Import Prelude.
Import ListNotations.
Local Open Scope outcome_scope.
Local Open Scope Z_scope.

(** Header lines 53-64. The error code is not set by the constructor: [None] is indeterminate. *)
Record fbx := { f_buf : list ascii; f_pos : Z; f_open : bool; f_err : option Z }.

Definition f_len (s : fbx) : Z := Z.of_nat (length (f_buf s)).
Definition with_pos (s : fbx) (p : Z) : fbx := {| f_buf := f_buf s; f_pos := p; f_open := f_open s; f_err := f_err s |}.
Definition with_err (s : fbx) (e : Z) : fbx := {| f_buf := f_buf s; f_pos := f_pos s; f_open := f_open s; f_err := Some e |}.
Definition with_open (s : fbx) (o : bool) : fbx := {| f_buf := f_buf s; f_pos := 0; f_open := o; f_err := f_err s |}.

(** Lines 12-17. *)
Definition construct (buf : list ascii) : fbx := {| f_buf := buf; f_pos := 0; f_open := false; f_err := None |}.

Definition int64 (z : Z) : bool := (- 2 ^ 63 <=? z) && (z <? 2 ^ 63).
Definition checked (z : Z) : outcome Z := if int64 z then Ok z else UB.

(** Read, lines 50-64: the bytes put into the caller's buffer (as many as the returned count) and
    the new state. [count] is unsigned 64-bit in the modern branch, a signed int otherwise; the
    comparison at line 56 is unsigned in the modern branch. *)
Definition read (modern : bool) (s : fbx) (count : Z) : outcome (list ascii * fbx) :=
  let* remaining := checked (f_len s - f_pos s) in
  let refused := if modern then remaining mod 2 ^ 64 <? count else remaining <? count in
  if refused then Ok ([], with_err s 1)
  else
    let n := if modern then count else count mod 2 ^ 64 in
    if n =? 0 then Ok ([], s)
    else if (0 <=? f_pos s) && (f_pos s + n <=? f_len s) then
      Ok (firstn (Z.to_nat n) (skipn (Z.to_nat (f_pos s)) (f_buf s)), with_pos s (f_pos s + n))
    else UB.

Inductive whence := Begin | Current | End_.

(** Lines 74-87. *)
Definition seek (s : fbx) (off : Z) (w : whence) : outcome fbx :=
  match w with
  | Current => let* p := checked (f_pos s + off) in Ok (with_pos s p)
  | End_ => let* p := checked (f_len s - off) in Ok (with_pos s p)
  | Begin => Ok (with_pos s off)
  end.

(** The calls of the interface that change the state or return data. *)
Inductive op := Open | Close | Flush | Write (count : Z) | Read (count : Z) | Seek (off : Z) (w : whence)
  | SetPosition (p : Z) | ClearError.

Definition step (modern : bool) (s : fbx) (o : op) : outcome (list ascii * fbx) :=
  match o with
  | Open => Ok ([], with_open s true)          (* lines 27-31 *)
  | Close => Ok ([], with_open s false)        (* lines 33-37 *)
  | Flush => Ok ([], s)                        (* lines 39-41 *)
  | Write _ => Ok ([], with_err s 1)           (* lines 43-48 *)
  | Read n => read modern s n
  | Seek off w => let* s' := seek s off w in Ok ([], s')
  | SetPosition p => Ok ([], with_pos s p)     (* lines 98-105 *)
  | ClearError => Ok ([], with_err s 0)        (* lines 111-113 *)
  end.

(** A history; the results are what each call returned. *)
Fixpoint run (modern : bool) (s : fbx) (l : list op) : outcome (list (list ascii) * fbx) :=
  match l with
  | [] => Ok ([], s)
  | o :: r =>
    let* xs := step modern s o in
    let* ys := run modern (snd xs) r in
    Ok (fst xs :: fst ys, snd ys)
  end.
