(** What a stream over a block of memory should do. *)

From Coq Require Import List Arith Ascii ZArith Bool.
From Verif Require Import Prelude FbxStream_model.
Import ListNotations.
Local Open Scope Z_scope.

(** A stream with a place between the start and the end of its data, and whether a call failed. *)
Record stream := { at_ : nat; failed : bool }.

(** The call is legal: arguments are of their C++ type, and no call moves the place outside the
    data. *)
Definition legal (modern : bool) (len at_now : nat) (o : op) : Prop :=
  match o with
  | Read n => if modern then 0 <= n < 2 ^ 64 else 0 <= n < 2 ^ 31
  | Seek off Begin => 0 <= off <= Z.of_nat len
  | Seek off Current => 0 <= Z.of_nat at_now + off <= Z.of_nat len
  | Seek off End_ => 0 <= off <= Z.of_nat len
  | SetPosition p => 0 <= p <= Z.of_nat len
  | _ => True
  end.

(** The bytes a call returns and the stream after it. *)
Definition ideal (data : list ascii) (s : stream) (o : op) : list ascii * stream :=
  match o with
  | Open | Close => ([], {| at_ := 0; failed := failed s |})
  | Flush => ([], s)
  | Write _ => ([], {| at_ := at_ s; failed := true |})
  | Read n =>
      if Z.of_nat (length data) <? Z.of_nat (at_ s) + n then ([], {| at_ := at_ s; failed := true |})
      else (firstn (Z.to_nat n) (skipn (at_ s) data), {| at_ := at_ s + Z.to_nat n; failed := failed s |})
  | Seek off Begin => ([], {| at_ := Z.to_nat off; failed := failed s |})
  | Seek off Current => ([], {| at_ := Z.to_nat (Z.of_nat (at_ s) + off); failed := failed s |})
  | Seek off End_ => ([], {| at_ := Z.to_nat (Z.of_nat (length data) - off); failed := failed s |})
  | SetPosition p => ([], {| at_ := Z.to_nat p; failed := failed s |})
  | ClearError => ([], {| at_ := at_ s; failed := false |})
  end.

Fixpoint ideal_run (data : list ascii) (s : stream) (l : list op) : list (list ascii) * stream :=
  match l with
  | [] => ([], s)
  | o :: r => let (x, s1) := ideal data s o in let (y, s2) := ideal_run data s1 r in (x :: y, s2)
  end.

Fixpoint all_legal (modern : bool) (data : list ascii) (s : stream) (l : list op) : Prop :=
  match l with
  | [] => True
  | o :: r => legal modern (length data) (at_ s) o /\ all_legal modern data (snd (ideal data s o)) r
  end.
