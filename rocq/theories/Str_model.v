(** momentum/common/string.cpp: trim and tokenize. A std::string (and a
    std::string_view) is a list of characters. *)

From Coq Require Import List Arith Ascii Bool.
From Verif Require Import Prelude.
Import ListNotations.
Local Open Scope outcome_scope.

Notation str := (list ascii).
Definition nul : ascii := Ascii.zero.

(** std::strchr(whiteChars, c) != nullptr: the terminating NUL belongs to the
    searched string. *)
Definition strchr (white : str) (c : ascii) : bool :=
  existsb (Ascii.eqb c) white || Ascii.eqb c nul.

(** The loop of string.cpp:18-20; [e] is [end]. *)
Fixpoint trim_end (white text : str) (e : nat) : outcome nat :=
  match e with
  | 0 => Ok 0
  | S e' => let* c := rd text e' in
            if strchr white c then trim_end white text e' else Ok e
  end.

(** The loop of string.cpp:25-27; at most [todo] = end - start steps. *)
Fixpoint trim_start (white text : str) (start todo : nat) : outcome nat :=
  match todo with
  | 0 => Ok start
  | S k => let* c := rd text start in
           if strchr white c then trim_start white text (S start) k else Ok start
  end.

(** text.substr(pos, n): throws std::out_of_range if pos > size. *)
Definition substr (s : str) (pos n : nat) : outcome str :=
  if Nat.ltb (length s) pos then Throw else Ok (firstn n (skipn pos s)).

(** trim, string.cpp:16-32. *)
Definition trim (white text : str) : outcome str :=
  let* e := trim_end white text (length text) in
  if Nat.eqb e 0 then Ok []
  else
    let* st := trim_start white text 0 e in
    if Nat.ltb 0 st || Nat.ltb e (length text) then substr text st (e - st) else Ok text.

(** s.find_first_of(delims, from): least position >= from holding a delimiter. *)
Fixpoint find_from (ds : str) (s : str) (pos : nat) : option nat :=
  match s with
  | [] => None
  | c :: r => if existsb (Ascii.eqb c) ds then Some pos else find_from ds r (S pos)
  end.
Definition find_first_of (ds s : str) (from : nat) : option nat := find_from ds (skipn from s) from.

(** The loop of tokenize, string.cpp:50-56, then lines 57-60. *)
Fixpoint tok_loop (fuel : nat) (ds s : str) (trimFlag : bool) (lastPos : nat) (acc : list str)
  : outcome (list str) :=
  match fuel with
  | 0 => OutOfFuel
  | S fuel' =>
      match find_first_of ds s lastPos with
      | Some pos =>
          let* res := substr s lastPos (pos - lastPos) in
          tok_loop fuel' ds s trimFlag (pos + 1)
            (if negb (Nat.eqb (length res) 0) || negb trimFlag then acc ++ [res] else acc)
      | None =>
          let* res := substr s lastPos (length s) in
          Ok (if negb (Nat.eqb (length res) 0) || negb trimFlag then acc ++ [res] else acc)
      end
  end.

(** tokenize, string.cpp:40-64 (and the string_view overload, 66-92, the same
    text). The loop runs at most size+1 times. *)
Definition tokenize (s ds : str) (trimFlag : bool) : outcome (list str) :=
  match s with
  | [] => Ok []
  | _ => tok_loop (S (length s)) ds s trimFlag 0 []
  end.
