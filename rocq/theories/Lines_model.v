(** Reading text files line by line: GetLineCrossPlatform of momentum/io/common/stream_utils.cpp and
    the section reader of momentum/io/skeleton/parameter_transform_io.cpp.

    A stream is the characters not read yet and the eof and fail bits; the bad bit (device errors)
    is not modelled. *)

From Coq Require Import List Arith Ascii Bool String.
From Verif Require Import Prelude Str_model.
Import ListNotations.
Local Open Scope outcome_scope.
Local Open Scope bool_scope.

Definition lf : ascii := "010"%char.
Definition cr : ascii := "013"%char.

Record istr := { i_rest : str; i_eof : bool; i_fail : bool }.
Definition open_text (t : str) : istr := {| i_rest := t; i_eof := false; i_fail := false |}.
Definition i_good (s : istr) : bool := negb (i_eof s) && negb (i_fail s).

(** The loop of GetLineCrossPlatform, stream_utils.cpp:42-62, on a good stream with [t] unread.
    get() at the end sets both bits; peek() at the end sets the eof bit. *)
Fixpoint get_chars (t : str) (line : str) : str * istr :=
  match t with
  | [] => (line, {| i_rest := []; i_eof := true; i_fail := true |})
  | c :: r =>
    if Ascii.eqb c lf then (line, open_text r)
    else if Ascii.eqb c cr then
      match r with
      | [] => (line, {| i_rest := []; i_eof := true; i_fail := false |})
      | d :: r' => if Ascii.eqb d lf then (line, open_text r') else (line, open_text r)
      end
    else get_chars r (line ++ [c])
  end.

(** Lines 40-65: on a stream that is not good the line is cleared and nothing else happens. *)
Definition get_line (s : istr) : str * istr :=
  if i_good s then get_chars (i_rest s) [] else ([], s).

(** [while (GetLineCrossPlatform(is, line)) …]: the lines its body sees. The conversion of a stream
    to bool looks at the fail bit only. *)
Fixpoint while_lines (fuel : nat) (s : istr) : outcome (list str) :=
  match fuel with
  | 0 => OutOfFuel
  | S f =>
    let ls := get_line s in
    if i_fail (snd ls) then Ok []
    else let* r := while_lines f (snd ls) in Ok (fst ls :: r)
  end.

(** ** Sections of a model definition *)

Definition s_eqb (a b : str) : bool := if list_eq_dec ascii_dec a b then true else false.

(** line.substr(0, line.find_first_of('#')). *)
Definition before_hash (l : str) : str :=
  match find_first_of ["#"%char] l 0 with Some p => firstn p l | None => l end.
(** parameter_transform_io.cpp:41; " \t" are the default white characters of trim (string.h:23). *)
Definition clean_line (l : str) : outcome str := trim [" "; "009"]%char (before_hash l).

(** \w of RE2. *)
Definition word_char (c : ascii) : bool :=
  let n := nat_of_ascii c in
  ((48 <=? n) && (n <=? 57)) || ((65 <=? n) && (n <=? 90)) || ((97 <=? n) && (n <=? 122)) || (n =? 95).

(** RE2::FullMatch(line, "\[(\w+)\]", &name), lines 48-50. *)
Definition section_name (l : str) : option str :=
  match l with
  | c :: r =>
    match rev r with
    | d :: b =>
      if Ascii.eqb c "[" && Ascii.eqb d "]" && negb (List.length b =? 0) && forallb word_char b then Some (rev b) else None
    | [] => None
    end
  | [] => None
  end.

(** std::unordered_map: assignment through operator[] and lookup. *)
Definition smap : Type := list (str * str).
Definition smap_set (m : smap) (k v : str) : smap := (k, v) :: m.
Definition smap_get (m : smap) (k : str) : option str := option_map snd (find (fun e => s_eqb (fst e) k) m).

Record sec := { s_map : smap; s_name : str; s_body : str }.

(** Lines 52-54 and 62-63. *)
Definition store_section (st : sec) : smap :=
  if List.length (s_name st) =? 0 then s_map st else smap_set (s_map st) (s_name st) (s_body st).

(** The body of the loop, lines 40-60. *)
Definition section_step (st : sec) (l : str) : outcome sec :=
  let* l := clean_line l in
  if List.length l =? 0 then Ok st
  else
    match section_name l with
    | Some n => Ok {| s_map := store_section st; s_name := n; s_body := [] |}
    | None =>
      if List.length (s_name st) =? 0 then Ok st
      else Ok {| s_map := s_map st; s_name := s_name st; s_body := s_body st ++ l ++ [lf] |}
    end.

Fixpoint section_steps (st : sec) (ls : list str) : outcome sec :=
  match ls with [] => Ok st | l :: r => let* st' := section_step st l in section_steps st' r end.

Definition magic : str := list_ascii_of_string "Momentum Model Definition V1.0".

(** loadMomentumModelCommon, lines 24-66. The loop runs over [while_lines]. *)
Definition load_sections (fuel : nat) (t : str) : outcome smap :=
  let h := get_line (open_text t) in
  let* first := trim [" "; "009"]%char (fst h) in
  if negb (s_eqb first magic) then Ok []
  else
    let* ls := while_lines fuel (snd h) in
    let* st := section_steps {| s_map := []; s_name := []; s_body := [] |} ls in
    Ok (store_section st).
