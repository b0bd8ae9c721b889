(** What the lines and sections of a text are (C77, C78). *)

From Coq Require Import List Ascii Bool String.
From Verif Require Import Prelude Str_model Str_spec Lines_model.
Import ListNotations.

(** The three ways a line can end. *)
Inductive ending := LF | CRLF | CR.
Definition end_chars (e : ending) : str :=
  match e with LF => [lf] | CRLF => [cr; lf] | CR => [cr] end.

Definition plain (l : str) : Prop := ~ In lf l /\ ~ In cr l.

(** The text of a list of lines. *)
Definition text_of (ls : list (str * ending)) : str := flat_map (fun le => fst le ++ end_chars (snd le)) ls.

(** Lines hold no line-end characters, and the way the text ends its lines can be read off it: a
    lone CR is not followed by LF. *)
Fixpoint lines_ok (ls : list (str * ending)) : Prop :=
  match ls with
  | [] => True
  | (l, e) :: r =>
    plain l /\ lines_ok r /\
    match e, r with CR, ([], LF) :: _ => False | _, _ => True end
  end.

Definition ends_in_cr (ls : list (str * ending)) : Prop := exists r l, ls = r ++ [(l, CR)].

(** ** Sections *)

(** [l] without its comment and without blanks around the rest. *)
Definition cleaned (l r : str) : Prop :=
  exists a, ((l = a /\ ~ In "#"%char a) \/ (exists b, l = a ++ "#"%char :: b /\ ~ In "#"%char a)) /\
            trimmed [" "; "009"]%char a r.

Definition word (n : str) : Prop := n <> [] /\ forall c, In c n -> word_char c = true.
Definition header_of (n : str) : str := "["%char :: n ++ ["]"%char].
Definition is_header (l : str) : Prop := exists n, word n /\ l = header_of n.

(** A section as it stands in the file: the header line with its name, and the lines up to the next
    header with what is left of them after cleaning. *)
Record section := { se_head : str; se_name : str; se_lines : list (str * str) }.
Definition section_ok (s : section) : Prop :=
  word (se_name s) /\ cleaned (se_head s) (header_of (se_name s)) /\
  Forall (fun p => cleaned (fst p) (snd p) /\ ~ is_header (snd p)) (se_lines s).
Definition section_lines (s : section) : list str := se_head s :: map fst (se_lines s).

(** What the caller should find under the name: the cleaned lines that are not blank, each with a
    newline. *)
Definition section_content (s : section) : str :=
  flat_map (fun p => match snd p with [] => [] | l => l ++ [lf] end) (se_lines s).

(** The last section of a name counts. *)
Fixpoint last_named (n : str) (ss : list section) : option section :=
  match ss with
  | [] => None
  | s :: r =>
    match last_named n r with
    | Some x => Some x
    | None => if list_eq_dec ascii_dec (se_name s) n then Some s else None
    end
  end.
