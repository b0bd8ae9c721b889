(** C42: tokenize and trim. *)

From Coq Require Import List Arith Ascii Bool String Lia.
From Verif Require Import Prelude Str_model Str_spec Str_proofs.
Import ListNotations.

(** The pieces are determined by the text and the delimiters. *)
Theorem splitting_is_unique : forall ds s ps1 ps2, splits ds s ps1 -> splits ds s ps2 -> ps1 = ps2.
Proof. exact splits_unique. Qed.
Print Assumptions splitting_is_unique.

(** tokenize terminates, keeps every piece in order, and with trim=true drops
    exactly the empty pieces. The empty string is the one exception: no piece. *)
Theorem tokenize_splits : forall s ds, s <> [] ->
  exists ps, splits ds s ps /\ tokenize s ds false = Ok ps /\
    tokenize s ds true = Ok (filter (fun p => negb (Nat.eqb (List.length p) 0)) ps).
Proof. exact tokenize_lemma. Qed.
Print Assumptions tokenize_splits.

(** C42. tokenize(s, d, false) of the empty string returns no piece although the
    empty string splits into one (empty) piece. *)
Theorem tokenize_empty_refuted : exists ds, tokenize [] ds false = Ok [] /\ splits ds [] [[]].
Proof. exists []. split; [reflexivity|]. constructor. intros c []. Qed.
Print Assumptions tokenize_empty_refuted.

Theorem trim_removes_white_ends : forall ws s, exists r, trim ws s = Ok r /\ trimmed ws s r.
Proof. exact trim_lemma. Qed.
Print Assumptions trim_removes_white_ends.

Theorem trimmed_is_unique : forall ws s r1 r2, trimmed ws s r1 -> trimmed ws s r2 -> r1 = r2.
Proof. exact trimmed_unique_lemma. Qed.
Print Assumptions trimmed_is_unique.

(** C42. trim also removes NUL characters, which are not in whiteChars. *)
Theorem trim_keeps_other_characters_refuted :
  exists ws s r c, trim ws s = Ok r /\ In c s /\ ~ In c ws /\ ~ In c r.
Proof.
  exists [" "%char], ["a"%char; nul], ["a"%char], nul. split; [reflexivity|]. split; [right; left; reflexivity|].
  split; intros [H|[]]; discriminate.
Qed.
Print Assumptions trim_keeps_other_characters_refuted.

Definition txt (s : string) : str := list_ascii_of_string s.
Example tokenize_ex : tokenize (txt "a==b=") (txt "=") false = Ok [txt "a"; txt ""; txt "b"; txt ""] /\
  tokenize (txt "a==b=") (txt "=") true = Ok [txt "a"; txt "b"].
Proof. split; reflexivity. Qed.
Example trim_ex : trim (txt " ") (txt "  a b ") = Ok (txt "a b").
Proof. reflexivity. Qed.
