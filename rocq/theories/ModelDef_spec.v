(** What a model definition means (C125). *)

From Coq Require Import List Arith Ascii Bool String Reals.
From Verif Require Import Prelude Str_model Str_spec ParamTransform_model Lines_model Lines_spec Marker_model Marker_spec LocIO_model LimIO_model LimIO_spec ModelDef_model.
Import ListNotations.
Local Open Scope list_scope.

(** [a] is [line] without its comment. *)
Definition uncommented (line a : str) : Prop := (line = a /\ ~ In "#"%char a) \/ exists b, line = a ++ "#"%char :: b /\ ~ In "#"%char a.
(** A line that begins with the keyword. *)
Definition keyword_line (kw line a : str) : Prop := uncommented line a /\ exists r, a = kw ++ r.
(** A line that defines [n] by the words [ws]. *)
Definition defines (kw line n : str) (ws : list str) : Prop := exists a w, keyword_line kw line a /\ words a (w :: n :: ws).
(** The last of the lines that define [n] does it by [ws]. *)
Definition last_definition (kw : str) (lines : list str) (n : str) (ws : list str) : Prop :=
  exists l1 line l2, lines = l1 ++ line :: l2 /\ defines kw line n ws /\ forall l ws', In l l2 -> ~ defines kw l n ws'.

(** [n] is the name of parameter [k] and of none before it. *)
Definition is_param (params : list str) (n : str) (k : nat) : Prop := nth_error params k = Some n /\ forall i, i < k -> nth_error params i <> Some n.
(** Words around which there may be zero characters. *)
Definition set_word (params : list str) (w : str) (k : nat) : Prop := exists n, trimmed [" "; "009"]%char w n /\ is_param params n k /\ k < 2 ^ 11.

(** The two nonempty pieces of [name=value]; other words are skipped. *)
Definition pieces (w : str) (ps : list str) : Prop :=
  exists i, trimmed [" "; "009"]%char w i /\ ((i = [] /\ ps = []) \/ exists qs, splits ["="%char] i qs /\ ps = filter (fun p => negb (Nat.eqb (List.length p) 0)) qs).
Inductive pose_words {F} (stof : str -> option F) (params : list str) : list str -> list (nat * F) -> Prop :=
| pw_nil : pose_words stof params [] []
| pw_skip : forall w ws xs ps, pieces w ps -> List.length ps <> 2 -> pose_words stof params ws xs -> pose_words stof params (w :: ws) xs
| pw_take : forall w ws xs n v k x, pieces w [n; v] -> is_param params n k -> stof v = Some x -> pose_words stof params ws xs -> pose_words stof params (w :: ws) ((k, x) :: xs).

(** Everything refers to parameters and joints that exist. *)
Definition fits {M} (joints : list str) (pt : ptransform) (sets : list (str * list nat)) (poses : list (str * list (nat * R))) (ls : list (plimit R M)) : Prop :=
  pt_rows pt = List.length joints * 7 /\ pt_cols pt = List.length (pt_name pt) /\
  (forall n s k, In (n, s) sets -> In k s -> k < pt_cols pt) /\ (forall n s k x, In (n, s) poses -> In (k, x) s -> k < pt_cols pt) /\
  List.Forall (in_range joints (pt_names pt)) ls.
