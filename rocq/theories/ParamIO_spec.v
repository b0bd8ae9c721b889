(** What a list of channel expressions means (C12, C13). *)

From Coq Require Import Reals List Arith Ascii String.
From Verif Require Import Prelude Str_model ParamTransform_model ParamTransform_spec ParamIO_model.
Import ListNotations.
Local Open Scope R_scope.

(** The joint parameter a dotted name stands for, e.g. "arm.rx". *)
Definition channel_of (joints : list str) (nm : str) : option nat :=
  match find_str (fst (split_dot nm)) joints, find_str (snd (split_dot nm)) channel_names with
  | Some j, Some l => Some (j * 7 + l)%nat
  | _, _ => None
  end.
Definition names_a_joint (joints : list str) (nm : str) : Prop := In (fst (split_dot nm)) joints.

(** The meaning so far: names in order of first use, the coefficient of each name
    in each joint parameter, the constant of each joint parameter. *)
Record meaning : Type := Meaning {
  m_names : list str;
  m_coef : nat -> str -> R;
  m_const : nat -> R
}.
Definition m0 : meaning := Meaning [] (fun _ _ => 0) (fun _ => 0).

Definition add_coef (f : nat -> str -> R) (row : nat) (nm : str) (w : R) : nat -> str -> R :=
  fun r n => f r n + (if Nat.eqb r row then if list_eq_dec ascii_dec n nm then w else 0 else 0).
Definition add_row (f : nat -> str -> R) (row ref : nat) (w : R) : nat -> str -> R :=
  fun r n => f r n + (if Nat.eqb r row then w * f ref n else 0).

(** Effect of one summand of the expression for joint parameter [row]. *)
Inductive term_means (joints : list str) (row : nat) : meaning -> term -> meaning -> Prop :=
| means_const : forall m c,
    term_means joints row m (TConst c)
      (Meaning (m_names m) (m_coef m) (fun r => if Nat.eqb r row then c else m_const m r))
| means_known : forall m w nm, In nm (m_names m) ->
    term_means joints row m (TParam w nm) (Meaning (m_names m) (add_coef (m_coef m) row nm w) (m_const m))
| means_new : forall m w nm, ~ In nm (m_names m) -> ~ names_a_joint joints nm ->
    term_means joints row m (TParam w nm) (Meaning (m_names m ++ [nm]) (add_coef (m_coef m) row nm w) (m_const m))
| means_ref : forall m w nm ref, ~ In nm (m_names m) -> channel_of joints nm = Some ref -> ref <> row ->
    term_means joints row m (TParam w nm) (Meaning (m_names m) (add_row (m_coef m) row ref w) (m_const m)).

Inductive terms_mean (joints : list str) (row : nat) : meaning -> list term -> meaning -> Prop :=
| terms_nil : forall m, terms_mean joints row m [] m
| terms_cons : forall m t m1 ts m2, term_means joints row m t m1 -> terms_mean joints row m1 ts m2 ->
    terms_mean joints row m (t :: ts) m2.

(** Meaning of a list of expressions (row, summands), in order. *)
Inductive exprs_mean (joints : list str) : meaning -> list (nat * list term) -> meaning -> Prop :=
| exprs_nil : forall m, exprs_mean joints m [] m
| exprs_cons : forall m row ts m1 es m2, terms_mean joints row m ts m1 -> exprs_mean joints m1 es m2 ->
    exprs_mean joints m ((row, ts) :: es) m2.

(** The expressions a text contains (syntax only). *)
Inductive reads_terms (stod : str -> option R) : list str -> list term -> Prop :=
| rt_nil : reads_terms stod [] []
| rt_skip : forall d ds ts, read_term stod d = Ok None -> reads_terms stod ds ts -> reads_terms stod (d :: ds) ts
| rt_term : forall d ds t ts, read_term stod d = Ok (Some t) -> reads_terms stod ds ts -> reads_terms stod (d :: ds) (t :: ts).
Inductive reads_lines (stod : str -> option R) (joints : list str) : list str -> list (nat * list term) -> Prop :=
| rl_nil : reads_lines stod joints [] []
| rl_skip : forall l ls es, read_line joints l = Ok None -> reads_lines stod joints ls es -> reads_lines stod joints (l :: ls) es
| rl_expr : forall l ls row ds ts es, read_line joints l = Ok (Some (row, ds)) -> reads_terms stod ds ts ->
    reads_lines stod joints ls es -> reads_lines stod joints (l :: ls) ((row, ts) :: es).

(** The transform represents the meaning: column c belongs to the c-th name. *)
Definition represents (pt : ptransform) (joints : list str) (m : meaning) (es : list (nat * list term)) : Prop :=
  pt_name pt = map string_of_list_ascii (m_names m) /\ NoDup (pt_name pt) /\
  pt_cols pt = List.length (m_names m) /\ pt_rows pt = (List.length joints * 7)%nat /\
  (forall r c nm, nth_error (m_names m) c = Some nm -> coeff pt r c = m_coef m r nm) /\
  (forall e, In e (pt_entries pt) -> (erow e < pt_rows pt)%nat /\ (ecol e < pt_cols pt)%nat) /\
  List.length (pt_offsets pt) = pt_rows pt /\
  (forall r, (r < pt_rows pt)%nat -> nth r (pt_offsets pt) 0 = m_const m r) /\
  (forall r, nth r (pt_active pt) false = true <-> exists ts, In (r, ts) es).

(** No expression refers to the joint parameter it defines. *)
Definition no_self_reference (stod : str -> option R) (joints : list str) (ls : list str) : Prop :=
  forall l row ds d w nm, In l ls -> read_line joints l = Ok (Some (row, ds)) -> In d ds ->
    read_term stod d = Ok (Some (TParam w nm)) -> channel_of joints nm <> Some row.

(** A text file with the given lines, each ended by a newline. *)
Definition newline : ascii := "010"%char.
Definition unlines (ls : list str) : str := flat_map (fun l => l ++ [newline]) ls.
(** A line with an optional comment. *)
Definition commented (lc : str * option str) : str :=
  match snd lc with Some c => fst lc ++ "#"%char :: c | None => fst lc end.
Definition plain_line (lc : str * option str) : Prop :=
  ~ In newline (commented lc) /\ ~ In "#"%char (fst lc).
