(** momentum/io/skeleton/parameter_transform_io.cpp: parseParameterTransform.
    std::stod is a parameter [stod] (None: it throws); the narrowing of weights
    to float is dropped, scalars are reals. *)

From Coq Require Import Bool Reals List Arith Ascii String.
From Verif Require Import Prelude Rbool Str_model ParamTransform_model.
Import ListNotations.
Local Open Scope R_scope.
Local Open Scope bool_scope.
Local Open Scope outcome_scope.

Definition txt (s : string) : str := list_ascii_of_string s.
Definition str_eqb (a b : str) : bool := if list_eq_dec ascii_dec a b then true else false.

(** First index of a name in a list (the search loops of lines 130-135, 142-147,
    243-248 and Skeleton::getJointIdByName). *)
Fixpoint find_str_from (i : nat) (nm : str) (l : list str) : option nat :=
  match l with
  | [] => None
  | x :: r => if str_eqb x nm then Some i else find_str_from (S i) nm r
  end.
Definition find_str (nm : str) (l : list str) : option nat := find_str_from 0 nm l.

(** kJointParameterNames, momentum/character/types.h:26. *)
Definition channel_names : list str := map txt ["tx"; "ty"; "tz"; "rx"; "ry"; "rz"; "sc"]%string.

(** trim with its default white characters, string.h:23. *)
Definition white_default : str := [" "%char; "009"%char].

(** The part of [pt] that the parser builds, and the triplet list. *)
Record pstate : Type := PState {
  ps_names : list str;
  ps_trip : list entry;
  ps_off : list R;
  ps_act : list bool
}.

(** The loop of lines 163-171: it runs while tr < triplets.size(), and the body
    may push. *)
Fixpoint copy_refs (fuel tr : nat) (trips : list entry) (ref row : nat) (w : R) : outcome (list entry) :=
  match fuel with
  | O => OutOfFuel
  | S f =>
      match nth_error trips tr with
      | None => Ok trips
      | Some t =>
          copy_refs f (S tr)
            (if Nat.eqb (erow t) ref then trips ++ [Entry row (ecol t) (eval t * w)] else trips) ref row w
      end
  end.

(** parameterName split at its first '.', lines 138-141: without a dot both parts
    are the whole name (npos + 1 = 0). *)
Definition split_dot (nm : str) : str * str :=
  match find_first_of ["."%char] nm 0 with
  | Some k => (firstn k nm, skipn (k + 1) nm)
  | None => (nm, nm)
  end.

(** A weighted name, lines 126-183. *)
Definition add_term (fuel : nat) (joints : list str) (row : nat) (st : pstate) (w : R) (nm : str)
  : outcome pstate :=
  let push c names := Ok (PState names (ps_trip st ++ [Entry row c w]) (ps_off st) (ps_act st)) in
  match find_str nm (ps_names st), find_str (fst (split_dot nm)) joints with
  | None, None => push (List.length (ps_names st)) (ps_names st ++ [nm])
  | Some c, _ => push c (ps_names st)
  | None, Some j =>
      match find_str (snd (split_dot nm)) channel_names with
      | Some l =>
          let* trips := copy_refs fuel 0 (ps_trip st) (j * 7 + l) row w in
          Ok (PState (ps_names st) trips (ps_off st) (ps_act st))
      | None => Throw
      end
  end.

(** What one summand says: a constant, or weight times name. *)
Inductive term : Type := TConst (c : R) | TParam (w : R) (nm : str).

Section Parser.
Variable stod : str -> option R.

Definition stod_or_throw (s : str) : outcome R := match stod s with Some x => Ok x | None => Throw end.

(** Lines 109-126: one summand; None means it is skipped. *)
Definition read_term (dtoken : str) : outcome (option term) :=
  let* stokens := tokenize dtoken ["*"%char] true in
  match stokens with
  | [a] => let* x := stod_or_throw a in Ok (Some (TConst x))
  | [a; b] =>
      let* w := stod_or_throw a in
      let* nm := trim white_default b in
      Ok (Some (TParam w nm))
  | _ => Ok None
  end.

Definition exec_term (fuel : nat) (joints : list str) (row : nat) (st : pstate) (t : term) : outcome pstate :=
  match t with
  | TConst c =>
      let* off := wr (ps_off st) row c in
      Ok (PState (ps_names st) (ps_trip st) off (ps_act st))
  | TParam w nm => add_term fuel joints row st w nm
  end.

(** parseParameter, lines 99-185. *)
Fixpoint parse_terms (fuel : nat) (joints : list str) (row : nat) (dtokens : list str) (st : pstate)
  : outcome pstate :=
  match dtokens with
  | [] => Ok st
  | d :: r =>
      let* t := read_term d in
      let* st' := match t with None => Ok st | Some t => exec_term fuel joints row st t end in
      parse_terms fuel joints row r st'
  end.

(** Text before the first '#', line 219. *)
Definition strip_comment (line : str) : str :=
  match find_first_of ["#"%char] line 0 with Some k => firstn k line | None => line end.
(** line.find(p) == 0. *)
Fixpoint prefix_of (p s : str) : bool :=
  match p, s with
  | [], _ => true
  | a :: p', b :: s' => Ascii.eqb a b && prefix_of p' s'
  | _ :: _, [] => false
  end.

(** Lines 219-256: None for an ignored line, else the row and the summands. *)
Definition read_line (joints : list str) (line0 : str) : outcome (option (nat * list str)) :=
  let line := strip_comment line0 in
  if prefix_of (txt "limit") line || prefix_of (txt "parameterset") line || prefix_of (txt "poseconstraints") line
  then Ok None
  else
    let* pTokens := tokenize line ["="%char] true in
    match pTokens with
    | [lhs; rhs] =>
        let* aTokens := tokenize lhs ["."%char] true in
        match aTokens with
        | [jn; an] =>
            let* jn' := trim white_default jn in
            match find_str jn' joints with
            | None => Throw
            | Some j =>
                let* an' := trim white_default an in
                match find_str an' channel_names with
                | None => Throw
                | Some a => let* ds := tokenize rhs ["+"%char] true in Ok (Some ((j * 7 + a)%nat, ds))
                end
            end
        | _ => Throw
        end
    | _ => Ok None
    end.

(** std::getline: lines end at a newline; no line after a final newline. *)
Fixpoint get_lines (cur : str) (data : str) : list str :=
  match data with
  | [] => match cur with [] => [] | _ => [cur] end
  | c :: r => if Ascii.eqb c "010"%char then cur :: get_lines [] r else get_lines (cur ++ [c]) r
  end.

Fixpoint parse_lines (fuel : nat) (joints : list str) (ls : list str) (st : pstate) : outcome pstate :=
  match ls with
  | [] => Ok st
  | l :: r =>
      let* h := read_line joints l in
      let* st' :=
        match h with
        | None => Ok st
        | Some (row, ds) =>
            let* act := wr (ps_act st) row true in
            parse_terms fuel joints row ds (PState (ps_names st) (ps_trip st) (ps_off st) act)
        end in
      parse_lines fuel joints r st'
  end.

Definition init_state (nJoints : nat) : pstate :=
  PState [] [] (repeat 0 (nJoints * 7)) (repeat false (nJoints * 7)).

(** parseParameterTransform, lines 208-282. Names are converted back to Coq
    strings to fit [ptransform]. [fuel] bounds the copy loop. *)
Definition parse_transform (fuel : nat) (joints : list str) (data : str) : outcome ptransform :=
  let* st := parse_lines fuel joints (get_lines [] data) (init_state (List.length joints)) in
  Ok (PT (map string_of_list_ascii (ps_names st)) (List.length joints * 7) (List.length (ps_names st))
         (filter (fun e => negb (Reqb (eval e) 0)) (ps_trip st)) (ps_off st) (ps_act st) [] [] [] []).
End Parser.
