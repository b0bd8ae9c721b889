(** The text of parameter limits: momentum/io/skeleton/parameter_limits_io.cpp.

    Simplifications: the type of floats, its comparison, what operator<< prints and std::stof reads, the scaling of half planes and the decomposition of ellipsoids are
    arguments; the inverse of an ellipsoid, which is computed from it, is left out; messages are left out. *)

From Coq Require Import List Arith Ascii Bool String.
From Verif Require Import Prelude Loops Str_model Lines_model Marker_model LocIO_model.
Import ListNotations.
Local Open Scope outcome_scope.
Local Open Scope list_scope.

(** Numbers ([n_max] is the largest float and [n_min] its negative, lines 22-23); [n_jump] tells that two linear functions, each a scale and an offset, differ by more
    than 1e-3 at a place (lines 365-367, 402-406); [n_norm] divides by the length of the normal (lines 446-448); [n_split] gives translation, angles and scale
    of an ellipsoid (lines 640-650) and [n_join] makes it from these (lines 477-482). *)
Record nums (F M : Type) := Nums {
  n_show : F -> str;
  n_stof : str -> option F;
  n_eqb : F -> F -> bool;
  n_zero : F;
  n_one : F;
  n_max : F;
  n_min : F;
  n_jump : F * F -> F * F -> F -> bool;
  n_norm : F * F -> F -> (F * F) * F;
  n_split : M -> list F * list F * list F;
  n_join : list F -> list F -> list F -> M
}.
Arguments n_show {F M}. Arguments n_stof {F M}. Arguments n_eqb {F M}. Arguments n_zero {F M}. Arguments n_one {F M}. Arguments n_max {F M}. Arguments n_min {F M}.
Arguments n_jump {F M}. Arguments n_norm {F M}. Arguments n_split {F M}. Arguments n_join {F M}.

(** ParameterLimit, parameter_limits.h:28-96; vectors are lists. *)
Inductive limit (F M : Type) :=
| LMinMax (param : nat) (lo hi : F)
| LMinMaxJoint (joint jparam : nat) (lo hi : F)
| LMinMaxPassive (joint jparam : nat) (lo hi : F)
| LLinear (ref target : nat) (scale offset rmin rmax : F)
| LHalfPlane (p1 p2 : nat) (normal : F * F) (offset : F)
| LEllipsoid (parent : nat) (offset : list F) (eparent : nat) (m : M).
Arguments LMinMax {F M}. Arguments LMinMaxJoint {F M}. Arguments LMinMaxPassive {F M}. Arguments LLinear {F M}. Arguments LHalfPlane {F M}. Arguments LEllipsoid {F M}.
Record plimit (F M : Type) := PL { p_limit : limit F M; p_weight : F }.
Arguments PL {F M}. Arguments p_limit {F M}. Arguments p_weight {F M}.

(** ** Tokens *)

Definition code (c : ascii) : nat := nat_of_ascii c.
Definition is_space (c : ascii) : bool := (code c =? 32) || ((9 <=? code c) && (code c <=? 13)).
Definition is_digit (c : ascii) : bool := (48 <=? code c) && (code c <=? 57).
Definition is_alpha (c : ascii) : bool := ((65 <=? code c) && (code c <=? 90)) || ((97 <=? code c) && (code c <=? 122)).
Definition num_start (c : ascii) : bool := is_digit c || Ascii.eqb c "-" || Ascii.eqb c "+".
Definition num_char (c : ascii) : bool := num_start c || Ascii.eqb c "." || Ascii.eqb c "e".
Definition id_start (c : ascii) : bool := is_alpha c || Ascii.eqb c "_".
Definition id_char (c : ascii) : bool := id_start c || is_digit c || Ascii.eqb c ".".
(** A char that is negative is not an argument of the functions of <cctype>. *)
Definition negative (c : ascii) : bool := 128 <=? code c.

(** A token with its text. [TBad true] is a character without a meaning, where the tokenizer throws; [TBad false] is one that <cctype> is not defined for. *)
Inductive tok := TOpen | TClose | TComma | TNum (s : str) | TId (s : str) | TEof | TBad (throws : bool).

(** The longest prefix of characters that satisfy [p]; [None] if the next character is negative. *)
Fixpoint span (p : ascii -> bool) (s : str) : option (str * str) :=
  match s with
  | [] => Some ([], [])
  | c :: r => if negative c then None
              else if p c then match span p r with Some (a, b) => Some (c :: a, b) | None => None end
              else Some ([], s)
  end.

(** The tokens that advance, lines 223-278, finds one after the other; the first error ends them. The loop of lines 268-270 ends at the zero behind the text. *)
Fixpoint lex (fuel : nat) (s : str) : list tok :=
  match s with
  | [] => [TEof]
  | c :: r =>
    match fuel with
    | O => []
    | S fuel =>
      if negative c then [TBad false]
      else if is_space c then lex fuel r
      else if Ascii.eqb c "["%char then TOpen :: lex fuel r
      else if Ascii.eqb c "]"%char then TClose :: lex fuel r
      else if Ascii.eqb c ","%char then TComma :: lex fuel r
      else if num_start c then
        match span num_char s with Some (a, b) => TNum a :: lex fuel b | None => [TBad false] end
      else if id_start c then
        match span id_char s with Some (a, b) => TId a :: lex fuel b | None => [TBad false] end
      else [TBad true]
    end
  end.

(** The tokenizer is the list of tokens from the current one on. An error is met by the advance that reaches it; at the end it stays there. *)
Definition arrive (ts : list tok) : outcome (list tok) :=
  match ts with
  | TBad true :: _ => Throw
  | TBad false :: _ => UB
  | [] => OutOfFuel
  | _ => Ok ts
  end.
Definition advance (ts : list tok) : outcome (list tok) :=
  match ts with
  | [TEof] => Ok ts
  | _ :: r => arrive r
  | [] => OutOfFuel
  end.

(** eatToken for brackets and commas, lines 72-75. *)
Definition tok_is (t u : tok) : bool :=
  match t, u with TOpen, TOpen | TClose, TClose | TComma, TComma | TEof, TEof => true | _, _ => false end.
Definition at_tok (t : tok) (ts : list tok) : bool := match ts with u :: _ => tok_is t u | [] => false end.
Definition eat (t : tok) (ts : list tok) : outcome (list tok) := if at_tok t ts then advance ts else Throw.
(** getIdentifier, lines 85-90. *)
Definition get_id (ts : list tok) : outcome (str * list tok) :=
  match ts with TId s :: _ => let* r := advance ts in Ok (s, r) | _ => Throw end.

Section Reader.
Context {F M : Type} (e : nums F M).

(** getNumber, lines 92-97. *)
Definition get_num (ts : list tok) : outcome (F * list tok) :=
  match ts with
  | TNum s :: _ => match n_stof e s with
                   | Some x => let* r := advance ts in Ok (x, r)
                   | None => Throw
                   end
  | _ => Throw
  end.

(** getVec, lines 99-113: [n] more numbers after the first. *)
Fixpoint get_more (n : nat) (ts : list tok) : outcome (list F * list tok) :=
  match n with
  | O => Ok ([], ts)
  | S n => let* ts := eat TComma ts in
           let* x := get_num ts in
           let* r := get_more n (snd x) in
           Ok (fst x :: fst r, snd r)
  end.
Definition get_vec (n : nat) (ts : list tok) : outcome (list F * list tok) :=
  let* ts := eat TOpen ts in
  let* x := get_num ts in
  let* r := get_more (n - 1) (snd x) in
  let* ts := eat TClose (snd r) in
  Ok (fst x :: fst r, ts).
(** getPair, lines 135-138. *)
Definition get_pair (ts : list tok) : outcome (F * F * list tok) :=
  let* r := get_vec 2 ts in
  match fst r with [x; y] => Ok (x, y, snd r) | _ => UB end.
(** getDynamicVec, lines 115-133. *)
Fixpoint dyn_loop (fuel : nat) (first : bool) (ts : list tok) : outcome (list F * list tok) :=
  if at_tok TClose ts then Ok ([], ts)
  else match fuel with
       | O => OutOfFuel
       | S fuel =>
         let* ts := if first then Ok ts else eat TComma ts in
         let* x := get_num ts in
         let* r := dyn_loop fuel false (snd x) in
         Ok (fst x :: fst r, snd r)
       end.
Definition get_dyn (ts : list tok) : outcome (list F * list tok) :=
  let* ts := eat TOpen ts in
  let* r := dyn_loop (List.length ts) true ts in
  let* ts := eat TClose (snd r) in
  Ok (fst r, ts).

(** std::find by name. *)
Fixpoint index_from (n : str) (names : list str) (k : nat) : option nat :=
  match names with
  | [] => None
  | m :: r => if s_eqb m n then Some k else index_from n r (S k)
  end.
(** modelParameterIndexFromName, lines 140-150, and jointIndexFromName, lines 184-194. *)
Definition named (names : list str) (n : str) : outcome nat := match index_from n names 0 with Some k => Ok k | None => Throw end.
(** types.h:26. *)
Definition param_names : list str := map lit ["tx"; "ty"; "tz"; "rx"; "ry"; "rz"; "sc"]%string.
(** jointParameterIndexFromName, lines 156-182. *)
Definition joint_param (joints : list str) (n : str) : outcome (nat * nat) :=
  match find_first_of ["."%char] n 0 with
  | None => Throw
  | Some d => let* j := named joints (firstn d n) in
              let* q := named param_names (skipn (d + 1) n) in
              Ok (j, q)
  end.

(** The optional weight. *)
Definition get_weight (ts : list tok) : outcome (F * list tok) := if at_tok TEof ts then Ok (n_one e, ts) else get_num ts.

Variables (joints params : list str).

(** parseMinmax, lines 290-317. *)
Definition parse_minmax (n : str) (ts : list tok) : outcome (list (plimit F M) * list tok) :=
  match find_first_of ["."%char] n 0 with
  | None => let* k := named params n in
            let* v := get_pair ts in let '(x, y, ts) := v in
            let* w := get_weight ts in
            Ok ([PL (LMinMax k x y) (fst w)], snd w)
  | Some _ => let* q := joint_param joints n in
              let* v := get_pair ts in let '(x, y, ts) := v in
              let* w := get_weight ts in
              Ok ([PL (LMinMaxJoint (fst q) (snd q) x y) (fst w)], snd w)
  end.
(** parseMinmaxPassive, lines 319-335. *)
Definition parse_passive (n : str) (ts : list tok) : outcome (list (plimit F M) * list tok) :=
  let* q := joint_param joints n in
  let* v := get_pair ts in let '(x, y, ts) := v in
  let* w := get_weight ts in
  Ok ([PL (LMinMaxPassive (fst q) (snd q) x y) (fst w)], snd w).

(** The loop of lines 369-424; [prev] is scale and offset of the segment before. *)
Fixpoint segments (fuel : nat) (ref target : nat) (prev : option (F * F)) (rmin : F) (ts : list tok) : outcome (list (limit F M) * list tok) :=
  if negb (at_tok TOpen ts) then Ok ([], ts)
  else match fuel with
       | O => OutOfFuel
       | S fuel =>
         let* v := get_dyn ts in
         let* s := match fst v with
                   | [a; b] => Ok (a, b, n_max e)
                   | [a; b; c] => if n_eqb e rmin (n_max e) then Throw else Ok (a, b, c)
                   | _ => Throw
                   end in
         let '(a, b, rmax) := s in
         if match prev with Some q => n_jump e q (a, b) rmin | None => false end then Throw
         else
           let* r := segments fuel ref target (Some (a, b)) rmax (snd v) in
           Ok (LLinear ref target a b rmin rmax :: fst r, snd r)
       end.
(** parseLinear, lines 337-434. *)
Definition parse_linear (n : str) (ts : list tok) : outcome (list (plimit F M) * list tok) :=
  let* k := named params n in
  let* i := get_id ts in
  let* t := named params (fst i) in
  if negb (at_tok TOpen (snd i)) then Throw
  else
    let* r := segments (List.length (snd i)) k t None (n_min e) (snd i) in
    let* w := get_weight (snd r) in
    Ok (map (fun l => PL l (fst w)) (fst r), snd w).
(** parseHalfPlane, lines 436-454. *)
Definition parse_halfplane (n : str) (ts : list tok) : outcome (list (plimit F M) * list tok) :=
  let* k := named params n in
  let* i := get_id ts in
  let* t := named params (fst i) in
  let* v := get_pair (snd i) in let '(x, y, ts) := v in
  let* o := get_num ts in
  let q := n_norm e (x, y) (fst o) in
  let* w := get_weight (snd o) in
  Ok ([PL (LHalfPlane k t (fst q) (snd q)) (fst w)], snd w).
(** parseEllipsoid, lines 456-486. *)
Definition parse_ellipsoid (n : str) (ts : list tok) : outcome (list (plimit F M) * list tok) :=
  let* k := named joints n in
  let* o := get_vec 3 ts in
  let* i := get_id (snd o) in
  let* t := named joints (fst i) in
  let* a := get_vec 3 (snd i) in
  let* b := get_vec 3 (snd a) in
  let* c := get_vec 3 (snd b) in
  let* w := get_weight (snd c) in
  Ok ([PL (LEllipsoid k (fst o) t (n_join e (fst a) (fst b) (fst c))) (fst w)], snd w).

(** One line, lines 500-544. *)
Definition parse_line (line : str) : outcome (list (plimit F M)) :=
  let line := before_hash line in
  if negb (starts_with (lit "limit") line) then Ok []
  else
    let* ts := arrive (lex (List.length line) line) in
    let* i := get_id ts in
    let* n := get_id (snd i) in
    let* t := get_id (snd n) in
    let ts := snd t in
    let n := fst n in
    let t := fst t in
    let* r := if s_eqb t (lit "minmax") then parse_minmax n ts
              else if s_eqb t (lit "minmax_passive") then parse_passive n ts
              else if s_eqb t (lit "linear") then parse_linear n ts
              else if s_eqb t (lit "halfplane") then parse_halfplane n ts
              else if s_eqb t (lit "ellipsoid") then parse_ellipsoid n ts
              else if s_eqb t (lit "elipsoid") then parse_ellipsoid n ts
              else Throw in
    if at_tok TEof (snd r) then Ok (fst r) else Throw.
(** std::getline until it fails: the lines of a text; what is behind the last end of line is one if it is not empty. *)
Fixpoint text_lines (acc s : str) : list str :=
  match s with
  | [] => match acc with [] => [] | _ => [acc] end
  | c :: r => if Ascii.eqb c lf then acc :: text_lines [] r else text_lines (acc ++ [c]) r
  end.
Fixpoint parse_lines (ls : list str) : outcome (list (plimit F M)) :=
  match ls with
  | [] => Ok []
  | l :: r => let* a := parse_line l in let* b := parse_lines r in Ok (a ++ b)
  end.
(** parseParameterLimits, lines 490-547. *)
Definition parse_limits (text : str) : outcome (list (plimit F M)) := parse_lines (text_lines [] text).

(** ** Writing *)

(** vecToString, lines 551-563. *)
Definition show_vec (v : list F) : str :=
  "["%char :: match v with
              | [] => []
              | x :: r => n_show e x ++ flat_map (fun y => ","%char :: " "%char :: n_show e y) r
              end ++ ["]"%char].
(** jointParameterToName, lines 573-577. *)
Definition joint_param_name (j q : nat) : outcome str :=
  match nth_error param_names q, nth_error joints j with
  | Some p, Some n => Ok (n ++ "."%char :: p)
  | _, _ => CheckFail
  end.
(** parameterTransform.name.at(i). *)
Definition param_name (k : nat) : outcome str := match nth_error params k with Some n => Ok n | None => Throw end.
(** The checks of lines 652-653. *)
Definition joint_name (k : nat) : outcome str := match nth_error joints k with Some n => Ok n | None => CheckFail end.

(** A limit that is not linear, lines 617-660, without the weight. *)
Definition show_limit (l : limit F M) : outcome str :=
  match l with
  | LMinMax k x y => let* n := param_name k in Ok (n ++ lit " minmax " ++ show_vec [x; y])
  | LMinMaxJoint j q x y => let* n := joint_param_name j q in Ok (n ++ lit " minmax " ++ show_vec [x; y])
  | LMinMaxPassive j q x y => let* n := joint_param_name j q in Ok (n ++ lit " minmax_passive " ++ show_vec [x; y])
  | LLinear _ _ _ _ _ _ => Ok []
  | LHalfPlane a b (x, y) o =>
    let* m := param_name a in let* n := param_name b in
    Ok (m ++ lit " halfplane " ++ n ++ lit " " ++ show_vec [x; y] ++ lit " " ++ n_show e o)
  | LEllipsoid p o q m =>
    let '(t, r, s) := n_split e m in
    let* a := joint_name p in let* b := joint_name q in
    Ok (a ++ lit " ellipsoid " ++ show_vec o ++ lit " " ++ b ++ lit " " ++ show_vec t ++ lit " " ++ show_vec r ++ lit " " ++ show_vec s)
  end.
(** A segment, lines 598-604. *)
Definition show_segment (a b rmax : F) : str :=
  lit " " ++ (if n_eqb e rmax (n_max e) then show_vec [a; b] else show_vec [a; b; rmax]).
(** Line 613. *)
Definition end_linear (w : F) : str := lit " " ++ n_show e w ++ [lf].

(** writeParameterLimits, lines 567-670. [open] is the group of linear limits that is being written: the two parameters, the weight of its first limit and the end of the
    range of its last one. *)
Fixpoint write_from (open : option (nat * nat * F * F)) (ls : list (plimit F M)) : outcome str :=
  match ls with
  | [] => Ok (match open with Some (_, _, w, _) => end_linear w | None => [] end)
  | PL l w :: r =>
    let go (out : str) (open : option (nat * nat * F * F)) := let* rest := write_from open r in Ok (out ++ rest) in
    let fresh (before : str) :=
      match l with
      | LLinear i t a b rmin rmax =>
        let* m := param_name i in let* n := param_name t in
        let out := before ++ lit "limit " ++ m ++ lit " linear " ++ n in
        if n_eqb e rmin (n_zero e) && n_eqb e rmax (n_zero e)
        then go (out ++ lit " " ++ show_vec [a; b] ++ end_linear w) None
        else go (out ++ show_segment a b rmax) (Some (i, t, w, rmax))
      | _ =>
        let* s := show_limit l in
        go (before ++ lit "limit " ++ s ++ (if n_eqb e w (n_one e) then [] else lit " " ++ n_show e w) ++ [lf]) None
      end in
    match open, l with
    | Some (i, t, w0, last), LLinear i' t' a b rmin rmax =>
      if (i' =? i) && (t' =? t) && n_eqb e rmin last
      then go (show_segment a b rmax) (Some (i, t, w0, rmax))
      else fresh (end_linear w0)
    | Some (_, _, w0, _), _ => fresh (end_linear w0)
    | None, _ => fresh []
    end
  end.
Definition write_limits (ls : list (plimit F M)) : outcome str := write_from None ls.
End Reader.
