(** Locator files: momentum/io/skeleton/locator_io.cpp.

    Simplifications: the type of floats, what operator<< prints for them and for integers, what std::stof and std::from_chars read, and the transformations of the
    joints in the bind pose are arguments; a file is its text, and writing it does not fail. *)

From Coq Require Import List Arith Ascii NArith ZArith Bool String.
From Verif Require Import Prelude Loops Str_model Lines_model Marker_model.
Import ListNotations.
Local Open Scope outcome_scope.
Local Open Scope list_scope.

(** Numbers, and the transformation of a joint and its inverse. [e_stof] is [None] where std::stof throws; [e_stoi] is [None] where from_chars fails and leaves the
    value alone. *)
Record env (F T : Type) := Env {
  e_show : F -> str;
  e_stof : str -> option F;
  e_showz : Z -> str;
  e_stoi : str -> option Z;
  e_zero : F;
  e_one : F;
  e_is_zero : F -> bool;
  e_world : T -> F * F * F -> F * F * F;
  e_local : T -> F * F * F -> F * F * F
}.
Arguments e_show {F T}. Arguments e_stof {F T}. Arguments e_showz {F T}. Arguments e_stoi {F T}. Arguments e_zero {F T}. Arguments e_one {F T}.
Arguments e_is_zero {F T}. Arguments e_world {F T}. Arguments e_local {F T}.

(** Locator, character/locator.h:17-41; the parent is a 64-bit number, kInvalidIndex is [None]. *)
Record loc (F : Type) := Loc {
  l_name : str;
  l_parent : option N;
  l_offset : F * F * F;
  l_locked : Z * Z * Z;
  l_weight : F;
  l_origin : F * F * F;
  l_lweight : F * F * F
}.
Arguments Loc {F}. Arguments l_name {F}. Arguments l_parent {F}. Arguments l_offset {F}. Arguments l_locked {F}. Arguments l_weight {F}. Arguments l_origin {F}.
Arguments l_lweight {F}.

Definition lit (s : string) : str := list_ascii_of_string s.
Definition quote : ascii := """"%char.
Definition quoted (s : str) : str := quote :: s ++ [quote].
Definition ltab : ascii := "009"%char.
(** The default white characters of trim, string.h:23. *)
Definition whites : str := [" "; "009"]%char.

(** ** Loading *)

Inductive axis := AX | AY | AZ.
Inductive field := FLock (a : axis) | FName | FParent | FParentName | FWeight | FOffset (a : axis) | FGlobal (a : axis) | FLimit (a : axis).
(** The names of the fields, lines 139-183. *)
Definition fields : list (string * field) :=
  [("lockX", FLock AX); ("lockY", FLock AY); ("lockZ", FLock AZ); ("name", FName); ("parent", FParent); ("parentName", FParentName); ("weight", FWeight);
   ("offsetX", FOffset AX); ("offsetY", FOffset AY); ("offsetZ", FOffset AZ); ("globalX", FGlobal AX); ("globalY", FGlobal AY); ("globalZ", FGlobal AZ);
   ("limitWeightX", FLimit AX); ("limitWeightY", FLimit AY); ("limitWeightZ", FLimit AZ)]%string.
Definition field_of (t : str) : option field :=
  option_map snd (find (fun x => s_eqb t (quoted (lit (fst x)))) fields).

Definition set3 {A} (a : axis) (x : A) (v : A * A * A) : A * A * A :=
  let '(p, q, r) := v in match a with AX => (x, q, r) | AY => (p, x, r) | AZ => (p, q, x) end.

(** Lines 146-148 and 152-154: what is between the first and the last quote; the positions wrap, so without a second quote it is the rest, and without any all. *)
Fixpoint last_quote (s : str) (pos : nat) (best : option nat) : option nat :=
  match s with
  | [] => best
  | c :: r => last_quote r (S pos) (if Ascii.eqb c quote then Some pos else best)
  end.
Definition between (s : str) : str :=
  match find_first_of [quote] s 0, last_quote s 0 None with
  | Some p, Some q => if p =? q then skipn (p + 1) s else firstn (q - (p + 1)) (skipn (p + 1) s)
  | _, _ => s
  end.
(** Lines 155-160; there are fewer than 2^31 joints. *)
Fixpoint joint_named {T} (n : str) (joints : list (str * T)) (k : N) : option N :=
  match joints with
  | [] => None
  | j :: r => if s_eqb (fst j) n then Some k else joint_named n r (k + 1)
  end.

(** The locator and the global position while they are read; coordinates that were not read are uninitialised (lines 127-129). *)
Record reading (F : Type) := Rg { g_loc : loc F; g_global : option F * option F * option F }.
Arguments Rg {F}. Arguments g_loc {F}. Arguments g_global {F}.

(** svtof and svtoi, lines 34-71: a failed from_chars leaves the value uninitialised. *)
Definition to_float {F T} (e : env F T) (v : str) : outcome F := match e_stof e v with Some x => Ok x | None => Throw end.
Definition to_int {F T} (e : env F T) (v : str) : outcome Z := match e_stoi e v with Some z => Ok z | None => UB end.

(** Lines 139-183. *)
Definition set_field {F T} (e : env F T) (joints : list (str * T)) (f : field) (v : str) (g : reading F) : outcome (reading F) :=
  let 'Loc n p o k w og lw := g_loc g in
  match f with
  | FLock a => let* z := to_int e v in Ok (Rg (Loc n p o (set3 a z k) w og lw) (g_global g))
  | FName => Ok (Rg (Loc (between v) p o k w og lw) (g_global g))
  | FParent => let* z := to_int e v in
               Ok (Rg (Loc n (if (z =? -1)%Z then None else Some (Z.to_N (z mod 2 ^ 64))) o k w og lw) (g_global g))
  | FParentName => Ok (Rg (Loc n (match joint_named (between v) joints 0 with Some j => Some j | None => p end) o k w og lw) (g_global g))
  | FWeight => let* x := to_float e v in Ok (Rg (Loc n p o k x og lw) (g_global g))
  | FOffset a => let* x := to_float e v in Ok (Rg (Loc n p (set3 a x o) k w og lw) (g_global g))
  | FGlobal a => let* x := to_float e v in Ok (Rg (g_loc g) (set3 a (Some x) (g_global g)))
  | FLimit a => let* x := to_float e v in Ok (Rg (Loc n p o k w og (set3 a x lw)) (g_global g))
  end.

(** The loop of lines 130-184 from line 131 on: lines up to one that starts with a closing brace. The second condition of line 184 is always true. There is no first
    character of an empty view (line 132). *)
Fixpoint loc_body {F T} (e : env F T) (joints : list (str * T)) (lines : list str) (g : reading F) : outcome (reading F * list str) :=
  match lines with
  | [] => Ok (g, [])
  | line :: rest =>
    let* c := trim whites line in
    match c with
    | [] => UB
    | ch :: _ =>
      if Ascii.eqb ch "}"%char then Ok (g, rest)
      else if Ascii.eqb ch "/"%char then loc_body e joints rest g
      else
        let* ts := tokenize c [":"%char] true in
        match ts with
        | [k; v] => match field_of k with
                    | Some f => let* g' := set_field e joints f v g in loc_body e joints rest g'
                    | None => loc_body e joints rest g
                    end
        | _ => loc_body e joints rest g
        end
    end
  end.

(** A new locator, locator.h:28-36. *)
Definition loc_new {F T} (e : env F T) : loc F :=
  let z := (e_zero e, e_zero e, e_zero e) in Loc (lit "uninitialized") None z (0, 0, 0)%Z (e_one e) z z.

(** Lines 186-193. *)
Definition loc_finish {F T} (e : env F T) (joints : list (str * T)) (g : reading F) : outcome (option (loc F)) :=
  let 'Loc n p o k w og lw := g_loc g in
  match p with
  | None => Ok None
  | Some j =>
    let* o := match g_global g with
              | (None, None, None) => Ok o
              | (Some x, Some y, Some z) => let* t := rd joints (N.to_nat j) in Ok (e_local e (snd t) (x, y, z))
              | _ => UB
              end in
    Ok (Some (Loc n p o k w o lw))
  end.

(** The loop of lines 121-194; at(++line) throws behind the last line. *)
Fixpoint loc_lines {F T} (fuel : nat) (e : env F T) (joints : list (str * T)) (lines : list str) : outcome (list (loc F)) :=
  match lines with
  | [] => Ok []
  | line :: rest =>
    match fuel with
    | O => OutOfFuel
    | S fuel =>
      let* c := trim whites line in
      if s_eqb c ["{"%char] then
        match rest with
        | [] => Throw
        | _ =>
          let* x := loc_body e joints rest (Rg (loc_new e) (None, None, None)) in
          let* o := loc_finish e joints (fst x) in
          let* r := loc_lines fuel e joints (snd x) in
          Ok (match o with Some l => l :: r | None => r end)
        end
      else loc_lines fuel e joints rest
    end
  end.

(** firstDuplicate, lines 73-82. *)
Fixpoint first_duplicate (seen : list str) (names : list str) : str :=
  match names with
  | [] => []
  | n :: r => if existsb (s_eqb n) seen then n else first_duplicate (n :: seen) r
  end.

(** loadLocatorsFromBuffer, lines 106-200. *)
Definition load_locators {F T} (e : env F T) (joints : list (str * T)) (text : str) : outcome (list (loc F)) :=
  let* lines := tokenize text [cr; lf] true in
  match lines with
  | l0 :: l1 :: rest =>
    if List.length lines <? 4 then Ok []
    else
      let* t1 := trim whites l1 in
      if negb (s_eqb l0 ["{"%char]) || negb (contains (quoted (lit "locators") ++ [":"%char]) t1) then Ok []
      else
        let* res := loc_lines (List.length rest) e joints rest in
        match first_duplicate [] (map l_name res) with [] => Ok res | _ => Throw end
  | _ => Ok []
  end.

(** ** Saving *)

Inductive lspace := SLocal | SGlobal.

Definition tabbed (n : nat) (s : str) : str := repeat ltab n ++ s.
Definition entry_line (k : string) (v : str) : str := tabbed 3 (quoted (lit k) ++ ":"%char :: v).
Definition float_line {F T} (e : env F T) (k : string) (x : F) : str := entry_line k (e_show e x ++ [","%char]).
Definition int_line {F T} (e : env F T) (k : string) (z : Z) : str := entry_line k (e_showz e z ++ [","%char]).
Definition limit_line {F T} (e : env F T) (k : string) (x : F) : list str := if e_is_zero e x then [] else [float_line e k x].

(** One locator, lines 213-241, on joint [j]; [close] is its last line. *)
Definition loc_block {F T} (e : env F T) (space : lspace) (j : str * T) (l : loc F) (close : str) : list str :=
  let '(ox, oy, oz) := l_offset l in
  let '(gx, gy, gz) := e_world e (snd j) (l_offset l) in
  let '(kx, ky, kz) := l_locked l in
  let '(lx, ly, lz) := l_lweight l in
  [tabbed 2 (lit "{"); entry_line "name" (quoted (l_name l) ++ [","%char])] ++
  match space with
  | SGlobal => [float_line e "globalX" gx; float_line e "globalY" gy; float_line e "globalZ" gz]
  | SLocal => [float_line e "offsetX" ox; float_line e "offsetY" oy; float_line e "offsetZ" oz]
  end ++
  [int_line e "lockX" kx; int_line e "lockY" ky; int_line e "lockZ" kz; float_line e "weight" (l_weight l)] ++
  limit_line e "limitWeightX" lx ++ limit_line e "limitWeightY" ly ++ limit_line e "limitWeightZ" lz ++
  [entry_line "parentName" (quoted (fst j)); tabbed 2 close].
(** The loop, lines 212-242; the state of the locators, line 208, reads the state of the parent. *)
Fixpoint loc_blocks {F T} (e : env F T) (space : lspace) (joints : list (str * T)) (ls : list (loc F)) : outcome (list str) :=
  match ls with
  | [] => Ok []
  | l :: r =>
    let* j := match l_parent l with Some p => rd joints (N.to_nat p) | None => UB end in
    let* rest := loc_blocks e space joints r in
    Ok (loc_block e space j l (match r with [] => lit "}" | _ => lit "}," end) ++ rest)
  end.
(** saveLocators, lines 202-244. *)
Definition save_locators {F T} (e : env F T) (space : lspace) (joints : list (str * T)) (ls : list (loc F)) : outcome str :=
  let* blocks := loc_blocks e space joints ls in
  Ok (flat_map (fun line => line ++ [lf]) ([lit "{"; tabbed 1 (quoted (lit "locators") ++ lit ":[")] ++ blocks ++ [tabbed 1 (lit "]"); lit "}"])).
