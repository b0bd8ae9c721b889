(** Model definitions: parameter sets and pose constraints of momentum/io/skeleton/parameter_transform_io.cpp, the loaders of a whole definition there and in
    momentum/io/skeleton/parameters_io.cpp.

    Simplifications: scalars are reals and what std::stod and std::stof read are arguments; a std::unordered_map is a list with the latest entry first; a
    parameter set is the list of the bits that were set; messages are left out. *)

From Coq Require Import List Arith Ascii Bool String Reals.
From Verif Require Import Prelude Loops Str_model ParamTransform_model ParamIO_model Lines_model Marker_model LocIO_model LimIO_model.
Import ListNotations.
Local Open Scope outcome_scope.
Local Open Scope list_scope.

(** operator[] of a map. *)
Definition lookup {X} (m : list (str * X)) (n : str) : option X := option_map snd (find (fun p => s_eqb (fst p) n) m).

Section Named.
Context {X : Type} (item : str -> outcome (list X)).
(** The loops over the tokens from the third on, lines 307-326 and 353-373; an item adds at most one element. *)
Fixpoint items (ws : list str) : outcome (list X) :=
  match ws with
  | [] => Ok []
  | w :: r => let* x := item w in let* y := items r in Ok (x ++ y)
  end.
(** The loops over the lines, lines 291-329 and 337-376. *)
Fixpoint named_lines (kw : str) (ls : list str) (m : list (str * list X)) : outcome (list (str * list X)) :=
  match ls with
  | [] => Ok m
  | l :: r =>
    let a := before_hash l in
    if negb (starts_with kw a) then named_lines kw r m
    else
      let* ts := tokenize a blanks true in
      match ts with
      | _ :: n :: ws => let* x := items ws in named_lines kw r ((n, x) :: m)
      | _ => Throw
      end
  end.
End Named.

(** The search for a parameter, lines 309-321 and 360-371. *)
Definition param_index (params : list str) (n : str) : outcome nat := named params n.

(** kMaxModelParams, math/types.h:401: 2048. *)
Definition max_params : nat := 2 ^ 11.
(** Lines 308-325; std::bitset::set throws for a bit that does not exist. *)
Definition set_item (params : list str) (w : str) : outcome (list nat) :=
  let* n := trim [" "; "009"]%char w in
  let* k := param_index params n in
  if k <? max_params then Ok [k] else Throw.
(** parseParameterSets, lines 286-330. *)
Definition parse_sets (params : list str) (data : str) : outcome (list (str * list nat)) :=
  named_lines (set_item params) (lit "parameterset") (text_lines [] data) [].

(** Lines 354-373. *)
Definition pose_item {F} (stof : str -> option F) (params : list str) (w : str) : outcome (list (nat * F)) :=
  let* i := trim [" "; "009"]%char w in
  let* c := tokenize i ["="%char] true in
  match c with
  | [n; v] =>
    let* k := param_index params n in
    match stof v with Some x => Ok [(k, x)] | None => Throw end
  | _ => Ok []
  end.
(** parsePoseConstraints, lines 332-379. *)
Definition parse_poses {F} (stof : str -> option F) (params : list str) (data : str) : outcome (list (str * list (nat * F))) :=
  named_lines (pose_item stof params) (lit "poseconstraints") (text_lines [] data) [].

Section Load.
Context {M : Type} (stod : str -> option R) (e : nums R M).

(** The names of a transform as text. *)
Definition pt_names (pt : ptransform) : list str := map list_ascii_of_string (pt_name pt).

(** The body of the loop of lines 77-86. *)
Fixpoint join_lines (ls : list str) : outcome str :=
  match ls with
  | [] => Ok []
  | l :: r =>
    let* a := clean_line l in
    let* d := join_lines r in
    Ok (match a with [] => d | _ => a ++ lf :: d end)
  end.
(** Lines 88-94, which parse the same data three times. *)
Definition load_data (fuel : nat) (joints : list str) (data : str) : outcome (ptransform * list (str * list nat) * list (plimit R M)) :=
  let* pt := parse_transform stod fuel joints data in
  let* sets := parse_sets (pt_names pt) data in
  let* ls := parse_limits e joints (pt_names pt) data in
  Ok (pt, sets, ls).
(** loadModelDefinitionFromStream, lines 68-97: the first line is read and not looked at. *)
Definition load_definition (fuel : nat) (joints : list str) (text : str) : outcome (ptransform * list (str * list nat) * list (plimit R M)) :=
  let* ls := while_lines fuel (snd (get_line (open_text text))) in
  let* data := join_lines ls in
  load_data fuel joints data.

(** The part of a character that loadParameters changes. *)
Record loaded := Loaded {
  ld_pt : ptransform;
  ld_sets : list (str * list nat);
  ld_poses : list (str * list (nat * R));
  ld_limits : list (plimit R M)
}.
(** ParameterTransform::empty, parameter_transform.cpp:42-50. *)
Definition empty_pt (joints : list str) : ptransform :=
  PT [] (List.length joints * 7) 0 [] (repeat 0%R (List.length joints * 7)) (repeat false (List.length joints * 7)) [] [] [] [].
(** param[name]: a missing entry is empty. *)
Definition section_text (param : smap) (n : String.string) : str := match smap_get param (lit n) with Some t => t | None => [] end.
(** loadParameters, parameters_io.cpp:16-31: the character as it is left, also when an exception is thrown, and how the call ends. Assigning the transform drops its sets
    and pose constraints. *)
Definition load_parameters (fuel : nat) (joints : list str) (param : smap) (c : loaded) : loaded * outcome unit :=
  match param with
  | [] => (Loaded (empty_pt joints) [] [] (ld_limits c), Ok tt)
  | _ =>
    match parse_transform stod fuel joints (section_text param "ParameterTransform") with
    | Ok pt =>
      match parse_sets (pt_names pt) (section_text param "ParameterSets") with
      | Ok sets =>
        match parse_poses (n_stof e) (pt_names pt) (section_text param "PoseConstraints") with
        | Ok poses =>
          match parse_limits e joints (pt_names pt) (section_text param "Limits") with
          | Ok ls => (Loaded pt sets poses ls, Ok tt)
          | o => (Loaded pt sets poses (ld_limits c), obind o (fun _ => Ok tt))
          end
        | o => (Loaded pt sets [] (ld_limits c), obind o (fun _ => Ok tt))
        end
      | o => (Loaded pt [] [] (ld_limits c), obind o (fun _ => Ok tt))
      end
    | o => (c, obind o (fun _ => Ok tt))
    end
  end.
End Load.
Arguments Loaded {M}. Arguments ld_pt {M}. Arguments ld_sets {M}. Arguments ld_poses {M}. Arguments ld_limits {M}.
