(** A character from its files: momentum/io/character_io.cpp.

    Simplifications: the loaders of glTF and FBX are arguments; of a character the joints (name and bind pose), the parameters and the locators are kept; a path is its
    extension and the text of its file, so that a parameter file that cannot be opened (an exception) does not occur; messages are left out. *)

From Coq Require Import List Arith Ascii Bool String Reals.
From Verif Require Import Prelude Str_model Lines_model ParamTransform_model LocIO_model LimIO_model ModelDef_model Subject_model.
Import ListNotations.
Local Open Scope outcome_scope.
Local Open Scope list_scope.

Inductive format := FGltf | FFbx | FUnknown.
(** parseCharacterFormat, lines 31-45. *)
Definition char_format (ext : str) : format :=
  match ext with
  | [] => FUnknown
  | _ =>
    let ext := map to_lower ext in
    if s_eqb ext (lit ".glb") || s_eqb ext (lit ".gltf") then FGltf
    else if s_eqb ext (lit ".fbx") then FFbx
    else FUnknown
  end.

Section Full.
Context {M T : Type}.
Record full := Full { c_joints : list (str * T); c_loaded : loaded (M := M); c_locators : list (loc R) }.

(** loadCharacterByFormat and loadCharacterByFormatFromBuffer, lines 47-69. *)
Definition by_format (gltf fbx : outcome (option full)) (f : format) : outcome (option full) :=
  match f with FGltf => gltf | FFbx => fbx | FUnknown => Ok None end.

Context (stod : str -> option R) (e : nums R M) (le : env R T).
Definition joint_names (c : full) : list str := map fst (c_joints c).

(** Lines 87-96 and 111-120: the parameters and then the locators, each if there is a file. *)
Definition add_parameters (fuel : nat) (params : option str) (c : full) : outcome full :=
  match params with
  | None => Ok c
  | Some text =>
    let* def := load_sections fuel text in
    let r := load_parameters stod e fuel (joint_names c) def (c_loaded c) in
    let* _ := snd r in
    Ok (Full (c_joints c) (fst r) (c_locators c))
  end.
Definition add_locators (locs : option str) (c : full) : outcome full :=
  match locs with
  | None => Ok c
  | Some text => let* ls := load_locators le (c_joints c) text in Ok (Full (c_joints c) (c_loaded c) ls)
  end.
(** loadFullCharacterFromBuffer, lines 101-123. *)
Definition load_buffers (fuel : nat) (gltf fbx : outcome (option full)) (f : format) (params locs : option str) : outcome full :=
  let* c := by_format gltf fbx f in
  match c with
  | None => Throw
  | Some c => let* c := add_parameters fuel params c in add_locators locs c
  end.
(** loadFullCharacter, lines 73-99. *)
Definition load_full (fuel : nat) (gltf fbx : outcome (option full)) (ext : str) (params locs : option str) : outcome full :=
  match char_format ext with FUnknown => Throw | f => load_buffers fuel gltf fbx f params locs end.
End Full.
Arguments full : clear implicits. Arguments Full {M T}.
Arguments c_joints {M T}. Arguments c_loaded {M T}. Arguments c_locators {M T}.
