(** Model of createLocatorCharacter and extractLocatorsFromCharacter,
    momentum/marker_tracking/tracker_utils.cpp:55-183. Scalars are reals. *)

From Coq Require Import Bool Reals List Arith String.
From Verif Require Import Prelude Loops Rbool R3 Transform_model FK_model ParamTransform_model.
Import ListNotations.
Local Open Scope R_scope.
Local Open Scope outcome_scope.

(** Locator, momentum/character/locator.h:17-35. kInvalidIndex as parent is [None]; of the integers
    in [locked] only whether they are zero matters. *)
Record locator : Type := Locator {
  lo_name : string;
  lo_parent : option nat;
  lo_offset : vec3;
  lo_locked : bool * bool * bool;
  lo_weight : R;
  lo_origin : vec3;       (* limitOrigin *)
  lo_lweight : vec3       (* limitWeight *)
}.

Definition vget (v : vec3) (j : nat) : R := match j with 0 => vx v | 1 => vy v | _ => vz v end%nat.
Definition locked (l : locator) (j : nat) : bool :=
  let '(a, b, c) := lo_locked l in match j with 0 => a | 1 => b | _ => c end%nat.
Definition all_locked (l : locator) : bool := locked l 0 && locked l 1 && locked l 2.

(** The fields of Character that the two functions use, momentum/character/character.h:30-60. *)
Record character : Type := Ch {
  ch_skel : skeleton;
  ch_pt : ptransform;
  ch_locators : list locator;
  ch_limits : list plimit;
  ch_inv : list affine            (* inverseBindPose *)
}.

(** What the loop changes: joints, names of parameters, triplets, set of new parameters, limits,
    offsets, active joint parameters, inverse bind poses and the locators treated so far. *)
Record lbuild : Type := LB {
  lb_joints : skeleton;
  lb_names : list string;
  lb_triplets : list entry;
  lb_set : pset;
  lb_limits : list plimit;
  lb_offsets : list R;
  lb_active : list bool;
  lb_inv : list affine;
  lb_locs : list locator
}.

Definition axis_name (j : nat) : string := match j with 0 => "_tx" | 1 => "_ty" | _ => "_tz" end%nat%string.

(** The loop over the axes, lines 87-118. The MT_CHECK leaves no trace in a release build;
    bitset::set throws for an index that is too large. Row and column numbers are int in the C++ and
    unbounded here. *)
Definition axis_step (id : nat) (jname : string) (l : locator) (j : nat) (b : lbuild) : outcome lbuild :=
  if locked l j then Ok b
  else
    let c := List.length (lb_names b) in
    if c <? kMaxModelParams then
      let r := vget (lo_origin l) j - vget (lo_offset l) j in
      Ok (LB (lb_joints b) (lb_names b ++ [String.append jname (axis_name j)])
            (lb_triplets b ++ [Entry (7 * id + j) c 1])
            (fun i => (i =? c) || lb_set b i)
            (lb_limits b ++ if Rltb 0 (vget (lo_lweight l) j)
                            then [PLimit (LMinMaxJoint id j r r) (vget (lo_lweight l) j)] else [])
            (lb_offsets b) (lb_active b) (lb_inv b) (lb_locs b))
    else Throw.

(** One locator, lines 70-137. *)
Definition locator_step (prefix : string) (l : locator) (b : lbuild) : outcome lbuild :=
  if all_locked l then
    Ok (LB (lb_joints b) (lb_names b) (lb_triplets b) (lb_set b) (lb_limits b) (lb_offsets b) (lb_active b)
          (lb_inv b) (lb_locs b ++ [l]))
  else
    let jname := String.append prefix (lo_name l) in
    let id := List.length (lb_joints b) in
    let* b := ofold (axis_step id jname l) [0; 1; 2]%nat
                (LB (lb_joints b ++ [Joint (lo_parent l) (lo_offset l) qid]) (lb_names b) (lb_triplets b) (lb_set b)
                   (lb_limits b) (lb_offsets b) (lb_active b) (lb_inv b ++ [Aff mid vzero]) (lb_locs b)) in
    Ok (LB (lb_joints b) (lb_names b) (lb_triplets b) (lb_set b) (lb_limits b)
          (lb_offsets b ++ repeat 0 7) (lb_active b ++ repeat true 7) (lb_inv b)
          (lb_locs b ++ [Locator (lo_name l) (Some id) vzero (lo_locked l) (lo_weight l) (lo_origin l) (lo_lweight l)])).

(** parameterSets["locators"] = set, line 138. *)
Definition put_set (s : list (string * pset)) (nm : string) (v : pset) : list (string * pset) :=
  (nm, v) :: filter (fun x => negb (String.eqb (fst x) nm)) s.

(** createLocatorCharacter, lines 55-147. The fields of the parameter transform that are not
    mentioned are those of the source. *)
Definition create_locator_character (c : character) (prefix : string) : outcome character :=
  let pt := ch_pt c in
  let* b := ofold (locator_step prefix) (ch_locators c)
              (LB (ch_skel c) (pt_name pt) [] (fun _ => false) (ch_limits c) (pt_offsets pt) (pt_active pt) (ch_inv c) []) in
  Ok (Ch (lb_joints b)
        (PT (lb_names b) (7 * List.length (lb_joints b)) (List.length (lb_names b)) (pt_entries pt ++ lb_triplets b)
           (lb_offsets b) (lb_active b) (put_set (pt_sets pt) "locators" (lb_set b)) (pt_pose pt) (pt_blend pt) (pt_face pt))
        (lb_locs b) (lb_limits b) (lb_inv b)).

(** One locator of extractLocatorsFromCharacter, lines 159-178. The inverse of the affine map is the
    inverse of the transform it comes from. *)
Definition extract_locator (sk : skeleton) (sts : list jstate) (l : locator) : outcome locator :=
  if all_locked l then Ok l
  else
    match lo_parent l with
    | None => UB
    | Some j =>
      let* s := rd sts j in
      let pos := aff_point (tf_affine (js_world s)) (lo_offset l) in
      let* jt := rd sk j in
      match jparent jt with
      | None => UB
      | Some p =>
        let* sp := rd sts p in
        Ok (Locator (lo_name l) (Some p) (aff_point (tf_affine (tf_inv (js_world sp))) pos) (lo_locked l) (lo_weight l) (lo_origin l) (lo_lweight l))
      end
    end.

Fixpoint extract_all (sk : skeleton) (sts : list jstate) (ls : list locator) : outcome (list locator) :=
  match ls with
  | [] => Ok []
  | l :: r => let* l' := extract_locator sk sts l in let* r' := extract_all sk sts r in Ok (l' :: r')
  end.

(** extractLocatorsFromCharacter, lines 149-183. [pose] and [offsets] are the fields of the
    CharacterParameters. *)
Definition extract_locators (c : character) (pose offsets : list R) : outcome (list locator) :=
  let* jp := pt_apply_char (ch_pt c) pose offsets in
  let* sts := fk (ch_skel c) jp in
  extract_all (ch_skel c) sts (ch_locators c).
