(** Model of CharacterT::simplifySkeleton, remapLocators, remapParameterLimits, initInverseBindPose,
    parametersToActiveJoints and activeJointsToParameters, momentum/character/character.cpp:128-347
    and 430-533. Scalars are reals. *)

From Coq Require Import Bool Reals List Arith String.
From Verif Require Import Prelude Loops R3 Transform_model FK_model ParamTransform_model Locator_model.
Import ListNotations.
Local Open Scope R_scope.
Local Open Scope outcome_scope.

(** ** Active joints *)

(** parametersToActiveJoints, lines 128-151: the stored entries of the matrix, row by row; the
    MT_CHECK of the index is left to the write. [S] is the ParameterSet; test throws for an index that is
    too large. *)
Definition parameters_to_joints (n : nat) (pt : ptransform) (S : pset) : outcome (list bool) :=
  ofold (fun e res =>
    if ecol e <? kMaxModelParams then
      if S (ecol e) then wr res (erow e / 7) true else Ok res
    else Throw) (pt_entries pt) (repeat false n).

(** activeJointsToParameters, lines 154-184: the set as a function; set throws for an index that is
    too large. *)
Definition joints_to_parameters (n : nat) (pt : ptransform) (active : list bool) : outcome pset :=
  if negb (List.length active =? n) then CheckFail
  else ofold (fun e (res : pset) =>
    if negb (ecol e <? pt_cols pt) then CheckFail
    else
      let* b := rd active (erow e / 7) in
      if b then
        if ecol e <? kMaxModelParams then Ok (fun i => (i =? ecol e) || res i) else Throw
      else Ok res) (pt_entries pt) (fun _ => false).

(** ** simplifySkeleton *)

(** The offsets without those of the enabled joints, lines 208-214. *)
Definition zero_offsets (enabled : list bool) (off : list R) : outcome (list R) :=
  ofold (fun a off =>
    let* e := rd enabled a in
    if e then ofold (fun o off => wr off (a * 7 + o) 0) (seq 0 7) off else Ok off) (seq 0 (List.length enabled)) off.

(** What the loop over the joints changes: the new joints, intermediateJointMap, lastJoint and
    simplifiedJointMap; kInvalidIndex is [None]. *)
Record sbuild : Type := SB {
  sb_joints : skeleton;
  sb_imap : list (option nat);
  sb_last : list (option nat);
  sb_map : list (option nat)
}.

(** The while loop of lines 236-239: from joint [s] up, until lastJoint has an entry. lastJoint at
    kInvalidIndex is out of bounds. Result: sIndex and currentParent. *)
Fixpoint find_parent (fuel : nat) (sk : skeleton) (last : list (option nat)) (s : nat) : outcome (nat * nat) :=
  match fuel with
  | O => OutOfFuel
  | Datatypes.S fuel' =>
    let* j := rd sk s in
    match jparent j with
    | None => UB
    | Some p =>
      let* c := rd last p in
      match c with Some c => Ok (p, c) | None => find_parent fuel' sk last p end
    end
  end.

(** The while loop of lines 262-266: the pre-rotations of the joints between. *)
Fixpoint collect_prerot (fuel : nat) (sk : skeleton) (parent : option nat) (s : nat) (q : quat) : outcome quat :=
  match fuel with
  | O => OutOfFuel
  | Datatypes.S fuel' =>
    match parent with
    | None => Ok q
    | Some p =>
      if p =? s then Ok q
      else let* j := rd sk p in collect_prerot fuel' sk (jparent j) s (qmul (jprerot j) q)
    end
  end.

(** The while loop of lines 279-281. *)
Fixpoint find_mapped (fuel : nat) (sk : skeleton) (imap : list (option nat)) (index : option nat) : outcome (option nat) :=
  match fuel with
  | O => OutOfFuel
  | Datatypes.S fuel' =>
    match index with
    | None => Ok None
    | Some i =>
      let* m := rd imap i in
      match m with
      | Some c => Ok (Some c)
      | None => let* j := rd sk i in find_mapped fuel' sk imap (jparent j)
      end
    end
  end.

(** One joint, lines 227-290. [ref] is referenceState; the inverse of an affine map is the inverse of
    the transform it comes from. *)
Definition simplify_step (sk : skeleton) (ref : list jstate) (enabled : list bool) (a : nat) (b : sbuild) : outcome sbuild :=
  let fuel := Datatypes.S (List.length sk) in
  let* j := rd sk a in
  let* (s, parent, offset) :=
    match jparent j with
    | None => Ok (a, None, joffset j)
    | Some _ =>
      let* (s, c) := find_parent fuel sk (sb_last b) a in
      let* rs := rd ref s in
      let* ra := rd ref a in
      Ok (s, Some c, aff_point (tf_affine (tf_inv (js_world rs))) (trans (js_world ra)))
    end in
  let* e := rd enabled a in
  if e then
    let* q := collect_prerot fuel sk (jparent j) s (jprerot j) in
    let n := List.length (sb_joints b) in
    let* imap := wr (sb_imap b) a (Some n) in
    let* last := wr (sb_last b) a (Some n) in
    let* jm := wr (sb_map b) a (Some n) in
    Ok (SB (sb_joints b ++ [Joint parent offset q]) imap last jm)
  else
    let* m := find_mapped fuel sk (sb_imap b) (Some a) in
    match m with
    | None => Throw
    | Some c => let* jm := wr (sb_map b) a (Some c) in Ok (SB (sb_joints b) (sb_imap b) (sb_last b) jm)
    end.

(** initInverseBindPose, lines 524-533: the inverses as transforms. *)
Definition bind_states (sk : skeleton) (pt : ptransform) : outcome (list jstate) := fk sk (pt_bind_pose pt).
Definition inverse_bind (sts : list jstate) : list affine := map (fun s => tf_affine (tf_inv (js_world s))) sts.

(** remapLocators, lines 478-507. *)
Fixpoint remap_locators (src tgt : list jstate) (jmap : list (option nat)) (ls : list locator) : outcome (list locator) :=
  match ls with
  | [] => Ok []
  | l :: r =>
    match lo_parent l with
    | None => UB
    | Some p =>
      let* m := rd jmap p in
      match m with
      | None => UB
      | Some p' =>
        let* t := rd tgt p' in
        let* s := rd src p in
        let o := aff_point (aff_mul (tf_affine (tf_inv (js_world t))) (tf_affine (js_world s))) (lo_offset l) in
        let* r' := remap_locators src tgt jmap r in
        Ok (Locator (lo_name l) (Some p') o (lo_locked l) (lo_weight l) (lo_origin l) (lo_lweight l) :: r')
      end
    end
  end.

(** remapParameterLimits, lines 430-475; the affine maps of an ellipsoid limit are not modelled. *)
Definition remap_limit (jmap : list (option nat)) (l : plimit) : outcome plimit :=
  let jt j := let* m := rd jmap j in match m with Some k => Ok k | None => UB end in
  match ldata l with
  | LMinMaxJoint j p lo hi => let* k := jt j in Ok (PLimit (LMinMaxJoint k p lo hi) (lweight l))
  | LMinMaxJointPassive j p lo hi => let* k := jt j in Ok (PLimit (LMinMaxJointPassive k p lo hi) (lweight l))
  | LEllipsoid e j => let* k := jt j in let* e' := jt e in Ok (PLimit (LEllipsoid e' k) (lweight l))
  | _ => Ok l
  end.
Fixpoint remap_limits (jmap : list (option nat)) (ls : list plimit) : outcome (list plimit) :=
  match ls with
  | [] => Ok []
  | l :: r => let* l' := remap_limit jmap l in let* r' := remap_limits jmap r in Ok (l' :: r')
  end.

(** simplifySkeleton, lines 188-347, without mesh, skin weights (see Skin_model) and collision
    geometry. Result: the character and its jointMap. Loading a joint map entry that is
    kInvalidIndex cannot happen, see the theorems. *)
Definition simplify_skeleton (c : character) (enabled : list bool) : outcome (character * list (option nat)) :=
  let sk := ch_skel c in let pt := ch_pt c in
  let n := List.length sk in
  if negb (List.length enabled =? n) then CheckFail
  else if negb (existsb (fun b => b) enabled) then Throw
  else
    let* off := zero_offsets enabled (pt_offsets pt) in
    let* jp := pt_apply (PT (pt_name pt) (pt_rows pt) (pt_cols pt) (pt_entries pt) off (pt_active pt) (pt_sets pt)
                           (pt_pose pt) (pt_blend pt) (pt_face pt)) (repeat 0 (pt_cols pt)) in
    let* ref := fk sk jp in
    let* b := ofold (simplify_step sk ref enabled) (seq 0 n) (SB [] (repeat None n) (repeat None n) (repeat None n)) in
    if List.length (sb_joints b) =? 0 then Throw
    else
      let* pt' := map_transform_joints pt (List.length (sb_joints b)) (sb_imap b) in
      let* src := bind_states sk pt in
      let* tgt := bind_states (sb_joints b) pt' in
      let* limits := remap_limits (sb_map b) (ch_limits c) in
      let* locs := remap_locators src tgt (sb_map b) (ch_locators c) in
      Ok (Ch (sb_joints b) pt' locs limits (inverse_bind tgt), sb_map b).

(** simplify, lines 371-374. *)
Definition simplify (c : character) (S : pset) : outcome (character * list (option nat)) :=
  let* active := parameters_to_joints (List.length (ch_skel c)) (ch_pt c) S in simplify_skeleton c active.
