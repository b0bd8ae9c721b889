(** Model of momentum/character/character_utility.cpp, of the constructor of Character
    (momentum/character/character.cpp:28-71, 541-549), of the update functions of LocatorState and
    CollisionGeometryState, and of the ellipsoid term of the limit error
    (momentum/character_solver/limit_error_function.cpp:121-149). Scalars are reals. *)

From Coq Require Import Bool Reals List Arith String.
From Verif Require Import Prelude Loops Rbool R3 Transform_model Skeleton_model FK_model ParamTransform_model
  Skin_model Blend_model PoseShape_model Locator_model Simplify_model.
Import ListNotations.
Local Open Scope R_scope.
Local Open Scope outcome_scope.

(** ParameterLimit, parameter_limits.h:86-96: a union. The last three fields are those of an ellipsoid
    limit (53-60) and mean nothing for the other kinds. *)
Record flimit : Type := FL { fl_limit : plimit; fl_map : affine; fl_inv : affine; fl_offset : vec3 }.

(** TaperedCapsule, collision_geometry.h:17-38. *)
Record capsule : Type := Cap { cap_tf : affine; cap_r0 : R; cap_r1 : R; cap_parent : option nat; cap_length : R }.

(** Mesh, momentum/math/mesh.h: the parts that are changed here. *)
Record fmesh : Type := FM { fm_vertices : list vec3; fm_normals : list vec3 }.

(** Character, character.h:30-60; names of the joints are kept beside the joints. The character's own
    name, jointMap and the face expression shapes are not modelled. *)
Record fchar : Type := FC {
  fc_names : list string;
  fc_joints : skeleton;
  fc_pt : ptransform;
  fc_limits : list flimit;
  fc_locs : list locator;
  fc_mesh : option fmesh;
  fc_skin : option (list (list influence));
  fc_caps : option (list capsule);
  fc_pose : option pose_shape;
  fc_blend : option bshape;
  fc_inv : list affine
}.

(** Character's constructor, character.cpp:28-71 with initInverseBindPose (541-549). *)
Definition make_character names joints pt limits locs (mesh : option fmesh) (skin : option (list (list influence))) caps pose blend inv
    : outcome fchar :=
  let both := match mesh, skin with Some _, Some _ => true | _, _ => false end in
  let* inv := match inv with
              | [] => let* sts := bind_states joints pt in Ok (inverse_bind sts)
              | _ => Ok inv
              end in
  if negb (List.length inv =? List.length joints)%nat then CheckFail
  else Ok (FC names joints pt limits locs (if both then mesh else None) (if both then skin else None) caps pose blend inv).

(** ** Where things are in a pose *)

Definition world_affines (sts : list jstate) : list affine := map (fun s => tf_affine (js_world s)) sts.

(** LocatorState::update, locator_state.cpp:15-38. *)
Definition locator_position (sts : list jstate) (l : locator) : outcome vec3 :=
  match lo_parent l with
  | None => UB
  | Some p => let* s := rd sts p in Ok (aff_point (tf_affine (js_world s)) (lo_offset l))
  end.

(** CollisionGeometryState::update, collision_geometry_state.cpp:15-36: origin, direction and radii of
    one capsule; js.scale() is the scale of the joint's transform. *)
Definition capsule_state (sts : list jstate) (c : capsule) : outcome (vec3 * vec3 * R * R) :=
  match cap_parent c with
  | None => UB
  | Some p =>
    let* s := rd sts p in
    let t := aff_mul (tf_affine (js_world s)) (cap_tf c) in
    Ok (atrans t, vscale (cap_length c) (col0 (alin t)), cap_r0 c * scl (js_world s), cap_r1 c * scl (js_world s))
  end.

(** The difference that an ellipsoid limit penalises, limit_error_function.cpp:124-145. The inverse of
    the joint's affine map is that of its transform. *)
Definition ellipsoid_diff (sts : list jstate) (l : flimit) : outcome vec3 :=
  match ldata (fl_limit l) with
  | LEllipsoid e p =>
    let* sp := rd sts p in
    let* se := rd sts e in
    let position := aff_point (tf_affine (js_world sp)) (fl_offset l) in
    let local := aff_point (tf_affine (tf_inv (js_world se))) position in
    let projected := aff_point (fl_map l) (normalized (aff_point (fl_inv l) local)) in
    Ok (vsub position (aff_point (tf_affine (js_world se)) projected))
  | _ => UB
  end.

(** ** scaleCharacter, lines 22-88 and 296-310 *)

Definition scale_affine (k : R) (a : affine) : affine := Aff (alin a) (vscale k (atrans a)).
Definition scale_joint (k : R) (j : joint) : joint := Joint (jparent j) (vscale k (joffset j)) (jprerot j).
Definition scale_mesh (k : R) (m : fmesh) : fmesh := FM (map (vscale k) (fm_vertices m)) (fm_normals m).
Definition scale_locator (k : R) (l : locator) : locator :=
  Locator (lo_name l) (lo_parent l) (vscale k (lo_offset l)) (lo_locked l) (lo_weight l) (vscale k (lo_origin l)) (lo_lweight l).
Definition scale_limit (k : R) (l : flimit) : flimit :=
  match ldata (fl_limit l) with
  | LEllipsoid _ _ => FL (fl_limit l) (scale_affine k (fl_map l)) (scale_affine k (fl_inv l)) (vscale k (fl_offset l))
  | _ => l
  end.
Definition scale_capsule (k : R) (c : capsule) : capsule :=
  Cap (scale_affine k (cap_tf c)) (k * cap_r0 c) (k * cap_r1 c) (cap_parent c) (k * cap_length c).

Definition scale_character (c : fchar) (k : R) : outcome fchar :=
  if negb (Rltb 0 k) then CheckFail
  else make_character (fc_names c) (map (scale_joint k) (fc_joints c)) (fc_pt c) (map (scale_limit k) (fc_limits c))
         (map (scale_locator k) (fc_locs c)) (option_map (scale_mesh k) (fc_mesh c)) (fc_skin c)
         (option_map (map (scale_capsule k)) (fc_caps c)) (fc_pose c) (fc_blend c) (map (scale_affine k) (fc_inv c)).

(** ** transformCharacter, lines 314-378 *)

(** Eigen's Quaternion(Matrix3): Shoemake's conversion. *)
Definition mtrace (m : mat3) : R := vx (col0 m) + vy (col1 m) + vz (col2 m).
Definition quat_of_mat (m : mat3) : quat :=
  let m00 := vx (col0 m) in let m10 := vy (col0 m) in let m20 := vz (col0 m) in
  let m01 := vx (col1 m) in let m11 := vy (col1 m) in let m21 := vz (col1 m) in
  let m02 := vx (col2 m) in let m12 := vy (col2 m) in let m22 := vz (col2 m) in
  if Rltb 0 (mtrace m) then
    let t := sqrt (mtrace m + 1) in
    let u := / 2 / t in
    Q4 (t / 2) ((m21 - m12) * u) ((m02 - m20) * u) ((m10 - m01) * u)
  else if Rltb (if Rltb m00 m11 then m11 else m00) m22 then
    let t := sqrt (m22 - m00 - m11 + 1) in
    let u := / 2 / t in
    Q4 ((m10 - m01) * u) ((m02 + m20) * u) ((m12 + m21) * u) (t / 2)
  else if Rltb m00 m11 then
    let t := sqrt (m11 - m22 - m00 + 1) in
    let u := / 2 / t in
    Q4 ((m02 - m20) * u) ((m01 + m10) * u) (t / 2) ((m21 + m12) * u)
  else
    let t := sqrt (m00 - m11 - m22 + 1) in
    let u := / 2 / t in
    Q4 ((m21 - m12) * u) (t / 2) ((m10 + m01) * u) ((m20 + m02) * u).

(** transformSkeleton, lines 314-331. [svals] stands for Eigen's singular values. *)
Definition sval_ok (s : R) : bool := Rltb (99 / 100) s && Rltb s (101 / 100).
Definition transform_skeleton (svals : mat3 -> vec3) (x : affine) (sk : skeleton) : outcome skeleton :=
  let s := svals (alin x) in
  if negb (sval_ok (vx s) && sval_ok (vy s) && sval_ok (vz s)) then CheckFail
  else match sk with
       | [] => CheckFail
       | j :: r =>
         let q := quat_of_mat (alin x) in
         Ok (Joint (jparent j) (vadd (qrot q (joffset j)) (atrans x)) (qmul q (jprerot j)) :: r)
       end.

Definition transform_mesh (x : affine) (m : fmesh) : fmesh :=
  FM (map (aff_point x) (fm_vertices m)) (map (mvec (alin x)) (fm_normals m)).

(** transformInverseBindPose, lines 351-361. *)
Definition transform_inverse (x : affine) (inv : list affine) : list affine := map (fun m => aff_mul m (aff_inv x)) inv.

Definition transform_character (svals : mat3 -> vec3) (c : fchar) (x : affine) : outcome fchar :=
  let* sk := transform_skeleton svals x (fc_joints c) in
  make_character (fc_names c) sk (fc_pt c) (fc_limits c) (fc_locs c) (option_map (transform_mesh x) (fc_mesh c)) (fc_skin c)
    (fc_caps c) (fc_pose c) (fc_blend c) (transform_inverse x (fc_inv c)).

(** ** Renumbering, lines 90-276 *)

(** mapParents, lines 90-107, for locators and capsules. *)
Definition map_parents {A} (parent : A -> option nat) (with_parent : A -> nat -> A) (jmap : list (option nat)) (l : list A)
    : outcome (list A) :=
  ofold (fun o result =>
    match parent o with
    | None => CheckFail
    | Some p =>
      match nth_error jmap p with
      | None => CheckFail
      | Some None => Ok result
      | Some (Some p') => Ok (result ++ [with_parent o p'])
      end
    end) l [].
Definition loc_with (l : locator) (p : nat) : locator :=
  Locator (lo_name l) (Some p) (lo_offset l) (lo_locked l) (lo_weight l) (lo_origin l) (lo_lweight l).
Definition cap_with (c : capsule) (p : nat) : capsule := Cap (cap_tf c) (cap_r0 c) (cap_r1 c) (Some p) (cap_length c).

(** mapParameterLimits, lines 109-156. *)
Definition map_limit (jmap pmap : list (option nat)) (l : flimit) : outcome (option flimit) :=
  let w := lweight (fl_limit l) in
  let put d := FL (PLimit d w) (fl_map l) (fl_inv l) (fl_offset l) in
  match ldata (fl_limit l) with
  | LMinMax p lo hi => let* m := rd pmap p in Ok (option_map (fun p' => put (LMinMax p' lo hi)) m)
  | LMinMaxJoint j p lo hi => let* m := rd jmap j in Ok (option_map (fun j' => put (LMinMaxJoint j' p lo hi)) m)
  | LMinMaxJointPassive j p lo hi => let* m := rd jmap j in Ok (option_map (fun j' => put (LMinMaxJointPassive j' p lo hi)) m)
  | LLinear r t sc off a b =>
    let* m := rd pmap r in
    let* n := rd pmap t in
    Ok (match m, n with Some r', Some t' => Some (put (LLinear r' t' sc off a b)) | _, _ => None end)
  | LHalfPlane p q n1 n2 off =>
    let* m := rd pmap p in
    let* n := rd pmap q in
    Ok (match m, n with Some p', Some q' => Some (put (LHalfPlane p' q' n1 n2 off)) | _, _ => None end)
  | LEllipsoid e p =>
    let* m := rd jmap p in
    let* n := rd jmap e in
    Ok (match m, n with Some p', Some e' => Some (put (LEllipsoid e' p')) | _, _ => None end)
  end.
Definition map_limits (jmap pmap : list (option nat)) (ls : list flimit) : outcome (list flimit) :=
  ofold (fun l result =>
    let* m := map_limit jmap pmap l in
    Ok (match m with Some l' => result ++ [l'] | None => result end)) ls [].

(** mapSkinWeights for all rows, lines 158-174. *)
Definition map_weights (jmap : list (option nat)) (skin : list (list influence)) : outcome (list (list influence)) :=
  ofold (fun row result => let* row' := map_weights_row jmap row in Ok (result ++ [row'])) skin [].

Definition row_entries (pt : ptransform) (r : nat) : list entry := filter (fun e => (erow e =? r)%nat) (pt_entries pt).

(** addMappedParameters, lines 195-276. Lines 202-214: the parameters that are used by a joint that is
    kept. *)
Definition used_params (pt : ptransform) (jmap : list (option nat)) : outcome (list bool) :=
  ofold (fun r valid =>
    let* m := rd jmap (r / 7) in
    match m with
    | None => Ok valid
    | Some _ => ofold (fun e valid => wr valid (ecol e) true) (row_entries pt r) valid
    end) (seq 0 (pt_rows pt)) (repeat false (pt_cols pt)).

(** Lines 216-233: new numbers and names. Only names of the other transform count as duplicates. *)
Definition number_params (pt : ptransform) (valid : list bool) (names : list string) : outcome (list (option nat) * list string) :=
  ofold (fun i (st : list (option nat) * list string) =>
    let* v := rd valid i in
    if negb v then Ok st
    else
      let* nm := rd (pt_name pt) i in
      if existsb (String.eqb nm) names then Throw
      else
        let* map' := wr (fst st) i (Some (List.length (snd st))) in
        Ok (map', snd st ++ [nm])) (seq 0 (pt_cols pt)) (repeat None (pt_cols pt), names).

(** Lines 235-258; a triplet outside the matrix fails an assertion. *)
Definition mapped_entries (pt : ptransform) (jmap pmap : list (option nat)) (rows : nat) (old : list entry) : outcome (list entry) :=
  ofold (fun r triplets =>
    let* m := rd jmap (r / 7) in
    match m with
    | None => Ok triplets
    | Some j =>
      ofold (fun e triplets =>
        let* n := rd pmap (ecol e) in
        match n with
        | None => Ok triplets
        | Some c => if (j * 7 + r mod 7 <? rows)%nat then Ok (triplets ++ [Entry (j * 7 + r mod 7) c (eval e)]) else CheckFail
        end) (row_entries pt r) triplets
    end) (seq 0 (pt_rows pt)) old.

(** parameterSets[name].set(k): the set is made if there is none. *)
Fixpoint set_bit (sets : list (string * pset)) (nm : string) (k : nat) : list (string * pset) :=
  match sets with
  | [] => [(nm, fun i => (i =? k)%nat)]
  | (n, s) :: r => if String.eqb n nm then (n, fun i => (i =? k)%nat || s i) :: r else (n, s) :: set_bit r nm k
  end.

(** Lines 261-273. test() and set() of a bitset throw for an index that is too large. *)
Definition mapped_sets (pt : ptransform) (pmap : list (option nat)) (sets : list (string * pset)) : outcome (list (string * pset)) :=
  ofold (fun (x : string * pset) sets =>
    ofold (fun i sets =>
      if negb (i <? kMaxModelParams)%nat then Throw
      else if negb (snd x i) then Ok sets
      else
        let* m := rd pmap i in
        match m with
        | None => Ok sets
        | Some k => if negb (k <? kMaxModelParams)%nat then Throw else Ok (set_bit sets (fst x) k)
        end) (seq 0 (pt_cols pt)) sets) (pt_sets pt) sets.

Definition add_mapped (pt : ptransform) (jmap : list (option nat)) (res : ptransform) : outcome (ptransform * list (option nat)) :=
  let* valid := used_params pt jmap in
  let* (pmap, names) := number_params pt valid (pt_name res) in
  let* es := mapped_entries pt jmap pmap (pt_rows res) (pt_entries res) in
  let* sets := mapped_sets pt pmap (pt_sets res) in
  Ok (PT names (pt_rows res) (List.length names) es (pt_offsets res) (pt_active res) sets (pt_pose res) (pt_blend res) (pt_face res), pmap).

(** ** removeJoints, lines 541-626 *)

(** Lines 557-564: is the joint, or a joint above it, to be removed? *)
Fixpoint under_removed (fuel : nat) (sk : skeleton) (remove : list bool) (j : option nat) : outcome bool :=
  match fuel with
  | O => OutOfFuel
  | S fuel' =>
    match j with
    | None => Ok false
    | Some i =>
      let* b := rd remove i in
      if b then Ok true else let* jt := rd sk i in under_removed fuel' sk remove (jparent jt)
    end
  end.

(** Lines 588-595: the new number of the first joint on the way up that has one. *)
Fixpoint climb_mapped (fuel : nat) (sk : skeleton) (jmap : list (option nat)) (j : option nat) : outcome (option nat) :=
  match fuel with
  | O => OutOfFuel
  | S fuel' =>
    match j with
    | None => Ok None
    | Some i =>
      let* m := rd jmap i in
      match m with
      | Some k => Ok (Some k)
      | None => let* jt := rd sk i in climb_mapped fuel' sk jmap (jparent jt)
      end
    end
  end.

(** Lines 542-546. *)
Definition removal_flags (n : nat) (js : list nat) : outcome (list bool) :=
  ofold (fun j flags => if (j <? n)%nat then wr flags j true else Throw) js (repeat false n).

(** Lines 548-577: map and joints of the result, with the names. *)
Definition keep_joints (names : list string) (sk : skeleton) (remove : list bool)
    : outcome (list (option nat) * skeleton * list string) :=
  ofold (fun i (st : list (option nat) * skeleton * list string) =>
    let '(jmap, joints, nms) := st in
    let* b := under_removed (S (List.length sk)) sk remove (Some i) in
    if b then Ok st
    else
      let* jmap := wr jmap i (Some (List.length joints)) in
      let* jt := rd sk i in
      let* nm := rd names i in
      let* parent := match jparent jt with None => Ok None | Some p => rd jmap p end in
      Ok (jmap, joints ++ [Joint parent (joffset jt) (jprerot jt)], nms ++ [nm])) (seq 0 (List.length sk)) (repeat None (List.length sk), [], []).

Definition climb_all (sk : skeleton) (jmap : list (option nat)) : outcome (list (option nat)) :=
  ofold (fun i result => let* m := climb_mapped (S (List.length sk)) sk jmap (Some i) in Ok (result ++ [m])) (seq 0 (List.length sk)) [].

Definition remove_joints (c : fchar) (js : list nat) : outcome fchar :=
  let sk := fc_joints c in
  let* remove := removal_flags (List.length sk) js in
  let* st := keep_joints (fc_names c) sk remove in
  let '(jmap, joints, names) := st in
  let* r := add_mapped (fc_pt c) jmap (pt_empty (List.length joints * 7)) in
  let '(pt, pmap) := r in
  let* up := climb_all sk jmap in
  let* skin := match fc_skin c with None => Ok None | Some s => let* s' := map_weights up s in Ok (Some s') end in
  let* locs := map_parents lo_parent loc_with jmap (fc_locs c) in
  let* caps := match fc_caps c with None => Ok [] | Some l => map_parents cap_parent cap_with jmap l end in
  let* limits := map_limits jmap pmap (fc_limits c) in
  make_character names joints pt limits locs (fc_mesh c) skin (match caps with [] => None | _ => Some caps end) (fc_pose c) (fc_blend c) [].

(** ** replaceSkeletonHierarchy, lines 380-539 *)

(** combinedSkeletonJointMapping. *)
Fixpoint find_assoc (l : list (string * nat)) (nm : string) : option nat :=
  match l with
  | [] => None
  | (n, i) :: r => if String.eqb n nm then Some i else find_assoc r nm
  end.

Record combined : Type := CB { cb_names : list string; cb_joints : skeleton; cb_assoc : list (string * nat) }.

(** addJoint, lines 405-428. *)
Definition add_joint (names : list string) (sk : skeleton) (i : nat) (st : combined * list (option nat)) : outcome (combined * list (option nat)) :=
  let '(b, jmap) := st in
  let* jt := rd sk i in
  let* nm := rd names i in
  match find_assoc (cb_assoc b) nm with
  | Some _ => Throw
  | None =>
    let k := List.length (cb_joints b) in
    let* jmap := wr jmap i (Some k) in
    let assoc := (nm, k) :: cb_assoc b in
    let* parent := match jparent jt with
                   | None => Ok None
                   | Some p =>
                     let* pn := rd names p in
                     match find_assoc assoc pn with None => CheckFail | Some q => Ok (Some q) end
                   end in
    Ok (CB (cb_names b ++ [nm]) (cb_joints b ++ [Joint parent (joffset jt) (jprerot jt)]) assoc, jmap)
  end.

(** Lines 430-449. *)
Definition combine_joints (snames : list string) (ssk : skeleton) (tnames : list string) (tsk : skeleton) (sroot troot : nat)
    : outcome (combined * list (option nat) * list (option nat)) :=
  ofold (fun i (st : combined * list (option nat) * list (option nat)) =>
    let '(b, smap, tmap) := st in
    if (i =? troot)%nat then
      let* bt := add_joint tnames tsk i (b, tmap) in
      let* bs := ofold (fun k bs =>
        let* a := is_ancestor (S (List.length ssk)) (sk_parents ssk) k sroot in
        if a then add_joint snames ssk k bs else Ok bs)
        (seq (S sroot) (List.length ssk - S sroot)) (fst bt, smap) in
      Ok (fst bs, snd bs, snd bt)
    else
      let* a := is_ancestor (S (List.length tsk)) (sk_parents tsk) i troot in
      if a then Ok st
      else let* bt := add_joint tnames tsk i (b, tmap) in Ok (fst bt, smap, snd bt))
    (seq 0 (List.length tsk)) (CB [] [] [], repeat None (List.length ssk), repeat None (List.length tsk)).

(** Lines 508-520, one joint: the variable of line 518 is iTgtJoint where tgtParent is meant. *)
Fixpoint climb_names (fuel : nat) (names : list string) (sk : skeleton) (assoc : list (string * nat)) (i : nat) (j : option nat)
    : outcome nat :=
  match fuel with
  | O => OutOfFuel
  | S fuel' =>
    match j with
    | None => CheckFail
    | Some a =>
      let* nm := rd names a in
      match find_assoc assoc nm with
      | Some k => Ok k
      | None => let* jt := rd sk i in climb_names fuel' names sk assoc i (jparent jt)
      end
    end
  end.

Definition climb_all_names (fuel : nat) (names : list string) (sk : skeleton) (assoc : list (string * nat)) : outcome (list (option nat)) :=
  ofold (fun i result => let* k := climb_names fuel names sk assoc i (Some i) in Ok (result ++ [Some k])) (seq 0 (List.length sk)) [].

(** removeDuplicateLocators, lines 278-292. *)
Definition remove_duplicates (ls drop : list locator) : list locator :=
  filter (fun l => negb (existsb (fun d => String.eqb (lo_name d) (lo_name l)) drop)) ls.

Definition replace_hierarchy (fuel : nat) (src tgt : fchar) (sname tname : string) : outcome fchar :=
  match fc_joints src with
  | [] => Throw
  | _ =>
    match joint_id_by_name String.eqb (fc_names tgt) tname with
    | None => Throw
    | Some troot =>
      match joint_id_by_name String.eqb (fc_names src) sname with
      | None => Throw
      | Some sroot =>
        let* st := combine_joints (fc_names src) (fc_joints src) (fc_names tgt) (fc_joints tgt) sroot troot in
        let '(b, smap, tmap) := st in
        let* slocs := map_parents lo_parent loc_with smap (fc_locs src) in
        let* tlocs := map_parents lo_parent loc_with tmap (fc_locs tgt) in
        let* tcaps := match fc_caps tgt with None => Ok [] | Some l => map_parents cap_parent cap_with tmap l end in
        let* scaps := match fc_caps src with None => Ok [] | Some l => map_parents cap_parent cap_with smap l end in
        let* (pt1, tp) := add_mapped (fc_pt tgt) tmap (pt_empty (List.length (cb_joints b) * 7)) in
        let* (pt2, sp) := add_mapped (fc_pt src) smap pt1 in
        let pt := PT (pt_name pt2) (pt_rows pt2) (pt_cols pt2) (pt_entries pt2) (pt_offsets pt2)
                    (compute_active pt2 (fun _ => true)) (pt_sets pt2) (pt_pose pt2) (pt_blend pt2) (pt_face pt2) in
        let* tlims := map_limits tmap tp (fc_limits tgt) in
        let* slims := map_limits smap sp (fc_limits src) in
        let* up := climb_all_names fuel (fc_names tgt) (fc_joints tgt) (cb_assoc b) in
        let* skin := match fc_skin tgt with None => Ok None | Some s => let* s' := map_weights up s in Ok (Some s') end in
        let caps := tcaps ++ scaps in
        make_character (cb_names b) (cb_joints b) pt (tlims ++ slims) (remove_duplicates tlocs slocs ++ slocs) (fc_mesh tgt) skin
          (match caps with [] => None | _ => Some caps end) (fc_pose tgt) (fc_blend tgt) []
      end
    end
  end.

(** ** mapMotionToCharacter, mapIdentityToCharacter, lines 628-680 *)

(** A motion is the list of the rows of its matrix, with the number of its columns. *)
Definition map_motion (names : list string) (rows : list (list R)) (cols : nat) (pt : ptransform) : outcome (list (list R)) :=
  if negb (List.length names =? List.length rows)%nat then CheckFail
  else ofold (fun i result =>
         let* nm := rd names i in
         match get_parameter_id_by_name pt nm with
         | Some k => let* row := rd rows i in wr result k row
         | None => Ok result
         end) (seq 0 (List.length names)) (repeat (repeat 0 cols) (pt_cols pt)).

Definition map_identity (names : list string) (values : list R) (c : fchar) : outcome (list R) :=
  if negb (List.length names * 7 =? List.length values)%nat then CheckFail
  else ofold (fun i result =>
         let* nm := rd names i in
         match joint_id_by_name String.eqb (fc_names c) nm with
         | Some k => let* block := rd_all values (seq (i * 7) 7) in set_block result (k * 7) block
         | None => Ok result
         end) (seq 0 (List.length names)) (repeat 0 (List.length (fc_joints c) * 7)).
