(** CharacterState::set and setBindPose (momentum/character/character_state.cpp 66-142).

    Simplifications: scalars are reals.  The parts of a mesh besides vertices, normals and faces (lines, colours, texture
    coordinates, confidences) are one value of any type.  Vertices are treated in the order given with each call. *)

From Coq Require Import Reals List Arith ZArith Bool.
From Verif Require Import Prelude Loops R3 Transform_model FK_model ParamTransform_model Limits_model Skin_model Blend_model PoseShape_model
  Locator_model Simplify_model CharUtil_model Coll_model Normals_model.
Import ListNotations.
Local Open Scope outcome_scope.

(** MeshT, momentum/math/mesh.h:21-57. *)
Record gmesh (A : Type) := GM { gm_vertices : list vec3; gm_normals : list vec3; gm_faces : list (Z * Z * Z); gm_rest : A }.
Arguments GM {A}.
Arguments gm_vertices {A}.
Arguments gm_normals {A}.
Arguments gm_faces {A}.
Arguments gm_rest {A}.

(** Character, character.h:30-60: [cc_mesh] is the mesh, in place of the field of [fchar]. *)
Record cchar (A : Type) := CC { cc_char : fchar; cc_mesh : option (gmesh A) }.
Arguments CC {A}.
Arguments cc_char {A}.
Arguments cc_mesh {A}.

(** CharacterStateT, character_state.h:18-24. *)
Record state (A : Type) := ST {
  st_pose : list R;
  st_offsets : list R;
  st_joints : list jstate;
  st_locators : list vec3;
  st_mesh : option (gmesh A);
  st_collision : option (list cstate)
}.
Arguments ST {A}.
Arguments st_pose {A}.
Arguments st_offsets {A}.
Arguments st_joints {A}.
Arguments st_locators {A}.
Arguments st_mesh {A}.
Arguments st_collision {A}.

(** The default constructor, character_state.cpp:22-25. *)
Definition st_new {A} : state A := ST [] [] [] [] None None.

(** updateNormals on vertices that are numbers (Normals_model); its results are numbers then (mesh_normals_numbers, C117). *)
Definition vpoint (v : vec3) : point := Pt (Some (vx v)) (Some (vy v)) (Some (vz v)).
Definition point_v (p : point) : vec3 := match p with Pt (Some x) (Some y) (Some z) => V3 x y z | _ => vzero end.
Definition normals_of (vs : list vec3) (faces : list (Z * Z * Z)) : outcome (list vec3) :=
  let* ns := update_normals (map vpoint vs) faces in Ok (map point_v ns).

(** applySSD for meshes, linear_skinning.cpp:98-184 (apply_ssd_mesh in Skin_model), with separate lists: a missing normal is read out of bounds, and
    normals beyond the vertices stay. *)
Definition ssd_mesh {A} (order : list nat) (inv : list affine) (skin : list (list influence)) (mesh : gmesh A) (worlds : list affine) (out : gmesh A)
    : outcome (gmesh A) :=
  if negb (length inv <=? length worlds) then CheckFail
  else if negb (length skin =? length (gm_vertices mesh)) then CheckFail
  else if negb (length (gm_vertices out) =? length (gm_vertices mesh)) then CheckFail
  else if negb (length (gm_normals out) =? length (gm_normals mesh)) then CheckFail
  else if negb (length (gm_faces out) =? length (gm_faces mesh)) then CheckFail
  else
    let* r := for_vertices order skin (combine (gm_vertices mesh) (gm_normals mesh)) (fun row p =>
        let* o := ssd_normal_row (skin_transforms worlds inv) row (fst p) (snd p) (vzero, vzero) in
        Ok (fst o, normalized (snd o))) (combine (gm_vertices out) (gm_normals out)) in
    Ok (GM (map fst r) (map snd r ++ skipn (length r) (gm_normals out)) (gm_faces out) (gm_rest out)).

(** LocatorState::update, locator_state.cpp:15-37. *)
Fixpoint locators_update (sts : list jstate) (ls : list locator) : outcome (list vec3) :=
  match ls with
  | [] => Ok []
  | l :: r => let* p := locator_position sts l in let* rest := locators_update sts r in Ok (p :: rest)
  end.

(** blendShapeParameters holds -1 for a shape without parameter. *)
Definition basis_params (l : list Z) : list (option nat) := map (fun z => if (z <? 0)%Z then None else Some (Z.to_nat z)) l.

(** Lines 96-101: the skeleton. *)
Definition posed {A} (c : cchar A) (pose offsets : list R) (limits : bool) : outcome (list jstate) :=
  let f := cc_char c in
  let* jp := pt_apply_char (fc_pt f) pose offsets in
  let* jp := if limits then apply_passive (map fl_limit (fc_limits f)) jp else Ok jp in
  fk (fc_joints f) jp.

(** Lines 106-134: the mesh. *)
Definition set_mesh {A} (order : list nat) (c : cchar A) (pose : list R) (sts : list jstate) (old : option (gmesh A)) : outcome (option (gmesh A)) :=
  let f := cc_char c in
  match cc_mesh c, fc_skin f with
  | Some m, Some skin =>
    let out := match old with Some o => if length (gm_vertices o) =? length (gm_vertices m) then o else m | None => m end in
    let worlds := world_affines sts in
    let with_vertices vs := let* ns := normals_of vs (gm_faces out) in Ok (Some (GM vs ns (gm_faces out) (gm_rest out))) in
    match fc_pose f, fc_blend f with
    | Some ps, _ =>
      let* vs := pose_compute ps (map (fun s => rot (js_world s)) sts) in
      let* vs := apply_ssd order (fc_inv f) skin vs worlds in
      with_vertices vs
    | None, Some b =>
      let* w := extract_weights (basis_params (pt_blend (fc_pt f))) pose in
      let* vs := skin_with_blend order (fc_inv f) skin (gm_vertices m) (Some b) worlds w in
      with_vertices vs
    | None, None => let* r := ssd_mesh order (fc_inv f) skin m worlds out in Ok (Some r)
    end
  | _, _ => Ok old
  end.

(** Lines 136-141. A collision state that is there is overwritten. *)
Definition set_collision {A} (c : cchar A) (sts : list jstate) (old : option (list cstate)) : outcome (option (list cstate)) :=
  match fc_caps (cc_char c) with
  | Some g => let* s := caps_update sts g in Ok (Some s)
  | None => Ok old
  end.

(** set, lines 74-142. *)
Record call (A : Type) := Call {
  ca_order : list nat;      (* the order in which the vertices are treated *)
  ca_char : cchar A;
  ca_pose : list R;
  ca_offsets : list R;
  ca_mesh : bool;           (* updateMesh *)
  ca_collision : bool;      (* updateCollision *)
  ca_limits : bool          (* applyLimits *)
}.
Arguments Call {A}.
Arguments ca_order {A}.
Arguments ca_char {A}.
Arguments ca_pose {A}.
Arguments ca_offsets {A}.
Arguments ca_mesh {A}.
Arguments ca_collision {A}.
Arguments ca_limits {A}.
Definition st_set {A} (a : call A) (st : state A) : outcome (state A) :=
  let c := ca_char a in
  let pt := fc_pt (cc_char c) in
  let offsets := match ca_offsets a with [] => repeat 0%R (pt_rows pt) | _ => ca_offsets a end in
  if negb (length (ca_pose a) =? pt_cols pt) then CheckFail
  else if negb (length offsets =? pt_rows pt) then CheckFail
  else
    let* sts := posed c (ca_pose a) offsets (ca_limits a) in
    let* locs := locators_update sts (fc_locs (cc_char c)) in
    let* mesh := if ca_mesh a then set_mesh (ca_order a) c (ca_pose a) sts (st_mesh st) else Ok (st_mesh st) in
    let* coll := if ca_collision a then set_collision c sts (st_collision st) else Ok (st_collision st) in
    Ok (ST (ca_pose a) offsets sts locs mesh coll).

(** Character::bindPose, character.cpp:524-530, and setBindPose, lines 66-72: the limits are applied by default. *)
Definition bind_call {A} (order : list nat) (c : cchar A) (mesh collision : bool) : call A :=
  Call order c (repeat 0%R (pt_cols (fc_pt (cc_char c)))) (repeat 0%R (length (fc_joints (cc_char c)) * 7)) mesh collision true.
