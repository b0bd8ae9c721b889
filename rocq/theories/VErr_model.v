(** VertexErrorFunction (momentum/character_solver/vertex_error_function.cpp).

    Simplifications: scalars are reals, so the float casts disappear; the order of summation within a joint does not matter then.  Vertex indices are
    natural numbers.  The meshes that the object holds are overwritten by updateMeshes before they are read, so they are results of [vf_meshes].
    std::sort is an argument: bones with equal keys may come in any order. *)

From Coq Require Import Reals List Arith ZArith Bool.
From Verif Require Import Prelude Loops LinAlg Rbool R3 Transform_model FK_model ParamTransform_model Limits_model Constraint_model Skin_model Blend_model
  CharUtil_model CharState_model.
Import ListNotations.
Local Open Scope outcome_scope.
Local Open Scope R_scope.

(** VertexConstraintType and VertexConstraintT, vertex_error_function.h:20-42. *)
Inductive vtype := VPosition | VPlane | VNormal | VSymmetric.
Record vconstr := VC { vc_vertex : nat; vc_weight : R; vc_pos : vec3; vc_nml : vec3 }.

(** The members: skeleton, parameter transform, weight_, activeJointParams_, and of the character the inverse bind poses, skin weights, vertices with their
    normals, faces, blend shape and face expressions. *)
Record vfn := VF {
  vf_sk : skeleton;
  vf_pt : ptransform;
  vf_weight : R;
  vf_active : list bool;
  vf_inv : list affine;
  vf_skin : list (list influence);
  vf_neutral : list (vec3 * vec3);
  vf_faces : list (Z * Z * Z);
  vf_blend : option bshape;
  vf_face : option bmat;
  vf_type : vtype;
  vf_constraints : list vconstr
}.

(** kLegacyWeight, position_error_function.h:64 and plane_error_function.h:87. *)
Definition kPosWeight : R := / 10000.
Definition kPlaneWeight : R := / 10000.

(** updateMeshes, lines 837-878: the rest mesh and the posed mesh. *)
Definition vf_rest (E : vfn) (p : list R) : outcome (list (vec3 * vec3)) :=
  let* vs := match vf_blend E with
             | Some b => let* w := extract_weights (basis_params (pt_blend (vf_pt E))) p in compute_shape b w
             | None => Ok (map fst (vf_neutral E))
             end in
  let* vs := match vf_face E with
             | Some V => let* w := extract_weights (basis_params (pt_face (vf_pt E))) p in apply_deltas V w vs
             | None => Ok vs
             end in
  let* ns := match vf_blend E, vf_face E with
             | None, None => Ok (map snd (vf_neutral E))
             | _, _ => normals_of vs (vf_faces E)
             end in
  Ok (combine vs ns).
Definition vf_meshes (order : list nat) (E : vfn) (p : list R) (sts : list jstate) : outcome (list (vec3 * vec3) * list (vec3 * vec3)) :=
  let* rest := vf_rest E p in
  let* posed := apply_ssd_mesh order (vf_inv E) (vf_skin E) rest (world_affines sts) rest in
  Ok (rest, posed).

(** computeNormalWeights, lines 735-746. *)
Definition normal_weights (ty : vtype) : R * R :=
  match ty with
  | VPlane => (0, 1)
  | VNormal => (1, 0)
  | _ => (/ 2, / 2)
  end.
(** The target normal on the side of the source normal, and the normal, lines 90-96, 528-534 and 637-643. *)
Definition target_side (source : vec3) (c : vconstr) : vec3 := if Rltb (vdot source (vc_nml c)) 0 then vscale (-1) (vc_nml c) else vc_nml c.
Definition used_normal (ty : vtype) (source : vec3) (c : vconstr) : vec3 :=
  vadd (vscale (fst (normal_weights ty)) source) (vscale (snd (normal_weights ty)) (target_side source c)).

(** getError, lines 66-108: one constraint, and all. *)
Definition vf_err1 (ty : vtype) (posed : list (vec3 * vec3)) (c : vconstr) : outcome R :=
  let* v := rd posed (vc_vertex c) in
  let diff := vsub (fst v) (vc_pos c) in
  match ty with
  | VPosition => Ok (vc_weight c * vnorm2 diff * kPosWeight)
  | _ => let dist := vdot (used_normal ty (snd v) c) diff in Ok (vc_weight c * dist * dist * kPlaneWeight)
  end.
Fixpoint vf_err_sum (ty : vtype) (posed : list (vec3 * vec3)) (cs : list vconstr) : outcome R :=
  match cs with
  | [] => Ok 0
  | c :: r => let* e := vf_err1 ty posed c in let* rest := vf_err_sum ty posed r in Ok (e + rest)
  end.
Definition vf_error (order : list nat) (E : vfn) (p : list R) (sts : list jstate) : outcome R :=
  let* m := vf_meshes order E p sts in
  let* e := vf_err_sum (vf_type E) (snd m) (vf_constraints E) in
  Ok (e * vf_weight E).

(** BoneWeightT, lines 110-129. *)
Record bone := Bone { bn_joint : nat; bn_weight : R; bn_point : vec3 (* weightedWorldSpacePoint *) }.
Definition merge (a b : bone) : bone := Bone (bn_joint a) (bn_weight a + bn_weight b) (vadd (bn_point a) (bn_point b)).

(** The constructor of SkinningWeightIteratorT, lines 148-174, before the sort: influences of positive weight. *)
Fixpoint it_bones (inv : list affine) (sts : list jstate) (row : list influence) (pos : vec3) : outcome (list bone) :=
  match row with
  | [] => Ok []
  | (j, w) :: r =>
    if Rltb 0 w then
      let* s := rd sts j in
      let* b := rd inv j in
      let* rest := it_bones inv sts r pos in
      Ok (Bone j w (vscale w (act s (aff_point b pos))) :: rest)
    else it_bones inv sts r pos
  end.
(** The loops of lines 196-213: move the first bone, which now has a smaller index, behind those with larger ones, and merge it with one of the same index.
    The array is a list here. *)
Fixpoint relocate (b : bone) (l : list bone) : list bone :=
  match l with
  | [] => [b]
  | c :: r =>
    if bn_joint b <? bn_joint c then c :: relocate b r
    else if bn_joint b =? bn_joint c then merge b c :: r
    else b :: c :: r
  end%nat.
(** next, lines 182-218, again and again until finished: joint, weight and point of each call. *)
Fixpoint it_run (fuel : nat) (sk : skeleton) (l : list bone) : outcome (list (nat * R * vec3)) :=
  match l with
  | [] => Ok []
  | b :: r =>
    match fuel with
    | O => OutOfFuel
    | S fuel =>
      let* jt := rd sk (bn_joint b) in
      let l' := match jparent jt with
                | None => r
                | Some q => relocate (Bone q (bn_weight b) (bn_point b)) r
                end in
      let* rest := it_run fuel sk l' in
      Ok ((bn_joint b, bn_weight b, vscale (/ bn_weight b) (bn_point b)) :: rest)
    end
  end.
Definition it_fuel (l : list bone) : nat := list_sum (map (fun b => S (bn_joint b)) l).

(** What the gradient and Jacobian loops visit, lines 323-363: joint parameter, weight of the bones below, derivative of the point. *)
Fixpoint it_dofs (active : list bool) (sts : list jstate) (l : list (nat * R * vec3)) : outcome (list (nat * (R * vec3))) :=
  match l with
  | [] => Ok []
  | (j, w, pos) :: r =>
    let* s := rd sts j in
    let* ts := vec_dofs active j s true pos in
    let* rest := it_dofs active sts r in
    Ok (map (fun x => (fst x, (w, snd x))) ts ++ rest)
  end.
Definition vertex_dofs (sort : list bone -> list bone) (E : vfn) (sts : list jstate) (rest : list (vec3 * vec3)) (c : vconstr)
    : outcome (list (nat * (R * vec3))) :=
  let* row := rd (vf_skin E) (vc_vertex c) in
  let* v := rd rest (vc_vertex c) in
  let* bones := it_bones (vf_inv E) sts row (fst v) in
  let* visits := it_run (it_fuel bones) (vf_sk E) (sort bones) in
  it_dofs (vf_active E) sts visits.

(** calculateDWorldPos, lines 288-305 (also 608-616, 716-724). *)
Fixpoint d_world (inv : list affine) (sts : list jstate) (row : list influence) (d : vec3) : outcome vec3 :=
  match row with
  | [] => Ok vzero
  | (j, w) :: r =>
    let* rest := d_world inv sts r d in
    if Rltb 0 w then
      let* s := rd sts j in
      let* b := rd inv j in
      Ok (vadd (vscale w (mvec (js_linear s) (mvec (alin b) d))) rest)
    else Ok rest
  end.
(** The loops over blend shapes, lines 366-384 and 388-406: parameter and derivative of the vertex. block fails its assertion outside of the matrix. *)
Fixpoint shape_dofs (E : vfn) (sts : list jstate) (V : bmat) (i : nat) (k : nat) (params : list Z) : outcome (list (nat * vec3)) :=
  match params with
  | [] => Ok []
  | z :: r =>
    if (z <? 0)%Z then shape_dofs E sts V i (S k) r
    else if negb ((3 * i + 3 <=? bm_rows V)%nat && (k <? bm_cols V)%nat) then CheckFail
    else
      let* row := rd (vf_skin E) i in
      let* d := d_world (vf_inv E) sts row (V3 (bm_at V (3 * i)%nat k) (bm_at V (3 * i + 1)%nat k) (bm_at V (3 * i + 2)%nat k)) in
      let* rest := shape_dofs E sts V i (S k) r in
      Ok ((Z.to_nat z, d) :: rest)
  end.
Definition blend_dofs (E : vfn) (sts : list jstate) (i : nat) : outcome (list (nat * vec3)) :=
  match vf_blend E with Some b => shape_dofs E sts (bs_vectors b) i 0 (pt_blend (vf_pt E)) | None => Ok [] end.
Definition face_dofs (E : vfn) (sts : list jstate) (i : nat) : outcome (list (nat * vec3)) :=
  match vf_face E with Some V => shape_dofs E sts V i 0 (pt_face (vf_pt E)) | None => Ok [] end.

(** The derivative of the normal distance by a joint parameter, lines 558-589 and 667-697: rotations have a term for the source normal. *)
Definition normal_value (ty : vtype) (s : jstate) (source : vec3) (c : vconstr) (r : nat) (d : vec3) : R :=
  let k := (r mod 7)%nat in
  if (3 <=? k)%nat && (k <? 6)%nat then
    fst (normal_weights ty) * vdot (mcol (js_raxis s) (k - 3)) (vscale (-1) (vcross source (vsub (vc_pos c) (trans (js_world s))))) +
    snd (normal_weights ty) * vdot (target_side source c) d
  else vdot (used_normal ty source c) d.
Fixpoint normal_values (ty : vtype) (sts : list jstate) (source : vec3) (c : vconstr) (l : list (nat * (R * vec3))) : outcome (list (nat * R)) :=
  match l with
  | [] => Ok []
  | (r, (w, d)) :: l' =>
    let* s := rd sts (r / 7) in
    let* rest := normal_values ty sts source c l' in
    Ok ((r, w * normal_value ty s source c r d) :: rest)
  end.

(** gradient_jointParams_to_modelParams, lines 243-256: all entries of the row, enabled or not. *)
Definition to_model (es : list entry) (l : list (nat * R)) : list (nat * R) := flat_map (fun x => row_incs es (fst x) (snd x)) l.

(** calculatePositionGradient and calculateNormalGradient, lines 307-410 and 518-624: error and increments of the gradient. *)
Definition vf_grad1 sort (E : vfn) (sts : list jstate) (m : list (vec3 * vec3) * list (vec3 * vec3)) (c : vconstr) : outcome (R * list (nat * R)) :=
  let* v := rd (snd m) (vc_vertex c) in
  let diff := vsub (fst v) (vc_pos c) in
  let wgt := vc_weight c * 2 * kPosWeight * vf_weight E in
  let es := pt_entries (vf_pt E) in
  match vf_type E with
  | VPosition =>
    let* ds := vertex_dofs sort E sts (fst m) c in
    let* bs := blend_dofs E sts (vc_vertex c) in
    let* fs := face_dofs E sts (vc_vertex c) in
    Ok (vc_weight c * vnorm2 diff * kPosWeight,
        to_model es (map (fun x => (fst x, fst (snd x) * vdot diff (snd (snd x)) * wgt)) ds) ++ map (fun x => (fst x, wgt * vdot diff (snd x))) (bs ++ fs))
  | ty =>
    let n := used_normal ty (snd v) c in
    let dist := vdot diff n in
    let* ds := vertex_dofs sort E sts (fst m) c in
    let* xs := normal_values ty sts (snd v) c ds in
    let* bs := blend_dofs E sts (vc_vertex c) in
    Ok (vc_weight c * dist * dist * kPlaneWeight,
        to_model es (map (fun x => (fst x, wgt * dist * snd x)) xs) ++ map (fun x => (fst x, wgt * dist * vdot n (snd x))) bs)
  end.
(** getGradient, lines 748-775. *)
Fixpoint vf_grad_loop sort E sts m (cs : list vconstr) (g : list R) : outcome (R * list R) :=
  match cs with
  | [] => Ok (0, g)
  | c :: r =>
    let* x := vf_grad1 sort E sts m c in
    let* g' := add_all g (snd x) in
    let* y := vf_grad_loop sort E sts m r g' in
    Ok (fst x + fst y, snd y)
  end.
Definition vf_gradient sort (order : list nat) (E : vfn) (p : list R) (sts : list jstate) (g : list R) : outcome (R * list R) :=
  let* m := vf_meshes order E p sts in
  let* x := vf_grad_loop sort E sts m (vf_constraints E) g in
  Ok (vf_weight E * fst x, snd x).

(** calculatePositionJacobian and calculateNormalJacobian, lines 412-516 and 626-733, on a zeroed block of [n] columns: error, and rows with their residuals.
    Line 711 reads the blend shape whether there is one or not. *)
Definition component_of (k : nat) (v : vec3) : R := match k with 0 => vx v | 1 => vy v | _ => vz v end%nat.
Definition vf_jac1 sort (E : vfn) (n : nat) (sts : list jstate) (m : list (vec3 * vec3) * list (vec3 * vec3)) (c : vconstr)
    : outcome (R * list (list R * R)) :=
  let* v := rd (snd m) (vc_vertex c) in
  let diff := vsub (fst v) (vc_pos c) in
  let wgt := sqrt (vc_weight c * kPosWeight * vf_weight E) in
  let es := pt_entries (vf_pt E) in
  match vf_type E with
  | VPosition =>
    let* ds := vertex_dofs sort E sts (fst m) c in
    let* bs := blend_dofs E sts (vc_vertex c) in
    let* fs := face_dofs E sts (vc_vertex c) in
    let row k := add_all (repeat 0 n)
      (to_model es (map (fun x => (fst x, fst (snd x) * wgt * component_of k (snd (snd x)))) ds) ++ map (fun x => (fst x, wgt * component_of k (snd x))) (bs ++ fs)) in
    let* r0 := row 0%nat in let* r1 := row 1%nat in let* r2 := row 2%nat in
    Ok (wgt * wgt * vnorm2 diff, [(r0, vx diff * wgt); (r1, vy diff * wgt); (r2, vz diff * wgt)])
  | ty =>
    let nm := used_normal ty (snd v) c in
    let dist := vdot diff nm in
    let* ds := vertex_dofs sort E sts (fst m) c in
    let* xs := normal_values ty sts (snd v) c ds in
    let* bs := match vf_blend E with
               | Some b => shape_dofs E sts (bs_vectors b) (vc_vertex c) 0 (pt_blend (vf_pt E))
               | None => if forallb (fun z => z <? 0)%Z (pt_blend (vf_pt E)) then Ok [] else UB
               end in
    let* r := add_all (repeat 0 n) (to_model es (map (fun x => (fst x, wgt * snd x)) xs) ++ map (fun x => (fst x, wgt * vdot (snd x) nm)) bs) in
    Ok (wgt * wgt * dist * dist, [(r, dist * wgt)])
  end.
Fixpoint vf_jac_loop sort E n sts m (cs : list vconstr) : outcome (R * list (list R * R)) :=
  match cs with
  | [] => Ok (0, [])
  | c :: r =>
    let* x := vf_jac1 sort E n sts m c in
    let* y := vf_jac_loop sort E n sts m r in
    Ok (fst x + fst y, snd x ++ snd y)
  end.
(** getJacobian, lines 777-822, and getJacobianSize, lines 824-835. The size checks of the outputs are left out: the blocks are concatenated. *)
Definition vf_jacobian sort (order : list nat) (E : vfn) (n : nat) (p : list R) (sts : list jstate) : outcome (R * list (list R * R)) :=
  let* m := vf_meshes order E p sts in
  vf_jac_loop sort E n sts m (vf_constraints E).
Definition vf_jacobian_size (E : vfn) : nat :=
  match vf_type E with VPosition => 3 * length (vf_constraints E) | _ => length (vf_constraints E) end%nat.
