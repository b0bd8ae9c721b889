(** Vertices of a posed mesh and how far they are from their targets (C121). *)

From Coq Require Import Reals List Arith ZArith Bool Permutation.
From Verif Require Import Prelude LinAlg R3 Transform_model FK_model ParamTransform_model Normals_spec Skin_spec Blend_model Blend_spec CharUtil_model VErr_model.
Import ListNotations.
Local Open Scope R_scope.

(** The weight of a shape: the value of its parameter; shapes with a negative index have none. *)
Definition shape_weight (p : list R) (z : Z) : R := if (z <? 0)%Z then 0 else nth (Z.to_nat z) p 0.
(** The rest position of vertex [i]: the base shape, moved by the blend shapes and then by the face expressions. *)
Definition base_at (E : vfn) (i : nat) : option vec3 :=
  match vf_blend E with Some b => nth_error (bs_base b) i | None => option_map fst (nth_error (vf_neutral E) i) end.
Definition blend_moves (E : vfn) (p : list R) (i : nat) : vec3 :=
  match vf_blend E with Some b => moved (bm_at (bs_vectors b)) (map (shape_weight p) (pt_blend (vf_pt E))) i | None => vzero end.
Definition face_moves (E : vfn) (p : list R) (i : nat) : vec3 :=
  match vf_face E with Some V => moved (bm_at V) (map (shape_weight p) (pt_face (vf_pt E))) i | None => vzero end.
Definition rest_is (E : vfn) (p : list R) (i : nat) (r : vec3) : Prop :=
  exists b, base_at E i = Some b /\ r = vadd (vadd b (blend_moves E p i)) (face_moves E p i).
(** The position of vertex [i]: the rest position skinned with the weights of the vertex. *)
Definition vertex_is (E : vfn) (p : list R) (sts : list jstate) (i : nat) (v : vec3) : Prop :=
  exists r row, rest_is E p i r /\ nth_error (vf_skin E) i = Some row /\ skinned (world_affines sts) (vf_inv E) row r v.
(** The rest normal: that of the mesh, or with shapes the direction of the sum of the normals of the faces around the vertex. *)
Definition has_shapes (E : vfn) : bool := match vf_blend E, vf_face E with None, None => false | _, _ => true end.
Definition rest_normal_is (E : vfn) (p : list R) (i : nat) (n : vec3) : Prop :=
  if has_shapes E then
    exists rest, length rest = length (vf_neutral E) /\ (forall k r, nth_error rest k = Some r -> rest_is E p k r) /\
      direction (Normals_spec.vsum (around (map real rest) (vf_faces E) i)) n
  else option_map snd (nth_error (vf_neutral E) i) = Some n.
(** The normal: the direction of the skinned rest normal. *)
Definition normal_is (E : vfn) (p : list R) (sts : list jstate) (i : nat) (n : vec3) : Prop :=
  exists r row d, rest_normal_is E p i r /\ nth_error (vf_skin E) i = Some row /\ skinned_dir (world_affines sts) (vf_inv E) row r d /\ direction_of d n.

(** The squared distance that a constraint measures for a vertex at [v] with normal [n]: to the target, or to a plane through it. *)
Definition square (x : R) : R := x * x.
Definition facing (n t : vec3) : vec3 := if Rlt_dec (vdot n t) 0 then vscale (-1) t else t.
Definition distance2 (ty : vtype) (c : vconstr) (v n : vec3) : R :=
  let d := vsub v (vc_pos c) in
  match ty with
  | VPosition => vnorm2 d
  | VPlane => square (vdot (vc_nml c) d)
  | VNormal => square (vdot n d)
  | VSymmetric => square (vdot (vscale (/ 2) (vadd n (facing n (vc_nml c)))) d)
  end.
Definition objective (E : vfn) (vs : list (vec3 * vec3)) : R :=
  vf_weight E * rsum (map (fun x => / 10000 * vc_weight (fst x) * distance2 (vf_type E) (fst x) (fst (snd x)) (snd (snd x))) (combine (vf_constraints E) vs)).

Definition shapes_fit (n : nat) (V : bmat) (params : list Z) : Prop := bm_rows V = (3 * n)%nat /\ (length params <= bm_cols V)%nat.
(** The parts of the character fit; weights are not negative, and none follows a zero. *)
Record vfn_wf (E : vfn) : Prop := {
  vw_rows : pt_rows (vf_pt E) = (7 * length (vf_sk E))%nat;
  vw_active_len : length (vf_active E) = pt_rows (vf_pt E);
  vw_inv : (length (vf_inv E) <= length (vf_sk E))%nat;
  vw_skin : length (vf_skin E) = length (vf_neutral E);
  vw_row : forall row, In row (vf_skin E) -> row_ok (length (vf_inv E)) row /\ zeros_last row /\ forall j w, In (j, w) row -> 0 <= w;
  vw_constraints : forall c, In c (vf_constraints E) -> (vc_vertex c < length (vf_neutral E))%nat;
  vw_blend : forall b, vf_blend E = Some b -> bs_base b <> [] /\ length (bs_base b) = length (vf_neutral E) /\
    shapes_fit (length (vf_neutral E)) (bs_vectors b) (pt_blend (vf_pt E));
  vw_face : forall V, vf_face E = Some V -> vf_neutral E <> [] /\ shapes_fit (length (vf_neutral E)) V (pt_face (vf_pt E))
}.
(** The joint parameters that model parameter [i] drives are active. *)
Definition drives_active (E : vfn) (i : nat) : Prop :=
  forall e, In e (pt_entries (vf_pt E)) -> ecol e = i -> nth (erow e) (vf_active E) false = true.

(** std::sort, with any comparison: only that it permutes is used. *)
Definition sorts (sort : list bone -> list bone) : Prop := forall l, Permutation (sort l) l.
