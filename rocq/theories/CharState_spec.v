(** What the state of a character is (C120). *)

From Coq Require Import Reals List Arith ZArith Permutation.
From Verif Require Import Prelude LinAlg R3 Transform_model Skeleton_spec FK_model FK_spec ParamTransform_model ParamTransform_spec Limits_spec Skin_model Skin_spec
  Blend_model PoseShape_model Locator_model CharUtil_model CharState_model.
Import ListNotations.
Local Open Scope R_scope.

(** The joint parameters of a pose: a linear map of the model parameters, plus offsets; no offsets are zeros. *)
Definition joint_parameters (pt : ptransform) (pose offsets jp : list R) : Prop :=
  length jp = pt_rows pt /\
  forall r, (r < pt_rows pt)%nat -> nth r jp 0 = sumn (pt_cols pt) (fun k => coeff pt r k * nth k pose 0) + nth r offsets 0.

(** [jp'] are [jp] with every passively limited value in its range and all others as they were. *)
Definition within_limits (ls : list plimit) (jp jp' : list R) : Prop :=
  length jp' = length jp /\
  (forall l i lo hi, In l ls -> passive_index l = Some (i, lo, hi) -> lo <= nth i jp' 0 <= hi) /\
  (forall k, (forall l lo hi, In l ls -> passive_index l = Some (k, lo, hi) -> lo <= nth k jp 0 <= hi) -> nth k jp' 0 = nth k jp 0).

(** A locator moves with its joint. *)
Definition attached (sts : list jstate) (l : locator) (p : vec3) : Prop :=
  exists j s, lo_parent l = Some j /\ nth_error sts j = Some s /\ p = aff_point (tf_affine (js_world s)) (lo_offset l).

(** A capsule moves with its joint: origin, axis and radii. *)
Definition capsule_at (sts : list jstate) (c : capsule) (x : vec3 * vec3 * R * R) : Prop :=
  exists j s, cap_parent c = Some j /\ nth_error sts j = Some s /\
    x = (aff_point (tf_affine (js_world s)) (atrans (cap_tf c)),
         vscale (cap_length c) (mvec (alin (tf_affine (js_world s))) (col0 (alin (cap_tf c)))),
         cap_r0 c * scl (js_world s), cap_r1 c * scl (js_world s)).

(** Characters whose parts fit together. *)
Record well_made {A} (c : cchar A) : Prop := {
  wm_joints : parents_first (sk_parents (fc_joints (cc_char c)));
  wm_rows : pt_rows (fc_pt (cc_char c)) = (7 * length (fc_joints (cc_char c)))%nat;
  wm_cols : forall e, In e (pt_entries (fc_pt (cc_char c))) -> (ecol e < pt_cols (fc_pt (cc_char c)))%nat;
  wm_limits : forall l i lo hi, In l (map fl_limit (fc_limits (cc_char c))) -> passive_index l = Some (i, lo, hi) ->
    (i < pt_rows (fc_pt (cc_char c)))%nat /\ lo <= hi;
  wm_once : passive_once (map fl_limit (fc_limits (cc_char c)));
  wm_locators : forall l, In l (fc_locs (cc_char c)) -> exists j, lo_parent l = Some j /\ (j < length (fc_joints (cc_char c)))%nat;
  wm_capsules : forall g k, fc_caps (cc_char c) = Some g -> In k g -> exists j, cap_parent k = Some j /\ (j < length (fc_joints (cc_char c)))%nat
}.
(** Characters with a mesh and skinning weights, and nothing that changes its shape. *)
Record skinned_mesh {A} (c : cchar A) (m : gmesh A) (skin : list (list (nat * R))) : Prop := {
  sm_mesh : cc_mesh c = Some m;
  sm_skin : fc_skin (cc_char c) = Some skin;
  sm_pose : fc_pose (cc_char c) = None;
  sm_blend : fc_blend (cc_char c) = None;
  sm_vertices : length skin = length (gm_vertices m);
  sm_normals : length (gm_normals m) = length (gm_vertices m);
  sm_inv : length (fc_inv (cc_char c)) = length (fc_joints (cc_char c));
  sm_rows : forall row, In row skin -> row_ok (length (fc_inv (cc_char c))) row /\ zeros_last row
}.

(** The states that calls with this character, from a new state, lead to. *)
Inductive reached {A} (c : cchar A) : state A -> Prop :=
| reached_new : reached c st_new
| reached_set a st st' : reached c st -> ca_char a = c -> st_set a st = Ok st' -> reached c st'.

(** The vertices are treated in some order, each once. *)
Definition any_order {A} (a : call A) : Prop :=
  forall skin, fc_skin (cc_char (ca_char a)) = Some skin -> Permutation (ca_order a) (seq 0 (length skin)).
