(** What the penalty for colliding capsules means (C103). *)

From Coq Require Import Bool Reals List Arith.
From Verif Require Import Prelude LinAlg R3 Transform_model Skeleton_model FK_model FK_spec ParamTransform_model
  Limits_model Limits_spec Skin_model CharUtil_model Ellipsoid_model Ellipsoid_spec Seg_spec Coll_model.
Import ListNotations.
Local Open Scope R_scope.

(** The point of a capsule's axis at [s] between 0 and 1, and its radius there. *)
Definition cap_point (sts : list jstate) (c : capsule) (s : R) : vec3 :=
  match cap_parent c with
  | Some j => world_point sts j (aff_point (cap_tf c) (V3 (s * cap_length c) 0 0))
  | None => vzero
  end.
Definition cap_scale (sts : list jstate) (c : capsule) : R :=
  match cap_parent c with
  | Some j => match nth_error sts j with Some st => scl (js_world st) | None => 0 end
  | None => 0
  end.
Definition cap_radius (sts : list jstate) (c : capsule) (s : R) : R :=
  ((1 - s) * cap_r0 c + s * cap_r1 c) * cap_scale sts c.
Definition cap_axis (sts : list jstate) (c : capsule) : vec3 := vsub (cap_point sts c 1) (cap_point sts c 0).
(** The larger radius of a capsule. *)
Definition cap_girth (sts : list jstate) (c : capsule) : R := Rmax (cap_radius sts c 0) (cap_radius sts c 1).

(** Distance of two axis points and how deep the capsules overlap there. *)
Definition axis_dist (sts : list jstate) (a b : capsule) (s t : R) : R :=
  sqrt (vnorm2 (vsub (cap_point sts a s) (cap_point sts b t))).
Definition depth (sts : list jstate) (a b : capsule) (s t : R) : R :=
  cap_radius sts a s + cap_radius sts b t - axis_dist sts a b s t.

(** The axis points at [s] and [t] are closest to each other. *)
Definition nearest (sts : list jstate) (a b : capsule) (s t : R) : Prop :=
  in_unit s /\ in_unit t /\
  forall s' t', in_unit s' -> in_unit t' -> axis_dist sts a b s t <= axis_dist sts a b s' t'.

(** The axes are so far apart that the capsules cannot touch. *)
Definition apart (sts : list jstate) (a b : capsule) : Prop :=
  exists gap, 0 < gap /\ forall s t, in_unit s -> in_unit t ->
    cap_girth sts a + cap_girth sts b + gap <= axis_dist sts a b s t.

(** The pair is apart, or its axes are not parallel and do not cross, and the closest points are ends or
    not too near to the first ends. *)
Definition settled (eps : R) (sts : list jstate) (a b : capsule) (s t : R) : Prop :=
  in_unit s /\ in_unit t /\ 0 <= cap_girth sts a + cap_girth sts b /\
  (apart sts a b \/
   (nearest sts a b s t /\ eps <= axis_dist sts a b s t /\
    / 10000000 <= spread_area2 (cap_axis sts a) (cap_axis sts b) /\
    clear_of_start s (vnorm2 (cap_axis sts a)) (spread_area2 (cap_axis sts a) (cap_axis sts b)) /\
    clear_of_start t (vnorm2 (cap_axis sts b)) (spread_area2 (cap_axis sts a) (cap_axis sts b)))).

(** The same with strict inequalities. *)
Definition strictly_clear (s len2 area2 : R) : Prop := s = 0 \/ (/ 10000000 < s * len2 /\ / 10000000 < s * area2).
Definition settled_strictly (eps : R) (sts : list jstate) (a b : capsule) (s t : R) : Prop :=
  in_unit s /\ in_unit t /\ 0 <= cap_girth sts a + cap_girth sts b /\
  (apart sts a b \/
   (nearest sts a b s t /\ eps < axis_dist sts a b s t /\
    / 10000000 < spread_area2 (cap_axis sts a) (cap_axis sts b) /\
    strictly_clear s (vnorm2 (cap_axis sts a)) (spread_area2 (cap_axis sts a) (cap_axis sts b)) /\
    strictly_clear t (vnorm2 (cap_axis sts b)) (spread_area2 (cap_axis sts a) (cap_axis sts b)))).

(** The two capsules of a pair that is tested. *)
Definition capsules_of (E : coll_fn) (pr : cpair) (a b : capsule) : Prop :=
  nth_error (co_geo E) (fst (fst pr)) = Some a /\ nth_error (co_geo E) (snd (fst pr)) = Some b.

(** The penalty, measured at the axis points [N]: 0.005 times the weight times the sum of the squared
    depths of the overlapping pairs. *)
Definition depth_at (E : coll_fn) (sts : list jstate) (N : cpair -> R * R) (pr : cpair) : R :=
  match nth_error (co_geo E) (fst (fst pr)), nth_error (co_geo E) (snd (fst pr)) with
  | Some a, Some b => depth sts a b (fst (N pr)) (snd (N pr))
  | _, _ => 0
  end.
Definition coll_penalty (E : coll_fn) (sts : list jstate) (N : cpair -> R * R) : R :=
  5 / 1000 * co_weight E * rsum (map (fun pr => excess2 (depth_at E sts N pr)) (co_pairs E)).

(** Joints [a] and [b] hang from joint [c], by [n] joints together, and from no joint below it. *)
Definition meets_at (sk : skeleton) (a b c n : nat) : Prop :=
  exists com ra rb, chain sk a (com ++ c :: ra) /\ chain sk b (com ++ c :: rb) /\
    (forall x y ra' rb', ra = x :: ra' -> rb = y :: rb' -> x <> y) /\ n = (length ra + length rb)%nat.

(** Sizes and indices; the joint of a pair is above both capsules. *)
Record coll_wf (E : coll_fn) : Prop := {
  cw_pt : pt_rows (co_pt E) = (7 * length (co_sk E))%nat;
  cw_active_len : length (co_active E) = pt_rows (co_pt E);
  cw_active : forall e, In e (pt_entries (co_pt E)) -> co_enabled E (ecol e) = true ->
      nth (erow e) (co_active E) false = true;
  cw_caps : forall c, In c (co_geo E) -> exists j, cap_parent c = Some j /\ (j < length (co_sk E))%nat;
  cw_pairs : forall pr, In pr (co_pairs E) -> exists a b k ja jb, capsules_of E pr a b /\ snd pr = Some k /\
      cap_parent a = Some ja /\ cap_parent b = Some jb /\ carries (co_sk E) k ja /\ carries (co_sk E) k jb
}.

(** Both radii of a capsule are the same. *)
Definition untapered (c : capsule) : Prop := cap_r0 c = cap_r1 c.
(** Model parameter [i] does not scale the capsule. *)
Definition keeps_size (E : coll_fn) (i : nat) (c : capsule) : Prop :=
  forall j, cap_parent c = Some j -> does_not_scale (co_pt E) (co_sk E) i j.
