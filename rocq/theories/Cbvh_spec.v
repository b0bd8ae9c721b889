(** What the tree has to deliver, and how the two collision functions are related (C104). *)

From Coq Require Import Bool Reals List Arith.
From Verif Require Import Prelude LinAlg R3 Transform_model Skeleton_model FK_model FK_spec ParamTransform_model
  Skin_model CharUtil_model Seg_spec Coll_model Coll_spec Cbvh_model.
Import ListNotations.
Local Open Scope R_scope.

(** Two boxes overlap in every coordinate. *)
Definition boxes_meet (b c : rbox) : Prop :=
  (vx (rb_lo b) <= vx (rb_hi c) /\ vx (rb_lo c) <= vx (rb_hi b)) /\
  (vy (rb_lo b) <= vy (rb_hi c) /\ vy (rb_lo c) <= vy (rb_hi b)) /\
  (vz (rb_lo b) <= vz (rb_hi c) /\ vz (rb_lo c) <= vz (rb_hi b)).
(** A box contains a point. *)
Definition box_has (b : rbox) (p : vec3) : Prop :=
  vx (rb_lo b) <= vx p <= vx (rb_hi b) /\ vy (rb_lo b) <= vy p <= vy (rb_hi b) /\ vz (rb_lo b) <= vz p <= vz (rb_hi b).

Definition visited (vs : list (nat * nat)) (i j : nat) : Prop := In (i, j) vs \/ In (j, i) vs.
(** A traversal visits pairs of different boxes, each pair at most once and in one order only, and at least
    those that meet. *)
Record traversal (boxes : list rbox) (vs : list (nat * nat)) : Prop := {
  tv_range : forall i j, In (i, j) vs -> (i < length boxes)%nat /\ (j < length boxes)%nat /\ i <> j;
  tv_once : NoDup vs;
  tv_one_way : forall i j, In (i, j) vs -> ~ In (j, i) vs;
  tv_complete : forall i j b c, (i < j)%nat -> nth_error boxes i = Some b -> nth_error boxes j = Some c -> boxes_meet b c -> visited vs i j
}.

(** The boxes around the capsules of [B] in a pose. *)
Definition capsule_boxes (B : bcoll_fn) (sts : list jstate) (boxes : list rbox) : Prop :=
  exists cs, caps_update sts (bc_geo B) = Ok cs /\ boxes = map update_aabb cs.

(** [B] has the members of [E] and excludes exactly the pairs that [E] does not test. *)
Record same_function (E : coll_fn) (B : bcoll_fn) : Prop := {
  sf_sk : bc_sk B = co_sk E;
  sf_pt : bc_pt B = co_pt E;
  sf_geo : bc_geo B = co_geo E;
  sf_weight : bc_weight B = co_weight E;
  sf_enabled : bc_enabled B = co_enabled E;
  sf_active : bc_active B = co_active E;
  sf_eps : bc_eps B = co_eps E;
  sf_size : bc_size B = length (co_pairs E);
  sf_once : NoDup (map fst (co_pairs E));
  sf_order : forall i j a, In (i, j, a) (co_pairs E) -> (i < j)%nat;
  sf_excluded : forall i j, (i < j)%nat -> (j < length (co_geo E))%nat ->
     (excluded B (i, j) = false <-> exists a, In (i, j, a) (co_pairs E))
}.

(** The pose of the last call that had one, and the visits for it. *)
Definition call_pose (c : bcall) : list (nat * nat) * list jstate :=
  match c with BError vs _ sts => (vs, sts) | BGradient vs _ sts _ => (vs, sts) | BJacobian vs _ sts => (vs, sts) end.
Fixpoint last_pose (l : list bcall) : option (list (nat * nat) * list jstate) :=
  match l with
  | [] => None
  | c :: r => match last_pose r with
              | Some x => Some x
              | None => match snd (call_pose c) with [] => None | _ => Some (call_pose c) end
              end
  end.
