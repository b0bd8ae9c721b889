(** Locators turned into joints (C48). *)

From Coq Require Import Bool Reals List Arith String.
From Verif Require Import Prelude R3 Transform_model Skeleton_spec FK_model FK_spec ParamTransform_model ParamTransform_spec
  Locator_model.
Import ListNotations.
Local Open Scope R_scope.

(** A character as the loaders produce it: parents come first, rotations are unit quaternions, the
    parameter transform is consistent, and every locator is attached to a joint. *)
Record ch_wf (c : character) : Prop := {
  cw_parents : parents_first (sk_parents (ch_skel c));
  cw_unit : unit_prerotations (ch_skel c);
  cw_pt : pt_wf (ch_pt c);
  cw_rows : pt_rows (ch_pt c) = (7 * List.length (ch_skel c))%nat;
  cw_locs : forall l, In l (ch_locators c) -> exists p, lo_parent l = Some p /\ (p < List.length (ch_skel c))%nat
}.

(** The number of axes of a locator that may move, of those before axis [j]. *)
Definition free_below (l : locator) (j : nat) : nat := List.length (filter (fun a => negb (locked l a)) (seq 0 j)).
Definition free_axes (l : locator) : nat := free_below l 3.
(** The number of free axes of a list of locators. *)
Definition free_total (ls : list locator) : nat := list_sum (map free_axes ls).
(** The joint made for locator [i], and the parameter made for its axis [j]. *)
Definition joint_of (c : character) (i : nat) : nat :=
  List.length (ch_skel c) + List.length (filter (fun l => negb (all_locked l)) (firstn i (ch_locators c))).
Definition param_of (c : character) (i : nat) (l : locator) (j : nat) : nat :=
  pt_cols (ch_pt c) + free_total (firstn i (ch_locators c)) + free_below l j.

(** The position of a locator, given the states of the joints. *)
Definition locator_at (sts : list jstate) (l : locator) (pos : vec3) : Prop :=
  exists p s, lo_parent l = Some p /\ nth_error sts p = Some s /\ pos = tf_point (js_world s) (lo_offset l).

(** The translation of locator [i] in the pose [q]: the values of its parameters, zero where it is locked. *)
Definition moved_by (c : character) (q : list R) (i : nat) (l : locator) : vec3 :=
  let g j := if locked l j then 0 else nth (param_of c i l j) q 0 in V3 (g 0%nat) (g 1%nat) (g 2%nat).

(** The locator with another offset. *)
Definition with_offset (l : locator) (o : vec3) : locator :=
  Locator (lo_name l) (lo_parent l) o (lo_locked l) (lo_weight l) (lo_origin l) (lo_lweight l).

(** Offsets of the joint parameters that leave the new joints alone. *)
Definition old_joints_only (c : character) (offsets : list R) : Prop :=
  forall r, (7 * List.length (ch_skel c) <= r)%nat -> nth r offsets 0 = 0.

(** [sts] are the states of the joints in the pose [q]. *)
Definition posed (c : character) (q : list R) (sts : list jstate) : Prop :=
  exists jp, pt_apply (ch_pt c) q = Ok jp /\ fk (ch_skel c) jp = Ok sts.
