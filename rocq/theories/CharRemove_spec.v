(** Removing joints (C95). *)

From Coq Require Import Bool Reals List Arith String.
From Verif Require Import Prelude R3 LinAlg Transform_model Skeleton_spec FK_model FK_spec ParamTransform_model ParamTransform_spec
  Locator_model Skin_model Skin_spec Simplify_model Simplify_spec CharUtil_model CharUtil_spec.
Import ListNotations.
Local Open Scope R_scope.

(** A joint stays if neither it nor a joint above it is to be removed. *)
Definition stays (ps : list (option nat)) (js : list nat) (i : nat) : Prop :=
  (i < List.length ps)%nat /\ forall a, ancestor ps i a -> ~ In a js.

(** [enabled] marks the joints that stay. *)
Definition marks (sk : skeleton) (js : list nat) (enabled : list bool) : Prop :=
  List.length enabled = List.length sk /\ forall i, is_kept enabled i <-> stays (sk_parents sk) js i.

(** A consistent character, joints to remove that exist, and no vertex that only hangs on removed
    joints. *)
Record removable (c : fchar) (js : list nat) : Prop := {
  rm_ok : fc_ok c;
  rm_pt : pt_wf (fc_pt c);
  rm_rows : pt_rows (fc_pt c) = (7 * List.length (fc_joints c))%nat;
  rm_js : forall j, In j js -> (j < List.length (fc_joints c))%nat;
  rm_locs : forall l, In l (fc_locs c) -> exists p, lo_parent l = Some p /\ (p < List.length (fc_joints c))%nat;
  rm_caps : forall l x, fc_caps c = Some l -> In x l -> exists p, cap_parent x = Some p /\ (p < List.length (fc_joints c))%nat;
  rm_limit_joints : forall l j, In l (fc_limits c) -> In j (limit_joints (ldata (fl_limit l))) -> (j < List.length (fc_joints c))%nat;
  rm_limit_params : forall l i, In l (fc_limits c) -> In i (limit_params (ldata (fl_limit l))) -> (i < pt_cols (fc_pt c))%nat;
  rm_skin : forall s row j w, fc_skin c = Some s -> In row s -> In (j, w) row -> w <> 0 ->
    exists a, ancestor (sk_parents (fc_joints c)) j a /\ stays (sk_parents (fc_joints c)) js a
}.

(** [p'] holds, for the joints that stay, the parameters that they have in [p]. *)
Definition same_params (enabled : list bool) (p p' : list R) : Prop :=
  List.length p' = (7 * new_index enabled (List.length enabled))%nat /\
  forall i d, is_kept enabled i -> (d < 7)%nat -> nth (7 * new_index enabled i + d) p' 0 = nth (7 * i + d) p 0.

(** [q'] holds, for the parameters that stay, the values that they have in [q]. *)
Definition same_values (pkept : list bool) (q q' : list R) : Prop :=
  List.length q' = new_index pkept (List.length pkept) /\
  forall i, is_kept pkept i -> nth (new_index pkept i) q' 0 = nth i q 0.

(** The members of [l] that pass [f], in their order, each changed along [R]. *)
Definition passed {A} (f : A -> Prop) (R : A -> A -> Prop) (l l' : list A) : Prop :=
  exists pick : A -> bool, (forall x, In x l -> (pick x = true <-> f x)) /\ Forall2 R (filter pick l) l'.

(** What is fixed to joint [p] is now fixed to its new number, and is otherwise the same. *)
Definition locator_kept (enabled : list bool) (l : locator) : Prop := exists p, lo_parent l = Some p /\ is_kept enabled p.
Definition locator_renumbered (enabled : list bool) (l l' : locator) : Prop :=
  lo_name l' = lo_name l /\ lo_parent l' = option_map (new_index enabled) (lo_parent l) /\ lo_offset l' = lo_offset l /\
  lo_locked l' = lo_locked l /\ lo_weight l' = lo_weight l /\ lo_origin l' = lo_origin l /\ lo_lweight l' = lo_lweight l.
Definition capsule_kept (enabled : list bool) (c : capsule) : Prop := exists p, cap_parent c = Some p /\ is_kept enabled p.
Definition capsule_renumbered (enabled : list bool) (c c' : capsule) : Prop :=
  cap_tf c' = cap_tf c /\ cap_r0 c' = cap_r0 c /\ cap_r1 c' = cap_r1 c /\ cap_length c' = cap_length c /\
  cap_parent c' = option_map (new_index enabled) (cap_parent c).
Definition limit_stays (enabled pkept : list bool) (l : flimit) : Prop :=
  (forall j, In j (limit_joints (ldata (fl_limit l))) -> is_kept enabled j) /\
  (forall i, In i (limit_params (ldata (fl_limit l))) -> is_kept pkept i).
Definition limit_renumbered (enabled pkept : list bool) (l l' : flimit) : Prop :=
  (exists d, limit_moved (fun j k => is_kept enabled j /\ k = new_index enabled j) (ldata (fl_limit l)) d /\
     limit_renamed (fun i k => is_kept pkept i /\ k = new_index pkept i) d (ldata (fl_limit l'))) /\
  lweight (fl_limit l') = lweight (fl_limit l) /\ fl_map l' = fl_map l /\ fl_inv l' = fl_inv l /\ fl_offset l' = fl_offset l.

(** Weight on joint [j] goes to the nearest joint above (or [j] itself) that stays. *)
Definition influence_moved (ps : list (option nat)) (enabled : list bool) (x x' : nat * R) : Prop :=
  snd x' = snd x /\ (snd x <> 0 -> exists a, nearest_kept ps enabled (fst x) a /\ fst x' = new_index enabled a).

(** Parameter [i] is in the set [nm]. *)
Definition in_set (sets : list (string * pset)) (nm : string) (i : nat) : Prop := exists s, In (nm, s) sets /\ s i = true.

(** The same character with other skin weights. *)
Definition with_skin (c : fchar) (s : list (list (nat * R))) : fchar :=
  FC (fc_names c) (fc_joints c) (fc_pt c) (fc_limits c) (fc_locs c) (fc_mesh c) (Some s) (fc_caps c) (fc_pose c) (fc_blend c) (fc_inv c).

(** The inverse bind pose is that of zero joint parameters, as for a character that was made without one. *)
Definition zero_bind (c : fchar) : Prop :=
  exists sts, fk (fc_joints c) (repeat 0 (7 * List.length (fc_joints c))) = Ok sts /\ fc_inv c = map (fun s => tf_affine (tf_inv (js_world s))) sts.

(** Joint [j] moves points from the bind pose as joint [a] does. *)
Definition moves_with (worlds inv : list affine) (j a : nat) : Prop :=
  exists wj bj wa ba, nth_error worlds j = Some wj /\ nth_error inv j = Some bj /\ nth_error worlds a = Some wa /\ nth_error inv a = Some ba /\
    forall p, aff_point wj (aff_point bj p) = aff_point wa (aff_point ba p).
