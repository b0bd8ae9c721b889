(** Replacing a part of a skeleton by that of another character (C97). *)

From Coq Require Import Bool Reals List Arith String Sorted.
From Verif Require Import Prelude R3 LinAlg Transform_model Skeleton_spec FK_model FK_spec ParamTransform_model ParamTransform_spec
  Locator_model Skin_model Skin_spec Simplify_model Simplify_spec CharUtil_model CharUtil_spec CharMotion_spec CharRemove_spec.
Import ListNotations.
Local Open Scope R_scope.

(** [r] is a proper ancestor of [i]. *)
Definition below (ps : list (option nat)) (r i : nat) : Prop := ancestor ps i r /\ i <> r.

(** A joint of the result: [inl i] is joint [i] of the target, [inr k] joint [k] of the source. *)
Definition from : Type := (nat + nat)%type.
Definition placed (order : list from) (o : from) (q : nat) : Prop := nth_error order q = Some o.

(** The target without what is below its root joint; there, the joints below the root joint of the source. *)
Definition spliced (tps sps : list (option nat)) (troot sroot : nat) (order : list from) : Prop :=
  exists before mid after, order = map inl before ++ inl troot :: map inr mid ++ map inl after /\
    StronglySorted lt (before ++ troot :: after) /\ StronglySorted lt mid /\
    (forall i, In i (before ++ troot :: after) <-> (i < List.length tps)%nat /\ ~ below tps troot i) /\
    (forall k, In k mid <-> below sps sroot k).

(** Name and joint of a member of the result. *)
Definition from_name (src tgt : fchar) (o : from) : option string :=
  match o with inl i => nth_error (fc_names tgt) i | inr k => nth_error (fc_names src) k end.
Definition from_joint (src tgt : fchar) (o : from) : option joint :=
  match o with inl i => nth_error (fc_joints tgt) i | inr k => nth_error (fc_joints src) k end.
(** Its parent: that of the target, or that of the source with the one root joint in place of the other. *)
Definition from_parent (src tgt : fchar) (troot sroot : nat) (o : from) : option from :=
  match o with
  | inl i => match nth_error (fc_joints tgt) i with Some j => option_map inl (jparent j) | None => None end
  | inr k =>
    match nth_error (fc_joints src) k with
    | Some j => option_map (fun p => if (p =? sroot)%nat then inl troot else inr p) (jparent j)
    | None => None
    end
  end.

(** What belongs to a character refers to joints and parameters that exist. *)
Record attached (c : fchar) : Prop := {
  at_ok : fc_ok c;
  at_pt : pt_wf (fc_pt c);
  at_rows : pt_rows (fc_pt c) = (7 * List.length (fc_joints c))%nat;
  at_locs : forall l, In l (fc_locs c) -> exists p, lo_parent l = Some p /\ (p < List.length (fc_joints c))%nat;
  at_caps : forall l x, fc_caps c = Some l -> In x l -> exists p, cap_parent x = Some p /\ (p < List.length (fc_joints c))%nat;
  at_limit_joints : forall l j, In l (fc_limits c) -> In j (limit_joints (ldata (fl_limit l))) -> (j < List.length (fc_joints c))%nat;
  at_limit_params : forall l i, In l (fc_limits c) -> In i (limit_params (ldata (fl_limit l))) -> (i < pt_cols (fc_pt c))%nat;
  at_skin : forall s row j w, fc_skin c = Some s -> In row s -> In (j, w) row -> w <> 0 -> (j < List.length (fc_joints c))%nat
}.

(** The parameter has an effect on a joint that is in the result. *)
Definition drives_placed (pt : ptransform) (side : nat -> from) (order : list from) (c : nat) : Prop :=
  exists e, In e (pt_entries pt) /\ ecol e = c /\ In (side (erow e / 7)%nat) order.

(** Two characters and root joints of the same name; the result has no name twice, and every joint that
    goes can be replaced by a joint of its name or of its parent's name. *)
Record spliceable (src tgt : fchar) (root : string) (sroot troot : nat) (order : list from) : Prop := {
  sp_src : attached src;
  sp_tgt : attached tgt;
  sp_sroot : first_named (fc_names src) root sroot;
  sp_troot : first_named (fc_names tgt) root troot;
  sp_order : spliced (sk_parents (fc_joints tgt)) (sk_parents (fc_joints src)) troot sroot order;
  sp_names : NoDup (map (from_name src tgt) order);
  sp_params : forall i k nm, drives_placed (fc_pt tgt) inl order i -> drives_placed (fc_pt src) inr order k ->
    nth_error (pt_name (fc_pt tgt)) i = Some nm -> nth_error (pt_name (fc_pt src)) k <> Some nm;
  sp_max : (pt_cols (fc_pt tgt) + pt_cols (fc_pt src) <= kMaxModelParams)%nat
}.
(** The name of joint [i] is a name of the result. *)
Definition known (src tgt : fchar) (order : list from) (i : nat) : Prop :=
  exists o, In o order /\ from_name src tgt o = nth_error (fc_names tgt) i.
Definition replaceable (src tgt : fchar) (order : list from) : Prop :=
  forall i, (i < List.length (fc_joints tgt))%nat -> known src tgt order i \/
    exists p, nth_error (sk_parents (fc_joints tgt)) i = Some (Some p) /\ known src tgt order p.

(** [p] holds for every joint of the result the parameters that it has in [tp] or [sp]. *)
Definition joined_params (order : list from) (tp sp p : list R) : Prop :=
  List.length p = (7 * List.length order)%nat /\
  (forall q i d, placed order (inl i) q -> (d < 7)%nat -> nth (7 * q + d) p 0 = nth (7 * i + d) tp 0) /\
  (forall q k d, placed order (inr k) q -> (d < 7)%nat -> nth (7 * q + d) p 0 = nth (7 * k + d) sp 0).

(** The joints of the target are where they were; those of the source are to the root joint as they were. *)
Definition grafted (order : list from) (troot sroot : nat) (tsts ssts sts : list jstate) : Prop :=
  (forall q i s, placed order (inl i) q -> nth_error tsts i = Some s -> exists s', nth_error sts q = Some s' /\ js_world s' = js_world s) /\
  (forall q k s, placed order (inr k) q -> nth_error ssts k = Some s ->
    exists s' rt rs x, nth_error sts q = Some s' /\ nth_error tsts troot = Some rt /\ nth_error ssts sroot = Some rs /\
      js_world s = tf_mul (js_world rs) x /\ js_world s' = tf_mul (js_world rt) x).

(** The parameters of the result: those of the target that are kept, then those of the source. *)
Definition joined_values (tk sk : list bool) (tq sq q : list R) : Prop :=
  List.length q = (new_index tk (List.length tk) + new_index sk (List.length sk))%nat /\
  (forall i, is_kept tk i -> nth (new_index tk i) q 0 = nth i tq 0) /\
  (forall i, is_kept sk i -> nth (new_index tk (List.length tk) + new_index sk i) q 0 = nth i sq 0).

(** A locator or capsule whose joint is now at another place. *)
Definition locator_in (order : list from) (side : nat -> from) (l : locator) : Prop := exists p, lo_parent l = Some p /\ In (side p) order.
Definition locator_placed (order : list from) (side : nat -> from) (l l' : locator) : Prop :=
  lo_name l' = lo_name l /\ lo_offset l' = lo_offset l /\ lo_locked l' = lo_locked l /\ lo_weight l' = lo_weight l /\
  lo_origin l' = lo_origin l /\ lo_lweight l' = lo_lweight l /\
  exists p q, lo_parent l = Some p /\ lo_parent l' = Some q /\ placed order (side p) q.
Definition capsule_in (order : list from) (side : nat -> from) (c : capsule) : Prop := exists p, cap_parent c = Some p /\ In (side p) order.
Definition capsule_placed (order : list from) (side : nat -> from) (c c' : capsule) : Prop :=
  cap_tf c' = cap_tf c /\ cap_r0 c' = cap_r0 c /\ cap_r1 c' = cap_r1 c /\ cap_length c' = cap_length c /\
  exists p q, cap_parent c = Some p /\ cap_parent c' = Some q /\ placed order (side p) q.
Definition caps_of (c : fchar) : list capsule := match fc_caps c with Some l => l | None => [] end.

(** A limit whose joints and parameters are in the result. *)
Definition limit_in (order : list from) (side : nat -> from) (kept : list bool) (l : flimit) : Prop :=
  (forall j, In j (limit_joints (ldata (fl_limit l))) -> In (side j) order) /\
  (forall i, In i (limit_params (ldata (fl_limit l))) -> is_kept kept i).
Definition limit_placed (order : list from) (side : nat -> from) (kept : list bool) (base : nat) (l l' : flimit) : Prop :=
  (exists d, limit_moved (fun j q => placed order (side j) q) (ldata (fl_limit l)) d /\
     limit_renamed (fun i k => is_kept kept i /\ k = (base + new_index kept i)%nat) d (ldata (fl_limit l'))) /\
  lweight (fl_limit l') = lweight (fl_limit l) /\ fl_map l' = fl_map l /\ fl_inv l' = fl_inv l /\ fl_offset l' = fl_offset l.

(** Weight on joint [j] goes to the joint with its name, else to the one with its parent's name. *)
Definition stands_for (src tgt : fchar) (order : list from) (j q : nat) : Prop :=
  exists o, placed order o q /\
    (from_name src tgt o = nth_error (fc_names tgt) j \/
     ~ known src tgt order j /\ exists p, nth_error (sk_parents (fc_joints tgt)) j = Some (Some p) /\ from_name src tgt o = nth_error (fc_names tgt) p).
Definition influence_placed (src tgt : fchar) (order : list from) (x x' : nat * R) : Prop :=
  snd x' = snd x /\ (snd x <> 0 -> stands_for src tgt order (fst x) (fst x') /\ forall q, placed order (inl (fst x)) q -> fst x' = q).
