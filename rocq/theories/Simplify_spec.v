(** Simplified skeletons (C46). *)

From Coq Require Import Bool Reals List Arith.
From Verif Require Import Prelude R3 Transform_model Skeleton_spec FK_model ParamTransform_model ParamTransform_spec Locator_model Locator_spec.
Import ListNotations.
Local Open Scope R_scope.

Definition is_kept (enabled : list bool) (a : nat) : Prop := nth_error enabled a = Some true.

(** [a] is the nearest kept joint on the way from [j] (included) to the root. *)
Definition nearest_kept (ps : list (option nat)) (enabled : list bool) (j a : nat) : Prop :=
  ancestor ps j a /\ is_kept enabled a /\ forall b, ancestor ps j b -> is_kept enabled b -> ancestor ps a b.

(** The place of joint [a] among the kept joints. *)
Definition new_index (enabled : list bool) (a : nat) : nat := length (filter (fun b => b) (firstn a enabled)).

(** [r] is a removed joint between [a] and the nearest kept joint above [a]. *)
Inductive between (ps : list (option nat)) (enabled : list bool) : nat -> nat -> Prop :=
| between_parent a r : nth_error ps a = Some (Some r) -> nth_error enabled r = Some false -> between ps enabled a r
| between_up a p r : nth_error ps a = Some (Some p) -> nth_error enabled p = Some false -> between ps enabled p r ->
    between ps enabled a r.

(** The parameters of a joint that only move it. *)
Definition only_translates (p : jparam) : Prop := jrx p = 0 /\ jry p = 0 /\ jrz p = 0 /\ jsc p = 0.
Definition no_translation (p : jparam) : Prop := jtx p = 0 /\ jty p = 0 /\ jtz p = 0.

(** The worlds of the kept joints agree. *)
Definition same_worlds (enabled : list bool) (sts sts' : list jstate) : Prop :=
  forall a s, is_kept enabled a -> nth_error sts a = Some s ->
    exists s', nth_error sts' (new_index enabled a) = Some s' /\ js_world s' = js_world s.

(** Joint [j] of a limit becomes [k]. *)
Inductive limit_moved (m : nat -> nat -> Prop) : limit_data -> limit_data -> Prop :=
| LM_minmax p lo hi : limit_moved m (LMinMax p lo hi) (LMinMax p lo hi)
| LM_joint j k p lo hi : m j k -> limit_moved m (LMinMaxJoint j p lo hi) (LMinMaxJoint k p lo hi)
| LM_passive j k p lo hi : m j k -> limit_moved m (LMinMaxJointPassive j p lo hi) (LMinMaxJointPassive k p lo hi)
| LM_linear a b s o r1 r2 : limit_moved m (LLinear a b s o r1 r2) (LLinear a b s o r1 r2)
| LM_ellipsoid a b a' b' : m a a' -> m b b' -> limit_moved m (LEllipsoid a b) (LEllipsoid a' b')
| LM_half a b n1 n2 o : limit_moved m (LHalfPlane a b n1 n2 o) (LHalfPlane a b n1 n2 o).

(** The joints a limit refers to. *)
Definition limit_joints (d : limit_data) : list nat :=
  match d with
  | LMinMaxJoint j _ _ _ | LMinMaxJointPassive j _ _ _ => [j]
  | LEllipsoid a b => [a; b]
  | _ => []
  end.

(** A character, and joints to keep that include all roots. *)
Record simplifiable (c : character) (enabled : list bool) : Prop := {
  sf_wf : ch_wf c;
  sf_len : length enabled = length (ch_skel c);
  sf_any : exists a, is_kept enabled a;
  sf_roots : forall i, nth_error (sk_parents (ch_skel c)) i = Some None -> is_kept enabled i;
  sf_limits : forall l j, In l (ch_limits c) -> In j (limit_joints (ldata l)) -> (j < length (ch_skel c))%nat
}.

(** A joint has a stored coefficient for one of the parameters. *)
Definition driven_by (pt : ptransform) (S : pset) (j : nat) : Prop :=
  exists e, In e (pt_entries pt) /\ (erow e / 7 = j)%nat /\ S (ecol e) = true.
(** A parameter has a stored coefficient on an active joint. *)
Definition drives_active (pt : ptransform) (active : list bool) (p : nat) : Prop :=
  exists e, In e (pt_entries pt) /\ ecol e = p /\ nth_error active (erow e / 7) = Some true.
