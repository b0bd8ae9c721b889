(** Specification vocabulary for parameter transforms (C08-C11, C62). *)

From Coq Require Import Reals List Arith ZArith String.
From Verif Require Import Prelude LinAlg ParamTransform_model.
Import ListNotations.
Local Open Scope R_scope.

(** The parameters a limit refers to. *)
Definition limit_params (d : limit_data) : list nat :=
  match d with
  | LMinMax p _ _ => [p]
  | LLinear rf tg _ _ _ _ => [rf; tg]
  | LHalfPlane p1 p2 _ _ _ => [p1; p2]
  | _ => []
  end.

(** A consistent transform: sizes match and stored indices exist. *)
Record pt_wf (pt : ptransform) : Prop := {
  wf_names : List.length (pt_name pt) = pt_cols pt;
  wf_offsets : List.length (pt_offsets pt) = pt_rows pt;
  wf_max : (pt_cols pt <= kMaxModelParams)%nat;
  wf_entries : forall e, In e (pt_entries pt) -> (erow e < pt_rows pt)%nat /\ (ecol e < pt_cols pt)%nat;
  wf_pose : forall nm l i v, In (nm, l) (pt_pose pt) -> In (i, v) l -> (i < pt_cols pt)%nat;
  wf_blend : forall z, In z (pt_blend pt) -> (z < Z.of_nat (pt_cols pt))%Z;
  wf_face : forall z, In z (pt_face pt) -> (z < Z.of_nat (pt_cols pt))%Z
}.
Definition limits_wf (n : nat) (ls : list plimit) : Prop :=
  forall l i, In l ls -> In i (limit_params (ldata l)) -> (i < n)%nat.

(** The kept parameters, in their old order. *)
Definition kept (n : nat) (S : pset) : list nat := filter S (seq 0 n).

(** New parameter [k] is old parameter [i]. *)
Definition same_param (n : nat) (S : pset) (i k : nat) : Prop := nth_error (kept n S) k = Some i.

(** [l'] is limit [l] with its parameters renamed along [ren]. *)
Inductive limit_renamed (ren : nat -> nat -> Prop) : limit_data -> limit_data -> Prop :=
| LR_minmax p p' lo hi : ren p p' -> limit_renamed ren (LMinMax p lo hi) (LMinMax p' lo hi)
| LR_joint j p lo hi : limit_renamed ren (LMinMaxJoint j p lo hi) (LMinMaxJoint j p lo hi)
| LR_passive j p lo hi : limit_renamed ren (LMinMaxJointPassive j p lo hi) (LMinMaxJointPassive j p lo hi)
| LR_linear a b a' b' s o r1 r2 : ren a a' -> ren b b' ->
    limit_renamed ren (LLinear a b s o r1 r2) (LLinear a' b' s o r1 r2)
| LR_ellipsoid a b : limit_renamed ren (LEllipsoid a b) (LEllipsoid a b)
| LR_half a b a' b' n1 n2 o : ren a a' -> ren b b' ->
    limit_renamed ren (LHalfPlane a b n1 n2 o) (LHalfPlane a' b' n1 n2 o).

(** All parameters of the limit are kept. *)
Definition limit_kept (S : pset) (l : plimit) : bool := forallb S (limit_params (ldata l)).

(** Dense matrix entry: sum of the stored entries at (r, c). *)
Definition coeff (pt : ptransform) (r c : nat) : R :=
  rsum (map (fun e => if andb (Nat.eqb (erow e) r) (Nat.eqb (ecol e) c) then eval e else 0) (pt_entries pt)).

(** Two transforms agree field by field (parameter sets bit by bit). *)
Definition sets_agree (a b : list (string * pset)) : Prop :=
  Forall2 (fun x y => fst x = fst y /\ forall k, snd x k = snd y k) a b.
Definition pt_agree (a b : ptransform) : Prop :=
  pt_name a = pt_name b /\ pt_rows a = pt_rows b /\ pt_cols a = pt_cols b /\
  pt_entries a = pt_entries b /\ pt_offsets a = pt_offsets b /\ pt_active a = pt_active b /\
  sets_agree (pt_sets a) (pt_sets b) /\ pt_pose a = pt_pose b /\ pt_blend a = pt_blend b /\
  pt_face a = pt_face b.
