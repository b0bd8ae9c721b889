(** What ellipsoid limits mean (C101). *)

From Coq Require Import Bool Reals List Arith.
From Verif Require Import Prelude LinAlg R3 Transform_model Skeleton_model FK_model FK_spec ParamTransform_model
  Limits_model Limits_spec Skin_model CharUtil_model Ellipsoid_model.
Import ListNotations.
Local Open Scope R_scope.

(** The world point of a point [x] in the frame of joint [j]. *)
Definition world_point (sts : list jstate) (j : nat) (x : vec3) : vec3 :=
  match nth_error sts j with Some s => tf_point (js_world s) x | None => vzero end.

(** A limit as an ellipsoid: the joint that carries the ellipsoid and the joint that carries the point. *)
Definition ell (l : flimit) : option (nat * nat) :=
  match ldata (fl_limit l) with LEllipsoid e p => Some (e, p) | _ => None end.

(** The limited point, and the image of a point [u] of the unit ball. *)
Definition limited_point (sts : list jstate) (l : flimit) : vec3 :=
  match ell l with Some (_, p) => world_point sts p (fl_offset l) | None => vzero end.
Definition ell_image (sts : list jstate) (l : flimit) (u : vec3) : vec3 :=
  match ell l with Some (e, _) => world_point sts e (aff_point (fl_map l) u) | None => vzero end.

(** The two stored maps are inverse to each other. *)
Definition inverse_maps (l : flimit) : Prop :=
  (forall x, aff_point (fl_inv l) (aff_point (fl_map l) x) = x) /\
  (forall x, aff_point (fl_map l) (aff_point (fl_inv l) x) = x).

Definition on_surface (sts : list jstate) (l : flimit) : Prop :=
  exists u, vdot u u = 1 /\ limited_point sts l = ell_image sts l u.
Definition at_centre (sts : list jstate) (l : flimit) : Prop :=
  limited_point sts l = ell_image sts l vzero.

(** [y] is the point of the surface on the ray from the centre through the limited point. *)
Definition radial_point (sts : list jstate) (l : flimit) (y : vec3) : Prop :=
  exists u lam, vdot u u = 1 /\ 0 < lam /\ limited_point sts l = ell_image sts l (vscale lam u) /\ y = ell_image sts l u.

(** The squared violation of a limit, where the ellipsoid limits are measured to the points [Y], and the
    total penalty: 10 * weight * sum of weight times squared violation, with a factor 1e-4 for the
    ellipsoids. *)
Definition ell_violation2 (X : xlimit_fn) (Y : flimit -> vec3) (p jp : list R) (sts : list jstate) (l : flimit) : R :=
  match ell l with
  | Some _ => / 10000 * vnorm2 (vsub (limited_point sts l) (Y l))
  | None => violation2 (xl_enabled X) (xl_active X) p jp (ldata (fl_limit l))
  end.
Definition xl_penalty (X : xlimit_fn) (Y : flimit -> vec3) (p jp : list R) (sts : list jstate) : R :=
  10 * xl_weight X * rsum (map (fun l => lweight (fl_limit l) * ell_violation2 X Y p jp sts l) (xl_limits X)).

(** The limit is met. At the centre of the ellipsoid nothing is penalised. *)
Definition xl_inside (X : xlimit_fn) (p jp : list R) (sts : list jstate) (l : flimit) : Prop :=
  match ell l with
  | Some _ => on_surface sts l \/ at_centre sts l
  | None => inside (xl_base X) p jp (ldata (fl_limit l))
  end.

(** Model parameter [i] moves neither joint [e] nor one of its ancestors. *)
Definition does_not_move (pt : ptransform) (sk : skeleton) (i e : nat) : Prop :=
  forall chn a k en, chain sk e chn -> In a chn -> (k < 7)%nat -> In en (pt_entries pt) ->
    erow en = (7 * a + k)%nat -> ecol en = i -> eval en = 0.

(** Model parameter [i] scales neither joint [e] nor one of its ancestors. *)
Definition does_not_scale (pt : ptransform) (sk : skeleton) (i e : nat) : Prop :=
  forall chn a en, chain sk e chn -> In a chn -> In en (pt_entries pt) ->
    erow en = (7 * a + 6)%nat -> ecol en = i -> eval en = 0.

(** Joint [e] is joint [p] or one of its ancestors. *)
Definition carries (sk : skeleton) (e p : nat) : Prop := exists chn, chain sk p chn /\ In e chn.

(** Model parameter [i] does not move the ellipsoid on joint [e], or joint [e] carries joint [p] and the
    parameter moves the ellipsoid without scaling it. *)
Definition steady (pt : ptransform) (sk : skeleton) (i e p : nat) : Prop :=
  does_not_move pt sk i e \/ (carries sk e p /\ does_not_scale pt sk i e).

(** The ellipsoid is a sphere: its linear map scales all inner products alike. *)
Definition sphere (l : flimit) : Prop :=
  exists r2, forall u v, vdot (mvec (alin (fl_map l)) u) (mvec (alin (fl_map l)) v) = r2 * vdot u v.

(** Sizes and indices. *)
Record xlimit_wf (X : xlimit_fn) : Prop := {
  xw_pt : pt_rows (xl_pt X) = (7 * length (xl_sk X))%nat;
  xw_active_len : length (xl_active X) = pt_rows (xl_pt X);
  xw_active : forall e, In e (pt_entries (xl_pt X)) -> xl_enabled X (ecol e) = true ->
      nth (erow e) (xl_active X) false = true;
  xw_plain : forall l, In l (xl_limits X) -> ell l = None ->
      limit_valid (pt_cols (xl_pt X)) (pt_rows (xl_pt X)) (ldata (fl_limit l));
  xw_ell : forall l e p, In l (xl_limits X) -> ell l = Some (e, p) ->
      (e < length (xl_sk X))%nat /\ (p < length (xl_sk X))%nat
}.
