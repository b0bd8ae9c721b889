(** What the limit penalties mean (C17, C18, C64). *)

From Coq Require Import Bool Reals List Arith.
From Verif Require Import Prelude LinAlg Rbool ParamTransform_model Limits_model.
Import ListNotations.
Local Open Scope R_scope.

(** Square of the amount by which [x] exceeds zero. *)
Definition excess2 (x : R) : R := Rmax 0 x * Rmax 0 x.

(** A linear limit applies to the whole line if its range is (0,0), else to
    [r1, r2). *)
Definition in_range_prop (r1 r2 v : R) : Prop := (r1 = 0 /\ r2 = 0) \/ (r1 <= v < r2).

(** Squared violation of one limit at model parameters [p] and joint parameters
    [jp]: squared distance to the interval, squared residual of the linear
    relation, squared depth behind the half plane. *)
Definition violation2 (en : pset) (ac : list bool) (p jp : list R) (d : limit_data) : R :=
  match d with
  | LMinMax i lo hi =>
      if en i then excess2 (lo - nth i p 0) + excess2 (nth i p 0 - hi) else 0
  | LMinMaxJoint jt k lo hi =>
      let x := nth (jt * 7 + k) jp 0 in
      if nth (jt * 7 + k) ac false then excess2 (lo - x) + excess2 (x - hi) else 0
  | LLinear rf tg sc off r1 r2 =>
      if andb (orb (en tg) (en rf)) (is_in_range r1 r2 (nth tg p 0))
      then (nth tg p 0 * sc - off - nth rf p 0) ^ 2 else 0
  | LHalfPlane p1 p2 n1 n2 off =>
      if orb (en p1) (en p2) then excess2 (off - (nth p1 p 0 * n1 + nth p2 p 0 * n2)) else 0
  | _ => 0
  end.

(** Total penalty: 10 * weight * sum of limit weight times squared violation. *)
Definition limit_penalty (E : limit_fn) (p jp : list R) : R :=
  10 * lf_weight E * rsum (map (fun l => lweight l * violation2 (lf_enabled E) (lf_active E) p jp (ldata l)) (lf_limits E)).

(** The indices of a limit exist ([n] model parameters, [m] joint parameters);
    ellipsoid limits are excluded. *)
Definition limit_valid (n m : nat) (d : limit_data) : Prop :=
  match d with
  | LMinMax i _ _ => (i < n)%nat
  | LMinMaxJoint jt k _ _ => (jt * 7 + k < m)%nat
  | LMinMaxJointPassive _ _ _ _ => True
  | LLinear rf tg _ _ _ _ => (rf < n)%nat /\ (tg < n)%nat
  | LHalfPlane p1 p2 _ _ _ => (p1 < n)%nat /\ (p2 < n)%nat
  | LEllipsoid _ _ => False
  end.

Record limit_fn_wf (E : limit_fn) (m : nat) : Prop := {
  lw_max : (lf_n E <= kMaxModelParams)%nat;
  lw_active : List.length (lf_active E) = m;
  lw_entries : forall e, In e (lf_entries E) -> (ecol e < lf_n E)%nat;
  lw_limits : forall l, In l (lf_limits E) -> limit_valid (lf_n E) m (ldata l)
}.

(** The penalty is not differentiable (not even continuous) at the ends of the
    range of a linear limit. *)
Definition away_from_range_ends (p : list R) (d : limit_data) : Prop :=
  match d with
  | LLinear _ tg _ _ r1 r2 => (r1 = 0 /\ r2 = 0) \/ (nth tg p 0 <> r1 /\ nth tg p 0 <> r2)
  | _ => True
  end.

(** Linear and half-plane limits have weight 1. *)
Definition unit_weight_if_two_params (l : plimit) : Prop :=
  match ldata l with
  | LLinear _ _ _ _ _ _ | LHalfPlane _ _ _ _ _ => lweight l = 1
  | _ => True
  end.

(** Side conditions under which the Jacobian is meaningful: the interval is not
    inverted and the two parameters are different. *)
Definition jac_conditions (l : plimit) : Prop :=
  0 <= lweight l /\
  match ldata l with
  | LMinMax _ lo hi | LMinMaxJoint _ _ lo hi => lo <= hi
  | LLinear rf tg _ _ _ _ => rf <> tg
  | LHalfPlane p1 p2 _ _ _ => p1 <> p2
  | _ => True
  end.

(** Inner product of column [i] of the Jacobian rows with the residual. *)
Definition jt_r (rows : list (list R * R)) (i : nat) : R :=
  rsum (map (fun row => nth i (fst row) 0 * snd row) rows).

(** The limit is met (disabled or inactive parameters are not constrained). *)
Definition inside (E : limit_fn) (p jp : list R) (d : limit_data) : Prop :=
  match d with
  | LMinMax i lo hi => lf_enabled E i = true -> lo <= nth i p 0 <= hi
  | LMinMaxJoint jt k lo hi => nth (jt * 7 + k) (lf_active E) false = true -> lo <= nth (jt * 7 + k) jp 0 <= hi
  | LLinear rf tg sc off r1 r2 =>
      lf_enabled E tg = true \/ lf_enabled E rf = true -> in_range_prop r1 r2 (nth tg p 0) ->
      nth rf p 0 = sc * nth tg p 0 - off
  | LHalfPlane p1 p2 n1 n2 off =>
      lf_enabled E p1 = true \/ lf_enabled E p2 = true -> nth p1 p 0 * n1 + nth p2 p 0 * n2 - off >= 0
  | _ => True
  end.

(** Does the limit count in getError? (A linear limit with both parameters
    disabled is counted by getGradient only.) *)
Definition counted (en : pset) (d : limit_data) : Prop :=
  match d with LLinear rf tg _ _ _ _ => en tg = true \/ en rf = true | _ => True end.

(** Joint parameter and interval of a passive limit. *)
Definition passive_index (l : plimit) : option (nat * R * R) :=
  match ldata l with LMinMaxJointPassive jt k lo hi => Some ((jt * 7 + k)%nat, lo, hi) | _ => None end.

(** One limit per joint parameter, with a proper interval. *)
Definition passive_once (ls : list plimit) : Prop :=
  forall l1 l2 ls1 ls2 ls3 i lo hi lo' hi',
    ls = ls1 ++ l1 :: ls2 ++ l2 :: ls3 ->
    passive_index l1 = Some (i, lo, hi) -> passive_index l2 = Some (i, lo', hi') -> False.

