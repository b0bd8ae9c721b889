(** What the constraints measure, written with the world transform of the parent
    joint. *)

From Coq Require Import Bool Reals List Arith.
From Verif Require Import Prelude LinAlg Rbool R3 Transform_model FK_model ParamTransform_model
  Limits_model Loss_model Constraint_model.
Import ListNotations.
Local Open Scope R_scope.

(** The residual of a constraint whose parent joint has world transform [T]. *)
Definition residual (d : cdata) (T : tf) : list R :=
  let point x := tf_point T x in
  let dir x := qrot (rot T) x in
  match d with
  | CPosition o tg => vlist (vsub (point o) tg)
  | CPlane half o n dd => [if half then Rmin 0 (vdot (point o) n - dd) else vdot (point o) n - dd]
  | COrientation o tg =>
      vlist (vsub (dir (qrot o ex)) (qrot tg ex)) ++ vlist (vsub (dir (qrot o ey)) (qrot tg ey)) ++
      vlist (vsub (dir (qrot o ez)) (qrot tg ez))
  | CNormal lp ln gp => [vdot (dir ln) (vsub (point lp) gp)]
  | CAimDist lp ld gt =>
      let u := vsub gt (point lp) in vlist (vsub (vscale (vdot (dir ld) u) (dir ld)) u)
  | CAimDir lp ld gt =>
      let u := vsub gt (point lp) in vlist (vsub (dir ld) (vscale (/ sqrt (vnorm2 u)) u))
  | CFixedAxisDiff la ga => vlist (vsub (dir la) ga)
  | CFixedAxisCos la ga => [1 - vdot (dir la) ga]
  | CFixedAxisAngle la ga => [acos (vdot (dir la) ga)]
  end.

(** Where the residual is defined and smooth: the aim target is not (within
    1e-16 of) the point, and the angle is not (within about 1e-9 of) 0 or pi. *)
Definition smooth (d : cdata) (T : tf) : Prop :=
  match d with
  | CAimDir lp ld gt => kTiny < sqrt (vnorm2 (vsub gt (tf_point T lp)))
  | CFixedAxisAngle la ga =>
      let c := vdot (qrot (rot T) la) ga in -1 < c < 1 /\ kSine < sqrt (1 - c * c)
  | _ => True
  end.

(** Eigen's isZero has a tolerance; the vector (matrix) is either exactly zero
    or above it. *)
Definition resolved (prec : R) (f : list R) : Prop :=
  (forall x, In x f -> x = 0) \/ (exists x, In x f /\ prec < Rabs x).
Definition resolved_mat (prec : R) (m : list vec3) : Prop :=
  (forall r, In r m -> r = vzero) \/
  (exists r x, In r m /\ In x (vlist r) /\ prec < Rabs x).

(** The conditions on one constraint at the parent's state [s]. *)
Record regular (prec : R) (c : constr) (s : jstate) : Prop := {
  reg_smooth : smooth (cdat c) (js_world s);
  reg_f : resolved prec (ev_f (eval_function (cdat c) s));
  reg_d : forall m, In m (ev_d (eval_function (cdat c) s)) -> resolved_mat prec m
}.

(** The conditions for the Jacobian: the weight is not negative, and unless it is
    zero the factor sqrt(w * loss') is above the tolerance of its zero test. *)
Record jac_regular (E : cfn) (c : constr) (s : jstate) : Prop := {
  jreg_smooth : smooth (cdat c) (js_world s);
  jreg_d : forall m, In m (ev_d (eval_function (cdat c) s)) -> resolved_mat (cf_prec E) m;
  jreg_weight : 0 <= cweight c * cf_weight E;
  jreg_tol : cweight c * cf_weight E = 0 \/
    cf_tol E <= sqrt (cweight c * cf_weight E *
                      loss_deriv (cf_loss E) (sqnorm (ev_f (eval_function (cdat c) s))))
}.

(** A consistent constraint error function. *)
Record cfn_wf (E : cfn) : Prop := {
  cwf_pt_rows : pt_rows (cf_pt E) = (7 * List.length (cf_sk E))%nat;
  cwf_active_len : List.length (cf_active E) = pt_rows (cf_pt E);
  cwf_active : forall e, In e (pt_entries (cf_pt E)) -> cf_enabled E (ecol e) = true ->
      nth (erow e) (cf_active E) false = true;
  cwf_parents : forall c, In c (cf_constraints E) -> (cparent c < List.length (cf_sk E))%nat;
  cwf_prec : 0 <= cf_prec E
}.

(** The weighted sum of the losses of the squared residuals. *)
Definition constraint_objective (E : cfn) (sts : list jstate) : R :=
  cf_weight E *
  rsum (map (fun c => match nth_error sts (cparent c) with
                      | Some s => cweight c * loss_value (cf_loss E) (sqnorm (residual (cdat c) (js_world s)))
                      | None => 0 end) (cf_constraints E)).
