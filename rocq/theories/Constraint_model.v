(** The constraint error functions: momentum/character_solver/
    constraint_error_function-inl.h and the evalFunction of the position, plane,
    orientation, normal, aim and fixed-axis error functions. Scalars are reals. *)

From Coq Require Import Bool Reals List Arith ZArith String.
From Verif Require Import Prelude LinAlg Rbool R3 Transform_model FK_model ParamTransform_model
  Limits_model Loss_model.
Import ListNotations.
Local Open Scope R_scope.
Local Open Scope bool_scope.
Local Open Scope outcome_scope.

(** The constraint data: PositionDataT, PlaneDataT, OrientationDataT,
    NormalDataT, AimDataT, FixedAxisDataT (the *_error_function.h headers).
    halfPlane_ of the plane error function is stored with the data. *)
Inductive cdata : Type :=
| CPosition (offset target : vec3)
| CPlane (halfPlane : bool) (offset normal : vec3) (d : R)
| COrientation (offset target : quat)
| CNormal (localPoint localNormal globalPoint : vec3)
| CAimDist (localPoint localDir globalTarget : vec3)
| CAimDir (localPoint localDir globalTarget : vec3)
| CFixedAxisDiff (localAxis globalAxis : vec3)
| CFixedAxisCos (localAxis globalAxis : vec3)
| CFixedAxisAngle (localAxis globalAxis : vec3).

(** ConstraintData, constraint_error_function.h:21-31. *)
Record constr : Type := Constr { cparent : nat; cweight : R; cdat : cdata }.

(** What evalFunction writes: f, v and dfdv. A FuncDim x 3 matrix is the list of
    its rows. *)
Record evalres : Type := ER { ev_f : list R; ev_v : list vec3; ev_d : list (list vec3) }.

(** NumPos of each error function (template arguments in the headers). *)
Definition num_pos (d : cdata) : nat :=
  match d with
  | CPosition _ _ | CPlane _ _ _ _ | CNormal _ _ _ | CAimDist _ _ _ | CAimDir _ _ _ => 1
  | _ => 0
  end.

(** FuncDim of each error function. *)
Definition func_dim (d : cdata) : nat :=
  match d with
  | CPosition _ _ | CAimDist _ _ _ | CAimDir _ _ _ | CFixedAxisDiff _ _ => 3
  | COrientation _ _ => 9
  | _ => 1
  end.

Definition vlist (v : vec3) : list R := [vx v; vy v; vz v].
(** Rows of the identity and of the zero matrix with n rows. *)
Definition idrows : list vec3 := [ex; ey; ez].
Definition zrows (n : nat) : list vec3 := repeat vzero n.
(** Rows of a * I + b * outer(u, w). *)
Definition scaled_outer (a b : R) (u w : vec3) : list vec3 :=
  [ vadd (vscale a ex) (vscale (b * vx u) w);
    vadd (vscale a ey) (vscale (b * vy u) w);
    vadd (vscale a ez) (vscale (b * vz u) w) ].

(** state.transformation * x. *)
Definition act (s : jstate) (x : vec3) : vec3 := vadd (mvec (js_linear s) x) (trans (js_world s)).
(** state.rotation() * x. *)
Definition act_rot (s : jstate) (x : vec3) : vec3 := qrot (rot (js_world s)) x.

Definition vnorm (a : vec3) : R := sqrt (vdot a a).

(** std::clamp(x, -1, 1). *)
Definition clamp1 (x : R) : R := if Rltb x (-1) then -1 else if Rltb 1 x then 1 else x.

Definition kTiny : R := / 10 ^ 16.
Definition kSine : R := / 10 ^ 9.

(** evalFunction: position_error_function.cpp:19-37, plane_error_function.cpp:54-80,
    orientation_error_function.cpp:19-44, normal_error_function.cpp:17-40,
    aim_error_function.cpp:17-46 (dist) and 48-82 (dir),
    fixed_axis_error_function.cpp:17-35 (diff), 37-55 (cos), 57-86 (angle). *)
Definition eval_function (d : cdata) (s : jstate) : evalres :=
  match d with
  | CPosition o tg =>
      let vec := act s o in
      ER (vlist (vsub vec tg)) [vec] [idrows]
  | CPlane half o n dd =>
      let vec := act s o in
      let val0 := vdot vec n - dd in
      let val := if half && Rltb 0 val0 then 0 else val0 in
      ER [val] [vec] [if negb half || Rltb val 0 then [n] else zrows 1]
  | COrientation o tg =>
      let m := mmul (qmat (rot (js_world s))) (qmat o) in
      let r := qmat tg in
      ER (vlist (vsub (col0 m) (col0 r)) ++ vlist (vsub (col1 m) (col1 r)) ++ vlist (vsub (col2 m) (col2 r)))
         [col0 m; col1 m; col2 m]
         [idrows ++ zrows 6; zrows 3 ++ idrows ++ zrows 3; zrows 6 ++ idrows]
  | CNormal lp ln gp =>
      let point := act s lp in
      let normal := act_rot s ln in
      let dist := vsub point gp in
      ER [vdot normal dist] [point; normal] [[normal]; [dist]]
  | CAimDist lp ld gt =>
      let point := act s lp in
      let srcDir := act_rot s ld in
      let tgtVec := vsub gt point in
      let projLength := vdot srcDir tgtVec in
      ER (vlist (vsub (vscale projLength srcDir) tgtVec)) [point; srcDir]
         [scaled_outer 1 (-1) srcDir srcDir; scaled_outer projLength 1 srcDir tgtVec]
  | CAimDir lp ld gt =>
      let point := act s lp in
      let srcDir := act_rot s ld in
      let tgtVec := vsub gt point in
      let tgtNorm := vnorm tgtVec in
      let tgtDir := if Rltb kTiny tgtNorm then vscale (/ tgtNorm) tgtVec else vzero in
      ER (vlist (vsub srcDir tgtDir)) [point; srcDir]
         [if Rltb kTiny tgtNorm then scaled_outer (/ tgtNorm) (- / tgtNorm) tgtDir tgtDir else zrows 3;
          idrows]
  | CFixedAxisDiff la ga =>
      let vec := act_rot s la in
      ER (vlist (vsub vec ga)) [vec] [idrows]
  | CFixedAxisCos la ga =>
      let vec := act_rot s la in
      ER [1 - vdot vec ga] [vec] [[vscale (-1) ga]]
  | CFixedAxisAngle la ga =>
      let vec := act_rot s la in
      let dot := vdot vec ga in
      let sine := sqrt (1 - dot * dot) in
      ER [acos (clamp1 dot)] [vec]
         [[if Rltb kSine sine then vscale (- / sine) ga else vzero]]
  end.

(** The members of ConstraintErrorFunctionT and its base class that the
    functions below read. [cf_prec] is the precision of Eigen's isZero (1e-12 for
    double, 1e-5 for float), [cf_tol] the tolerance of the isApprox test in
    getJacobianForSingleConstraint (1e-16 for double, 1e-9 for float). *)
Record cfn : Type := CFn {
  cf_sk : skeleton;
  cf_pt : ptransform;
  cf_weight : R;
  cf_active : list bool;
  cf_enabled : pset;
  cf_loss : loss;
  cf_constraints : list constr;
  cf_prec : R;
  cf_tol : R
}.

Definition sqnorm (f : list R) : R := rsum (map (fun x => x * x) f).

(** Eigen's isZero: every coefficient is at most prec in absolute value. *)
Definition is_zero (prec : R) (f : list R) : bool := forallb (fun x => Rleb (Rabs x) prec) f.
Definition is_zero_mat (prec : R) (m : list vec3) : bool :=
  forallb (fun r => is_zero prec (vlist r)) m.

(** jointStates.at(i). *)
Definition at_ (sts : list jstate) (i : nat) : outcome jstate :=
  match nth_error sts i with Some s => Ok s | None => Throw end.

(** getError, constraint_error_function-inl.h:30-47. *)
Fixpoint cf_error_sum (l : loss) (sts : list jstate) (cs : list constr) : outcome R :=
  match cs with
  | [] => Ok 0
  | c :: r =>
      let* e := if negb (Reqb (cweight c) 0)
                then let* s := at_ sts (cparent c) in
                     Ok (cweight c * loss_value l (sqnorm (ev_f (eval_function (cdat c) s))))
                else Ok 0 in
      let* rest := cf_error_sum l sts r in
      Ok (e + rest)
  end.
Definition cf_error (E : cfn) (sts : list jstate) : outcome R :=
  let* s := cf_error_sum (cf_loss E) sts (cf_constraints E) in Ok (cf_weight E * s).

(** Skip the inactive ones of the joint parameters [base + k]. *)
Fixpoint active_dofs (active : list bool) (base : nat) (l : list (nat * vec3))
  : outcome (list (nat * vec3)) :=
  match l with
  | [] => Ok []
  | (k, d) :: r =>
      let* a := rd active (base + k)%nat in
      let* rest := active_dofs active base r in
      Ok (if a then ((base + k)%nat, d) :: rest else rest)
  end.

(** The body of the loop over jVec: for one joint and one vector v, the joint
    parameters that move v with the derivative of v. Lines 107-163 (jacobian) and
    226-288 (gradient) are the same but for what they do with the derivative. *)
Definition vec_dofs (active : list bool) (j : nat) (s : jstate) (is_pos : bool) (v : vec3)
  : outcome (list (nat * vec3)) :=
  let base := (j * 7)%nat in
  let offset := if is_pos then vsub v (trans (js_world s)) else v in
  let* t := if is_pos
            then active_dofs active base [(0%nat, get_translation_derivative s 0);
                                          (1%nat, get_translation_derivative s 1);
                                          (2%nat, get_translation_derivative s 2)]
            else Ok [] in
  let* r := active_dofs active base [(3%nat, get_rotation_derivative s 0 offset);
                                     (4%nat, get_rotation_derivative s 1 offset);
                                     (5%nat, get_rotation_derivative s 2 offset)] in
  let* sc := if is_pos then active_dofs active base [(6%nat, get_scale_derivative s offset)]
             else Ok [] in
  Ok (t ++ r ++ sc).

(** One joint, all vectors: entries (jVec, joint parameter, derivative). *)
Fixpoint joint_terms (prec : R) (active : list bool) (j : nat) (s : jstate) (npos : nat) (jv : nat)
  (vs : list vec3) (ds : list (list vec3)) : outcome (list (nat * (nat * vec3))) :=
  match vs, ds with
  | v :: vs', m :: ds' =>
      let* here := if is_zero_mat prec m then Ok []
                   else vec_dofs active j s (Nat.ltb jv npos) v in
      let* rest := joint_terms prec active j s npos (S jv) vs' ds' in
      Ok (map (fun x => (jv, x)) here ++ rest)
  | _, _ => Ok []
  end.

(** The while loop up the hierarchy. *)
Fixpoint walk {A} (fuel : nat) (sk : skeleton) (sts : list jstate)
  (term : nat -> jstate -> outcome (list A)) (j : option nat) : outcome (list A) :=
  match j with
  | None => Ok []
  | Some jj =>
      match fuel with
      | O => OutOfFuel
      | S fuel' =>
          match nth_error sk jj with
          | None => CheckFail
          | Some jt =>
              let* s := rd sts jj in
              let* here := term jj s in
              let* rest := walk fuel' sk sts term (jparent jt) in
              Ok (here ++ rest)
          end
      end
  end.

Definition constr_terms (E : cfn) (sts : list jstate) (c : constr) (er : evalres)
  : outcome (list (nat * (nat * vec3))) :=
  walk (List.length (cf_sk E)) (cf_sk E) sts
    (fun j s => joint_terms (cf_prec E) (cf_active E) j s (num_pos (cdat c)) 0 (ev_v er) (ev_d er))
    (Some (cparent c)).

(** The loop over one row of the parameter transform, with the enabled test. *)
Fixpoint row_enabled (en : pset) (es : list entry) (r : nat) (x : R) : outcome (list (nat * R)) :=
  match es with
  | [] => Ok []
  | e :: rest =>
      let* tl := row_enabled en rest r x in
      if Nat.eqb (erow e) r then
        let* b := ps_test en (ecol e) in
        Ok (if b then (ecol e, x * eval e) :: tl else tl)
      else Ok tl
  end.
Fixpoint expand (en : pset) (es : list entry) (ts : list (nat * R)) : outcome (list (nat * R)) :=
  match ts with
  | [] => Ok []
  | (r, x) :: rest =>
      let* a := row_enabled en es r x in
      let* b := expand en es rest in
      Ok (a ++ b)
  end.

(** dfdv[jVec] * d, and der . (dfdv[jVec] * d). *)
Definition mrow (ds : list (list vec3)) (jv i : nat) : vec3 := nth i (nth jv ds []) vzero.
Definition contract (der : list R) (ds : list (list vec3)) (jv : nat) (d : vec3) : R :=
  rsum (map (fun i => nth i der 0 * vdot (mrow ds jv i) d) (seq 0 (List.length der))).

(** getGradientForSingleConstraint, 187-294: error and increments of
    jointGrad_. *)
Definition cf_grad1 (E : cfn) (sts : list jstate) (c : constr) : outcome (R * list (nat * R)) :=
  if Reqb (cweight c) 0 then Ok (0, [])
  else
    let* s := at_ sts (cparent c) in
    let er := eval_function (cdat c) s in
    if is_zero (cf_prec E) (ev_f er) then Ok (0, [])
    else
      let sq := sqnorm (ev_f er) in
      let w := cweight c * cf_weight E in
      let error := w * loss_value (cf_loss E) sq in
      let der := map (fun x => 2 * w * loss_deriv (cf_loss E) sq * x) (ev_f er) in
      let* ts := constr_terms E sts c er in
      let* incs := expand (cf_enabled E) (pt_entries (cf_pt E))
                     (map (fun '(jv, (r, d)) => (r, contract der (ev_d er) jv d)) ts) in
      Ok (error, incs).
Fixpoint cf_grad_loop (E : cfn) (sts : list jstate) (cs : list constr) (jg : list R)
  : outcome (R * list R) :=
  match cs with
  | [] => Ok (0, jg)
  | c :: r =>
      let* x := cf_grad1 E sts c in
      let* jg' := add_all jg (snd x) in
      let* y := cf_grad_loop E sts r jg' in
      Ok (fst x + fst y, snd y)
  end.

(** getGradient, 296-313. jointGrad_ has numAllModelParameters entries. The
    vector sum of different sizes is rejected by Eigen's assertion: UB. *)
Definition cf_gradient (E : cfn) (sts : list jstate) (gradient : list R) : outcome (R * list R) :=
  let* x := cf_grad_loop E sts (cf_constraints E) (repeat 0 (pt_cols (cf_pt E))) in
  if Nat.eqb (List.length gradient) (List.length (snd x))
  then Ok (fst x, vadd_list gradient (snd x)) else UB.

(** getJacobianForSingleConstraint, 49-168, on a zeroed block of jacobian and
    residual with [n] columns: error, and FuncDim rows with their residual. *)
Fixpoint jac_rows (E : cfn) (n : nat) (deriv : R) (er : evalres) (ts : list (nat * (nat * vec3)))
  (is : list nat) : outcome (list (list R * R)) :=
  match is with
  | [] => Ok []
  | i :: r =>
      let* incs := expand (cf_enabled E) (pt_entries (cf_pt E))
                     (map (fun '(jv, (k, d)) => (k, deriv * vdot (mrow (ev_d er) jv i) d)) ts) in
      let* row := add_all (repeat 0 n) incs in
      let* rest := jac_rows E n deriv er ts r in
      Ok ((row, deriv * nth i (ev_f er) 0) :: rest)
  end.
Definition cf_jac1 (E : cfn) (n : nat) (sts : list jstate) (c : constr)
  : outcome (R * list (list R * R)) :=
  let dim := func_dim (cdat c) in
  if Reqb (cweight c) 0 then Ok (0, map (fun _ => (repeat 0 n, 0)) (seq 0 dim))
  else
    let* s := at_ sts (cparent c) in
    let er := eval_function (cdat c) s in
    let sq := sqnorm (ev_f er) in
    let w := cweight c * cf_weight E in
    let error := w * loss_value (cf_loss E) sq in
    let deriv := sqrt (w * loss_deriv (cf_loss E) sq) in
    let zero_rows := map (fun i => (repeat 0 n, deriv * nth i (ev_f er) 0)) (seq 0 dim) in
    if Rltb (Rabs (deriv - 0)) (cf_tol E) then Ok (error, zero_rows)
    else if forallb (is_zero_mat (cf_prec E)) (ev_d er) then Ok (error, zero_rows)
    else
      let* ts := constr_terms E sts c er in
      let* rows := jac_rows E n deriv er ts (seq 0 dim) in
      Ok (error, rows).

(** getJacobian, 170-185. The block of constraint i starts at row FuncDim * i:
    the model concatenates the blocks. *)
Fixpoint cf_jac_loop (E : cfn) (n : nat) (sts : list jstate) (cs : list constr)
  : outcome (R * list (list R * R)) :=
  match cs with
  | [] => Ok (0, [])
  | c :: r =>
      let* x := cf_jac1 E n sts c in
      let* y := cf_jac_loop E n sts r in
      Ok (fst x + fst y, snd x ++ snd y)
  end.
Definition cf_jacobian (E : cfn) (n : nat) (sts : list jstate) : outcome (R * list (list R * R)) :=
  cf_jac_loop E n sts (cf_constraints E).

(** getJacobianSize, 315-318. *)
Definition cf_jacobian_size (cs : list constr) : nat :=
  list_sum (map (fun c => func_dim (cdat c)) cs).

(** The state the solver functions pass for parameters [p]:
    skeleton_solver_function.cpp:51,70,119 (state_->set(parameterTransform_->apply(p), skeleton)). *)
Definition state_of (sk : skeleton) (pt : ptransform) (p : list R) : outcome (list jstate) :=
  let* jp := pt_apply pt p in fk sk jp.
