(** momentum/character_solver/limit_error_function.cpp and the limit helpers of
    momentum/character/parameter_limits.cpp. Scalars are reals. *)

From Coq Require Import Bool Reals List Arith ZArith String.
From Verif Require Import Prelude LinAlg Rbool ParamTransform_model.
Import ListNotations.
Local Open Scope R_scope.
Local Open Scope bool_scope.
Local Open Scope outcome_scope.

(** isInRange, parameter_limits.cpp:96-104. *)
Definition is_in_range (r1 r2 v : R) : bool :=
  if Reqb r1 0 && Reqb r2 0 then true else Rleb r1 v && Rltb v r2.

(** The members of LimitErrorFunctionT and of its base class
    skeleton_error_function.h:118-125 that the functions below read.
    [lf_n] is the number of model parameters (size of the gradient). *)
Record limit_fn : Type := LimitFn {
  lf_limits : list plimit;
  lf_weight : R;
  lf_enabled : pset;
  lf_active : list bool;
  lf_entries : list entry;
  lf_n : nat
}.

(** kLimitWeight, limit_error_function.h:48. *)
Definition kLimitWeight : R := 10.

(** enabledParameters_.test(i). *)
Definition ps_test (s : pset) (i : nat) : outcome bool :=
  if Nat.ltb i kMaxModelParams then Ok (s i) else Throw.

Definition check (b : bool) : outcome unit := if b then Ok tt else CheckFail.

(** One limit of getError, limit_error_function.cpp:57-153. Ellipsoid limits are
    not modelled: the model throws and the theorems exclude them. *)
Definition lim_err1 (E : limit_fn) (p jp : list R) (l : plimit) : outcome R :=
  let w := lweight l in
  match ldata l with
  | LMinMax i lo hi =>
      let* _ := check (Nat.leb i (List.length p)) in
      let* en := ps_test (lf_enabled E) i in
      if en then
        let* x := rd p i in
        Ok ((if Rltb x lo then (lo - x) * (lo - x) * w else 0) +
            (if Rltb hi x then (hi - x) * (hi - x) * w else 0))
      else Ok 0
  | LMinMaxJoint jt k lo hi =>
      let i := (jt * 7 + k)%nat in
      let* _ := check (Nat.ltb i (List.length jp)) in
      let* ac := rd (lf_active E) i in
      if ac then
        let* x := rd jp i in
        Ok ((if Rltb x lo then (lo - x) * (lo - x) * w else 0) +
            (if Rltb hi x then (hi - x) * (hi - x) * w else 0))
      else Ok 0
  | LMinMaxJointPassive _ _ _ _ => Ok 0
  | LLinear rf tg sc off r1 r2 =>
      let* _ := check (Nat.ltb rf (List.length p)) in
      let* _ := check (Nat.ltb tg (List.length p)) in
      let* e1 := ps_test (lf_enabled E) tg in
      let* e2 := ps_test (lf_enabled E) rf in
      let* t := rd p tg in
      let* r := rd p rf in
      if (e1 || e2) && is_in_range r1 r2 t then
        let res := t * sc - off - r in Ok (res * res * w)
      else Ok 0
  | LHalfPlane p1 p2 n1 n2 off =>
      let* _ := check (Nat.ltb p1 (List.length p)) in
      let* _ := check (Nat.ltb p2 (List.length p)) in
      let* e1 := ps_test (lf_enabled E) p1 in
      let* e2 := ps_test (lf_enabled E) p2 in
      let* x := rd p p1 in
      let* y := rd p p2 in
      if e1 || e2 then
        let res := x * n1 + y * n2 - off in
        Ok (if Rltb res 0 then res * res * w else 0)
      else Ok 0
  | LEllipsoid _ _ => Throw
  end.

Fixpoint lim_err_sum (E : limit_fn) (p jp : list R) (ls : list plimit) : outcome R :=
  match ls with
  | [] => Ok 0
  | l :: r => let* a := lim_err1 E p jp l in let* b := lim_err_sum E p jp r in Ok (a + b)
  end.

(** getError, 40-159. The loop adds in list order; addition of reals is
    associative, so the model sums from the right. *)
Definition lim_error (E : limit_fn) (p jp : list R) : outcome R :=
  let* s := lim_err_sum E p jp (lf_limits E) in Ok (s * kLimitWeight * lf_weight E).

(** gradient[i] += v. *)
Definition add_at (g : list R) (i : nat) (v : R) : outcome (list R) :=
  let* x := rd g i in wr g i (x + v).
Fixpoint add_all (g : list R) (incs : list (nat * R)) : outcome (list R) :=
  match incs with
  | [] => Ok g
  | (i, v) :: r => let* g' := add_at g i v in add_all g' r
  end.

(** The entries of one row of the parameter transform times a factor: the loop
    over outerIndexPtr/innerIndexPtr. *)
Definition row_incs (es : list entry) (r : nat) (c : R) : list (nat * R) :=
  map (fun e => (ecol e, c * eval e)) (filter (fun e => Nat.eqb (erow e) r) es).

(** One limit of getGradient, 178-356: error increment and gradient
    increments. tW is kLimitWeight * weight_. *)
Definition lim_grad1 (E : limit_fn) (p jp : list R) (l : plimit) : outcome (R * list (nat * R)) :=
  let w := lweight l in
  let tW := kLimitWeight * lf_weight E in
  match ldata l with
  | LMinMax i lo hi =>
      let* _ := check (Nat.ltb i (List.length p)) in
      let* en := ps_test (lf_enabled E) i in
      if en then
        let* x := rd p i in
        Ok ((if Rltb x lo then (x - lo) * (x - lo) * tW * w else 0) +
            (if Rltb hi x then (x - hi) * (x - hi) * tW * w else 0),
            (if Rltb x lo then [(i, 2 * (x - lo) * tW * w)] else []) ++
            (if Rltb hi x then [(i, 2 * (x - hi) * tW * w)] else []))
      else Ok (0, [])
  | LMinMaxJoint jt k lo hi =>
      let i := (jt * 7 + k)%nat in
      let* _ := check (Nat.ltb i (List.length jp)) in
      let* ac := rd (lf_active E) i in
      if ac then
        let* x := rd jp i in
        Ok ((if Rltb x lo then (x - lo) * (x - lo) * tW * w else 0) +
            (if Rltb hi x then (x - hi) * (x - hi) * tW * w else 0),
            (if Rltb x lo then row_incs (lf_entries E) i (2 * (x - lo) * tW * w) else []) ++
            (if Rltb hi x then row_incs (lf_entries E) i (2 * (x - hi) * tW * w) else []))
      else Ok (0, [])
  | LMinMaxJointPassive _ _ _ _ => Ok (0, [])
  | LLinear rf tg sc off r1 r2 =>
      let* _ := check (Nat.ltb rf (List.length p)) in
      let* _ := check (Nat.ltb tg (List.length p)) in
      let* t := rd p tg in
      let* r := rd p rf in
      if is_in_range r1 r2 t then
        let res := t * sc - off - r in
        let* e1 := ps_test (lf_enabled E) tg in
        let* e2 := ps_test (lf_enabled E) rf in
        Ok (res * res * w * tW,
            (if e1 then [(tg, 2 * res * sc * tW)] else []) ++
            (if e2 then [(rf, - (2 * res * tW))] else []))
      else Ok (0, [])
  | LHalfPlane p1 p2 n1 n2 off =>
      let* e1 := ps_test (lf_enabled E) p1 in
      let* e2 := ps_test (lf_enabled E) p2 in
      if e1 || e2 then
        let* x := rd p p1 in
        let* y := rd p p2 in
        let res := x * n1 + y * n2 - off in
        if Rltb res 0 then
          Ok (res * res * w * tW,
              (if e1 then [(p1, 2 * res * n1 * tW)] else []) ++
              (if e2 then [(p2, 2 * res * n2 * tW)] else []))
        else Ok (0, [])
      else Ok (0, [])
  | LEllipsoid _ _ => Throw
  end.

Fixpoint lim_grad_loop (E : limit_fn) (p jp : list R) (ls : list plimit) (g : list R)
  : outcome (R * list R) :=
  match ls with
  | [] => Ok (0, g)
  | l :: r =>
      let* (e, incs) := lim_grad1 E p jp l in
      let* g' := add_all g incs in
      let* (e', g'') := lim_grad_loop E p jp r g' in
      Ok (e + e', g'')
  end.

(** getGradient, 162-361. *)
Definition lim_gradient (E : limit_fn) (p jp g : list R) : outcome (R * list R) :=
  lim_grad_loop E p jp (lf_limits E) g.

(** Writes [row(i) = v]. *)
Fixpoint set_all (g : list R) (sets : list (nat * R)) : outcome (list R) :=
  match sets with
  | [] => Ok g
  | (i, v) :: r => let* g' := wr g i v in set_all g' r
  end.

(** One limit of getJacobian, 386-583: error increment and the rows it fills
    (row of the Jacobian, residual). Rows start as zeros (setZero, 379-380). *)
Definition lim_jac1 (E : limit_fn) (p jp : list R) (l : plimit) : outcome (R * list (list R * R)) :=
  let w := lweight l in
  let tW := kLimitWeight * lf_weight E in
  let wgt := sqrt (kLimitWeight * lf_weight E * w) in
  let zrow := repeat 0 (lf_n E) in
  match ldata l with
  | LMinMax i lo hi =>
      let* _ := check (Nat.ltb i (List.length p)) in
      let* en := ps_test (lf_enabled E) i in
      if en then
        let* x := rd p i in
        if Rltb x lo then
          let* row := set_all zrow [(i, wgt)] in
          Ok ((x - lo) * (x - lo) * w * tW, [(row, (x - lo) * wgt)])
        else if Rltb hi x then
          let* row := set_all zrow [(i, wgt)] in
          Ok ((x - hi) * (x - hi) * w * tW, [(row, (x - hi) * wgt)])
        else Ok (0, [(zrow, 0)])
      else Ok (0, [(zrow, 0)])
  | LMinMaxJoint jt k lo hi =>
      let i := (jt * 7 + k)%nat in
      let* _ := check (Nat.ltb i (List.length jp)) in
      let* ac := rd (lf_active E) i in
      if ac then
        let* x := rd jp i in
        if Rltb x lo then
          let* row := add_all zrow (row_incs (lf_entries E) i wgt) in
          Ok ((x - lo) * (x - lo) * w * tW, [(row, (x - lo) * wgt)])
        else if Rltb hi x then
          let* row := add_all zrow (row_incs (lf_entries E) i wgt) in
          Ok ((x - hi) * (x - hi) * w * tW, [(row, (x - hi) * wgt)])
        else Ok (0, [(zrow, 0)])
      else Ok (0, [(zrow, 0)])
  | LMinMaxJointPassive _ _ _ _ => Ok (0, [])
  | LLinear rf tg sc off r1 r2 =>
      let* _ := check (Nat.ltb rf (List.length p)) in
      let* _ := check (Nat.ltb tg (List.length p)) in
      let* e1 := ps_test (lf_enabled E) tg in
      let* e2 := ps_test (lf_enabled E) rf in
      let* t := rd p tg in
      let* r := rd p rf in
      if (e1 || e2) && is_in_range r1 r2 t then
        let res := t * sc - off - r in
        let* row := set_all zrow ((if e1 then [(tg, sc * wgt)] else []) ++
                                  (if e2 then [(rf, - wgt)] else [])) in
        Ok (res * res * w * tW, [(row, res * wgt)])
      else Ok (0, [(zrow, 0)])
  | LHalfPlane p1 p2 n1 n2 off =>
      let* _ := check (Nat.ltb p1 (List.length p)) in
      let* _ := check (Nat.ltb p2 (List.length p)) in
      let* e1 := ps_test (lf_enabled E) p1 in
      let* e2 := ps_test (lf_enabled E) p2 in
      let* x := rd p p1 in
      let* y := rd p p2 in
      if e1 || e2 then
        let res := x * n1 + y * n2 - off in
        if Rltb res 0 then
          let* row := set_all zrow ((if e1 then [(p1, n1 * wgt)] else []) ++
                                    (if e2 then [(p2, n2 * wgt)] else [])) in
          Ok (res * res * w * tW, [(row, res * wgt)])
        else Ok (0, [(zrow, 0)])
      else Ok (0, [(zrow, 0)])
  | LEllipsoid _ _ => Throw
  end.

(** getJacobian, 364-589; usedRows is the number of rows. *)
Fixpoint lim_jac_loop (E : limit_fn) (p jp : list R) (ls : list plimit) : outcome (R * list (list R * R)) :=
  match ls with
  | [] => Ok (0, [])
  | l :: r =>
      let* (e, rows) := lim_jac1 E p jp l in
      let* (e', rows') := lim_jac_loop E p jp r in
      Ok (e + e', rows ++ rows')
  end.
Definition lim_jacobian (E : limit_fn) (p jp : list R) : outcome (R * list (list R * R)) :=
  lim_jac_loop E p jp (lf_limits E).

(** getJacobianSize, 592-618. *)
Definition lim_jacobian_size (ls : list plimit) : nat :=
  fold_right (fun l n => match ldata l with
                         | LMinMaxJointPassive _ _ _ _ => n
                         | LEllipsoid _ _ => (3 + n)%nat
                         | _ => S n end) 0%nat ls.

(** applyPassiveJointParameterLimits, parameter_limits.cpp:34-56. *)
Fixpoint apply_passive (ls : list plimit) (jp : list R) : outcome (list R) :=
  match ls with
  | [] => Ok jp
  | l :: r =>
      match ldata l with
      | LMinMaxJointPassive jt k lo hi =>
          let i := (jt * 7 + k)%nat in
          let* _ := check (Nat.leb i (List.length jp)) in
          let* x := rd jp i in
          let* jp1 := if Rltb x lo then wr jp i lo else Ok jp in
          let* y := rd jp1 i in
          let* jp2 := if Rltb hi y then wr jp1 i hi else Ok jp1 in
          apply_passive r jp2
      | _ => apply_passive r jp
      end
  end.
