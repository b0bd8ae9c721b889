(** More skeleton error functions and their sum: momentum/character_solver/
    model_parameters_error_function.cpp, state_error_function.cpp,
    skeleton_error_function.h, skeleton_solver_function.cpp and
    momentum/diff_ik/union_error_function.cpp. Scalars are reals (the casts to
    float of getError and sWeight are dropped). *)

From Coq Require Import Bool Reals List Arith.
From Verif Require Import Prelude LinAlg Rbool R3 Transform_model FK_model ParamTransform_model
  Limits_model Loss_model Constraint_model.
Import ListNotations.
Local Open Scope R_scope.
Local Open Scope bool_scope.
Local Open Scope outcome_scope.

(** ** ModelParametersErrorFunctionT *)

(** Members read by the functions below. *)
Record mp_fn : Type := MpFn {
  mp_target : list R;
  mp_weights : list R;
  mp_weight : R;
  mp_enabled : pset
}.
(** kMotionWeight, model_parameters_error_function.h:57. *)
Definition kMotionWeight : R := / 10.

(** The size test of lines 46-48, 70-72, 102-104. *)
Definition mp_usable (E : mp_fn) (p : list R) : bool :=
  Nat.eqb (length (mp_target E)) (length p) && Nat.eqb (length (mp_weights E)) (length p).

(** Loop of getError, lines 51-57. *)
Fixpoint mp_err_loop (en : pset) (i : nat) (ps ts ws : list R) : outcome R :=
  match ps, ts, ws with
  | x :: ps', t :: ts', w :: ws' =>
      let* b := ps_test en i in
      let* rest := mp_err_loop en (S i) ps' ts' ws' in
      let pdiff := w * (x - t) in
      Ok ((if b then pdiff * pdiff else 0) + rest)
  | _, _, _ => Ok 0
  end.
(** getError, lines 42-61. *)
Definition mp_error (E : mp_fn) (p : list R) : outcome R :=
  if mp_usable E p then
    let* s := mp_err_loop (mp_enabled E) 0 p (mp_target E) (mp_weights E) in
    Ok (s * mp_weight E * kMotionWeight)
  else Ok 0.

(** Loop of getGradient, lines 75-81. *)
Fixpoint mp_grad_loop (en : pset) (wt : R) (i : nat) (ps ts ws g : list R) : outcome (R * list R) :=
  match ps, ts, ws with
  | x :: ps', t :: ts', w :: ws' =>
      let* b := ps_test en i in
      let pdiff := w * (x - t) in
      let* g' := if b then add_at g i (2 * w * pdiff * wt * kMotionWeight) else Ok g in
      let* r := mp_grad_loop en wt (S i) ps' ts' ws' g' in
      Ok ((if b then pdiff * pdiff else 0) + fst r, snd r)
  | _, _, _ => Ok (0, g)
  end.
(** getGradient, lines 64-85. *)
Definition mp_gradient (E : mp_fn) (p g : list R) : outcome (R * list R) :=
  if mp_usable E p then
    let* r := mp_grad_loop (mp_enabled E) (mp_weight E) 0 p (mp_target E) (mp_weights E) g in
    Ok (fst r * mp_weight E * kMotionWeight, snd r)
  else Ok (0, g).

(** getJacobianSize, lines 88-90. *)
Definition mp_jacobian_size (E : mp_fn) : nat := length (filter (fun w => Rltb 0 w) (mp_weights E)).

(** A zeroed row of [n] columns with [v] written at [i]. *)
Definition unit_row (n i : nat) (v : R) : outcome (list R) := wr (repeat 0 n) i v.

(** Loop of getJacobian, lines 113-121, on a zeroed block; [rows] is the number of
    rows of the block, [out] the next one. *)
Fixpoint mp_jac_loop (en : pset) (sw : R) (n rows out : nat) (i : nat) (ps ts ws : list R)
  : outcome (R * list (list R * R)) :=
  match ps, ts, ws with
  | x :: ps', t :: ts', w :: ws' =>
      let* b := ps_test en i in
      if b && Rltb 0 w then
        let pdiff := w * (x - t) in
        if Nat.ltb out rows then
          let* row := unit_row n i (sw * w) in
          let* r := mp_jac_loop en sw n rows (S out) (S i) ps' ts' ws' in
          Ok (pdiff * pdiff + fst r, (row, pdiff * sw) :: snd r)
        else UB
      else mp_jac_loop en sw n rows out (S i) ps' ts' ws'
  | _, _, _ => Ok (0, [])
  end.
(** getJacobian, lines 93-127; the third component is usedRows. *)
Definition mp_jacobian (E : mp_fn) (n : nat) (p : list R) : outcome (R * list (list R * R) * nat) :=
  if mp_usable E p then
    let sw := sqrt (mp_weight E * kMotionWeight) in
    let* r := mp_jac_loop (mp_enabled E) sw n (mp_jacobian_size E) 0 0 p (mp_target E) (mp_weights E) in
    Ok (fst r * mp_weight E * kMotionWeight, snd r, length (snd r))
  else Ok (0, [], 0%nat).

(** ** StateErrorFunctionT *)

Record st_fn : Type := StFn {
  st_sk : skeleton;
  st_pt : ptransform;
  st_target : list tf;
  st_tparams : list R;
  st_tpw : list R;
  st_posw : list R;
  st_rotw : list R;
  st_posWgt : R;
  st_rotWgt : R;
  st_weight : R;
  st_active : list bool;
  st_prec : R
}.
(** state_error_function.h:80-81. *)
Definition kPositionWeight : R := / 1000.
Definition kOrientationWeight : R := 1.

(** Eigen's normalized(). *)
Definition qnormalized (q : quat) : quat :=
  let n := sqrt (qnorm2 q) in
  if Rltb 0 n then Q4 (qw q / n) (qx q / n) (qy q / n) (qz q / n) else q.

(** (params - targetParameters).cwiseProduct(weights); Eigen rejects different
    sizes. *)
Definition st_pdiff (E : st_fn) (p : list R) : outcome (list R) :=
  if Nat.eqb (length (st_tpw E)) (length p)
  then Ok (map (fun xtw => (fst (fst xtw) - snd (fst xtw)) * snd xtw) (combine (combine p (st_tparams E)) (st_tpw E)))
  else UB.

(** The difference of a joint state to its target, as columns. *)
Definition st_rotdiff (s : jstate) (t : tf) : mat3 :=
  let m := qmat (rot (js_world s)) in let r := qmat (qnormalized (rot t)) in
  M3 (vsub (col0 m) (col0 r)) (vsub (col1 m) (col1 r)) (vsub (col2 m) (col2 r)).
Definition msq (m : mat3) : R := vnorm2 (col0 m) + vnorm2 (col1 m) + vnorm2 (col2 m).
Definition mdot (a b : mat3) : R := vdot (col0 a) (col0 b) + vdot (col1 a) (col1 b) + vdot (col2 a) (col2 b).
Definition st_diff (s : jstate) (t : tf) : vec3 := vsub (trans (js_world s)) (trans t).

(** The usable-data test: lines 101-103, 152-154, 273-275. *)
Definition st_usable (E : st_fn) (p : list R) (sts : list jstate) : bool :=
  Nat.eqb (length (st_target E)) (length sts) && Nat.eqb (length (st_tparams E)) (length p).

(** Loop of getError, lines 112-126. *)
Fixpoint st_err_loop (E : st_fn) (sts : list jstate) (is : list nat) : outcome R :=
  match is with
  | [] => Ok 0
  | i :: r =>
      let* s := rd sts i in
      let* t := rd (st_target E) i in
      let* rw := rd (st_rotw E) i in
      let* pw := rd (st_posw E) i in
      let* rest := st_err_loop E sts r in
      Ok (msq (st_rotdiff s t) * kOrientationWeight * st_rotWgt E * rw +
          vnorm2 (st_diff s t) * kPositionWeight * st_posWgt E * pw + rest)
  end.
(** getError, lines 85-130; [jp] is state.jointParameters. *)
Definition st_error (E : st_fn) (p jp : list R) (sts : list jstate) : outcome R :=
  match sts with
  | [] => Ok 0
  | _ =>
      let* _ := check (Nat.eqb (length jp) (length (st_sk E) * 7)) in
      if st_usable E p sts then
        let* pd := st_pdiff E p in
        let* s := st_err_loop E sts (seq 0 (length (st_sk E))) in
        Ok ((sqnorm pd + s) * st_weight E)
      else Ok 0
  end.

(** crossProductMatrix(axis) * rot, as columns. *)
Definition st_rotD (axis : vec3) (q : quat) : mat3 :=
  let m := qmat q in M3 (vcross axis (col0 m)) (vcross axis (col1 m)) (vcross axis (col2 m)).

(** Keep the active joint parameters of a list of (offset, value). *)
Fixpoint active_vals {A} (active : list bool) (base : nat) (l : list (nat * A)) : outcome (list (nat * A)) :=
  match l with
  | [] => Ok []
  | (k, d) :: r =>
      let* a := rd active (base + k)%nat in
      let* rest := active_vals active base r in
      Ok (if a then ((base + k)%nat, d) :: rest else rest)
  end.

(** Derivatives of the position and of the rotation matrix of joint [si] by the
    parameters of its ancestor [j]: body of the while loops, lines 186-229 and
    309-359. *)
Definition st_dofs (active : list bool) (si : jstate) (j : nat) (sj : jstate)
  : outcome (list (nat * (vec3 * mat3))) :=
  let posd := vsub (trans (js_world si)) (trans (js_world sj)) in
  let zm := M3 vzero vzero vzero in
  let t k := (k, (get_translation_derivative sj k, zm)) in
  let r k := ((3 + k)%nat, (get_rotation_derivative sj k posd, st_rotD (mcol (js_raxis sj) k) (rot (js_world si)))) in
  active_vals active (j * 7)%nat
    [t 0%nat; r 0%nat; t 1%nat; r 1%nat; t 2%nat; r 2%nat; (6%nat, (get_scale_derivative sj posd, zm))].

Definition st_terms (E : st_fn) (sts : list jstate) (i : nat) (si : jstate)
  : outcome (list (nat * (vec3 * mat3))) :=
  walk (length (st_sk E)) (st_sk E) sts (st_dofs (st_active E) si) (Some i).

(** Multiplication with the rows of the parameter transform (no enabled test). *)
Definition spread (es : list entry) (ts : list (nat * R)) : list (nat * R) :=
  flat_map (fun rx => row_incs es (fst rx) (snd rx)) ts.

(** Loop of getGradient, lines 164-233. *)
Fixpoint st_grad_loop (E : st_fn) (sts : list jstate) (is : list nat) (g : list R) : outcome (R * list R) :=
  match is with
  | [] => Ok (0, g)
  | i :: r =>
      let* rw := rd (st_rotw E) i in
      let* pw := rd (st_posw E) i in
      if Reqb rw 0 && Reqb pw 0 then st_grad_loop E sts r g
      else
        let* s := rd sts i in
        let* t := rd (st_target E) i in
        let rwgt := kOrientationWeight * st_rotWgt E * st_weight E * rw in
        let pwgt := kPositionWeight * st_posWgt E * st_weight E * pw in
        let diff := st_diff s t in
        let rdiff := st_rotdiff s t in
        let* ts := st_terms E sts i s in
        let* g' := add_all g (spread (pt_entries (st_pt E))
                     (map (fun x => (fst x, 2 * vdot diff (fst (snd x)) * pwgt + 2 * rwgt * mdot (snd (snd x)) rdiff)) ts)) in
        let* y := st_grad_loop E sts r g' in
        Ok (msq rdiff * rwgt + vnorm2 diff * pwgt + fst y, snd y)
  end.
(** getGradient, lines 133-237. The parameter part adds 2 * pdiff * weight, as
    written (lines 157-160). *)
Definition st_gradient (E : st_fn) (p jp : list R) (sts : list jstate) (g : list R) : outcome (R * list R) :=
  match sts with
  | [] => Ok (0, g)
  | _ =>
      let* _ := check (Nat.eqb (length jp) (length (st_sk E) * 7)) in
      if st_usable E p sts then
        let* pd := st_pdiff E p in
        if Nat.eqb (length g) (length pd) then
          let* r := st_grad_loop E sts (seq 0 (length (st_sk E)))
                      (vadd_list g (map (fun x => 2 * x * st_weight E) pd)) in
          Ok (sqnorm pd * st_weight E + fst r, snd r)
        else UB
      else Ok (0, g)
  end.

(** getJacobianSize, lines 240-247. *)
Definition st_jacobian_size (E : st_fn) : nat :=
  (length (filter (fun pr => negb (Reqb (fst pr) 0) || negb (Reqb (snd pr) 0)) (combine (st_posw E) (st_rotw E))) * 12 +
   (if is_zero (st_prec E) (st_tpw E) then 0 else length (st_tpw E)))%nat.

(** The 12 rows of a joint, lines 294-307 and 309-359: 3 of the position, 9 of
    the rotation matrix by columns. [sel] picks the component. *)
Definition vcomp (v : vec3) (k : nat) : R := nth k (vlist v) 0.
Definition sel12 (k : nat) (x : vec3 * mat3) : R :=
  if Nat.ltb k 3 then vcomp (fst x) k
  else vcomp (mcol (snd x) ((k - 3) / 3)) ((k - 3) mod 3).
Fixpoint st_rows (E : st_fn) (n : nat) (wgt awgt : R) (d : vec3 * mat3) (ts : list (nat * (vec3 * mat3)))
  (ks : list nat) : outcome (list (list R * R)) :=
  match ks with
  | [] => Ok []
  | k :: r =>
      let f := if Nat.ltb k 3 then wgt else awgt in
      let* row := add_all (repeat 0 n)
                    (spread (pt_entries (st_pt E)) (map (fun x => (fst x, sel12 k (snd x) * f)) ts)) in
      let* rest := st_rows E n wgt awgt d ts r in
      Ok ((row, sel12 k d * f) :: rest)
  end.
Fixpoint st_jac_loop (E : st_fn) (n : nat) (sts : list jstate) (is : list nat) : outcome (R * list (list R * R)) :=
  match is with
  | [] => Ok (0, [])
  | i :: r =>
      let* rw := rd (st_rotw E) i in
      let* pw := rd (st_posw E) i in
      if Reqb rw 0 && Reqb pw 0 then st_jac_loop E n sts r
      else
        let* s := rd sts i in
        let* t := rd (st_target E) i in
        let rwgt := kOrientationWeight * st_rotWgt E * st_weight E * rw in
        let pwgt := kPositionWeight * st_posWgt E * st_weight E * pw in
        let* ts := st_terms E sts i s in
        let* rows := st_rows E n (sqrt pwgt) (sqrt rwgt) (st_diff s t, st_rotdiff s t) ts (seq 0 12) in
        let* y := st_jac_loop E n sts r in
        Ok (msq (st_rotdiff s t) * rwgt + vnorm2 (st_diff s t) * pwgt + fst y, rows ++ snd y)
  end.
(** The diagonal block of lines 281-289. *)
Fixpoint diag_rows (n i : nat) (sw : R) (ws pd : list R) : outcome (list (list R * R)) :=
  match ws, pd with
  | w :: ws', x :: pd' =>
      let* row := unit_row n i (w * sw) in
      let* rest := diag_rows n (S i) sw ws' pd' in
      Ok ((row, x * sw) :: rest)
  | _, _ => Ok []
  end.
(** getJacobian, lines 250-379. Writing more rows than the block has is UB; usedRows
    is None when the function returns
    without setting it (line 273-275). *)
Definition st_jacobian (E : st_fn) (n : nat) (p : list R) (sts : list jstate)
  : outcome (R * list (list R * R) * option nat) :=
  if st_usable E p sts then
    let sw := sqrt (st_weight E) in
    let* a := if is_zero (st_prec E) (st_tpw E) then Ok (0, [])
              else let* pd := st_pdiff E p in
                   let* rows := diag_rows n 0 sw (st_tpw E) pd in
                   Ok (sqnorm pd * st_weight E, rows) in
    let* b := st_jac_loop E n sts (seq 0 (length (st_sk E))) in
    let rows := snd a ++ snd b in
    let* _ := check (Nat.leb (length rows) (st_jacobian_size E)) in
    Ok (fst a + fst b, rows, Some (length rows))
  else Ok (0, [], None).

(** ** SkeletonErrorFunctionT: the interface *)

(** SkeletonStateT: joint parameters and joint states. *)
Record sstate : Type := SState { ss_jp : list R; ss_js : list jstate }.

(** skeleton_error_function.h. ef_jacobian returns the rows it wrote of its zeroed
    block of ef_jsize rows, and usedRows if set. *)
Record efn : Type := Efn {
  ef_weight : R;
  ef_error : list R -> sstate -> outcome R;
  ef_gradient : list R -> sstate -> list R -> outcome (R * list R);
  ef_jacobian : nat -> list R -> sstate -> outcome (R * list (list R * R) * option nat);
  ef_jsize : nat
}.
Definition of_limits (E : limit_fn) : efn :=
  Efn (lf_weight E) (fun p s => lim_error E p (ss_jp s)) (fun p s g => lim_gradient E p (ss_jp s) g)
    (fun _ p s => let* r := lim_jacobian E p (ss_jp s) in Ok (fst r, snd r, Some (length (snd r))))
    (lim_jacobian_size (lf_limits E)).
Definition of_constraints (E : cfn) : efn :=
  Efn (cf_weight E) (fun _ s => cf_error E (ss_js s)) (fun _ s g => cf_gradient E (ss_js s) g)
    (fun n _ s => let* r := cf_jacobian E n (ss_js s) in
                  Ok (fst r, snd r, Some (cf_jacobian_size (cf_constraints E))))
    (cf_jacobian_size (cf_constraints E)).
Definition of_model_parameters (E : mp_fn) : efn :=
  Efn (mp_weight E) (fun p _ => mp_error E p) (fun p _ g => mp_gradient E p g)
    (fun n p _ => let* r := mp_jacobian E n p in Ok (fst (fst r), snd (fst r), Some (snd r)))
    (mp_jacobian_size E).
Definition of_state (E : st_fn) : efn :=
  Efn (st_weight E) (fun p s => st_error E p (ss_jp s) (ss_js s))
    (fun p s g => st_gradient E p (ss_jp s) (ss_js s) g)
    (fun n p s => st_jacobian E n p (ss_js s)) (st_jacobian_size E).

(** Member loops of UnionErrorFunctionT. *)
Fixpoint sum_errors (Es : list efn) (p : list R) (s : sstate) : outcome R :=
  match Es with
  | [] => Ok 0
  | E :: r => let* e := ef_error E p s in let* rest := sum_errors r p s in Ok (e + rest)
  end.
Fixpoint sum_gradients (Es : list efn) (p : list R) (s : sstate) (g : list R) : outcome (R * list R) :=
  match Es with
  | [] => Ok (0, g)
  | E :: r => let* x := ef_gradient E p s g in
              let* y := sum_gradients r p s (snd x) in Ok (fst x + fst y, snd y)
  end.
(** A block of exactly [k] rows. *)
Definition pad_rows (n k : nat) (rows : list (list R * R)) : list (list R * R) :=
  rows ++ repeat (repeat 0 n, 0) (k - length rows).
Fixpoint sum_jacobians (Es : list efn) (n : nat) (p : list R) (s : sstate) : outcome (R * list (list R * R)) :=
  match Es with
  | [] => Ok (0, [])
  | E :: r => let* x := ef_jacobian E n p s in
              let* y := sum_jacobians r n p s in
              Ok (fst (fst x) + fst y, pad_rows n (ef_jsize E) (snd (fst x)) ++ snd y)
  end.
Definition scale_row (k : R) (row : list R * R) : list R * R := (map (fun x => x * k) (fst row), snd row * k).

(** UnionErrorFunctionT, union_error_function.cpp:67-125. getGradient scales the
    whole accumulated gradient. *)
Definition union_fn (w : R) (Es : list efn) : efn :=
  Efn w
    (fun p s => let* e := sum_errors Es p s in Ok (w * e))
    (fun p s g => let* x := sum_gradients Es p s g in Ok (w * fst x, map (fun v => v * w) (snd x)))
    (fun n p s => let* x := sum_jacobians Es n p s in
                  Ok (w * fst x, map (scale_row (sqrt w)) (snd x), Some (length (snd x))))
    (list_sum (map ef_jsize Es)).

(** ** SkeletonSolverFunctionT *)

Record sf : Type := Sf { sf_sk : skeleton; sf_pt : ptransform; sf_fns : list efn; sf_actual : nat }.

Definition sf_state (sk : skeleton) (pt : ptransform) (p : list R) : outcome sstate :=
  let* jp := pt_apply pt p in let* js := fk sk jp in Ok (SState jp js).

(** The functions with weight > 0. *)
Definition counted_fns (Es : list efn) : list efn := filter (fun E => Rltb 0 (ef_weight E)) Es.

(** getError, skeleton_solver_function.cpp:48-64 (the cast to float is dropped). *)
Definition sf_error (S : sf) (p : list R) : outcome R :=
  let* s := sf_state (sf_sk S) (sf_pt S) p in sum_errors (counted_fns (sf_fns S)) p s.
(** getGradient, 67-89: the gradient is set to zero first. *)
Definition sf_gradient (S : sf) (p : list R) : outcome (R * list R) :=
  let* s := sf_state (sf_sk S) (sf_pt S) p in
  sum_gradients (counted_fns (sf_fns S)) p s (repeat 0 (length p)).

(** getDimensions, 91-110. *)
Definition sf_rows (Es : list efn) : nat :=
  let n := list_sum (map ef_jsize (counted_fns Es)) in (n + (8 - n mod 8))%nat.
(** getJacobian, 112-164. *)
Definition sf_jacobian (S : sf) (p : list R) : outcome (R * list (list R * R)) :=
  let* s := sf_state (sf_sk S) (sf_pt S) p in
  let* x := sum_jacobians (counted_fns (sf_fns S)) (length p) p s in
  Ok (fst x, pad_rows (length p) (sf_rows (sf_fns S)) (snd x)).

(** Entry (a, b) of J^T J and a of J^T r. *)
Definition jtj (rows : list (list R * R)) (a b : nat) : R :=
  rsum (map (fun row => nth a (fst row) 0 * nth b (fst row) 0) rows).
Definition jtr (rows : list (list R * R)) (a : nat) : R :=
  rsum (map (fun row => nth a (fst row) 0 * snd row) rows).
(** The lower triangle of the m x m matrix, the rest 0, and the vector. *)
Definition normal_eq (m : nat) (rows : list (list R * R)) : list (list R) * list R :=
  (map (fun a => map (fun b => if Nat.leb b a then jtj rows a b else 0) (seq 0 m)) (seq 0 m),
   map (jtr rows) (seq 0 m)).
Definition madd (a b : list (list R)) : list (list R) := map (fun rs => vadd_list (fst rs) (snd rs)) (combine a b).

(** Body of the loops of getJtJR, 205-243, and of getSolverDerivatives, 246-278
    with skeleton_error_function.h:77-113: only the first usedRows rows and the
    first actualParameters columns count; [k] is the factor 1 or 2. Reading an
    unset usedRows (skeleton_error_function.h:96) is UB; getJtJR initialises it
    to 0 and checks that it fits. useHessian_ is false (its default). *)
Fixpoint sum_normal (k : R) (Es : list efn) (init : option nat) (n m : nat) (p : list R) (s : sstate)
  : outcome (R * (list (list R) * list R)) :=
  match Es with
  | [] => Ok (0, (repeat (repeat 0 m) m, repeat 0 m))
  | E :: r =>
      let* x := ef_jacobian E n p s in
      let* used := match snd x with
                   | Some u => Ok u
                   | None => match init with Some u => Ok u | None => UB end
                   end in
      let* _ := check (Nat.leb used (ef_jsize E)) in
      let block := firstn used (pad_rows n (ef_jsize E) (snd (fst x))) in
      let ne := normal_eq m block in
      let* y := sum_normal k r init n m p s in
      Ok (fst (fst x) + fst y,
          (madd (map (map (Rmult k)) (fst ne)) (fst (snd y)), vadd_list (map (Rmult k) (snd ne)) (snd (snd y))))
  end.
Definition sf_jtjr (S : sf) (p : list R) : outcome (R * (list (list R) * list R)) :=
  let* s := sf_state (sf_sk S) (sf_pt S) p in
  sum_normal 1 (counted_fns (sf_fns S)) (Some 0%nat) (length p) (sf_actual S) p s.
Definition sf_derivatives (S : sf) (p : list R) : outcome (R * (list (list R) * list R)) :=
  let* s := sf_state (sf_sk S) (sf_pt S) p in
  sum_normal 2 (counted_fns (sf_fns S)) None (length p) (sf_actual S) p s.

(** setEnabledParameters, 32-38: one past the last enabled parameter. *)
Definition actual_parameters (n : nat) (en : pset) : nat :=
  fold_left (fun a i => if en i then S i else a) (seq 0 n) 0%nat.
