(** Model of the iterative solvers: the loop of SolverT::solve and the iterations of
    GradientDescentSolverT, GaussNewtonSolverT and SubsetGaussNewtonSolverT.

    Models momentum/solver/{solver,gradient_descent_solver,gauss_newton_solver,
    subset_gauss_newton_solver}.cpp.  Scalars are exact reals (no NaN, no rounding).  The
    objective is a pure function of the parameters. *)

From Coq Require Import Reals List Arith Bool.
From Verif Require Import ListUtil LinAlg Rbool Solver_spec.
Import ListNotations.
Local Open Scope R_scope.

(** updateParameters, momentum/character_solver/skeleton_solver_function.cpp:279-285:
    parameters -= delta (the sizes are equal, :283). *)
Definition lsub (p d : list R) : list R := map (fun xy => fst xy - snd xy) (combine p d).
Definition lscale (c : R) (d : list R) : list R := map (fun x => c * x) d.

(** ** The loop *)

(** Convergence test, solver.cpp:85-89. *)
Definition converged (o : options) (last err : R) : bool :=
  Rleb (Rabs (last - err) / (Rabs err + flt_min)) (o_threshold o * flt_epsilon).

(** iterationHistory_["parameters"] (one list per column), ["error"] and ["iterations"],
    solver.cpp:48-68. *)
Record history := { h_params : list (list R); h_error : list R; h_iterations : nat }.

(** The result of solve(): the parameters written back, the returned error, the history. *)
Record solved := { r_params : list R; r_error : R; r_history : history }.

Section Solve.
  Context {St : Type} (params_of : St -> list R) (error_of : St -> R) (iterate : St -> St).

  (** The for loop, solver.cpp:80-110; [fuel] is maxIterations_ - iteration_.  Storing history is
      always on; storeHistory of the solver function is not modelled. *)
  Fixpoint solve_loop (o : options) (fuel it : nat) (last : R) (s : St) (h : history)
    : St * history :=
    match fuel with
    | O => (s, {| h_params := h_params h; h_error := h_error h; h_iterations := it |})
    | S fuel' =>
        let s := iterate s in
        let h := {| h_params := store (h_params h) it (params_of s);
                    h_error := store (h_error h) it (error_of s);
                    h_iterations := 0 |} in
        if (o_min o <=? it)%nat && converged o last (error_of s)
        then (s, {| h_params := h_params h; h_error := h_error h; h_iterations := it |})
        else solve_loop o fuel' (S it) (error_of s) s h
    end.

  (** solve, solver.cpp:46-116.  [s0] is the state after :71-78: the parameters copied in, the
      error set to dbl_max, the solver initialised. *)
  Definition solve (o : options) (n : nat) (s0 : St) : solved :=
    let h0 := {| h_params := repeat (repeat 0 n) (o_max o); h_error := repeat 0 (o_max o);
                 h_iterations := 0 |} in
    let '(s, h) := solve_loop o (o_max o) 0 dbl_max s0 h0 in
    {| r_params := params_of s; r_error := error_of s; r_history := h |}.
End Solve.

(** ** Line search *)

(** The backtracking loops of gauss_newton_solver.cpp:245-259 and
    subset_gauss_newton_solver.cpp:122-137: at most [fuel] trial points, the scale halved after
    each refusal; when all are refused the last trial point is kept.  The scale starts at 1 and is
    halved at most ten times, so it is always a normal number and that test is dropped. *)
Fixpoint line_search (f : list R -> R) (accept : R -> R -> bool) (p0 delta : list R)
  (fuel : nat) (scale : R) (cur : list R) : list R :=
  match fuel with
  | O => cur
  | S fuel' =>
      let p := lsub p0 (lscale scale delta) in
      if accept scale (f p) then p
      else line_search f accept p0 delta fuel' (scale * (1 / 2)) p
  end.

(** ** The iterations *)

(** What the three solvers keep between iterations: parameters_, error_, and for the subset
    solver delta_ and enabledParameters_. *)
Record sstate := {
  s_params : list R;
  s_error : R;
  s_delta : list R;
  s_enabled : list nat
}.

(** GradientDescentSolverT::doIteration, gradient_descent_solver.cpp:46-50. *)
Definition gd_iterate (f : objfn) (rate : R) (s : sstate) : sstate :=
  let '(e, g) := ob_gradient f (s_params s) in
  {| s_params := lsub (s_params s) (lscale rate g);
     s_error := e; s_delta := s_delta s; s_enabled := s_enabled s |}.

(** Eigen's LLT reads the lower triangle only. *)
Definition from_lower (H : nat -> nat -> R) (i j : nat) : R :=
  if (j <=? i)%nat then H i j else H j i.

(** GaussNewtonSolverT::doIterationDense, gauss_newton_solver.cpp:67-121, with
    useBlockJtJ_ = false (getJtJR returns the same J^T J and J^T r, C67).  In exact arithmetic
    doIterationSparse, :123-200, computes the same step.  [lin] is the factorise-and-solve of
    llt_ / lltSolver_ (Eigen).  The Hessian history is not modelled. *)
Definition gn_delta (lin : nat -> (nat -> nat -> R) -> (nat -> R) -> nat -> R) (alpha : R)
  (n actual : nat) (rows : list (list R * R)) : list R :=
  let hess := fun a b => rsum (map (fun row => nth a (fst row) 0 * nth b (fst row) 0) rows) +
                         (if (a =? b)%nat then alpha else 0) in
  let jtr := fun a => rsum (map (fun row => nth a (fst row) 0 * snd row) rows) in
  map (fun i => if (i <? actual)%nat then lin actual (from_lower hess) jtr i else 0) (seq 0 n).

(** GaussNewtonSolverT::updateParameters, gauss_newton_solver.cpp:202-232. *)
Definition gn_update (f : objfn) (search : bool) (err : R) (p delta : list R) : list R :=
  if search
  then line_search (ob_error f)
         (fun scale errNew => Rleb (scale * (1 / 1000 * err)) (err - errNew)) p delta 10 1 p
  else lsub p delta.

Definition gn_iterate (lin : nat -> (nat -> nat -> R) -> (nat -> R) -> nat -> R)
  (f : objfn) (alpha : R) (search : bool) (s : sstate) : sstate :=
  let '(e, rows) := ob_jacobian f (s_params s) in
  let delta := gn_delta lin alpha (ob_n f) (ob_actual f) rows in
  {| s_params := gn_update f search e (s_params s) delta;
     s_error := e; s_delta := s_delta s; s_enabled := s_enabled s |}.

(** SubsetGaussNewtonSolverT::updateEnabledParameters, subset_gauss_newton_solver.cpp:46-62 (the
    bitset has 2048 entries; more parameters make test() throw and are not modelled). *)
Definition enabled_indices (n : nat) (en : nat -> bool) : list nat := filter en (seq 0 n).
Definition sub_set_enabled (f : objfn) (en : nat -> bool) (s : sstate) : sstate :=
  {| s_params := s_params s; s_error := s_error s;
     s_delta := repeat 0 (ob_n f); s_enabled := enabled_indices (ob_n f) en |}.

(** The columns moved to the front in place, subset_gauss_newton_solver.cpp:86-92, on one row. *)
Definition compact_row (enabled : list nat) (row : list R) : list R :=
  fold_left
    (fun r k => let i := nth k enabled 0%nat in
                if (k <? i)%nat then store r k (nth i r 0) else r)
    (seq 0 (length enabled)) row.

(** SubsetGaussNewtonSolverT::doIteration, subset_gauss_newton_solver.cpp:70-141. *)
Definition sub_iterate (lin : nat -> (nat -> nat -> R) -> (nat -> R) -> nat -> R)
  (f : objfn) (reg : R) (search : bool) (s : sstate) : sstate :=
  let '(e, rows) := ob_jacobian f (s_params s) in
  let rows := map (fun row => (compact_row (s_enabled s) (fst row), snd row)) rows in
  let m := length (s_enabled s) in
  let grad := fun a => rsum (map (fun row => nth a (fst row) 0 * snd row) rows) in
  let hess := fun a b => rsum (map (fun row => nth a (fst row) 0 * nth b (fst row) 0) rows) +
                         (if (a =? b)%nat then reg else 0) in
  let sub := lin m (from_lower hess) grad in
  let delta := fold_left (fun d k => store d (nth k (s_enabled s) 0%nat) (sub k)) (seq 0 m)
                 (s_delta s) in
  let inner := sumn m (fun k => grad k * sub k) in
  {| s_params :=
       if search
       then line_search (ob_error f)
              (fun alpha errNew => Rleb (1 / 10000 * alpha * inner) (e - errNew))
              (s_params s) delta 10 1 (s_params s)
       else lsub (s_params s) delta;
     s_error := e; s_delta := delta; s_enabled := s_enabled s |}.

(** The three methods with their options. *)
Inductive method :=
| GradientDescent (rate : R)
| GaussNewton (alpha : R) (search : bool)
| SubsetGaussNewton (reg : R) (search : bool).
Definition iterate (lin : nat -> (nat -> nat -> R) -> (nat -> R) -> nat -> R)
  (m : method) (f : objfn) : sstate -> sstate :=
  match m with
  | GradientDescent rate => gd_iterate f rate
  | GaussNewton alpha search => gn_iterate lin f alpha search
  | SubsetGaussNewton reg search => sub_iterate lin f reg search
  end.

(** solver.cpp:71-78: a call of solve() starts from the caller's parameters and whatever else
    the solver kept. *)
Definition start (p : list R) (s : sstate) : sstate :=
  {| s_params := p; s_error := dbl_max; s_delta := s_delta s; s_enabled := s_enabled s |}.
Definition run (lin : nat -> (nat -> nat -> R) -> (nat -> R) -> nat -> R)
  (m : method) (f : objfn) (o : options) (s : sstate) (p : list R) : solved :=
  solve s_params s_error (iterate lin m f) o (ob_n f) (start p s).

(** A newly constructed solver (solver.cpp:16-26, subset_gauss_newton_solver.cpp:15-29): all
    parameters enabled, delta_ zero. *)
Definition fresh (f : objfn) : sstate :=
  {| s_params := repeat 0 (ob_n f); s_error := 0;
     s_delta := repeat 0 (ob_n f); s_enabled := seq 0 (ob_n f) |}.

(** A whole solve(), keeping only the state it ends in, and the calls on a subset solver. *)
Definition solve_state (lin : nat -> (nat -> nat -> R) -> (nat -> R) -> nat -> R)
  (m : method) (f : objfn) (o : options) (s : sstate) : sstate :=
  fst (solve_loop s_params s_error (iterate lin m f) o (o_max o) 0 dbl_max s
         {| h_params := []; h_error := []; h_iterations := 0 |}).
Definition sub_do (lin : nat -> (nat -> nat -> R) -> (nat -> R) -> nat -> R)
  (f : objfn) (s : sstate) (op : sub_op) : sstate :=
  match op with
  | OpEnable en => sub_set_enabled f en s
  | OpSolve reg search o p => solve_state lin (SubsetGaussNewton reg search) f o (start p s)
  end.
