(** What the iterative solvers promise, stated without their loops (C22-C25, C69, C70). *)

From Coq Require Import Reals List Arith Bool.
From Coquelicot Require Import Coquelicot.
From Verif Require Import LinAlg ListUtil.
Import ListNotations.
Local Open Scope R_scope.

(** Limits of the floating-point types: the largest double, the smallest normal float, the
    spacing of floats at 1. *)
Definition dbl_max : R := (2 - / 2 ^ 52) * 2 ^ 1023.
Definition flt_min : R := / 2 ^ 126.
Definition flt_epsilon : R := / 2 ^ 23.

(** The options every solver takes (momentum/solver/solver.h:18-34). *)
Record options := { o_min : nat; o_max : nat; o_threshold : R }.

(** A run seen from outside is the sequence [e] of the errors of its iterations, [e k] being the
    error reported by iteration number [k].  Before the first one the error counts as dbl_max. *)
Definition error_before (e : nat -> R) (k : nat) : R :=
  match k with O => dbl_max | S j => e j end.

(** Iteration [k] changed the error by no more than the threshold (relative, in float epsilons)
    and comes late enough to stop at. *)
Definition may_stop (o : options) (e : nat -> R) (k : nat) : Prop :=
  (o_min o <= k)%nat /\
  Rabs (error_before e k - e k) / (Rabs (e k) + flt_min) <= o_threshold o * flt_epsilon.

(** Exactly [n] iterations are run: the first iteration that may stop is the last one, and
    without any such iteration the maximum is used up. *)
Definition runs_for (o : options) (e : nat -> R) (n : nat) : Prop :=
  (n <= o_max o)%nat /\
  (forall k, (S k < n)%nat -> ~ may_stop o e k) /\
  ((n < o_max o)%nat -> exists k, n = S k /\ may_stop o e k).

(** A symmetric positive definite matrix, and what a solver of such systems owes its caller. *)
Definition symmetric (n : nat) (H : nat -> nat -> R) : Prop :=
  forall i j, (i < n)%nat -> (j < n)%nat -> H i j = H j i.
Definition quad (n : nat) (H : nat -> nat -> R) (x : nat -> R) : R :=
  sumn n (fun i => x i * sumn n (fun j => H i j * x j)).
Definition positive_definite (n : nat) (H : nat -> nat -> R) : Prop :=
  forall x, (exists i, (i < n)%nat /\ x i <> 0) -> 0 < quad n H x.
Definition solves_spd (lin : nat -> (nat -> nat -> R) -> (nat -> R) -> nat -> R) : Prop :=
  forall n H g, symmetric n H -> positive_definite n H ->
  forall i, (i < n)%nat -> sumn n (fun j => H i j * lin n H g j) = g i.

(** Entry (a, b) of  J^T J + alpha I  and entry a of  J^T r, for a Jacobian given by its rows,
    each with its residual. *)
Definition normal_matrix (rows : list (list R * R)) (alpha : R) (a b : nat) : R :=
  rsum (map (fun row => nth a (fst row) 0 * nth b (fst row) 0) rows) +
  (if (a =? b)%nat then alpha else 0).
Definition normal_rhs (rows : list (list R * R)) (a : nat) : R :=
  rsum (map (fun row => nth a (fst row) 0 * snd row) rows).

(** [q] is the point reached from [p] by going [t] times the step [d] downwards. *)
Definition moved (p d : list R) (t : R) (q : list R) : Prop :=
  length q = length p /\
  forall i, (i < length p)%nat -> nth i q 0 = nth i p 0 - t * nth i d 0.

(** [delta] is a regularised Gauss-Newton step in the active parameters: it solves the normal
    equations of those parameters and leaves the others alone. *)
Definition step_solves (rows : list (list R * R)) (alpha : R) (active : nat -> bool) (n : nat)
  (delta : list R) : Prop :=
  length delta = n /\
  (forall i, (i < n)%nat -> active i = false -> nth i delta 0 = 0) /\
  (forall i, (i < n)%nat -> active i = true ->
     sumn n (fun j => normal_matrix rows alpha i j * nth j delta 0) = normal_rhs rows i).

(** ** The objective *)

(** SolverFunctionT, momentum/solver/solver_function.h:20-90: number of parameters, getError,
    getGradient and getJacobian (the rows that count, each with its residual).
    getActualParameters is [ob_actual]. *)
Record objfn := {
  ob_n : nat;
  ob_actual : nat;
  ob_error : list R -> R;
  ob_gradient : list R -> R * list R;
  ob_jacobian : list R -> R * list (list R * R)
}.

(** Jacobians and gradients have one entry per parameter. *)
Definition obj_wf (f : objfn) : Prop :=
  (ob_actual f <= ob_n f)%nat /\
  forall p, length p = ob_n f ->
    length (snd (ob_gradient f p)) = ob_n f /\
    forall row, In row (snd (ob_jacobian f p)) -> length (fst row) = ob_n f.

(** getGradient and getJacobian report the error getError does. *)
Definition reports (f : objfn) : Prop :=
  forall p, length p = ob_n f ->
    fst (ob_gradient f p) = ob_error f p /\ fst (ob_jacobian f p) = ob_error f p.

(** The error is the sum of the squared residuals, and 2 J^T r is its derivative. *)
Definition least_squares (f : objfn) : Prop :=
  forall p, length p = ob_n f ->
    let rows := snd (ob_jacobian f p) in
    ob_error f p = rsum (map (fun row => snd row * snd row) rows) /\
    forall i, (i < ob_n f)%nat ->
      is_derive (fun t => ob_error f (store p i t)) (nth i p 0) (2 * normal_rhs rows i).

(** ** The life of a subset solver *)

(** The calls a user makes on a subset solver between solves: setEnabledParameters, or setOptions
    and a whole solve() from some parameters, which leaves the state it ends in. *)
Inductive sub_op :=
| OpEnable (en : nat -> bool)
| OpSolve (reg : R) (search : bool) (o : options) (p : list R).
(** Every solve() is given as many parameters as there are. *)
Definition sizes_ok (f : objfn) (op : sub_op) : Prop :=
  match op with OpEnable _ => True | OpSolve _ _ _ p => length p = ob_n f end.
(** The enabled set in force: the last one given, all parameters if there was none. *)
Definition enabled_sets (ops : list sub_op) : list (nat -> bool) :=
  flat_map (fun op => match op with OpEnable en => [en] | _ => [] end) ops.
Definition last_enabled (sets : list (nat -> bool)) : nat -> bool :=
  last sets (fun _ => true).
