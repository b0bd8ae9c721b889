(** Properties of the iterative solvers (C22, C23, C24, C25, C69, C70). *)

From Coq Require Import Reals List Arith Bool Lia Lra Psatz.
From Coquelicot Require Import Coquelicot.
From Verif Require Import ListUtil LinAlg Rbool Solver_spec Solver_model Solver_proofs
  Solver_lin_proofs Solver_step_proofs Solver_run_proofs Solver_bump.
Import ListNotations.
Local Open Scope R_scope.

(** ** C22: the number of iterations *)

(** Whatever an iteration does, solve() stops after the first one that may stop or after
    maxIterations; this determines the number [k] of iterations, at most maxIterations and at
    least min(maxIterations, minIterations + 1), and the result is what [k] iterations leave. *)
Theorem solve_iterations St (params_of : St -> list R) (error_of : St -> R) (iterate : St -> St) o n s0 :
  let r := solve params_of error_of iterate o n s0 in
  let st := fun k => Nat.iter k iterate s0 in
  exists k, runs_for o (fun i => error_of (st (S i))) k /\
    (forall k', runs_for o (fun i => error_of (st (S i))) k' -> k' = k) /\
    (Nat.min (o_max o) (S (o_min o)) <= k <= o_max o)%nat /\
    r_params r = params_of (st k) /\ r_error r = error_of (st k).
Proof.
  cbv zeta.
  destruct (solve_spec params_of error_of iterate o n s0) as (k & Hr & Hp & He & _).
  exists k. split; [exact Hr|]. split; [intros k' H'; exact (runs_for_unique o _ k' k H' Hr)|].
  split; [exact (runs_for_bounds o _ k Hr)|]. split; assumption.
Qed.
Print Assumptions solve_iterations.

(** A run that stops early: errors 8, 8, ... with minIterations 1 stop after the second. *)
Example solve_iterations_example :
  runs_for {| o_min := 1; o_max := 5; o_threshold := 1 |} (fun _ => 8) 2.
Proof.
  split; [cbn; lia|]. split.
  - intros k Hk [M _]. cbn in M. lia.
  - intros _. exists 1%nat. split; [reflexivity|]. split; [cbn; lia|].
    cbn [error_before]. rewrite Rminus_diag_eq by reflexivity. rewrite Rabs_R0.
    unfold Rdiv. rewrite Rmult_0_l. cbn [o_threshold]. unfold flt_epsilon.
    assert (0 < / 2 ^ 23) by (apply Rinv_0_lt_compat, pow_lt; lra). lra.
Qed.

(** ** C70: the stored history *)

(** Column [i] of the history is what iteration [i] left behind, the columns of iterations that
    were not run are zero. *)
Theorem solve_history St (params_of : St -> list R) (error_of : St -> R) (iterate : St -> St) o n s0 :
  let h := r_history (solve params_of error_of iterate o n s0) in
  let st := fun k => Nat.iter k iterate s0 in
  exists k, runs_for o (fun i => error_of (st (S i))) k /\
    length (h_params h) = o_max o /\ length (h_error h) = o_max o /\
    forall i, (i < o_max o)%nat ->
      nth i (h_params h) [] = (if (i <? k)%nat then params_of (st (S i)) else repeat 0 n) /\
      nth i (h_error h) 0 = (if (i <? k)%nat then error_of (st (S i)) else 0).
Proof.
  cbv zeta.
  destruct (solve_spec params_of error_of iterate o n s0) as (k & Hr & _ & _ & (A & B & C) & _).
  exists k. auto.
Qed.
Print Assumptions solve_history.

(** The recorded iteration count is the number of iterations only when none of them converged;
    otherwise it is one less. *)
Theorem solve_iteration_count_partial St (params_of : St -> list R) (error_of : St -> R) (iterate : St -> St) o n s0 :
  let h := r_history (solve params_of error_of iterate o n s0) in
  let e := fun i => error_of (Nat.iter (S i) iterate s0) in
  exists k, runs_for o e k /\
    ((exists i, (i < k)%nat /\ may_stop o e i) -> S (h_iterations h) = k) /\
    ((forall i, (i < k)%nat -> ~ may_stop o e i) -> h_iterations h = k).
Proof.
  cbv zeta.
  destruct (solve_spec params_of error_of iterate o n s0) as (k & Hr & _ & _ & _ & [F|F]);
    exists k; (split; [exact Hr|]).
  - destruct F as (j & -> & M & E). split; [intros _; rewrite E; reflexivity|].
    intros H. exfalso. apply (H j); [lia|exact M].
  - destruct F as (_ & H & E). split; [|intros _; exact E].
    intros (i & Hi & M). exfalso. exact (H i Hi M).
Qed.
Print Assumptions solve_iteration_count_partial.

(** A solver whose iterations all report the error 8. *)
Theorem solve_iteration_count_refuted :
  exists (St : Type) (params_of : St -> list R) (error_of : St -> R) (iterate : St -> St) o n s0 k,
    runs_for o (fun i => error_of (Nat.iter (S i) iterate s0)) k /\
    h_iterations (r_history (solve params_of error_of iterate o n s0)) <> k.
Proof.
  exists unit, (fun _ => []), (fun _ => 8), (fun s => s), {| o_min := 1; o_max := 5; o_threshold := 1 |}, 0%nat, tt, 2%nat.
  split; [exact solve_iterations_example|].
  destruct (solve_iteration_count_partial unit (fun _ => []) (fun _ => 8) (fun s => s)
    {| o_min := 1; o_max := 5; o_threshold := 1 |} 0 tt) as (k & Hk & H1 & _).
  intros E. destruct solve_iterations_example as (_ & _ & Hs).
  destruct (Hs ltac:(cbn; lia)) as (j & Ej & M).
  pose proof (runs_for_unique _ _ _ _ Hk solve_iterations_example) as K2.
  assert (S (h_iterations (r_history (solve (fun _ : unit => []) (fun _ => 8) (fun s => s)
    {| o_min := 1; o_max := 5; o_threshold := 1 |} 0 tt))) = k).
  { apply H1. exists j. split; [lia|exact M]. }
  lia.
Qed.
Print Assumptions solve_iteration_count_refuted.

(** ** C23: the returned error *)

(** The returned error is not the error of the returned parameters. *)
Theorem solver_returns_current_error_refuted :
  exists lin m f o s p,
    obj_wf f /\ reports f /\ least_squares f /\ length p = ob_n f /\
    let r := run lin m f o s p in r_error r <> ob_error f (r_params r).
Proof.
  exists gsolve, (GradientDescent (1 / 10)), bump, {| o_min := 0; o_max := 1; o_threshold := 0 |}, (fresh bump), [0].
  split; [exact bump_wf|]. split; [exact bump_reports|]. split; [exact bump_least_squares|].
  split; [reflexivity|]. cbv zeta. unfold run, solve. cbn [o_max solve_loop].
  match goal with |- context [if ?b then _ else _] => destruct b end;
  cbn; unfold bump_r; lra.
Qed.
Print Assumptions solver_returns_current_error_refuted.

(** It is the error of the parameters one iteration earlier (and the largest double when no
    iteration is run): for gradient descent, Gauss-Newton and the subset solver alike. *)
Theorem solver_returns_previous_error_partial lin m f o s p :
  obj_wf f -> reports f -> length p = ob_n f -> length (s_delta s) = ob_n f ->
  let r := run lin m f o s p in
  let params := fun k => s_params (Nat.iter k (iterate lin m f) (start p s)) in
  exists k, runs_for o (fun i => ob_error f (params i)) k /\
    params 0%nat = p /\ r_params r = params k /\
    r_error r = (match k with O => dbl_max | S j => ob_error f (params j) end).
Proof.
  intros H1 H2 H3 H4. cbv zeta.
  destruct (returned_error lin m f o s p H1 H2 H3 H4) as (k & A & B & C).
  exists k. split; [exact A|]. split; [reflexivity|]. split; assumption.
Qed.
Print Assumptions solver_returns_previous_error_partial.

Example solver_objective_example :
  obj_wf bump /\ reports bump /\ least_squares bump /\ length [0] = ob_n bump /\
  length (s_delta (fresh bump)) = ob_n bump.
Proof.
  split; [exact bump_wf|]. split; [exact bump_reports|]. split; [exact bump_least_squares|].
  split; reflexivity.
Qed.

(** ** C24: line search *)

(** On a least-squares objective with exact Jacobian both solvers can end an iteration with a
    larger error than they started it with, although line search is on. *)
Theorem line_search_never_increases_refuted :
  exists lin f s,
    solves_spd lin /\ obj_wf f /\ reports f /\ least_squares f /\
    s = start [0] (fresh f) /\ length (s_params s) = ob_n f /\
    ob_error f (s_params s) < ob_error f (s_params (gn_iterate lin f (1 / 20) true s)) /\
    ob_error f (s_params s) < ob_error f (s_params (sub_iterate lin f (1 / 20) true s)).
Proof.
  exists gsolve, bump, bump_start.
  split; [exact gsolve_ok|]. split; [exact bump_wf|]. split; [exact bump_reports|].
  split; [exact bump_least_squares|]. split; [reflexivity|]. split; [reflexivity|].
  split; [exact bump_gn|exact bump_sub].
Qed.
Print Assumptions line_search_never_increases_refuted.

(** When one of the ten trial points passes the test, the first such point is taken and the error
    falls by at least the promised amount: Gauss-Newton. *)
Theorem gauss_newton_line_search_partial lin f alpha s j q :
  let p := s_params s in
  let '(e, rows) := ob_jacobian f p in
  let delta := gn_delta lin alpha (ob_n f) (ob_actual f) rows in
  length p = ob_n f -> 0 <= e ->
  (j < 10)%nat -> moved p delta ((1 / 2) ^ j) q ->
  (1 / 2) ^ j * (1 / 1000 * e) <= e - ob_error f q ->
  let p' := s_params (gn_iterate lin f alpha true s) in
  ob_error f p' <= e /\
  exists k, (k <= j)%nat /\ moved p delta ((1 / 2) ^ k) p' /\
    (1 / 2) ^ k * (1 / 1000 * e) <= e - ob_error f p' /\
    forall i qi, (i < k)%nat -> moved p delta ((1 / 2) ^ i) qi ->
      e - ob_error f qi < (1 / 2) ^ i * (1 / 1000 * e).
Proof. exact (gn_search_first lin f alpha s j q). Qed.
Print Assumptions gauss_newton_line_search_partial.

(** The same for the subset solver, whose test asks for a fraction of the slope. *)
Theorem subset_line_search_partial lin f ops reg p j q :
  obj_wf f -> List.Forall (sizes_ok f) ops -> length p = ob_n f -> solves_spd lin -> 0 < reg ->
  let en := last_enabled (enabled_sets ops) in
  let s := start p (fold_left (sub_do lin f) ops (fresh f)) in
  let '(e, rows) := ob_jacobian f p in
  let s' := sub_iterate lin f reg true s in
  let slope := sumn (ob_n f) (fun i => if en i then normal_rhs rows i * nth i (s_delta s') 0 else 0) in
  (j < 10)%nat -> moved p (s_delta s') ((1 / 2) ^ j) q ->
  1 / 10000 * (1 / 2) ^ j * slope <= e - ob_error f q ->
  ob_error f (s_params s') <= e /\
  exists k, (k <= j)%nat /\ moved p (s_delta s') ((1 / 2) ^ k) (s_params s') /\
    1 / 10000 * (1 / 2) ^ k * slope <= e - ob_error f (s_params s').
Proof. exact (sub_search_first_ops lin f ops reg p j q). Qed.
Print Assumptions subset_line_search_partial.

(** ** C25: the subset solver *)

(** Whatever was enabled and solved before, a solve() leaves every parameter that is disabled now
    exactly as it was given. *)
Theorem subset_solver_frame lin f ops reg search o p :
  obj_wf f -> List.Forall (sizes_ok f) ops -> length p = ob_n f ->
  let s := fold_left (sub_do lin f) ops (fresh f) in
  let r := run lin (SubsetGaussNewton reg search) f o s p in
  length (r_params r) = ob_n f /\
  forall i, (i < ob_n f)%nat -> last_enabled (enabled_sets ops) i = false ->
    nth i (r_params r) 0 = nth i p 0.
Proof. exact (sub_frame lin f ops reg search o p). Qed.
Print Assumptions subset_solver_frame.

(** And each of its iterations solves exactly the normal equations of the enabled parameters. *)
Theorem subset_step_solves lin f ops reg search p :
  solves_spd lin -> obj_wf f -> List.Forall (sizes_ok f) ops -> length p = ob_n f -> 0 < reg ->
  let s := start p (fold_left (sub_do lin f) ops (fresh f)) in
  exists delta t,
    step_solves (snd (ob_jacobian f p)) reg (last_enabled (enabled_sets ops)) (ob_n f) delta /\
    0 < t <= 1 /\ (search = false -> t = 1) /\
    moved p delta t (s_params (sub_iterate lin f reg search s)).
Proof. exact (sub_step_solves lin f ops reg search p). Qed.
Print Assumptions subset_step_solves.

Example subset_example :
  let ops := [OpEnable (fun i => Nat.even i); OpSolve 1 true {| o_min := 1; o_max := 4; o_threshold := 1 |} [5];
              OpEnable (fun i => negb (Nat.even i))] in
  solves_spd gsolve /\ obj_wf bump /\ List.Forall (sizes_ok bump) ops /\
  last_enabled (enabled_sets ops) 0%nat = false /\ last_enabled (enabled_sets ops) 1%nat = true.
Proof.
  cbv zeta. split; [exact gsolve_ok|]. split; [exact bump_wf|]. split; [|split; reflexivity].
  repeat constructor.
Qed.

(** ** C69: the Gauss-Newton step *)

(** An iteration moves along the solution of the regularised normal equations of the parameters
    up to the last enabled one; without line search it takes the whole step. *)
Theorem gauss_newton_step lin f alpha search s :
  solves_spd lin -> obj_wf f -> 0 < alpha -> length (s_params s) = ob_n f ->
  exists delta t,
    step_solves (snd (ob_jacobian f (s_params s))) alpha (fun i => (i <? ob_actual f)%nat) (ob_n f) delta /\
    0 < t <= 1 /\ (search = false -> t = 1) /\
    moved (s_params s) delta t (s_params (gn_iterate lin f alpha search s)).
Proof. exact (gn_step_solves lin f alpha search s). Qed.
Print Assumptions gauss_newton_step.

(** Such a step goes downhill: its product with J^T r is |J delta|^2 + alpha |delta|^2, which is
    positive unless the step is zero, and the step is zero only where the gradient in the active
    parameters vanishes. *)
Theorem gauss_newton_descends rows alpha active n delta :
  0 < alpha -> step_solves rows alpha active n delta ->
  sumn n (fun i => normal_rhs rows i * nth i delta 0) =
    rsum (map (fun row => sumn n (fun j => nth j (fst row) 0 * nth j delta 0) ^ 2) rows) +
    alpha * sumn n (fun j => nth j delta 0 ^ 2) /\
  ((exists i, (i < n)%nat /\ nth i delta 0 <> 0) ->
     0 < sumn n (fun i => normal_rhs rows i * nth i delta 0)) /\
  ((forall i, (i < n)%nat -> nth i delta 0 = 0) <->
   (forall i, (i < n)%nat -> active i = true -> normal_rhs rows i = 0)).
Proof. exact (step_descends rows alpha active n delta). Qed.
Print Assumptions gauss_newton_descends.

(** A parameter whose Jacobian column is zero is not moved, even if it is not the last one. *)
Theorem gauss_newton_unused_parameter_fixed rows alpha active n delta i :
  0 < alpha -> step_solves rows alpha active n delta -> (i < n)%nat ->
  (forall row, In row rows -> nth i (fst row) 0 = 0) -> nth i delta 0 = 0.
Proof. exact (step_unused rows alpha active n delta i). Qed.
Print Assumptions gauss_newton_unused_parameter_fixed.

(** Two parameters, one residual 3 with Jacobian (1, 0), regularisation 2: step (1, 0). *)
Example gauss_newton_example :
  step_solves [([1; 0], 3)] 2 (fun _ => true) 2 [1; 0].
Proof.
  split; [reflexivity|]. split; [discriminate|].
  intros [|[|i]] Hi _; [| |lia]; unfold normal_matrix, normal_rhs, sumn; cbn; lra.
Qed.
