(** C107: the Gauss-Newton solver that factorises the Jacobian. *)

From Coq Require Import Reals List Arith Bool Lia Lra.
From Verif Require Import ListUtil LinAlg Rbool QR_spec QR_model Solver_spec Solver_model Solver_lin_proofs Solver_step_proofs Solver_bump
  TrustRegion_spec TrustRegion_model GNQR_spec GNQR_model GNQR_proofs.
Import ListNotations.
Local Open Scope R_scope.

(** Each iteration moves the enabled parameters along the solution of the regularised normal equations of all the
    error functions' rows together; without line search it takes the whole step. *)
Theorem gnqr_step f reg search s : 0 < reg -> length (g_params s) = tr_n f ->
  let s' := gq_iterate f reg search s in
  g_error s' = tr_reported f (g_params s) /\
  exists delta t, step_solves (tr_rows f (g_params s)) reg (g_active s) (tr_n f) delta /\
    0 < t <= 1 /\ (search = false -> t = 1) /\ moved (g_params s) delta t (g_params s').
Proof.
  intros Hr Lp. cbv zeta. destruct (gq_iterate_spec f reg search s Hr Lp) as (_ & E & _ & delta & St & k & _ & F & M & _).
  split; [exact E|]. exists delta, ((1 / 2) ^ k). split; [exact St|]. split; [split; [apply pow_lt; lra|apply pow_half_le1]|].
  split; [|exact M]. intros Q. rewrite (F Q). reflexivity.
Qed.
Print Assumptions gnqr_step.

(** It is the subset Gauss-Newton solver: whatever solves that one's linear systems, and whatever was enabled and
    solved with it before, both return the same parameters, error and history of every solve(). *)
Theorem gnqr_is_subset lin f o ops reg search p :
  tr_wf f -> solves_spd lin -> 0 < reg -> length p = tr_n f -> List.Forall (sizes_ok (stacked f)) ops ->
  gq_run f o (last_enabled (enabled_sets ops)) reg search p =
  run lin (SubsetGaussNewton reg search) (stacked f) o (fold_left (sub_do lin (stacked f)) ops (fresh (stacked f))) p.
Proof. intros W L Hr Lp HO. exact (gq_run_same lin f o _ reg search p ops W L Hr Lp HO eq_refl). Qed.
Print Assumptions gnqr_is_subset.

(** A whole solve() leaves every disabled parameter exactly as it was given, for any regularisation. *)
Theorem gnqr_frame f o active reg search p : length p = tr_n f ->
  let r := gq_run f o active reg search p in
  length (r_params r) = tr_n f /\ forall i, (i < tr_n f)%nat -> active i = false -> nth i (r_params r) 0 = nth i p 0.
Proof. exact (gq_solve_frame f o active reg search p). Qed.
Print Assumptions gnqr_frame.

(** When one of the ten trial points passes the test, the first such point is taken and the error does not grow. *)
Theorem gnqr_line_search_partial f reg active p j q delta : 0 < reg -> length p = tr_n f -> tr_consistent f ->
  let s' := gq_iterate f reg true {| g_params := p; g_error := 0; g_active := active |} in
  let slope := sumn (tr_n f) (fun i => if active i then normal_rhs (tr_rows f p) i * nth i delta 0 else 0) in
  step_solves (tr_rows f p) reg active (tr_n f) delta ->
  (j < 10)%nat -> moved p delta ((1 / 2) ^ j) q -> 1 / 10000 * (1 / 2) ^ j * slope <= tr_error f p - tr_error f q ->
  tr_error f (g_params s') <= tr_error f p /\
  exists k, (k <= j)%nat /\ moved p delta ((1 / 2) ^ k) (g_params s') /\
    1 / 10000 * (1 / 2) ^ k * slope <= tr_error f p - tr_error f (g_params s') /\
    forall i z, (i < k)%nat -> moved p delta ((1 / 2) ^ i) z -> tr_error f p - tr_error f z < 1 / 10000 * (1 / 2) ^ i * slope.
Proof. exact (gq_search_first f reg active p j q delta). Qed.
Print Assumptions gnqr_line_search_partial.

(** Otherwise the error can grow although line search is on: the last of the ten trials is kept. *)
Theorem gnqr_line_search_refuted : exists f p, tr_wf f /\ tr_consistent f /\ least_squares (stacked f) /\ length p = tr_n f /\
  tr_error f p < tr_error f (g_params (gq_iterate f (1 / 20) true {| g_params := p; g_error := 0; g_active := fun _ => true |})).
Proof.
  set (f := {| tr_n := 1; tr_error := ob_error bump; tr_blocks := fun p => [ob_jacobian bump p] |}).
  exists f, [0]. split; [|split; [|split; [|split; [reflexivity|]]]].
  - intros p row _ [<- |[]]. reflexivity.
  - intros p Lp. unfold tr_reported. cbn. ring.
  - intros p Lp. exact (bump_least_squares p Lp).
  - destruct (gq_iterate_spec f (1 / 20) true {| g_params := [0]; g_error := 0; g_active := fun _ => true |} ltac:(lra) eq_refl)
      as (_ & _ & _ & delta & St & k & K & _ & M & _).
    exact (bump_any_step delta k _ St K M).
Qed.
Print Assumptions gnqr_line_search_refuted.

(** Two parameters, the second disabled, two error functions of which one used no rows: all hypotheses are met, and
    one step of length 1/2 on the residual x - 1 with regularisation 1 passes the test. *)
Example gnqr_example :
  let f := {| tr_n := 2; tr_error := fun p => (nth 0 p 0 - 1) * (nth 0 p 0 - 1); tr_blocks := fun p => [((nth 0 p 0 - 1) * (nth 0 p 0 - 1), [([1; 0], nth 0 p 0 - 1)]); (0, [])] |} in
  let active := last_enabled (enabled_sets [OpEnable (fun i => (i =? 0)%nat)]) in
  tr_wf f /\ tr_consistent f /\ solves_spd gsolve /\ List.Forall (sizes_ok (stacked f)) [OpEnable (fun i => (i =? 0)%nat)] /\
  active 0%nat = true /\ active 1%nat = false /\
  step_solves (tr_rows f [0; 7]) 1 active 2 [- (1 / 2); 0] /\ moved [0; 7] [- (1 / 2); 0] ((1 / 2) ^ 0) [1 / 2; 7] /\
  1 / 10000 * (1 / 2) ^ 0 * sumn 2 (fun i => if active i then normal_rhs (tr_rows f [0; 7]) i * nth i [- (1 / 2); 0] 0 else 0) <= tr_error f [0; 7] - tr_error f [1 / 2; 7].
Proof.
  cbv zeta. split; [|split; [|split; [exact gsolve_ok|split; [|split; [reflexivity|split; [reflexivity|split; [|split]]]]]]].
  - intros p row _ [<- |[]]. reflexivity.
  - intros p Lp. unfold tr_reported. cbn. ring.
  - repeat constructor.
  - split; [reflexivity|]. split.
    + intros [|[|i]] Hi Ha; [discriminate Ha|reflexivity|cbn in Hi; lia].
    + intros [|[|i]] Hi Ha; [|discriminate Ha|cbn in Hi; lia]. unfold sumn, normal_matrix, normal_rhs, tr_rows. cbn. lra.
  - split; [reflexivity|]. intros [|[|i]] Hi; cbn in *; [lra|lra|lia].
  - unfold sumn, normal_rhs, tr_rows. cbn. lra.
Qed.
