(** Properties of the trust-region solver (C26) and of gradient descent (C71). *)

From Coq Require Import Reals List Arith Bool Lia Lra Psatz.
From Coquelicot Require Import Coquelicot.
From Verif Require Import ListUtil LinAlg Rbool Solver_spec Solver_model Solver_proofs Solver_step_proofs
  Solver_run_proofs Solver_bump TrustRegion_spec TrustRegion_model TrustRegion_proofs.
Import ListNotations.
Local Open Scope R_scope.

(** One iteration either keeps the parameters or moves to parameters whose error is below the one
    it reports; the radius stays positive and does not grow beyond 10 (or its initial value, if
    that was larger); disabled parameters do not move. *)
Theorem trust_region_iteration f s :
  tr_nonneg f -> length (t_params s) = tr_n f -> 0 < t_radius s ->
  let s' := tr_iterate f s in
  t_error s' = tr_reported f (t_params s) /\
  (t_params s' = t_params s \/ tr_error f (t_params s') < tr_reported f (t_params s)) /\
  0 < t_radius s' <= Rmax (t_radius s) 10 /\
  t_active s' = t_active s /\
  length (t_params s') = tr_n f /\
  (forall i, (i < tr_n f)%nat -> t_active s i = false -> nth i (t_params s') 0 = nth i (t_params s) 0).
Proof. exact (tr_iterate_spec f s). Qed.
Print Assumptions trust_region_iteration.

(** Over a whole solve() the errors of the iterates never increase, so the returned parameters are
    at least as good as the given ones, and the returned error is an upper bound of theirs. *)
Theorem trust_region_solve_monotone f o active radius p :
  tr_nonneg f -> tr_consistent f -> length p = tr_n f -> 0 < radius ->
  let r := tr_run f o active radius p in
  let st := fun k => Nat.iter k (tr_iterate f)
       {| t_params := p; t_error := dbl_max; t_radius := radius; t_active := active |} in
  (forall k, tr_error f (t_params (st (S k))) <= tr_error f (t_params (st k)) /\
             0 < t_radius (st k) <= Rmax radius 10) /\
  (exists k, runs_for o (fun i => tr_error f (t_params (st i))) k /\ r_params r = t_params (st k)) /\
  tr_error f (r_params r) <= tr_error f p /\
  ((0 < o_max o)%nat -> tr_error f (r_params r) <= r_error r <= tr_error f p) /\
  (forall i, (i < tr_n f)%nat -> active i = false -> nth i (r_params r) 0 = nth i p 0).
Proof. exact (tr_run_spec f o active radius p). Qed.
Print Assumptions trust_region_solve_monotone.

(** The objective of the line-search counterexample meets the hypotheses. *)
Example trust_region_example :
  let f := {| tr_n := 1; tr_error := ob_error bump;
              tr_blocks := fun p => [ob_jacobian bump p] |} in
  tr_nonneg f /\ tr_consistent f /\ length [0] = tr_n f /\ 0 < 1.
Proof.
  cbv zeta. split.
  - intros p Hp. unfold tr_reported. cbn. nra.
  - split; [|split; [reflexivity|lra]]. intros p Hp. unfold tr_reported. cbn. ring.
Qed.

(** ** C71: gradient descent *)

(** When getGradient returns the partial derivatives, an iteration changes every parameter by
    minus the rate times its partial derivative. *)
Theorem gradient_descent_step f rate s :
  obj_wf f -> length (s_params s) = ob_n f ->
  (forall i, (i < ob_n f)%nat ->
     is_derive (fun t => ob_error f (store (s_params s) i t)) (nth i (s_params s) 0)
       (nth i (snd (ob_gradient f (s_params s))) 0)) ->
  let p' := s_params (gd_iterate f rate s) in
  length p' = ob_n f /\
  forall i, (i < ob_n f)%nat ->
    nth i p' 0 = nth i (s_params s) 0 -
      rate * Derive (fun t => ob_error f (store (s_params s) i t)) (nth i (s_params s) 0).
Proof.
  intros (_ & Hwf) Lp Hd. cbv zeta. destruct (Hwf _ Lp) as [Lg _].
  assert (M : moved (s_params s) (snd (ob_gradient f (s_params s))) rate (s_params (gd_iterate f rate s))).
  { unfold gd_iterate. destruct (ob_gradient f (s_params s)) as [e g]. cbn [s_params snd] in *.
    apply moved_lsub. lia. }
  destruct M as [L M]. split; [lia|]. intros i Hi. rewrite M by lia.
  f_equal. f_equal. symmetry. exact (is_derive_unique _ _ _ (Hd i Hi)).
Qed.
Print Assumptions gradient_descent_step.

Example gradient_descent_example :
  forall i, (i < ob_n bump)%nat ->
    is_derive (fun t => ob_error bump (store [3] i t)) (nth i [3] 0) (nth i (snd (ob_gradient bump [3])) 0).
Proof.
  intros [|i] Hi; [|cbn in Hi; lia]. cbn. unfold bump_r. auto_derive; [exact I|ring].
Qed.
