(** GaussNewtonSolverQRT, momentum/character_solver/gauss_newton_solver_qr.cpp, on top of the dense online
    QR solver.  Scalars are exact reals. *)

From Coq Require Import Reals List Arith Bool.
From Verif Require Import ListUtil LinAlg Rbool QR_spec QR_model Solver_spec Solver_model TrustRegion_spec TrustRegion_model.
Import ListNotations.
Local Open Scope R_scope.

(** parameters_, error_ and activeParameters_. *)
Record gqstate := { g_params : list R; g_error : R; g_active : nat -> bool }.

(** The factorisation, gauss_newton_solver_qr.cpp:79-105: reset with the root of the regularisation, then one
    block per error function with positive weight that used rows. *)
Definition gq_factor (f : tr_fn) (reg : R) (enabled : list nat) (p : list R) : qr :=
  fold_left (fun q rows => let B := tr_lsq enabled rows in qr_add q (lb_rows B) (lb_A B) (lb_b B))
    (filter (fun rows => negb (length rows =? 0)%nat) (map snd (tr_blocks f p)))
    (qr_reset (length enabled) (sqrt reg)).

(** doIteration, gauss_newton_solver_qr.cpp:54-145.  1e-4f is taken as the real number. *)
Definition gq_iterate (f : tr_fn) (reg : R) (search : bool) (s : gqstate) : gqstate :=
  let p := g_params s in
  let enabled := enabled_indices (tr_n f) (g_active s) in
  let q := gq_factor f reg enabled p in
  let err := rsum (map fst (tr_blocks f p)) in
  let subset := qr_result q in
  let dir := tr_full (tr_n f) enabled subset in
  let inner := - sumn (length enabled) (fun i => nth i (qr_At_times_b q) 0 * subset i) in
  {| g_params :=
       if search
       then line_search (tr_error f) (fun alpha errNew => Rleb (1 / 10000 * alpha * - inner) (err - errNew)) p dir 10 1 p
       else lsub p dir;
     g_error := err; g_active := g_active s |}.

(** solve() with this solver. *)
Definition gq_run (f : tr_fn) (o : options) (active : nat -> bool) (reg : R) (search : bool) (p : list R) : solved :=
  solve g_params g_error (gq_iterate f reg search) o (tr_n f) {| g_params := p; g_error := dbl_max; g_active := active |}.
