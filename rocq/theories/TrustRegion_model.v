(** Model of TrustRegionQRT, momentum/character_solver/trust_region_qr.cpp, on top of the dense
    online QR solver.  Scalars are exact reals. *)

From Coq Require Import Reals List Arith Bool.
From Verif Require Import ListUtil LinAlg Rbool QR_spec QR_model Solver_spec Solver_model TrustRegion_spec.
Import ListNotations.
Local Open Scope R_scope.

(** parameters_, error_, curTrustRegionRadius_ and activeParameters_ (the bitset test throws above
    2048 parameters; that is not modelled). *)
Record trstate := { t_params : list R; t_error : R; t_radius : R; t_active : nat -> bool }.

(** The rows of one error function with the enabled columns selected, trust_region_qr.cpp:101-104. *)
Definition tr_lsq (enabled : list nat) (rows : list (list R * R)) : lsq_block :=
  {| lb_rows := length rows;
     lb_A := fun k j => nth (nth j enabled 0%nat) (fst (nth k rows ([], 0))) 0;
     lb_b := fun k => snd (nth k rows ([], 0)) |}.

(** The factorisation, trust_region_qr.cpp:78-105: reset with a tiny lambda, then one block per
    error function that used rows. *)
Definition tr_lambda0 : R := / 10 ^ 10.
Definition tr_factor (f : tr_fn) (enabled : list nat) (p : list R) : qr :=
  fold_left (fun q rows => let B := tr_lsq enabled rows in qr_add q (lb_rows B) (lb_A B) (lb_b B))
    (filter (fun rows => negb (length rows =? 0)%nat) (map snd (tr_blocks f p)))
    (qr_reset (length enabled) tr_lambda0).

(** Triangular solve with the transpose, Eigen: forward substitution. *)
Definition tri_solve_t (n : nat) (U : mat) (y : vec) : vec :=
  fold_left (fun x i => upd x i ((y i - sumn i (fun j => U j i * x j)) / U i i)) (seq 0 n) (fun _ => 0).

Definition norm2 (n : nat) (x : vec) : R := sumn n (fun i => x i * x i).

(** The search for a larger lambda, trust_region_qr.cpp:176-233. *)
Fixpoint lambda_loop (n : nat) (g : vec) (radius : R) (fuel : nat) (q : qr) (lambda : R) (dir : vec)
  : qr * R * vec :=
  match fuel with
  | O => (q, lambda, dir)
  | S fuel' =>
      if Rltb (sqrt (norm2 n dir)) (105 / 100 * radius) then (q, lambda, dir)
      else
        let p_l := tri_solve n (q_R q) (tri_solve_t n (q_R q) (fun i => - (1 / 2) * g i)) in
        let q_l := tri_solve_t n (q_R q) p_l in
        let p2 := norm2 n p_l in
        let q2 := norm2 n q_l in
        if Rltb q2 flt_epsilon then (q, lambda, dir)
        else
          let dl := p2 / q2 * ((sqrt p2 - radius) / radius) in
          if Rleb dl 0 then (q, lambda, dir)
          else
            let lambda' := lambda + dl in
            let y := sqrt (lambda' - lambda) in
            let q := qr_add q n (fun i j => if (i =? j)%nat then y else 0) (fun _ => 0) in
            lambda_loop n g radius fuel' q lambda' (qr_result q)
  end.

(** subsetToFullVector, trust_region_qr.cpp:143-150. *)
Definition tr_full (n : nat) (enabled : list nat) (v : vec) : list R :=
  fold_left (fun d k => store d (nth k enabled 0%nat) (v k)) (seq 0 (length enabled)) (repeat 0 n).

(** evalQuadraticModel, trust_region_qr.cpp:131-141; only the upper triangle of R is read. *)
Definition quadratic_model (n : nat) (err : R) (g : vec) (R0 : mat) (p : vec) : R :=
  err - sumn n (fun i => g i * p i) +
  norm2 n (fun i => sumn n (fun j => (if (i <=? j)%nat then R0 i j else 0) * p j)).

(** The trial steps, trust_region_qr.cpp:155-278.  maxTrustRegionRadius_ is 10
    (trust_region_qr.h:76). *)
Fixpoint trust_loop (f : tr_fn) (enabled : list nat) (err : R) (g : vec) (R0 : mat)
  (fuel : nat) (q : qr) (lambda : R) (params : list R) (radius : R) : list R * R :=
  match fuel with
  | O => (params, radius)
  | S fuel' =>
      let n := length enabled in
      let dir := qr_result q in
      if Rltb (sumn n (fun i => dir i * g i)) (flt_epsilon * (1 + err)) then (params, radius)
      else
        let '(q, lambda, dir) := lambda_loop n g radius 3 q lambda dir in
        let trial := lsub params (tr_full (tr_n f) enabled dir) in
        let errNew := tr_error f trial in
        let rho := (err - errNew) / (err - quadratic_model n err g R0 dir) in
        let radius :=
          if Rltb rho (1 / 4) then 1 / 4 * radius
          else if Rltb (3 / 4) rho && Rltb 0 lambda then Rmin (2 * radius) 10
          else radius in
        if Rltb 0 rho then (trial, radius)
        else trust_loop f enabled err g R0 fuel' q lambda params radius
  end.

(** doIteration, trust_region_qr.cpp:48-279. *)
Definition tr_iterate (f : tr_fn) (s : trstate) : trstate :=
  let p := t_params s in
  let enabled := enabled_indices (tr_n f) (t_active s) in
  let q := tr_factor f enabled p in
  let err := rsum (map fst (tr_blocks f p)) in
  let g := fun i => 2 * nth i (qr_At_times_b q) 0 in
  let '(params, radius) := trust_loop f enabled err g (q_R q) 10 q tr_lambda0 p (t_radius s) in
  {| t_params := params; t_error := err; t_radius := radius; t_active := t_active s |}.

(** solve() with this solver: initializeSolver, trust_region_qr.cpp:36-38, sets the radius to the
    option, which is 1 by default. *)
Definition tr_run (f : tr_fn) (o : options) (active : nat -> bool) (radius : R) (p : list R) : solved :=
  solve t_params t_error (tr_iterate f) o (tr_n f)
    {| t_params := p; t_error := dbl_max; t_radius := radius; t_active := active |}.
