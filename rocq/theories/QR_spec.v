(** What the online QR solvers are asked to compute, stated without any factorisation. *)

From Coq Require Import Reals List Arith Bool.
From Verif Require Import LinAlg.
Import ListNotations.
Local Open Scope R_scope.

(** One block of rows handed to a solver: [lb_rows] equations  sum_j A k j * x j = b k. *)
Record lsq_block := { lb_rows : nat; lb_A : nat -> nat -> R; lb_b : nat -> R }.

(** The regularised least-squares objective of all the blocks over [n] unknowns:
    lambda^2 |x|^2 + sum over all the rows of (A x - b)^2. *)
Definition objective (n : nat) (lambda : R) (blocks : list lsq_block) (x : nat -> R) : R :=
  lambda * lambda * sumn n (fun j => x j * x j) +
  rsum (map (fun B =>
    sumn (lb_rows B) (fun k =>
      (sumn n (fun j => lb_A B k j * x j) - lb_b B k) *
      (sumn n (fun j => lb_A B k j * x j) - lb_b B k))) blocks).

(** Entry (i, j) of  lambda^2 I + sum A^T A  and entry i of  sum A^T b. *)
Definition gram (lambda : R) (blocks : list lsq_block) (i j : nat) : R :=
  (if (i =? j)%nat then lambda * lambda else 0) +
  rsum (map (fun B => sumn (lb_rows B) (fun k => lb_A B k i * lb_A B k j)) blocks).
Definition rhs (blocks : list lsq_block) (i : nat) : R :=
  rsum (map (fun B => sumn (lb_rows B) (fun k => lb_A B k i * lb_b B k)) blocks).

(** [x] is the one point where the objective is least. *)
Definition unique_minimiser (n : nat) (f : (nat -> R) -> R) (x : nat -> R) : Prop :=
  forall z, f x <= f z /\ (f z = f x -> forall j, (j < n)%nat -> z j = x j).

(** The inner product of two vectors split into a first entry and [m] further ones. *)
Definition dot_split (m : nat) (p : R) (x : nat -> R) (q : R) (z : nat -> R) : R :=
  p * q + sumn m (fun k => x k * z k).

(** The calls a user makes on a solver, and what is left of a history of them: the number of
    unknowns, the regularisation and the blocks added since the last reset. *)
Inductive qr_op :=
| OpReset (n : nat) (lambda : R)   (* reset(n, lambda) *)
| OpResetSame                      (* reset() *)
| OpAdd (B : lsq_block).           (* add(A, b) *)
Definition live_step (s : nat * R * list lsq_block) (o : qr_op) : nat * R * list lsq_block :=
  let '(n, lambda, Bs) := s in
  match o with
  | OpReset n' lambda' => (n', lambda', [])
  | OpResetSame => (n, 0, [])
  | OpAdd B => (n, lambda, Bs ++ [B])
  end.
