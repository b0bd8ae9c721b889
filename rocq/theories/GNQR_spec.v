(** The objective of an error function list as one function (C107). *)

From Coq Require Import Reals List Arith Bool.
From Verif Require Import LinAlg Solver_spec TrustRegion_spec.
Import ListNotations.
Local Open Scope R_scope.

(** The rows of all error functions, one after the other. *)
Definition tr_rows (f : tr_fn) (p : list R) : list (list R * R) := concat (map snd (tr_blocks f p)).
Definition tr_wf (f : tr_fn) : Prop := forall p row, length p = tr_n f -> In row (tr_rows f p) -> length (fst row) = tr_n f.
(** The same objective as the other Gauss-Newton solvers see it; the gradient is that of the rows. *)
Definition stacked (f : tr_fn) : objfn :=
  {| ob_n := tr_n f; ob_actual := tr_n f; ob_error := tr_error f;
     ob_gradient := fun p => (tr_reported f p, map (fun i => 2 * normal_rhs (tr_rows f p) i) (seq 0 (tr_n f)));
     ob_jacobian := fun p => (tr_reported f p, tr_rows f p) |}.
