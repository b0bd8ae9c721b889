(** The loss family of "A General and Adaptive Robust Loss Function"
    (arXiv 1701.03077), as a function of the squared error [s]. *)

From Coq Require Import Reals.
Local Open Scope R_scope.

(** rho(x, alpha, c) for alpha different from 0 and 2, with s = x^2. *)
Definition barron (alpha c s : R) : R :=
  Rabs (alpha - 2) / alpha *
  (Rpower (s / (c * c) / Rabs (alpha - 2) + 1) (alpha / 2) - 1).
