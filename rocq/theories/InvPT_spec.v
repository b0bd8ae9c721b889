(** Least squares and rank (C108). *)

From Coq Require Import Bool Reals List Arith.
From Verif Require Import Prelude LinAlg ParamTransform_model ParamTransform_spec.
Import ListNotations.
Local Open Scope R_scope.

(** Squared distance of two joint parameter vectors. *)
Definition jdist2 (n : nat) (a b : list R) : R := sumn n (fun r => (nth r a 0 - nth r b 0) * (nth r a 0 - nth r b 0)).
(** Row r of the transform times x. *)
Definition trow (pt : ptransform) (x : list R) (r : nat) : R := sumn (pt_cols pt) (fun c => coeff pt r c * nth c x 0).
(** What a least squares solver for the transform does. *)
Definition solves_lsq (pt : ptransform) (lsq : list R -> list R) : Prop := forall b, length b = pt_rows pt ->
  length (lsq b) = pt_cols pt /\
  forall x, length x = pt_cols pt ->
    sumn (pt_rows pt) (fun r => (trow pt (lsq b) r - nth r b 0) * (trow pt (lsq b) r - nth r b 0)) <=
    sumn (pt_rows pt) (fun r => (trow pt x r - nth r b 0) * (trow pt x r - nth r b 0)).
(** No two parameter vectors give the same joint parameters. *)
Definition full_rank (pt : ptransform) : Prop := forall x y, length x = pt_cols pt -> length y = pt_cols pt ->
  (forall r, (r < pt_rows pt)%nat -> trow pt x r = trow pt y r) -> x = y.
