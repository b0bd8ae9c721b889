(** Low-rank covariance matrices (C86): the matrix that is meant. *)

From Coq Require Import Reals List Arith.
From Verif Require Import LinAlg Det.
Local Open Scope R_scope.

(** sigma^2 I + A^T A, where A has [m] rows. *)
Definition covariance (sigma : R) (m : nat) (A : nat -> nat -> R) : nat -> nat -> R :=
  fun i j => (if (i =? j)%nat then sigma * sigma else 0) + sumn m (fun k => A k i * A k j).

(** y = C x, in the first [n] components. *)
Definition is_product (n : nat) (C : nat -> nat -> R) (x y : nat -> R) : Prop :=
  forall i, (i < n)%nat -> y i = sumn n (fun j => C i j * x j).

(** D is the inverse of C. *)
Definition is_inverse (n : nat) (C D : nat -> nat -> R) : Prop :=
  forall i j, (i < n)%nat -> (j < n)%nat ->
    sumn n (fun k => C i k * D k j) = (if (i =? j)%nat then 1 else 0) /\
    sumn n (fun k => D i k * C k j) = (if (i =? j)%nat then 1 else 0).

(** x^T C x *)
Definition quad (n : nat) (C : nat -> nat -> R) (x : nat -> R) : R :=
  sumn n (fun i => x i * sumn n (fun j => C i j * x j)).
