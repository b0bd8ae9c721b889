(** Mixtures of probabilistic PCA (C87): the density that is meant. *)

From Coq Require Import Reals List Arith.
From Verif Require Import LinAlg Det Cov_spec.
Import ListNotations.
Local Open Scope R_scope.

(** The covariance of one mode: s2 I + W W^T, where W has [k] columns. *)
Definition mode_covariance (s2 : R) (k : nat) (W : nat -> nat -> R) : nat -> nat -> R :=
  fun i j => (if (i =? j)%nat then s2 else 0) + sumn k (fun l => W i l * W j l).

(** The density at [x] of the normal distribution in [d] dimensions with mean [mu] and covariance [C],
    whose inverse is [D]:  exp (- 1/2 (x - mu)^T D (x - mu)) / sqrt ((2 pi)^d det C). *)
Definition normal_density (d : nat) (C D : nat -> nat -> R) (mu x : nat -> R) : R :=
  exp (- / 2 * quad d D (fun i => x i - mu i)) / sqrt ((2 * PI) ^ d * mdet d C).

(** The squared length of M x. *)
Definition image_norm2 (n : nat) (M : nat -> nat -> R) (x : nat -> R) : R :=
  sumn n (fun r => sumn n (fun c => M r c * x c) * sumn n (fun c => M r c * x c)).

(** M^T M = D *)
Definition is_root (n : nat) (D M : nat -> nat -> R) : Prop :=
  forall i j, (i < n)%nat -> (j < n)%nat -> sumn n (fun r => M r i * M r j) = D i j.

(** Cinv, L and Rpre belong to the mode with weight [pi], mean [mu] and the covariance above. *)
Record mode_ok (d : nat) (pi s2 : R) (k : nat) (W Cinv L : nat -> nat -> R) (mu : nat -> R) (rpre : R) : Prop := {
  mo_inverse : is_inverse d (mode_covariance s2 k W) Cinv;
  mo_sym : forall i j, (i < d)%nat -> (j < d)%nat -> Cinv i j = Cinv j i;
  mo_root : is_root d Cinv L;
  mo_lower : forall i j, (j < d)%nat -> (i < j)%nat -> L i j = 0;
  mo_density : forall x, exp (rpre - / 2 * quad d Cinv (fun i => x i - mu i)) =
                         pi * normal_density d (mode_covariance s2 k W) Cinv mu x
}.
