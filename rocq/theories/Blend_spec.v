(** Blended shapes and how far they are from given vertices (C90, C91). *)

From Coq Require Import Reals List Arith.
From Verif Require Import R3 LinAlg Skin_spec.
Import ListNotations.
Local Open Scope R_scope.

(** Where shape [k] moves vertex [i]: three consecutive rows of column [k]. *)
Definition shape_at (vectors : nat -> nat -> R) (k i : nat) : vec3 :=
  V3 (vectors (3 * i)%nat k) (vectors (3 * i + 1)%nat k) (vectors (3 * i + 2)%nat k).

(** The sum of what the shapes with weights add to vertex [i]. *)
Definition moved (vectors : nat -> nat -> R) (w : list R) (i : nat) : vec3 :=
  vsum (map (fun k => vscale (nth k w 0) (shape_at vectors k i)) (seq 0 (length w))).
(** [out] is [base] with every vertex moved by the weighted shapes. *)
Definition blended (base : list vec3) (vectors : nat -> nat -> R) (w : list R) (out : list vec3) : Prop :=
  length out = length base /\
  forall i b, nth_error base i = Some b -> nth_error out i = Some (vadd b (moved vectors w i)).

(** Sum of the squared distances of corresponding vertices. *)
Definition distance2 (a b : list vec3) : R := rsum (map (fun x => vnorm2 (vsub (fst x) (snd x))) (combine a b)).
(** The same with a factor for each vertex. *)
Definition weighted_distance2 (ws : list R) (a b : list vec3) : R :=
  rsum (map (fun x => fst x * fst x * vnorm2 (vsub (fst (snd x)) (snd (snd x)))) (combine ws (combine a b))).
Definition norm2 (c : list R) : R := rsum (map (fun x => x * x) c).

(** What is assumed of Eigen's JacobiSVD: solve minimises the norm of A x - b. *)
Definition least_squares_solver (solve : nat -> nat -> (nat -> nat -> R) -> (nat -> R) -> nat -> R) : Prop :=
  forall rows cols A b y,
    let miss x := sumn rows (fun r => (sumn cols (fun k => A r k * x k) - b r) * (sumn cols (fun k => A r k * x k) - b r)) in
    miss (solve rows cols A b) <= miss y.
(** What is assumed of Eigen's LDLT: it solves systems with a symmetric positive definite matrix. *)
Definition definite_solver (solve : nat -> (nat -> nat -> R) -> (nat -> R) -> nat -> R) : Prop :=
  forall n M b, (forall i j, (i < n)%nat -> (j < n)%nat -> M i j = M j i) ->
    (forall x, (exists i, (i < n)%nat /\ x i <> 0) -> 0 < sumn n (fun i => sumn n (fun j => x i * M i j * x j))) ->
    forall i, (i < n)%nat -> sumn n (fun j => M i j * solve n M b j) = b i.
