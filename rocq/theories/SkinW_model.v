(** SkinWeights::set and operator== (momentum/character/skin_weights.cpp 14-31).

    Simplifications: weights are reals.  The index and weight matrices are one list of rows of pairs, as in Skin_model. *)

From Coq Require Import Reals List Arith NArith Bool.
From Verif Require Import Prelude LinAlg Loops Rbool.
Import ListNotations.
Local Open Scope outcome_scope.

(** kMaxSkinJoints, skin_weights.h:18. *)
Definition kMaxSkinJoints : nat := 8.

(** gsl::narrow_cast<uint32_t>, which does not check. *)
Definition narrow_u32 (k : N) : N := (k mod 2 ^ 32)%N.

(** Lines 22-25, for one vertex: the weights are read at the places of the indices. *)
Definition sw_row (ind : list N) (wgt : list R) (row : list (N * R)) : outcome (list (N * R)) :=
  ofold (fun j row =>
      let* k := rd ind j in
      let* w := rd wgt j in
      wr row j (narrow_u32 k, w)) (seq 0 (Nat.min (length ind) kMaxSkinJoints)) row.

(** Lines 14-27. *)
Definition sw_set (ind : list (list N)) (wgt : list (list R)) : outcome (list (list (N * R))) :=
  if negb (length ind =? length wgt) then CheckFail
  else ofold (fun i rows =>
      let* a := rd ind i in
      let* b := rd wgt i in
      let* r := rd rows i in
      let* r := sw_row a b r in
      wr rows i r) (seq 0 (length ind)) (repeat (repeat (0%N, 0%R) kMaxSkinJoints) (length ind)).

(** Eigen's isApprox: equality for integers; for weights |a - b|^2 <= eps^2 min(|a|^2, |b|^2), with the Frobenius norm and
    eps = 1e-5.  Matrices of different sizes are read out of bounds. *)
Definition sq_norm (l : list R) : R := rsum (map (fun x => x * x)%R l).
Definition sw_eq (eps : R) (a b : list (list (N * R))) : outcome bool :=
  if negb (length a =? length b) then UB
  else
    let wa := map snd (concat a) in
    let wb := map snd (concat b) in
    Ok (forallb (fun '(x, y) => (fst x =? fst y)%N) (combine (concat a) (concat b)) &&
        Rleb (sq_norm (map (fun '(x, y) => x - y)%R (combine wa wb))) (eps * eps * Rmin (sq_norm wa) (sq_norm wb))).
