(** extrapolateModelParameters (momentum/character/skeleton_utility.cpp 12-51).

    Simplification: scalars are reals. *)

From Coq Require Import Reals List Arith Bool ZArith.
From Verif Require Import Prelude Loops Rbool.
Import ListNotations.
Local Open Scope outcome_scope.

(** Lines 12-27: cwiseMin(maxDelta).cwiseMax(-maxDelta). *)
Definition extrapolate (previous current : list R) (factor maxDelta : R) : list R :=
  if negb (length current =? length previous)%nat then current
  else map (fun '(c, p) => c + Rmax (Rmin (c - p) maxDelta) (- maxDelta) * factor)%R (combine current previous).

(** std::clamp(v, lo, hi), which needs lo <= hi. *)
Definition std_clamp (v lo hi : R) : outcome R :=
  if Rltb hi lo then UB else Ok (if Rltb v lo then lo else if Rltb hi v then hi else v).

(** The size of ParameterSet. *)
Definition kMaxModelParams : nat := N.to_nat 2048.

(** Lines 29-51: bitset::test throws for an index that is too large. *)
Definition extrapolate_active (previous current : list R) (active : nat -> bool) (factor maxDelta : R) : outcome (list R) :=
  if negb (length current =? length previous)%nat then Ok current
  else ofold (fun i result =>
      if (i <? kMaxModelParams)%nat then
        if active i then
          let* c := rd current i in
          let* p := rd previous i in
          let* d := std_clamp (c - p)%R (- maxDelta)%R maxDelta in
          wr result i (c + factor * d)%R
        else Ok result
      else Throw)
    (seq 0 (length current)) current.
