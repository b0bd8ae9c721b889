(** momentum/math/generalized_loss.{h,cpp}. Scalars are reals; std::pow with a
    positive base is [Rpower]. *)

From Coq Require Import Bool Reals.
From Verif Require Import Prelude Rbool.
Local Open Scope R_scope.
Local Open Scope bool_scope.

(** LossType, generalized_loss.h:43-49. *)
Inductive loss_type : Type := TL1 | TL2 | TCauchy | TWelsch | TGeneral.

(** GeneralizedLossT, generalized_loss.h:51-59. *)
Record loss : Type := Loss { loss_alpha : R; loss_invC2 : R; loss_kind : loss_type }.

(** kEps and -kWelsch, generalized_loss.h:27,52. *)
Definition kEps : R := / 1000000000.

(** The threshold tests of the constructor, generalized_loss.cpp:69-79. *)
Definition loss_type_of (a : R) : loss_type :=
  if Rleb (2 - kEps) a && Rleb a (2 + kEps) then TL2
  else if Rleb (1 - kEps) a && Rleb a (1 + kEps) then TL1
  else if Rleb (0 - kEps) a && Rleb a (0 + kEps) then TCauchy
  else if Rleb a (- kEps) then TWelsch
  else TGeneral.

(** The constructor, generalized_loss.cpp:64-80. *)
Definition loss_make (a c : R) : outcome loss :=
  if Rltb 0 c then Ok (Loss a (1 / (c * c)) (loss_type_of a)) else CheckFail.

(** L2Loss .. derivWelschLoss, generalized_loss.cpp:20-60. *)
Definition l2_loss (s ic : R) : R := s * ic.
Definition deriv_l2_loss (s ic : R) : R := ic.
Definition l1_loss (s ic : R) : R := sqrt (l2_loss s ic + 1) - 1.
Definition deriv_l1_loss (s ic : R) : R := (1 / 2) * ic / sqrt (l2_loss s ic + 1).
Definition cauchy_loss (s ic : R) : R := ln ((1 / 2) * l2_loss s ic + 1).
Definition deriv_cauchy_loss (s ic : R) : R := ic / (ic * s + 2).
Definition welsch_loss (s ic : R) : R := 1 - exp (- (1 / 2) * l2_loss s ic).
Definition deriv_welsch_loss (s ic : R) : R := (1 / 2) * ic * exp (- (1 / 2) * l2_loss s ic).

(** value, generalized_loss.cpp:83-104. *)
Definition loss_value (l : loss) (s : R) : R :=
  let a := loss_alpha l in let ic := loss_invC2 l in
  match loss_kind l with
  | TL2 => l2_loss s ic
  | TL1 => l1_loss s ic
  | TCauchy => cauchy_loss s ic
  | TWelsch => welsch_loss s ic
  | TGeneral =>
      (Rpower (l2_loss s ic / Rabs (a - 2) + 1) ((1 / 2) * a) - 1) * Rabs (a - 2) / a
  end.

(** deriv, generalized_loss.cpp:107-127. *)
Definition loss_deriv (l : loss) (s : R) : R :=
  let a := loss_alpha l in let ic := loss_invC2 l in
  match loss_kind l with
  | TL2 => deriv_l2_loss s ic
  | TL1 => deriv_l1_loss s ic
  | TCauchy => deriv_cauchy_loss s ic
  | TWelsch => deriv_welsch_loss s ic
  | TGeneral =>
      (1 / 2) * ic * Rpower (l2_loss s ic / Rabs (a - 2) + 1) ((1 / 2) * a - 1)
  end.
