(** InverseParameterTransformT, momentum/character/inverse_parameter_transform.{h,cpp}.  Scalars are reals; MT_CHECK
    is on. *)

From Coq Require Import Bool Reals List Arith.
From Verif Require Import Prelude LinAlg ParamTransform_model.
Import ListNotations.
Local Open Scope R_scope.

Definition vsub_list (a b : list R) : list R := map (fun '(x, y) => x - y) (combine a b).

(** apply, inverse_parameter_transform.cpp:28-42.  [lsq] is solve() of Eigen's sparse QR factorisation of the
    transform; the constructor (22-26) copies transform and offsets. *)
Definition inv_apply (lsq : list R -> list R) (pt : ptransform) (jp : list R) : outcome (list R * list R) :=
  if negb (Nat.eqb (List.length jp) (pt_rows pt)) then CheckFail
  else if negb (Nat.eqb (List.length (pt_offsets pt)) (pt_rows pt)) then CheckFail
  else let pose := lsq (vsub_list jp (pt_offsets pt)) in Ok (pose, vsub_list jp (mat_vec pt pose)).
