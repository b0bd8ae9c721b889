(** Model of momentum/character/pose_shape.{h,cpp}. Scalars are reals. *)

From Coq Require Import Reals List Arith.
From Verif Require Import Prelude Loops R3 LinAlg Blend_model.
Import ListNotations.
Local Open Scope R_scope.
Local Open Scope outcome_scope.

(** PoseShape, pose_shape.h:18-31. *)
Record pose_shape := PS {
  ps_joint : nat;        (* baseJoint *)
  ps_rot : quat;         (* baseRot *)
  ps_map : list nat;     (* jointMap *)
  ps_base : list R;      (* baseShape *)
  ps_vectors : bmat      (* shapeVectors *)
}.

(** coefficients.segment<4>(k) = q.coeffs(): Eigen keeps x, y, z, w. A segment that sticks out fails
    Eigen's assertion. *)
Definition put_quat (c : list (option R)) (k : nat) (q : quat) : outcome (list (option R)) :=
  if negb (k + 4 <=? length c) then CheckFail
  else
    let* c := wr c k (Some (qx q)) in
    let* c := wr c (k + 1) (Some (qy q)) in
    let* c := wr c (k + 2) (Some (qz q)) in
    wr c (k + 3) (Some (qw q)).

(** Reading a coefficient that was never set. *)
Fixpoint all_set (c : list (option R)) : outcome (list R) :=
  match c with
  | [] => Ok []
  | None :: _ => UB
  | Some x :: c' => let* l := all_set c' in Ok (x :: l)
  end.

(** compute, pose_shape.cpp:17-43; [rots] are the joints' world rotations. The coefficients start
    uninitialised. An output of another size than the sum fails Eigen's assertion, and the first element
    of an empty output does not exist. *)
Definition pose_compute (p : pose_shape) (rots : list quat) : outcome (list vec3) :=
  if negb (length (ps_base p) =? bm_rows (ps_vectors p)) then CheckFail
  else
    let* r := rd rots (ps_joint p) in
    let base := qmul (ps_rot p) (qinv r) in
    let* c := ofold (fun i c =>
        let* jid := rd (ps_map p) i in
        let* q := rd rots jid in
        put_quat c (i * 4) (qmul base q)) (seq 0 (length (ps_map p))) (repeat None (bm_cols (ps_vectors p))) in
    let n := (length (ps_base p) / 3)%nat in
    if (n =? 0)%nat then UB
    else if negb (n * 3 =? length (ps_base p)) then CheckFail
    else
      let* c := all_set c in
      Ok (unflat n (fun row => nth row (ps_base p) 0 + sumn (bm_cols (ps_vectors p)) (fun k => bm_at (ps_vectors p) row k * nth k c 0))).
