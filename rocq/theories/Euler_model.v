(** momentum/math/utility.cpp:31-273: rotation vectors, Euler angles and the average of quaternions.
    Scalars are reals; a matrix is given by its columns, so that m(1, 2) is [vy (col2 m)]. *)

From Coq Require Import Reals List Arith.
From Verif Require Import Prelude Rbool R3.
Import ListNotations.
Local Open Scope R_scope.
Local Open Scope outcome_scope.

(** std::atan2, without the distinction of the two zeros. *)
Definition atan2 (y x : R) : R :=
  if Rltb 0 x then atan (y / x)
  else if Rltb x 0 then (if Rltb y 0 then atan (y / x) - PI else atan (y / x) + PI)
  else if Rltb 0 y then PI / 2 else if Rltb y 0 then - (PI / 2) else 0.

(** quaternionToRotVec, 31-45. The literal 1.0f - 1e-7f is the float 1 - 2^-23. The first branch of 34 is
    never taken, as acos is never negative; std::acos outside [-1, 1] is not modelled. *)
Definition quat_to_rotvec (q : quat) : vec3 :=
  let angle := 2 * acos (qw q) in
  let angle := if Rltb angle (- PI) then 2 * PI - angle else if Rltb PI angle then - (2) * PI + angle else angle in
  let ww := qw q * qw q in
  if Rltb (1 - / 8388608) ww then vzero
  else let mul := 1 / sqrt (1 - ww) in
       vscale (mul * angle) (V3 (qx q) (qy q) (qz q)).

(** rotVecToQuaternion, 47-54. The literal 1e-5f is taken as the real number. *)
Definition rotvec_to_quat (v : vec3) : quat :=
  let angle := sqrt (vnorm2 v) in
  if Rltb angle (/ 100000) then qid
  else qaxis angle (vscale (/ angle) v).

(** EulerConvention, utility.h:79-97. *)
Inductive convention : Type := Intrinsic | Extrinsic.
Definition vreverse (v : vec3) : vec3 := V3 (vz v) (vy v) (vx v).

(** rotationMatrixToEuler, 56-68; [ea] is Eigen's Matrix3::eulerAngles. *)
Definition matrix_to_euler (ea : mat3 -> nat -> nat -> nat -> vec3) (m : mat3) (a0 a1 a2 : nat) (c : convention) : vec3 :=
  match c with
  | Extrinsic => vreverse (ea m a2 a1 a0)
  | Intrinsic => ea m a0 a1 a2
  end.

(** rotationMatrixToEulerXYZ for the intrinsic convention, 77-108; [tol] is eulerTol, 22-27. *)
Definition matrix_to_xyz (tol : R) (m : mat3) : vec3 :=
  if Rltb (vx (col2 m)) (1 - tol) then
    if Rltb (-1 + tol) (vx (col2 m)) then
      V3 (atan2 (- vy (col2 m)) (vz (col2 m))) (asin (vx (col2 m))) (atan2 (- vx (col1 m)) (vx (col0 m)))
    else V3 0 (- PI * (1 / 2)) (atan2 (vy (col0 m)) (vy (col1 m)))
  else V3 0 (PI * (1 / 2)) (atan2 (vy (col0 m)) (vy (col1 m))).
(** rotationMatrixToEulerZYX for the intrinsic convention, 118-150. *)
Definition matrix_to_zyx (tol : R) (m : mat3) : vec3 :=
  if Rltb (vz (col0 m)) (1 - tol) then
    if Rltb (-1 + tol) (vz (col0 m)) then
      V3 (atan2 (vy (col0 m)) (vx (col0 m))) (asin (- vz (col0 m))) (atan2 (vz (col1 m)) (vz (col2 m)))
    else V3 0 (PI * (1 / 2)) (atan2 (vx (col1 m)) (vx (col2 m)))
  else V3 0 (- PI * (1 / 2)) (atan2 (- vx (col1 m)) (- vx (col2 m))).
(** rotationMatrixToEulerXYZ, 70-109, and rotationMatrixToEulerZYX, 111-151. *)
Definition matrix_to_euler_xyz (tol : R) (m : mat3) (c : convention) : vec3 :=
  match c with Extrinsic => vreverse (matrix_to_zyx tol m) | Intrinsic => matrix_to_xyz tol m end.
Definition matrix_to_euler_zyx (tol : R) (m : mat3) (c : convention) : vec3 :=
  match c with Extrinsic => vreverse (matrix_to_xyz tol m) | Intrinsic => matrix_to_zyx tol m end.

(** Vector3::Unit; another index is outside of the vector. *)
Definition unit_axis (i : nat) : outcome vec3 :=
  match i with 0%nat => Ok ex | 1%nat => Ok ey | 2%nat => Ok ez | _ => UB end.
(** eulerToQuaternion for the intrinsic convention, 165-168. *)
Definition to_quaternion (angles : vec3) (a0 a1 a2 : nat) : outcome quat :=
  let* u0 := unit_axis a0 in
  let* u1 := unit_axis a1 in
  let* u2 := unit_axis a2 in
  Ok (qmul (qmul (qaxis (vx angles) u0) (qaxis (vy angles) u1)) (qaxis (vz angles) u2)).
(** eulerToQuaternion, 153-169, and eulerToRotationMatrix, 171-179. *)
Definition euler_to_quaternion (angles : vec3) (a0 a1 a2 : nat) (c : convention) : outcome quat :=
  match c with Extrinsic => to_quaternion (vreverse angles) a2 a1 a0 | Intrinsic => to_quaternion angles a0 a1 a2 end.
Definition euler_to_matrix (angles : vec3) (a0 a1 a2 : nat) (c : convention) : outcome mat3 :=
  let* q := euler_to_quaternion angles a0 a1 a2 c in
  Ok (qmat q).

(** eulerXYZToRotationMatrix for the intrinsic convention, 187-212. *)
Definition xyz_to_matrix (a : vec3) : mat3 :=
  let cx := cos (vx a) in let sx := sin (vx a) in
  let cy := cos (vy a) in let sy := sin (vy a) in
  let cz := cos (vz a) in let sz := sin (vz a) in
  M3 (V3 (cy * cz) (cx * sz + cz * sx * sy) (sx * sz - cx * cz * sy))
     (V3 (- cy * sz) (cx * cz - sx * sy * sz) (cz * sx + cx * sy * sz))
     (V3 sy (- cy * sx) (cx * cy)).
(** eulerZYXToRotationMatrix for the intrinsic convention, 221-246. *)
Definition zyx_to_matrix (a : vec3) : mat3 :=
  let cz := cos (vx a) in let sz := sin (vx a) in
  let cy := cos (vy a) in let sy := sin (vy a) in
  let cx := cos (vz a) in let sx := sin (vz a) in
  M3 (V3 (cz * cy) (sz * cy) (- sy))
     (V3 (cz * sy * sx - sz * cx) (sz * sy * sx + cz * cx) (cy * sx))
     (V3 (cz * sy * cx + sz * sx) (sz * sy * cx - cz * sx) (cy * cx)).
(** eulerXYZToRotationMatrix, 181-213, and eulerZYXToRotationMatrix, 215-247. *)
Definition euler_xyz_to_matrix (a : vec3) (c : convention) : mat3 :=
  match c with Extrinsic => zyx_to_matrix (vreverse a) | Intrinsic => xyz_to_matrix a end.
Definition euler_zyx_to_matrix (a : vec3) (c : convention) : mat3 :=
  match c with Extrinsic => xyz_to_matrix (vreverse a) | Intrinsic => zyx_to_matrix a end.

(** quaternionToEuler, 249-258. *)
Definition quat_to_euler (q : quat) : vec3 :=
  V3 (atan2 (2 * (qw q * qx q + qy q * qz q)) (1 - 2 * (qx q * qx q + qy q * qy q)))
     (asin (2 * (qw q * qy q - qz q * qx q)))
     (atan2 (2 * (qw q * qz q + qx q * qy q)) (1 - 2 * (qy q * qy q + qz q * qz q))).

(** quaternionAverage, 260-273: the matrix of the sum, as rows over the coefficients x, y, z, w; a missing
    weight is 1. [top] is the last column of SelfAdjointEigenSolver::eigenvectors. *)
Definition coeffs (q : quat) : list R := [qx q; qy q; qz q; qw q].
Definition outer_add (Q : list (list R)) (c : list R) (s : R) : list (list R) :=
  map (fun p => map (fun r => snd r + fst p * s * (fst r * s)) (combine c (snd p))) (combine c Q).
Fixpoint average_matrix (Q : list (list R)) (q : list quat) (w : list R) : list (list R) :=
  match q with
  | [] => Q
  | x :: r => average_matrix (outer_add Q (coeffs x) (match w with [] => 1 | s :: _ => s end)) r (tl w)
  end.
Definition from_coeffs (c : list R) : outcome quat :=
  match c with [x; y; z; w] => Ok (Q4 w x y z) | _ => UB end.
Definition quat_average (top : list (list R) -> list R) (q : list quat) (w : list R) : outcome quat :=
  from_coeffs (top (average_matrix (repeat (repeat 0 4) 4) q w)).
