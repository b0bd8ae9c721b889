(** Rotations about the coordinate axes and what a rotation matrix is (C105, C106). *)

From Coq Require Import Reals List.
From Verif Require Import LinAlg R3.
Import ListNotations.
Local Open Scope R_scope.

(** The usual matrices, by columns. *)
Definition rot_x (a : R) : mat3 := M3 (V3 1 0 0) (V3 0 (cos a) (sin a)) (V3 0 (- sin a) (cos a)).
Definition rot_y (a : R) : mat3 := M3 (V3 (cos a) 0 (- sin a)) (V3 0 1 0) (V3 (sin a) 0 (cos a)).
Definition rot_z (a : R) : mat3 := M3 (V3 (cos a) (sin a) 0) (V3 (- sin a) (cos a) 0) (V3 0 0 1).
Definition rot_axis (i : nat) (a : R) : mat3 := match i with 0%nat => rot_x a | 1%nat => rot_y a | _ => rot_z a end.

(** Orthonormal columns that form a right-handed frame. *)
Definition rotation (m : mat3) : Prop :=
  vnorm2 (col0 m) = 1 /\ vnorm2 (col1 m) = 1 /\ vdot (col0 m) (col1 m) = 0 /\ col2 m = vcross (col0 m) (col1 m).

(** No entry differs by more than [d]. *)
Definition vclose (d : R) (u v : vec3) : Prop := Rabs (vx u - vx v) <= d /\ Rabs (vy u - vy v) <= d /\ Rabs (vz u - vz v) <= d.
Definition mclose (d : R) (m n : mat3) : Prop := vclose d (col0 m) (col0 n) /\ vclose d (col1 m) (col1 n) /\ vclose d (col2 m) (col2 n).

(** The ranges of the angles. *)
Definition turn (a : R) : Prop := - PI < a <= PI.
Definition quarter (a : R) : Prop := - (PI / 2) <= a <= PI / 2.

Definition qneg (q : quat) : quat := Q4 (- qw q) (- qx q) (- qy q) (- qz q).
Definition qdot (p q : quat) : R := qw p * qw q + qx p * qx q + qy p * qy q + qz p * qz q.
(** The i-th weight of a list that may be too short. *)
Definition weight_at (w : list R) (i : nat) : R := nth i w 1.
(** How well [p] agrees with the weighted quaternions, whatever their signs. *)
Definition agreement (q : list quat) (w : list R) (p : quat) : R :=
  rsum (map (fun i => (weight_at w i * qdot (nth i q qid) p) * (weight_at w i * qdot (nth i q qid) p)) (seq 0 (length q))).
(** The quadratic form of a 4x4 matrix given by its rows, and what the eigenvector of the largest eigenvalue
    of a symmetric one is. *)
Definition at4 (A : list (list R)) (i j : nat) : R := nth j (nth i A []) 0.
Definition quad (A : list (list R)) (x : list R) : R :=
  rsum (map (fun i => rsum (map (fun j => nth i x 0 * at4 A i j * nth j x 0) (seq 0 4))) (seq 0 4)).
Definition square4 (A : list (list R)) : Prop := length A = 4%nat /\ Forall (fun r => length r = 4%nat) A.
Definition symmetric4 (A : list (list R)) : Prop := square4 A /\ forall i j, (i < 4)%nat -> (j < 4)%nat -> at4 A i j = at4 A j i.
Definition unit4 (x : list R) : Prop := length x = 4%nat /\ rsum (map (fun t => t * t) x) = 1.
(** The sum over the quaternions of the products of their weighted coefficients. *)
Definition coeff (i : nat) (q : quat) : R := nth i [qx q; qy q; qz q; qw q] 0.
Definition moment (q : list quat) (w : list R) (i j : nat) : R :=
  rsum (map (fun k => (weight_at w k * coeff i (nth k q qid)) * (weight_at w k * coeff j (nth k q qid))) (seq 0 (length q))).
Definition top_eigenvector (A : list (list R)) (x : list R) : Prop := unit4 x /\ forall y, unit4 y -> quad A y <= quad A x.

(** Rodrigues' formula: [x] turned about the direction of [v] by the length [t] of [v]. *)
Definition rodrigues (v : vec3) (t : R) (x : vec3) : vec3 :=
  vadd (vadd (vscale (cos t) x) (vscale (sin t / t) (vcross v x))) (vscale ((1 - cos t) / (t * t) * vdot v x) v).
