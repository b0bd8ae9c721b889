(** Roots of equations and four points in a plane (C110). *)

From Coq Require Import List Reals.
From Verif Require Import R3.
Local Open Scope R_scope.

Definition quadratic (a b c x : R) : R := a * x ^ 2 + b * x + c.
Definition cubic (d a b c x : R) : R := d * x ^ 3 + a * x ^ 2 + b * x + c.

(** Where a point is after time [t]. *)
Definition moved (x v : vec3) (t : R) : vec3 := vadd x (vscale t v).
(** Four points in one plane. *)
Definition coplanar (p1 p2 p3 p4 : vec3) : Prop :=
  exists n k, n <> vzero /\ vdot n p1 = k /\ vdot n p2 = k /\ vdot n p3 = k /\ vdot n p4 = k.
(** The volume of the parallelepiped that they span, with sign. *)
Definition volume (p1 p2 p3 p4 : vec3) : R := vdot (vcross (vsub p2 p1) (vsub p3 p1)) (vsub p4 p1).
(** The discriminant of x^3 + a x^2 + b x + c: positive exactly if there are three different real roots. *)
Definition discriminant (a b c : R) : R := 18 * a * b * c - 4 * a ^ 3 * c + a ^ 2 * b ^ 2 - 4 * b ^ 3 - 27 * c ^ 2.
