(** Points of triangles, and the time of a contact (C112). *)

From Coq Require Import Reals.
From Verif Require Import R3 Cub_spec EdgeD_spec.
Local Open Scope R_scope.

(** The point of a triangle with weights [v] and [w] for the second and third corner. *)
Definition on_face (a b c : vec3) (v w : R) : vec3 := vadd (vadd a (vscale v (vsub b a))) (vscale w (vsub c a)).
(** A point strictly inside a triangle that has an area. *)
Definition inside_face (a b c x : vec3) : Prop :=
  vcross (vsub b a) (vsub c a) <> vzero /\ exists v w, 0 < v /\ 0 < w /\ v + w < 1 /\ x = on_face a b c v w.
(** The polynomial of degree three of the volume of four moving points has a leading coefficient of at least 1e-9, or
    a lower degree with a solution that is well determined. *)
Definition well_posed (x1 x2 x3 x4 v1 v2 v3 v4 : vec3) : Prop :=
  exists k3 k2 k1 k0, (forall t, volume (moved x1 v1 t) (moved x2 v2 t) (moved x3 v3 t) (moved x4 v4 t) = cubic k3 k2 k1 k0 t) /\
    (/ 10 ^ 9 <= Rabs k3 \/
     (k3 = 0 /\ ((/ 10 ^ 9 <= Rabs k2 /\ (k1 * k1 - 4 * k2 * k0 < 0 \/ / 10 ^ 9 <= k1 * k1 - 4 * k2 * k0)) \/ (k2 = 0 /\ / 10 ^ 9 < Rabs k1)))).
