(** Triangles as sets of points (C57 and the mesh queries). *)

From Coq Require Import List QArith Bool.
From Verif Require Import Box_model Box_spec.
Import ListNotations.
Local Open Scope Q_scope.

Definition same (p q : q3) : Prop := forall d, at3 p d == at3 q d.

(** The point with weights [u], [v], [w] on the three corners. *)
Definition combine3 (a b c : q3) (u v w : Q) : q3 := make3 (fun d => u * at3 a d + v * at3 b d + w * at3 c d).

(** The points of a triangle, and those inside its boundary. *)
Definition in_triangle (a b c x : q3) : Prop :=
  exists u v w, 0 <= u /\ 0 <= v /\ 0 <= w /\ u + v + w == 1 /\ same x (combine3 a b c u v w).
Definition in_interior (a b c x : q3) : Prop :=
  exists u v w, 0 < u /\ 0 < v /\ 0 < w /\ u + v + w == 1 /\ same x (combine3 a b c u v w).

(** [x] is the point of the set [S] that is closest to [p]. *)
Definition nearest (S : q3 -> Prop) (p x : q3) : Prop := S x /\ forall y, S y -> sq_dist x p <= sq_dist y p.

(** [x] is the foot of the perpendicular from [p] on the plane of the corners. *)
Definition inner (p q : q3) : Q := qx p * qx q + qy p * qy q + qz p * qz q.
Definition minus (p q : q3) : q3 := make3 (fun d => at3 p d - at3 q d).
Definition perpendicular_foot (a b c p x : q3) : Prop :=
  inner (minus p x) (minus b a) == 0 /\ inner (minus p x) (minus c a) == 0.

(** The corners are not on one line. *)
Definition on_line (a b c : q3) : Prop :=
  exists o v s t u, same a (ray_point o v s) /\ same b (ray_point o v t) /\ same c (ray_point o v u).
