(** Points of segments and their distances (C111). *)

From Coq Require Import Reals.
From Verif Require Import R3.
Local Open Scope R_scope.

(** The point of the segment from [p] to [q] at parameter [s]. *)
Definition on_edge (p q : vec3) (s : R) : vec3 := vadd p (vscale s (vsub q p)).
Definition dist (x y : vec3) : R := sqrt (vnorm2 (vsub x y)).
(** [s] and [t] are the parameters of the closest points of two segments. *)
Definition closest_at (p1 q1 p2 q2 : vec3) (s t : R) : Prop :=
  0 <= s <= 1 /\ 0 <= t <= 1 /\
  forall s' t', 0 <= s' <= 1 -> 0 <= t' <= 1 -> dist (on_edge p1 q1 s) (on_edge p2 q2 t) <= dist (on_edge p1 q1 s') (on_edge p2 q2 t').
(** The squared length of an edge, and the squared area that two directions span (zero if parallel). *)
Definition len2 (p q : vec3) : R := vnorm2 (vsub q p).
Definition area2 (p1 q1 p2 q2 : vec3) : R := vnorm2 (vcross (vsub q1 p1) (vsub q2 p2)).
