(** Boxes as sets of points (C60 and the BVH claims). *)

From Coq Require Import List QArith Bool.
From Verif Require Import Box_model.
Import ListNotations.
Local Open Scope Q_scope.

Definition in_box (p : q3) (b : box) : Prop := forall d, at3 (lo b) d <= at3 p d /\ at3 p d <= at3 (hi b) d.
(** A box whose corners are in order. *)
Definition proper (b : box) : Prop := forall d, at3 (lo b) d <= at3 (hi b) d.
(** Box [c] lies inside box [b]. *)
Definition inside (c b : box) : Prop := forall d, at3 (lo b) d <= at3 (lo c) d /\ at3 (hi c) d <= at3 (hi b) d.
(** The boxes share a point, in each coordinate. *)
Definition meet (b c : box) : Prop := forall d, at3 (lo b) d <= at3 (hi c) d /\ at3 (lo c) d <= at3 (hi b) d.

Definition ray_point (o v : q3) (t : Q) : q3 := make3 (fun d => at3 o d + t * at3 v d).
Definition no_zero (v : q3) : Prop := forall d, ~ at3 v d == 0.
Definition sq_dist (p q : q3) : Q :=
  (qx p - qx q) * (qx p - qx q) + (qy p - qy q) * (qy p - qy q) + (qz p - qz q) * (qz p - qz q).
