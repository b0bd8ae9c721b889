(** What the closest points of two segments are (C102). *)

From Coq Require Import Reals.
From Verif Require Import R3.
Local Open Scope R_scope.

(** The point of the segment from [o] to [o + d] at parameter [s]. *)
Definition seg_point (o d : vec3) (s : R) : vec3 := vadd o (vscale s d).
Definition in_unit (s : R) : Prop := 0 <= s <= 1.

Definition seg_dist2 (o1 d1 o2 d2 : vec3) (s t : R) : R := vnorm2 (vsub (seg_point o1 d1 s) (seg_point o2 d2 t)).

(** [s] and [t] give two points of the segments of smallest distance. *)
Definition closest_pair (o1 d1 o2 d2 : vec3) (s t : R) : Prop :=
  in_unit s /\ in_unit t /\
  forall s' t', in_unit s' -> in_unit t' -> seg_dist2 o1 d1 o2 d2 s t <= seg_dist2 o1 d1 o2 d2 s' t'.

(** The squared area that the two directions span: 0 for parallel segments. *)
Definition spread_area2 (d1 d2 : vec3) : R := vnorm2 (vcross d1 d2).

(** The parameter is the first end of the segment or so far from it that its numerator, which is the
    parameter times the squared length of the segment or times the squared area, is at least 1e-7. *)
Definition clear_of_start (s len2 area2 : R) : Prop := s = 0 \/ (/ 10000000 <= s * len2 /\ / 10000000 <= s * area2).

(** Some points of the two segments are no farther apart than [m]. *)
Definition within (o1 d1 o2 d2 : vec3) (m : R) : Prop :=
  exists s t, in_unit s /\ in_unit t /\ sqrt (seg_dist2 o1 d1 o2 d2 s t) <= m.

(** How far two points move that leave out a numerator below 1e-7. *)
Definition seg_slack (d1 d2 : vec3) (m1 m2 : R) : R :=
  / 10000000 * (sqrt (vnorm2 d1) / m1 + sqrt (vnorm2 d2) / m2).
