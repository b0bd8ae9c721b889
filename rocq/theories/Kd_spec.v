(** Closest points and points in a ball, as sets (C58, C59, C84). *)

From Coq Require Import List Arith ZArith QArith Bool Permutation.
From Verif Require Import Box_model Box_spec Tri_spec Kd_model.
Import ListNotations.
Local Open Scope nat_scope.

(** What the C++ standard says of std::partition and std::nth_element, [alg.partitions] and
    [alg.nth.element]: they reorder the range; the first puts the elements with the property first,
    the second puts at place [n] an element that no element before it exceeds and that exceeds none
    behind it. *)
Definition algos_ok (A : algos) : Prop :=
  (forall f l, let r := do_partition A f l in
    Permutation l (fst r ++ snd r) /\ (forall x, In x (fst r) -> f x = true) /\ (forall x, In x (snd r) -> f x = false)) /\
  (forall d n l, n < length l -> let r := do_nth A d n l in
    Permutation l r /\
    exists x, nth_error r n = Some x /\
      (forall y, In y (firstn n r) -> (at3 (snd y) d <= at3 (snd x) d)%Q) /\
      (forall y, In y (skipn n r) -> (at3 (snd x) d <= at3 (snd y) d)%Q)).

(** [r] is the right answer to the query for the closest of the points that [accept] admits, among
    those closer than [bound] (squared). *)
Definition closest_answer (points : list q3) (accept : nat -> Prop) (q : q3) (bound : Q) (r : Q * option Z) : Prop :=
  match snd r with
  | None => fst r = bound /\ forall i p, nth_error points i = Some p -> accept i -> (bound <= sq_dist p q)%Q
  | Some z => exists i p, z = Z.of_nat i /\ nth_error points i = Some p /\ accept i /\
      fst r = sq_dist p q /\ (sq_dist p q < bound)%Q /\
      forall j p', nth_error points j = Some p' -> accept j -> (sq_dist p q <= sq_dist p' q)%Q
  end.

(** The squared distance of the filler that the tree stores behind the points: the point
    (1e10, 1e10, 1e10). It cannot stand in the way if it is out of reach, or if an admitted point is
    closer. *)
Definition filler_dist (q : q3) : Q := sq_dist (Q3 (10000000000 # 1) (10000000000 # 1) (10000000000 # 1)) q.
Definition filler_harmless (points : list q3) (accept : nat -> Prop) (q : q3) (bound : Q) : Prop :=
  (bound <= filler_dist q)%Q \/
  exists i p, nth_error points i = Some p /\ accept i /\ (sq_dist p q < filler_dist q)%Q.

(** An index of a point fits its 32-bit type. *)
Definition few (points : list q3) : Prop := (Z.of_nat (length points) <= int_max)%Z.

(** The squared difference of two colors, weighted by the last component of each. *)
Definition color_gap (c k : color) : Q :=
  let '(c0, c1, c2, c3) := c in let '(k0, k1, k2, k3) := k in
  (c3 * k3 * ((c0 - k0) * (c0 - k0) + (c1 - k1) * (c1 - k1) + (c2 - k2) * (c2 - k2)))%Q.

(** Point [i] passes the test of normals, and that of colors. *)
Definition normal_ok (normals : list q3) (n : q3) (mindot : Q) (i : nat) : Prop :=
  exists m, nth_error normals i = Some m /\ (mindot <= inner n m)%Q.
Definition color_ok (colors : list color) (c : color) (most : Q) (i : nat) : Prop :=
  exists k, nth_error colors i = Some k /\ (color_gap c k <= most)%Q.

(** The reported index, if any, is that of a point that [accept] admits, at the reported distance. *)
Definition real_answer (points : list q3) (accept : nat -> Prop) (q : q3) (bound : Q) (r : Q * option Z) : Prop :=
  forall z, snd r = Some z -> exists i p, z = Z.of_nat i /\ nth_error points i = Some p /\ accept i /\
    fst r = sq_dist p q /\ (sq_dist p q < bound)%Q.
