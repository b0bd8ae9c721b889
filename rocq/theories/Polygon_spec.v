(** What packed polygons mean. *)

From Coq Require Import List Arith NArith ZArith.
From Verif Require Import Prelude Polygon_model.
Import ListNotations.

(** [offsets] are the partial sums of the corner counts, starting with 0. *)
Fixpoint offsets_from (start : N) (faces : list (list N)) : list N :=
  match faces with
  | [] => [start]
  | f :: r => start :: offsets_from (start + N.of_nat (length f)) r
  end.

(** The polygons packed in [indices] and [offsets]. *)
Definition packs (faces : list (list N)) (indices offsets : list N) : Prop :=
  indices = concat faces /\ offsets = offsets_from 0 faces.

(** The fan of a polygon: (p0,p1,p2), (p0,p2,p3), ... *)
Fixpoint fan_from (p0 : N) (l : list N) : list (N * N * N) :=
  match l with
  | a :: (b :: _) as r => (p0, a, b) :: fan_from p0 r
  | _ => []
  end.
Definition fan (face : list N) : list (N * N * N) :=
  match face with [] => [] | p0 :: r => fan_from p0 r end.

Definition signed (t : N * N * N) : tri := let '(a, b, c) := t in (to_int a, to_int b, to_int c).
