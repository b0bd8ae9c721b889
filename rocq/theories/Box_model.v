(** Model of axel/axel/BoundingBox.cpp. Coordinates are rational numbers, computed exactly; NaN and
    infinities are not modelled. Eigen::AlignedBox is modelled by the formulas of
    Eigen/src/Geometry/AlignedBox.h. *)

From Coq Require Import List QArith Bool.
Import ListNotations.
Local Open Scope Q_scope.

Inductive dim := DX | DY | DZ.
Definition dims : list dim := [DX; DY; DZ].
Record q3 := Q3 { qx : Q; qy : Q; qz : Q }.
Definition at3 (v : q3) (d : dim) : Q := match d with DX => qx v | DY => qy v | DZ => qz v end.
Definition make3 (f : dim -> Q) : q3 := Q3 (f DX) (f DY) (f DZ).

Definition Qltb (a b : Q) : bool := negb (Qle_bool b a).
Definition qmin (a b : Q) : Q := if Qltb b a then b else a.   (* std::min *)
Definition qmax (a b : Q) : Q := if Qltb a b then b else a.   (* std::max *)

(** BoundingBox.h:27-50: the corners and the id of the primitive. *)
Record box := { lo : q3; hi : q3; bid : nat }.

(** BoundingBox.cpp:16-22 and 24-31: the constructors. *)
Definition box_of_point (p : q3) : box := {| lo := p; hi := p; bid := 0 |}.

(** center, lines 43-46: (min + max) / 2. *)
Definition center (b : box) : q3 := make3 (fun d => (at3 (lo b) d + at3 (hi b) d) / 2).

(** squaredVolume, lines 48-51: the squared length of the diagonal. *)
Definition sq_volume (b : box) : Q :=
  let e d := at3 (hi b) d - at3 (lo b) d in e DX * e DX + e DY * e DY + e DZ * e DZ.

(** extend by a point (lines 141-144) and by a box (146-149). *)
Definition extend_point (b : box) (p : q3) : box :=
  {| lo := make3 (fun d => qmin (at3 (lo b) d) (at3 p d)); hi := make3 (fun d => qmax (at3 (hi b) d) (at3 p d)); bid := bid b |}.
Definition extend (b c : box) : box :=
  {| lo := make3 (fun d => qmin (at3 (lo b) d) (at3 (lo c) d)); hi := make3 (fun d => qmax (at3 (hi b) d) (at3 (hi c) d));
     bid := bid b |}.

(** contains a point (lines 131-134) or a box (136-139). *)
Definition contains_point (b : box) (p : q3) : bool :=
  forallb (fun d => Qle_bool (at3 (lo b) d) (at3 p d) && Qle_bool (at3 p d) (at3 (hi b) d)) dims.
Definition contains_box (b c : box) : bool :=
  forallb (fun d => Qle_bool (at3 (lo b) d) (at3 (lo c) d) && Qle_bool (at3 (hi c) d) (at3 (hi b) d)) dims.

(** maxDimension, lines 151-155. *)
Definition max_dim (b : box) : dim :=
  let s d := at3 (hi b) d - at3 (lo b) d in
  if Qltb (s DY) (s DX) then (if Qltb (s DZ) (s DX) then DX else DZ)
  else (if Qltb (s DZ) (s DY) then DY else DZ).

(** intersects a box, lines 157-160. *)
Definition box_intersects (b c : box) : bool :=
  forallb (fun d => Qle_bool (at3 (lo b) d) (at3 (hi c) d) && Qle_bool (at3 (lo c) d) (at3 (hi b) d)) dims.

(** Eigen::AlignedBox::squaredExteriorDistance. *)
Definition sq_dist_to_box (b : box) (p : q3) : Q :=
  let e d :=
    if Qltb (at3 p d) (at3 (lo b) d) then (at3 (lo b) d - at3 p d) * (at3 (lo b) d - at3 p d)
    else if Qltb (at3 (hi b) d) (at3 p d) then (at3 p d - at3 (hi b) d) * (at3 p d - at3 (hi b) d)
    else 0 in
  e DX + e DY + e DZ.

(** intersects a ray, lines 56-107. Division by a zero component of the direction gives infinities
    or NaN in the code; the model is meant for directions without zero components. *)
Definition slab (b : box) (o v : q3) (d : dim) : Q * Q :=
  let t1 := (at3 (lo b) d - at3 o d) / at3 v d in
  let t2 := (at3 (hi b) d - at3 o d) / at3 v d in
  if Qltb t2 t1 then (t2, t1) else (t1, t2).

Definition ray_intersects (b : box) (o v : q3) : bool :=
  let (tmin, tmax) := slab b o v DX in
  let (tymin, tymax) := slab b o v DY in
  if Qltb tymax tmin || Qltb tmax tymin then false
  else
    let tmin := if Qltb tmin tymin then tymin else tmin in
    let tmax := if Qltb tymax tmax then tymax else tmax in
    let (tzmin, tzmax) := slab b o v DZ in
    if Qltb tzmax tmin || Qltb tmax tzmin then false
    else
      let tmin := if Qltb tmin tzmin then tzmin else tmin in
      let tmax := if Qltb tzmax tmax then tzmax else tmax in
      if Qltb tmin 0 && Qltb tmax 0 then false else true.

(** intersectsBranchless, lines 110-129; [big] is the largest finite scalar, [w] the inverse of the
    direction. *)
Definition branchless_step (b : box) (o w : q3) (t : Q * Q) (d : dim) : Q * Q :=
  let t1 := (at3 (lo b) d - at3 o d) * at3 w d in
  let t2 := (at3 (hi b) d - at3 o d) * at3 w d in
  (qmin (qmax (fst t) t1) (qmax (fst t) t2), qmax (qmin (snd t) t1) (qmin (snd t) t2)).
Definition ray_intersects_branchless (big : Q) (b : box) (o w : q3) : bool :=
  let t := fold_left (branchless_step b o w) dims (0, big) in Qle_bool (fst t) (snd t).

(** direction.cwiseInverse() (Bvh.h, ray queries). *)
Definition inverse3 (v : q3) : q3 := make3 (fun d => / at3 v d).
