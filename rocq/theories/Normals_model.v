(** MeshT::updateNormals (momentum/math/mesh.cpp 16-45).

    Simplifications: a scalar is a real number or NaN ([None]); infinities and rounding are left out.  There are at
    most as many vertices as an int can count (line 21). *)

From Coq Require Import Reals List Arith ZArith Bool.
From Verif Require Import Prelude Loops Rbool.
Import ListNotations.
Local Open Scope outcome_scope.

(** Scalars, with operations that pass NaN on. *)
Definition scalar := option R.
Definition lift2 (f : R -> R -> R) (a b : scalar) : scalar :=
  match a, b with Some x, Some y => Some (f x y) | _, _ => None end.
Definition is_nan (a : scalar) : bool := match a with None => true | Some _ => false end.
Record point := Pt { px : scalar; py : scalar; pz : scalar }.
Definition pt_map2 (f : R -> R -> R) (a b : point) : point :=
  Pt (lift2 f (px a) (px b)) (lift2 f (py a) (py b)) (lift2 f (pz a) (pz b)).

(** Vector3::cross. *)
Definition pt_cross (a b : point) : point :=
  let m := lift2 Rmult in let s := lift2 Rminus in
  Pt (s (m (py a) (pz b)) (m (pz a) (py b)))
     (s (m (pz a) (px b)) (m (px a) (pz b)))
     (s (m (px a) (py b)) (m (py a) (px b))).

(** Lines 22-37: one face. *)
Definition normals_face (verts : list point) (face : Z * Z * Z) (ns : list point) : outcome (list point) :=
  let '(a, b, c) := face in
  if existsb (fun k => (k <? 0)%Z || (Z.of_nat (length verts) <=? k)%Z) [a; b; c] then Ok ns
  else
    let* v0 := rd verts (Z.to_nat a) in
    let* v1 := rd verts (Z.to_nat b) in
    let* v2 := rd verts (Z.to_nat c) in
    let normal := pt_cross (pt_map2 Rminus v1 v0) (pt_map2 Rminus v2 v0) in
    if is_nan (px normal) then Ok ns
    else ofold (fun k ns => let* m := rd ns (Z.to_nat k) in wr ns (Z.to_nat k) (pt_map2 Rplus m normal)) [a; b; c] ns.

(** Lines 39-43: the length is compared with zero, which NaN is not. *)
Definition pt_length (a : point) : scalar :=
  let q := fun x => lift2 Rmult x x in
  option_map sqrt (lift2 Rplus (lift2 Rplus (q (px a)) (q (py a))) (q (pz a))).
Definition pt_unit (a : point) : point :=
  match pt_length a with
  | Some len => if Reqb len 0 then a else Pt (lift2 Rdiv (px a) (Some len)) (lift2 Rdiv (py a) (Some len)) (lift2 Rdiv (pz a) (Some len))
  | None => Pt None None None
  end.

(** Lines 16-45: the new normals. *)
Definition update_normals (verts : list point) (faces : list (Z * Z * Z)) : outcome (list point) :=
  let* ns := ofold (normals_face verts) faces (repeat (Pt (Some 0%R) (Some 0%R) (Some 0%R)) (length verts)) in
  Ok (map pt_unit ns).
