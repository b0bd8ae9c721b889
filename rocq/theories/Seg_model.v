(** momentum/math/utility.cpp: closestPointsOnSegments. Scalars are reals. *)

From Coq Require Import Bool Reals.
From Verif Require Import Rbool R3.
Local Open Scope R_scope.

(** The literal 1e-7f, utility.cpp:320, 377 and 378, taken as the real number. *)
Definition kSegEps : R := / 10000000.

(** Lines 304-348: numerators and denominators of the two line parameters, where the first one is
    clamped to the segment; None is the early return of 327-328 and 334-335. *)
Definition seg_lines (w d1 d2 : vec3) (maxSq : R) : option (R * R * R * R) :=
  let a := vnorm2 d1 in
  let b := vdot d1 d2 in
  let c := vnorm2 d2 in
  let d := vdot d1 w in
  let e := vdot d2 w in
  let D := a * c - b * b in
  if Rltb D kSegEps then
    if Rltb maxSq (vnorm2 w) then None else Some (0, 1, e, c)
  else
    let sN := b * e - c * d in
    let tN := a * e - b * d in
    if Rltb maxSq (vnorm2 (vsub (vadd w (vscale (/ D) (vscale sN d1))) (vscale (/ D) (vscale tN d2)))) then None
    else if Rltb sN 0 then Some (0, D, e, c)
    else if Rltb D sN then Some (D, D, e + b, c)
    else Some (sN, D, tN, D).

(** Lines 350-374: the second parameter is clamped and the first one recomputed. *)
Definition seg_edges (a b d : R) (q : R * R * R * R) : R * R * R * R :=
  let '(sN, sD, tN, tD) := q in
  if Rltb tN 0 then
    if Rltb (- d) 0 then (0, sD, 0, tD)
    else if Rltb a (- d) then (sD, sD, 0, tD)
    else (- d, a, 0, tD)
  else if Rltb tD tN then
    if Rltb (- d + b) 0 then (0, sD, tD, tD)
    else if Rltb a (- d + b) then (sD, sD, tD, tD)
    else (- d + b, a, tD, tD)
  else q.

(** Lines 376-378: the division, or 0 for small numerators. *)
Definition seg_param (n m : R) : R := if Rltb (Rabs n) kSegEps then 0 else n / m.

(** closestPointsOnSegments, 296-389: the distance and the two parameters; None is success = false. *)
Definition closest_on_segments (o1 d1 o2 d2 : vec3) (maxDist : R) : option (R * (R * R)) :=
  let maxSq := maxDist * maxDist in
  let w := vsub o1 o2 in
  match seg_lines w d1 d2 maxSq with
  | None => None
  | Some q =>
      let '(sN, sD, tN, tD) := seg_edges (vnorm2 d1) (vdot d1 d2) (vdot d1 w) q in
      let s := seg_param sN sD in
      let t := seg_param tN tD in
      let dist := vnorm2 (vsub (vadd w (vscale s d1)) (vscale t d2)) in
      if Rltb maxSq dist then None else Some (sqrt dist, (s, t))
  end.
