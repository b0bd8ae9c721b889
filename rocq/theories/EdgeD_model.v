(** axel/axel/math/EdgeEdgeDistance.cpp: distanceEdgeEdge. Scalars are reals. *)

From Coq Require Import Bool Reals.
From Verif Require Import Rbool R3.
Local Open Scope R_scope.

(** std::clamp(x, 0, 1). *)
Definition clamp01 (x : R) : R := if Rltb x 0 then 0 else if Rltb 1 x then 1 else x.
(** The literal 10e-5, line 20. *)
Definition edge_eps : R := / 10000.

(** Lines 32-84: the two parameters, or None for the early return of case 1. *)
Definition edge_params (d1 d2 r : vec3) : option (R * R) :=
  let a := vdot d1 d1 in
  let e := vdot d2 d2 in
  let f := vdot d2 r in
  let c := vdot d1 r in
  if Rleb a edge_eps && Rleb e edge_eps then None
  else if Rleb a edge_eps then Some (0, clamp01 (f / e))
  else if Rleb e edge_eps then Some (clamp01 (- c / a), 0)
  else
    let b := vdot d1 d2 in
    let denom := a * e - b * b in
    let s := if Rltb edge_eps (Rabs denom) then clamp01 ((b * f - c * e) / denom) else 0 in
    let t := (b * s + f) / e in
    if Rltb t 0 then Some (clamp01 (- c / a), 0)
    else if Rltb 1 t then Some (clamp01 ((b - c) / a), 1)
    else Some (s, t).

(** distanceEdgeEdge, 12-88: the result, s, t and the distance. *)
Definition distance_edge_edge (p1 q1 p2 q2 : vec3) : bool * R * R * R :=
  let d1 := vsub q1 p1 in
  let d2 := vsub q2 p2 in
  match edge_params d1 d2 (vsub p1 p2) with
  | None => (false, 0, 0, sqrt (vnorm2 (vsub p1 p2)))
  | Some (s, t) => (true, s, t, sqrt (vnorm2 (vsub (vadd p1 (vscale s d1)) (vadd p2 (vscale t d2)))))
  end.
