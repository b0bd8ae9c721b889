(** axel/axel/math/ContinuousCollisionDetection.cpp, with the scalar projectOnTriangle of
    PointTriangleProjectionDefinitions.h over the reals. *)

From Coq Require Import Bool List Reals.
From Verif Require Import Rbool R3 Cub_model EdgeD_model.
Import ListNotations.
Local Open Scope R_scope.

(** Division by zero gives an infinity or NaN, which is None here; nothing computed from it compares as smaller. *)
Definition rdiv (x y : R) : option R := if Reqb y 0 then None else Some (x / y).

(** projectOnTriangle, PointTriangleProjectionDefinitions.h:20-95: the answer and the point. *)
Definition project_tri (p a b c : vec3) : bool * option vec3 :=
  let ab := vsub b a in
  let ac := vsub c a in
  let ap := vsub p a in
  let d1 := vdot ab ap in
  let d2 := vdot ac ap in
  if Rleb d1 0 && Rleb d2 0 then (false, Some a)
  else
    let bp := vsub p b in
    let d3 := vdot ab bp in
    let d4 := vdot ac bp in
    if Rleb 0 d3 && Rleb d4 d3 then (false, Some b)
    else
      let vc := d1 * d4 - d3 * d2 in
      if Rleb vc 0 && Rleb 0 d1 && Rleb d3 0 then
        (false, option_map (fun v => vadd a (vscale v ab)) (rdiv d1 (d1 - d3)))
      else
        let cp := vsub p c in
        let d5 := vdot ab cp in
        let d6 := vdot ac cp in
        if Rleb 0 d6 && Rleb d5 d6 then (false, Some c)
        else
          let vb := d5 * d2 - d1 * d6 in
          if Rleb vb 0 && Rleb 0 d2 && Rleb d6 0 then
            (false, option_map (fun w => vadd a (vscale w ac)) (rdiv d2 (d2 - d6)))
          else
            let va := d3 * d6 - d5 * d4 in
            if Rleb va 0 && Rleb 0 (d4 - d3) && Rleb 0 (d5 - d6) then
              (false, option_map (fun w => vadd b (vscale w (vsub c b))) (rdiv (d4 - d3) ((d4 - d3) + (d5 - d6))))
            else
              (true, option_map (fun denom => vadd (vadd a (vscale (vb * denom) ab)) (vscale (vc * denom) ac))
                       (rdiv 1 (va + vb + vc))).

(** x + time * v. *)
Definition at_time (x v : vec3) (time : R) : vec3 := vadd x (vscale time v).

(** Lines 28-33 and 64-69: the candidate times, with dt as the last one; [times] has at most 3 entries, so that
    t[solutions] is inside the array of 4. Lines 35-38 and 72-75: times that are skipped. *)
Definition candidates (times : list R) (dt : R) : list R :=
  filter (fun time => negb (Rleb time 0 || Rltb dt time)) (times ++ [dt]).

(** ccdEdgeEdge, lines 16-51. *)
Definition ccd_edge_edge (x1 x2 x3 x4 v1 v2 v3 v4 : vec3) (thr dt : R) : bool :=
  existsb (fun time =>
      let '(ok, _, _, d) := distance_edge_edge (at_time x1 v1 time) (at_time x2 v2 time) (at_time x3 v3 time) (at_time x4 v4 time) in
      ok && Rltb d thr)
    (candidates (times_coplanar x1 x2 x3 x4 v1 v2 v3 v4) dt).

(** ccdVertexTriangle, lines 53-90. *)
Definition ccd_vertex_triangle (x1 x2 x3 x4 v1 v2 v3 v4 : vec3) (thr dt : R) : bool :=
  existsb (fun time =>
      let p := at_time x4 v4 time in
      match project_tri p (at_time x1 v1 time) (at_time x2 v2 time) (at_time x3 v3 time) with
      | (inside, Some q) => inside && Rltb (vnorm2 (vsub p q)) (thr * thr)
      | (_, None) => false
      end)
    (candidates (times_coplanar x1 x2 x3 x4 v1 v2 v3 v4) dt).
