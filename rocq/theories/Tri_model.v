(** Model of axel/axel/math/PointTriangleProjectionDefinitions.h, RayTriangleIntersection.cpp and
    BoundingBoxUtils.h, and of the queries of axel/axel/TriBvh.cpp built on them. Scalars are
    rational numbers, computed exactly. *)

From Coq Require Import List Arith ZArith QArith Bool.
From Verif Require Import Prelude Loops Box_model Bvh_model Bvh_pair_model.
Import ListNotations.
Local Open Scope outcome_scope.
Local Open Scope Q_scope.

Definition sub3 (a b : q3) : q3 := Q3 (qx a - qx b) (qy a - qy b) (qz a - qz b).
Definition add3 (a b : q3) : q3 := Q3 (qx a + qx b) (qy a + qy b) (qz a + qz b).
Definition scale3 (k : Q) (a : q3) : q3 := Q3 (k * qx a) (k * qy a) (k * qz a).
Definition dot3 (a b : q3) : Q := qx a * qx b + qy a * qy b + qz a * qz b.
Definition cross3 (a b : q3) : q3 :=
  Q3 (qy a * qz b - qz a * qy b) (qz a * qx b - qx a * qz b) (qx a * qy b - qy a * qx b).

(** Division: by zero the code gets an infinity or NaN, which is None here; all coordinates computed
    from it count as not finite. *)
Definition qdiv (x y : Q) : option Q := if Qeq_bool y 0 then None else Some (x / y).

(** projectOnTriangle, PointTriangleProjectionDefinitions.h:20-95: the answer and the point. *)
Definition project_on_triangle (p a b c : q3) : bool * option q3 :=
  let ab := sub3 b a in
  let ac := sub3 c a in
  let ap := sub3 p a in
  let d1 := dot3 ab ap in
  let d2 := dot3 ac ap in
  if Qle_bool d1 0 && Qle_bool d2 0 then (false, Some a)
  else
    let bp := sub3 p b in
    let d3 := dot3 ab bp in
    let d4 := dot3 ac bp in
    if Qle_bool 0 d3 && Qle_bool d4 d3 then (false, Some b)
    else
      let vc := d1 * d4 - d3 * d2 in
      if Qle_bool vc 0 && Qle_bool 0 d1 && Qle_bool d3 0 then
        (false, option_map (fun v => add3 a (scale3 v ab)) (qdiv d1 (d1 - d3)))
      else
        let cp := sub3 p c in
        let d5 := dot3 ab cp in
        let d6 := dot3 ac cp in
        if Qle_bool 0 d6 && Qle_bool d5 d6 then (false, Some c)
        else
          let vb := d5 * d2 - d1 * d6 in
          if Qle_bool vb 0 && Qle_bool 0 d2 && Qle_bool d6 0 then
            (false, option_map (fun w => add3 a (scale3 w ac)) (qdiv d2 (d2 - d6)))
          else
            let va := d3 * d6 - d5 * d4 in
            if Qle_bool va 0 && Qle_bool 0 (d4 - d3) && Qle_bool 0 (d5 - d6) then
              (false, option_map (fun w => add3 b (scale3 w (sub3 c b))) (qdiv (d4 - d3) ((d4 - d3) + (d5 - d6))))
            else
              (true, option_map (fun denom => add3 (add3 a (scale3 (vb * denom) ab)) (scale3 (vc * denom) ac))
                       (qdiv 1 (va + vb + vc))).

(** The same with wide scalars, lines 97-154, for one lane: every region is evaluated and later ones
    win; [q0] is what [q] held before. *)
Definition select {A} (m : bool) (x y : A) : A := if m then x else y.
Definition project_lane (p a b c : q3) (q0 : option q3) : bool * option q3 :=
  let ab := sub3 b a in
  let ac := sub3 c a in
  let ap := sub3 p a in
  let d1 := dot3 ab ap in
  let d2 := dot3 ac ap in
  let outside1 := Qle_bool d1 0 && Qle_bool d2 0 in
  let q := select outside1 (Some a) q0 in
  let bp := sub3 p b in
  let d3 := dot3 ab bp in
  let d4 := dot3 ac bp in
  let outside2 := Qle_bool 0 d3 && Qle_bool d4 d3 in
  let q := select outside2 (Some b) q in
  let vc := d1 * d4 - d3 * d2 in
  let outside3 := Qle_bool vc 0 && Qle_bool 0 d1 && Qle_bool d3 0 in
  let q := select outside3 (option_map (fun v => add3 a (scale3 v ab)) (qdiv d1 (d1 - d3))) q in
  let cp := sub3 p c in
  let d5 := dot3 ab cp in
  let d6 := dot3 ac cp in
  let outside4 := Qle_bool 0 d6 && Qle_bool d5 d6 in
  let q := select outside4 (Some c) q in
  let vb := d5 * d2 - d1 * d6 in
  let outside5 := Qle_bool vb 0 && Qle_bool 0 d2 && Qle_bool d6 0 in
  let q := select outside5 (option_map (fun w => add3 a (scale3 w ac)) (qdiv d2 (d2 - d6))) q in
  let va := d3 * d6 - d5 * d4 in
  let outside6 := Qle_bool va 0 && Qle_bool 0 (d4 - d3) && Qle_bool 0 (d5 - d6) in
  let q := select outside6 (option_map (fun w => add3 b (scale3 w (sub3 c b))) (qdiv (d4 - d3) ((d4 - d3) + (d5 - d6)))) q in
  let outside := outside1 || outside2 || outside3 || outside4 || outside5 || outside6 in
  let q := select outside q
    (option_map (fun denom => add3 (add3 a (scale3 (vb * denom) ab)) (scale3 (vc * denom) ac)) (qdiv 1 (va + vb + vc))) in
  (negb outside, q).

(** ** Rays *)

Record ray_hit := { h_u : Q; h_v : Q; h_t : Q; h_point : q3 }.

(** rayTriangleIntersect, RayTriangleIntersection.cpp:15-71. The norms are compared by their squares:
    |pvec| < eps, and |det| < eps |v0v1| |pvec| for the determinant of the normalized vectors, which
    Eigen's normalized() leaves zero when v0v1 is. None is the answer false. *)
Definition ray_triangle (eps : Q) (o d p0 p1 p2 : q3) : option ray_hit :=
  let v0v1 := sub3 p1 p0 in
  let v0v2 := sub3 p2 p0 in
  let pvec := cross3 d v0v2 in
  if Qltb (dot3 pvec pvec) (eps * eps) then None
  else
    let det := dot3 v0v1 pvec in
    if Qle_bool (dot3 v0v1 v0v1) 0 || Qltb (det * det) (eps * eps * (dot3 v0v1 v0v1 * dot3 pvec pvec)) then None
    else
      let inv := 1 / det in
      let tvec := sub3 o p0 in
      let u := dot3 tvec pvec * inv in
      if Qltb u (- eps) || Qltb (1 + eps) u then None
      else
        let qvec := cross3 tvec v0v1 in
        let v := dot3 d qvec * inv in
        if Qltb v (- eps) || Qltb (1 + eps) (u + v) then None
        else
          let t := dot3 v0v2 qvec * inv in
          Some {| h_u := u; h_v := v; h_t := t; h_point := add3 o (scale3 t d) |}.

(** ** Meshes *)

(** getMinMaxBoundTriangle, BoundingBoxUtils.h:28-38, and getAdaptiveMinMaxBoundTriangle, 40-53. *)
Definition tri_box (thickness : Q) (p0 p1 p2 : q3) (id : nat) : box :=
  {| lo := make3 (fun d => qmin (at3 p0 d) (qmin (at3 p1 d) (at3 p2 d)) - thickness);
     hi := make3 (fun d => qmax (at3 p0 d) (qmax (at3 p1 d) (at3 p2 d)) + thickness); bid := id |}.
Definition tri_box_adaptive (factor : Q) (p0 p1 p2 : q3) (id : nat) : box :=
  let mn d := qmin (at3 p0 d) (qmin (at3 p1 d) (at3 p2 d)) in
  let mx d := qmax (at3 p0 d) (qmax (at3 p1 d) (at3 p2 d)) in
  let ep d := (mx d - mn d) * factor in
  {| lo := make3 (fun d => mn d - ep d); hi := make3 (fun d => mx d + ep d); bid := id |}.

Notation tri := (nat * nat * nat)%type.
(** The corners of a triangle; an index past the end fails the check of TriBvh.cpp:49-56. Negative
    indices are not modelled. *)
Definition corners (pos : list q3) (f : tri) : outcome (q3 * q3 * q3) :=
  let '(i, j, k) := f in
  match nth_error pos i, nth_error pos j, nth_error pos k with
  | Some a, Some b, Some c => Ok (a, b, c)
  | _, _, _ => CheckFail
  end.

(** The boxes of buildBvh, TriBvh.cpp:34-86; [thick] is the optional thickness. *)
Definition face_box (pos : list q3) (thick : option Q) (id : nat) (f : tri) : outcome box :=
  let* c := corners pos f in
  let '(a, b, c) := c in
  Ok (match thick with Some e => tri_box e a b c id | None => tri_box_adaptive (1 # 100) a b c id end).
Fixpoint face_boxes (pos : list q3) (thick : option Q) (id : nat) (fs : list tri) : outcome (list box) :=
  match fs with
  | [] => Ok []
  | f :: fs => let* b := face_box pos thick id f in let* bs := face_boxes pos thick (S id) fs in Ok (b :: bs)
  end.

Record tri_bvh := { m_pos : list q3; m_tri : list tri; m_bvh : bvh }.
Definition tri_bvh_make (cap : nat) (pos : list q3) (fs : list tri) (thick : option Q) : outcome tri_bvh :=
  let* bs := face_boxes pos thick 0 fs in
  let* t := build cap bs in
  Ok {| m_pos := pos; m_tri := fs; m_bvh := t |}.

(** The corners of face [i], which the queries read without a check; the tree only gives valid ones. *)
Definition face (m : tri_bvh) (i : nat) : q3 * q3 * q3 :=
  match nth_error (m_tri m) i with
  | Some f => match corners (m_pos m) f with Ok c => c | _ => (Q3 0 0 0, Q3 0 0 0, Q3 0 0 0) end
  | None => (Q3 0 0 0, Q3 0 0 0, Q3 0 0 0)
  end.
(** Points that are not finite are not followed further: the model is meant for faces without them. *)
Definition face_project (m : tri_bvh) (q : q3) (i : nat) : q3 :=
  let '(a, b, c) := face m i in match snd (project_on_triangle q a b c) with Some p => p | None => Q3 0 0 0 end.

(** closestSurfacePoint, TriBvh.cpp:207-256 (the scalar branch, 240-254). *)
Definition mesh_closest (big : Q) (m : tri_bvh) (q : q3) : outcome closest :=
  closest_surface_point (m_bvh m) q (face_project m q) big.

(** closestHit, lines 113-150: the callback keeps the hit with the smallest parameter so far; the
    state is that parameter and the hit. *)
Definition face_ray (eps : Q) (m : tri_bvh) (o d : q3) (i : nat) : option ray_hit :=
  let '(a, b, c) := face m i in ray_triangle eps o d a b c.
Definition closest_hit_step (eps tmin : Q) (m : tri_bvh) (o d : q3) (i : nat) (s : Q * option (nat * ray_hit)) : Q * option (nat * ray_hit) :=
  match face_ray eps m o d i with
  | Some h => if Qle_bool tmin (h_t h) && Qle_bool (h_t h) (fst s) then (h_t h, Some (i, h)) else s
  | None => s
  end.
(** interpolatePosition, lines 26-33, and the result, lines 140-150: face, parameter, point and
    barycentric coordinates. *)
Record hit_result := { r_face : nat; r_t : Q; r_point : q3; r_bary : Q * Q * Q }.
Definition make_result (m : tri_bvh) (ih : nat * ray_hit) : hit_result :=
  let '(a, b, c) := face m (fst ih) in
  let u := h_u (snd ih) in
  let v := h_v (snd ih) in
  let w := 1 - u - v in
  {| r_face := fst ih; r_t := h_t (snd ih); r_point := add3 (add3 (scale3 w a) (scale3 u b)) (scale3 v c); r_bary := (w, u, v) |}.
Definition mesh_closest_hit (big eps tmin tmax : Q) (m : tri_bvh) (o d : q3) : outcome (option hit_result) :=
  let* s := ray_closest_hit big (m_bvh m) o d (closest_hit_step eps tmin m o d) (tmax, None) in
  Ok (option_map (make_result m) (snd s)).

(** allHits, lines 152-187: maxT never changes. *)
Definition all_hits_step (eps tmin tmax : Q) (m : tri_bvh) (o d : q3) (i : nat) (s : list (nat * ray_hit)) : list (nat * ray_hit) :=
  match face_ray eps m o d i with
  | Some h => if Qle_bool tmin (h_t h) && Qle_bool (h_t h) tmax then s ++ [(i, h)] else s
  | None => s
  end.
Definition mesh_all_hits (big eps tmin tmax : Q) (m : tri_bvh) (o d : q3) : outcome (list hit_result) :=
  let* s := ray_closest_hit big (m_bvh m) o d (all_hits_step eps tmin tmax m o d) [] in
  Ok (map (make_result m) s).

(** anyHit, lines 189-205. *)
Definition any_hit_face (eps tmin tmax : Q) (m : tri_bvh) (o d : q3) (i : nat) : bool :=
  match face_ray eps m o d i with
  | Some h => Qle_bool tmin (h_t h) && Qle_bool (h_t h) tmax
  | None => false
  end.
Definition mesh_any_hit (big eps tmin tmax : Q) (m : tri_bvh) (o d : q3) : outcome bool :=
  ray_any_hit big (m_bvh m) o d (any_hit_face eps tmin tmax m o d).
