(** What the normals of a mesh should be (C117). *)

From Coq Require Import Reals List Arith ZArith Bool.
From Verif Require Import R3 Normals_model.
Import ListNotations.
Local Open Scope R_scope.

(** A point with numbers for coordinates. *)
Definition real (v : vec3) : point := Pt (Some (vx v)) (Some (vy v)) (Some (vz v)).

(** The points of a face all of whose indices are in range. *)
Definition vertex (verts : list point) (k : Z) : option point :=
  if (k <? 0)%Z then None else nth_error verts (Z.to_nat k).
Definition corners (verts : list point) (f : Z * Z * Z) : option (point * point * point) :=
  match vertex verts (fst (fst f)), vertex verts (snd (fst f)), vertex verts (snd f) with
  | Some a, Some b, Some c => Some (a, b, c)
  | _, _, _ => None
  end.
Definition has_corner (f : Z * Z * Z) (i : nat) : bool :=
  ((fst (fst f) =? Z.of_nat i) || (snd (fst f) =? Z.of_nat i) || (snd f =? Z.of_nat i))%Z.

(** A normal of a face, as long as twice its area; none if an index is out of range or a coordinate is not a number. *)
Definition as_real (p : point) : option vec3 :=
  match p with Pt (Some x) (Some y) (Some z) => Some (V3 x y z) | _ => None end.
Definition face_normal (verts : list point) (f : Z * Z * Z) : option vec3 :=
  match corners verts f with
  | Some (a, b, c) =>
      match as_real a, as_real b, as_real c with
      | Some u, Some v, Some w => Some (vcross (vsub v u) (vsub w u))
      | _, _, _ => None
      end
  | None => None
  end.

(** The sum of the normals of the faces around a vertex. *)
Definition vsum (l : list vec3) : vec3 := fold_right vadd vzero l.
Definition around (verts : list point) (faces : list (Z * Z * Z)) (i : nat) : list vec3 :=
  flat_map (fun f => match face_normal verts f with Some n => [n] | None => [] end)
    (filter (fun f => has_corner f i) faces).

(** [v] is the direction of [u]: of length one, or zero if [u] is. *)
Definition direction (u v : vec3) : Prop :=
  (u = vzero /\ v = vzero) \/ (u <> vzero /\ vnorm2 v = 1 /\ exists c, 0 < c /\ u = vscale c v).

(** A face whose first coordinates alone are not all numbers. *)
Definition first_only (p : point) : Prop := py p <> None /\ pz p <> None.
Definition first_nan (verts : list point) (f : Z * Z * Z) : Prop :=
  exists a b c, corners verts f = Some (a, b, c) /\ first_only a /\ first_only b /\ first_only c /\
    (px a = None \/ px b = None \/ px c = None).
