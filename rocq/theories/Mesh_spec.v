(** Triangle meshes as sets of points, and rays that cross triangles (C81, C82, C83). *)

From Coq Require Import List Arith QArith Bool.
From Verif Require Import Box_model Box_spec Tri_spec.
Import ListNotations.
Local Open Scope Q_scope.

(** Face [i] of the mesh with these vertices and faces has the corners [a], [b], [c]. *)
Definition mesh_face (pos : list q3) (faces : list (nat * nat * nat)) (i : nat) (a b c : q3) : Prop :=
  exists ia ib ic, nth_error faces i = Some (ia, ib, ic) /\
    nth_error pos ia = Some a /\ nth_error pos ib = Some b /\ nth_error pos ic = Some c.

(** The points of the mesh. *)
Definition on_mesh (pos : list q3) (faces : list (nat * nat * nat)) (x : q3) : Prop :=
  exists i a b c, mesh_face pos faces i a b c /\ in_triangle a b c x.

(** All indices of the faces are those of vertices. *)
Definition indices_valid (pos : list q3) (faces : list (nat * nat * nat)) : Prop :=
  forall ia ib ic, In (ia, ib, ic) faces -> (ia < length pos /\ ib < length pos /\ ic < length pos)%nat.

(** The ray from [o] along [d] is in the triangle at parameter [t]. *)
Definition crosses (o d a b c : q3) (t : Q) : Prop := in_triangle a b c (ray_point o d t).

Definition cross (u v : q3) : q3 :=
  Q3 (qy u * qz v - qz u * qy v) (qz u * qx v - qx u * qz v) (qx u * qy v - qy u * qx v).
(** The direction [d] is clearly not parallel to the triangle, by the margin [eps]: the vector
    n = d x (c - a) is at least [eps] long, and the cosine of its angle with b - a at least [eps]. *)
Definition steep (eps : Q) (d a b c : q3) : Prop :=
  let n := cross d (minus c a) in let e := minus b a in
  eps * eps <= inner n n /\ 0 < inner e e /\ eps * eps * (inner e e * inner n n) <= inner e n * inner e n.
