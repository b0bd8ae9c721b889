(** Model of momentum/character/linear_skinning.cpp, of remapSkinWeights
    (momentum/character/character.cpp:376-428) and of mapSkinWeights
    (momentum/character/character_utility.cpp:158-174). Scalars are reals. *)

From Coq Require Import Reals List Arith.
From Verif Require Import Prelude Loops Rbool R3 Transform_model.
Import ListNotations.
Local Open Scope R_scope.
Local Open Scope outcome_scope.

(** A row of SkinWeights, skin_weights.h:17-31: joint and weight of each influence. The code has
    kMaxSkinJoints = 8 columns; the model takes any number. *)
Notation influence := (nat * R)%type.

(** The matrices from the bind pose to the current pose, linear_skinning.cpp:44-47, 137-140 and
    258-261: [worlds] are the joints' transformations. *)
Definition skin_transforms (worlds inv : list affine) : list affine :=
  map (fun x => aff_mul (fst x) (snd x)) (combine worlds inv).

(** The loop over the weights, lines 60-80; it ends at the first weight zero. The MT_CHECK of the
    index is left to the read. *)
Fixpoint ssd_row (ts : list affine) (row : list influence) (pos out : vec3) : outcome vec3 :=
  match row with
  | [] => Ok out
  | (j, w) :: r =>
    if Reqb w 0 then Ok out
    else
      let* t := rd ts j in
      ssd_row ts r pos (vadd out (vscale w (vadd (atrans t) (mvec (alin t) pos))))
  end.

(** parallel_for, lines 50-82: the vertices are treated in any order; [order] lists them. *)
Definition for_vertices {A B} (order : list nat) (skin : list (list influence)) (points : list A)
    (f : list influence -> A -> outcome B) (result : list B) : outcome (list B) :=
  ofold (fun i result =>
    let* row := rd skin i in
    let* p := rd points i in
    let* v := f row p in
    wr result i v) order result.

(** applySSD for points, lines 20-85. *)
Definition apply_ssd (order : list nat) (inv : list affine) (skin : list (list influence)) (points : list vec3)
    (worlds : list affine) : outcome (list vec3) :=
  if negb (length worlds =? length inv) then CheckFail
  else if negb (length skin =? length points) then CheckFail
  else for_vertices order skin points (fun row p => ssd_row (skin_transforms worlds inv) row p vzero) (repeat vzero (length points)).

(** Eigen's normalize(): a zero vector stays. *)
Definition normalized (v : vec3) : vec3 := if Rltb 0 (vnorm2 v) then vscale (/ sqrt (vnorm2 v)) v else v.

(** The loop over the weights for a vertex and its normal, lines 157-179. *)
Fixpoint ssd_normal_row (ts : list affine) (row : list influence) (pos nml : vec3) (out : vec3 * vec3) : outcome (vec3 * vec3) :=
  match row with
  | [] => Ok out
  | (j, w) :: r =>
    if Reqb w 0 then Ok out
    else
      let* t := rd ts j in
      ssd_normal_row ts r pos nml
        (vadd (fst out) (vscale w (vadd (atrans t) (mvec (alin t) pos))), vadd (snd out) (vscale w (mvec (alin t) nml)))
  end.

(** applySSD for a mesh, lines 97-183: vertices with their normals, one list of pairs. There may be
    more joints than bind poses. *)
Definition apply_ssd_mesh (order : list nat) (inv : list affine) (skin : list (list influence)) (mesh : list (vec3 * vec3))
    (worlds : list affine) (output : list (vec3 * vec3)) : outcome (list (vec3 * vec3)) :=
  if negb (length inv <=? length worlds) then CheckFail
  else if negb (length skin =? length mesh) then CheckFail
  else if negb (length output =? length mesh) then CheckFail
  else for_vertices order skin mesh (fun row p =>
         let* o := ssd_normal_row (skin_transforms worlds inv) row (fst p) (snd p) (vzero, vzero) in
         Ok (fst o, normalized (snd o))) output.

(** The sum of the matrices, lines 206-219 and 276-296. *)
Definition aff_zero : affine := Aff (M3 vzero vzero vzero) vzero.
Definition madd (a b : mat3) : mat3 := M3 (vadd (col0 a) (col0 b)) (vadd (col1 a) (col1 b)) (vadd (col2 a) (col2 b)).
Fixpoint blend_row (ts : list affine) (row : list influence) (out : affine) : outcome affine :=
  match row with
  | [] => Ok out
  | (j, w) :: r =>
    if Reqb w 0 then Ok out
    else
      let* t := rd ts j in
      blend_row ts r (Aff (madd (alin out) (mscale w (alin t))) (vadd (atrans out) (vscale w (atrans t))))
  end.

(** Affine3f::inverse(): inverse of the linear part by cofactors. A singular matrix gives infinities
    in the C++; here the quotient is unspecified. *)
Definition mdet (m : mat3) : R := vdot (col0 m) (vcross (col1 m) (col2 m)).
Definition minv (m : mat3) : mat3 :=
  let r0 := vcross (col1 m) (col2 m) in let r1 := vcross (col2 m) (col0 m) in let r2 := vcross (col0 m) (col1 m) in
  mscale (/ mdet m) (M3 (V3 (vx r0) (vx r1) (vx r2)) (V3 (vy r0) (vy r1) (vy r2)) (V3 (vz r0) (vz r1) (vz r2))).
Definition aff_inv (a : affine) : affine := Aff (minv (alin a)) (vscale (-1) (mvec (minv (alin a)) (atrans a))).

(** applyInverseSSD, lines 236-303. *)
Definition apply_inverse_ssd (inv : list affine) (skin : list (list influence)) (points : list vec3) (worlds : list affine)
    : outcome (list vec3) :=
  if negb (length worlds =? length inv) then CheckFail
  else if negb (length skin =? length points) then CheckFail
  else for_vertices (seq 0 (length skin)) skin points (fun row p =>
         let* t := blend_row (skin_transforms worlds inv) row aff_zero in
         Ok (aff_point (aff_inv t) p)) (repeat vzero (length points)).

(** ** Remapping *)

(** remapSkinWeights, character.cpp:400-402: gsl::narrow throws for kInvalidIndex ([None]). *)
Fixpoint map_row (jmap : list (option nat)) (row : list influence) : outcome (list influence) :=
  match row with
  | [] => Ok []
  | (j, w) :: r =>
    let* m := rd jmap j in
    match m with
    | None => Throw
    | Some k => let* r' := map_row jmap r in Ok ((k, w) :: r')
    end
  end.

(** Lines 404-415: the entry at [i] takes over the weights of the later entries with its joint. The
    two index loops are recursions over the rest of the row; [n] is its length. *)
Fixpoint absorb (k : nat) (w : R) (r : list influence) : R * list influence :=
  match r with
  | [] => (w, [])
  | (j, v) :: r' =>
    if j =? k then let x := absorb k (w + v) r' in (fst x, (j, 0) :: snd x)
    else let x := absorb k w r' in (fst x, (j, v) :: snd x)
  end.
Fixpoint join (n : nat) (row : list influence) : list influence :=
  match n, row with
  | S n', (k, w) :: r => let x := absorb k w r in (k, fst x) :: join n' (snd x)
  | _, _ => row
  end.

(** Lines 417-425: exchange the entry at [i] with every later one that has more weight. *)
Fixpoint exchange (x : influence) (r : list influence) : influence * list influence :=
  match r with
  | [] => (x, [])
  | y :: r' =>
    if Rltb (snd x) (snd y) then let z := exchange y r' in (fst z, x :: snd z)
    else let z := exchange x r' in (fst z, y :: snd z)
  end.
Fixpoint sort_row (n : nat) (row : list influence) : list influence :=
  match n, row with
  | S n', x :: r => let z := exchange x r in fst z :: sort_row n' (snd z)
  | _, _ => row
  end.

Definition remap_row (jmap : list (option nat)) (row : list influence) : outcome (list influence) :=
  let* row := map_row jmap row in
  let row := join (length row) row in
  Ok (sort_row (length row) row).
Fixpoint remap_skin (jmap : list (option nat)) (skin : list (list influence)) : outcome (list (list influence)) :=
  match skin with
  | [] => Ok []
  | row :: r => let* row' := remap_row jmap row in let* r' := remap_skin jmap r in Ok (row' :: r')
  end.

(** mapSkinWeights, character_utility.cpp:158-174: entries of weight zero keep their joint. *)
Fixpoint map_weights_row (jmap : list (option nat)) (row : list influence) : outcome (list influence) :=
  match row with
  | [] => Ok []
  | (j, w) :: r =>
    if Reqb w 0 then let* r' := map_weights_row jmap r in Ok ((j, w) :: r')
    else
      let* m := rd jmap j in
      match m with
      | None => CheckFail
      | Some k => let* r' := map_weights_row jmap r in Ok ((k, w) :: r')
      end
  end.
