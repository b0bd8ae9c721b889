(** Model of momentum/character/blend_shape_base.{h,cpp}, blend_shape.{h,cpp} and
    blend_shape_skinning.cpp. Scalars are reals: the conversions between float and double are not
    modelled. *)

From Coq Require Import Bool Reals List Arith.
From Verif Require Import Prelude Loops Rbool R3 LinAlg Transform_model Skin_model.
Import ListNotations.
Local Open Scope R_scope.
Local Open Scope outcome_scope.

(** MatrixXf shapeVectors_, blend_shape_base.h:50. *)
Record bmat := BM { bm_rows : nat; bm_cols : nat; bm_at : nat -> nat -> R }.

(** A list of points seen as one long vector: Map<VectorXf>(&shape[0][0], 3 * size). *)
Definition component (v : vec3) (c : nat) : R := match c with 0 => vx v | 1 => vy v | _ => vz v end%nat.
Definition flat (l : list vec3) (r : nat) : R := component (nth (r / 3) l vzero) (r mod 3).
Definition unflat (n : nat) (f : nat -> R) : list vec3 :=
  map (fun i => V3 (f (3 * i)%nat) (f (3 * i + 1)%nat) (f (3 * i + 2)%nat)) (seq 0 n).

(** computeDeltas, blend_shape_base.cpp:14-22. *)
Definition compute_deltas (V : bmat) (w : list R) : outcome (nat -> R) :=
  if negb (length w <=? bm_cols V) then CheckFail
  else Ok (fun r => sumn (length w) (fun k => bm_at V r k * nth k w 0)).

(** applyDeltas, lines 24-31. The address of the first element of an empty vector is undefined; the
    sum of vectors of different lengths fails Eigen's assertion. *)
Definition apply_deltas (V : bmat) (w : list R) (result : list vec3) : outcome (list vec3) :=
  let* d := compute_deltas V w in
  match result with
  | [] => UB
  | _ => if negb (3 * length result =? bm_rows V) then CheckFail
         else Ok (unflat (length result) (fun r => flat result r + d r))
  end.

(** BlendShapeBase(modelSize, numShapes), lines 33-34. *)
Definition base_new (n shapes : nat) : bmat := BM (n * 3) shapes (fun _ _ => 0).

(** BlendShapeBase::setShapeVector, lines 36-47; modelSize() is rows / 3 (blend_shape_base.h:45-47).
    gsl::span ends the program for shape[0] of an empty span. *)
Definition base_set_vector (V : bmat) (index : nat) (shape : list vec3) : outcome bmat :=
  if negb (bm_rows V / 3 =? length shape) then CheckFail
  else if negb (length shape * 3 =? bm_rows V) then CheckFail
  else if negb (index <? bm_cols V) then CheckFail
  else match shape with
       | [] => CheckFail
       | _ => Ok (BM (bm_rows V) (bm_cols V) (fun r k => if (k =? index)%nat then flat shape r else bm_at V r k))
       end.

(** BlendShape, blend_shape.h:17-53. [bs_fact] is the matrix that factorization_ was computed from. *)
Record bshape := BS { bs_vectors : bmat; bs_base : list vec3; bs_fact : option bmat; bs_valid : bool }.

(** blend_shape.cpp:90-93. *)
Definition bs_new (base : list vec3) (shapes : nat) : bshape := BS (base_new (length base) shapes) base None false.
(** setBaseShape, blend_shape.h:22-24. *)
Definition bs_set_base (s : bshape) (base : list vec3) : bshape := BS (bs_vectors s) base (bs_fact s) (bs_valid s).
(** BlendShape::setShapeVector, blend_shape.cpp:95-100. *)
Definition bs_set_vector (s : bshape) (index : nat) (shape : list vec3) : outcome bshape :=
  let* V := base_set_vector (bs_vectors s) index shape in
  Ok (BS V (bs_base s) (bs_fact s) false).
(** setShapeVectors, blend_shape_base.h:24-26, is inherited. *)
Definition bs_set_vectors (s : bshape) (V : bmat) : bshape := BS V (bs_base s) (bs_fact s) (bs_valid s).

(** computeShape, blend_shape.cpp:14-37. *)
Definition compute_shape (s : bshape) (w : list R) : outcome (list vec3) :=
  if negb (length (bs_base s) * 3 =? bm_rows (bs_vectors s)) then CheckFail
  else match bs_base s with
       | [] => UB
       | base =>
         let* d := compute_deltas (bs_vectors s) w in
         Ok (unflat (length base) (fun r => flat base r + d r))
       end.

(** The matrix and right-hand side of the weighted problem, lines 69-84: wts repeats each weight three
    times. The strided maps of lines 67-69 are taken to write every third entry. *)
Definition wls_matrix (V : bmat) (reg : R) (ws : list R) : nat -> nat -> R :=
  fun r k => if (r <? bm_rows V)%nat then bm_at V r k * nth (r / 3) ws 0
             else if (r - bm_rows V =? k)%nat then reg else 0.
Definition wls_rhs (V : bmat) (base vertices : list vec3) (ws : list R) : nat -> R :=
  fun r => if (r <? bm_rows V)%nat then (flat vertices r - flat base r) * nth (r / 3) ws 0 else 0.

(** estimateCoefficients, lines 39-88. [svd] and [ldlt] stand for Eigen's solvers; the object changes
    because the factorization is kept. *)
Definition estimate (svd : nat -> nat -> (nat -> nat -> R) -> (nat -> R) -> nat -> R)
    (ldlt : nat -> (nat -> nat -> R) -> (nat -> R) -> nat -> R)
    (s : bshape) (vertices : list vec3) (reg : R) (ws : list R) : outcome (bshape * list R) :=
  let V := bs_vectors s in
  if negb (length (bs_base s) * 3 =? bm_rows V) then CheckFail
  else if negb (length vertices =? length (bs_base s)) then CheckFail
  else match bs_base s with
  | [] => UB
  | _ =>
    if negb (length ws =? length vertices) then
      let s := if bs_valid s then s else BS V (bs_base s) (Some V) true in
      match bs_fact s with
      | None => CheckFail (* Eigen: the decomposition is not initialized *)
      | Some F =>
        if negb (bm_rows F =? bm_rows V) then CheckFail
        else Ok (s, map (svd (bm_rows F) (bm_cols F) (bm_at F) (fun r => flat vertices r - flat (bs_base s) r)) (seq 0 (bm_cols F)))
      end
    else
      let n := (bm_rows V + bm_cols V)%nat in
      let A := wls_matrix V reg ws in
      let b := wls_rhs V (bs_base s) vertices ws in
      Ok (s, map (ldlt (bm_cols V) (fun i j => sumn n (fun r => A r i * A r j)) (fun i => sumn n (fun r => A r i * b r)))
               (seq 0 (bm_cols V)))
  end.

(** Eigen's isApprox with single precision's tolerance. *)
Definition approx_tol : R := / 100000.
Definition approx_sq (diff a b : R) : bool := Rleb diff (approx_tol * approx_tol * Rmin a b).
Definition vec_approx (a b : vec3) : bool := approx_sq (vnorm2 (vsub a b)) (vnorm2 a) (vnorm2 b).
Definition mat_sq (rows cols : nat) (M : nat -> nat -> R) : R := sumn rows (fun r => sumn cols (fun k => M r k * M r k)).
Definition mat_approx (a b : bmat) : bool :=
  approx_sq (mat_sq (bm_rows a) (bm_cols a) (fun r k => bm_at a r k - bm_at b r k))
    (mat_sq (bm_rows a) (bm_cols a) (bm_at a)) (mat_sq (bm_rows b) (bm_cols b) (bm_at b)).
(** isApprox, blend_shape.cpp:102-115; matrices of different sizes fail Eigen's assertion. *)
Definition bs_is_approx (s t : bshape) : outcome bool :=
  if negb (length (bs_base s) =? length (bs_base t)) then Ok false
  else if negb (forallb (fun x => vec_approx (fst x) (snd x)) (combine (bs_base s) (bs_base t))) then Ok false
  else if negb ((bm_rows (bs_vectors s) =? bm_rows (bs_vectors t)) && (bm_cols (bs_vectors s) =? bm_cols (bs_vectors t))) then CheckFail
  else Ok (mat_approx (bs_vectors s) (bs_vectors t) && Bool.eqb (bs_valid s) (bs_valid t)).

(** extractBlendWeights and extractFaceExpressionBlendWeights, blend_shape_skinning.cpp:23-49: [params]
    holds the index of each basis, [None] for negative ones. *)
Definition extract_weights (params : list (option nat)) (model : list R) : outcome (list R) :=
  ofold (fun i result =>
    let* p := rd params i in
    match p with
    | None => Ok result
    | Some k => let* x := rd model k in wr result i x
    end) (seq 0 (length params)) (repeat 0 (length params)).

(** The rest position of a vertex, lines 107-118. Line 107 makes a reference to what a null pointer
    points to, which is undefined although line 113 asks for the pointer. *)
Definition rest_position (blend : option bshape) (w : list R) (i : nat) : outcome vec3 :=
  match blend with
  | None => UB
  | Some s =>
    let* b := rd (bs_base s) i in
    if negb (3 * i + 3 <=? bm_rows (bs_vectors s)) then CheckFail
    else let d r := sumn (length w) (fun k => bm_at (bs_vectors s) r k * nth k w 0) in
         Ok (vadd b (V3 (d (3 * i)%nat) (d (3 * i + 1)%nat) (d (3 * i + 2)%nat)))
  end.

(** skinWithBlendShapes, lines 61-140, without the normals; [mesh] are the vertices of the character's
    mesh, of which only the number matters. The vertices are treated in any order. *)
Definition skin_with_blend (order : list nat) (inv : list affine) (skin : list (list influence)) (mesh : list vec3)
    (blend : option bshape) (worlds : list affine) (w : list R) : outcome (list vec3) :=
  if negb (length worlds =? length inv) then CheckFail
  else if negb (length skin =? length mesh) then CheckFail
  else if match blend with Some s => negb (length w <=? bm_cols (bs_vectors s)) | None => false end then CheckFail
  else for_vertices order skin (seq 0 (length mesh)) (fun row i =>
         let* p := rest_position blend w i in
         ssd_row (skin_transforms worlds inv) row p vzero) (repeat vzero (length mesh)).

(** The calls that change a BlendShape, one at a time. *)
Inductive bs_op :=
| SetBase (base : list vec3)
| SetVector (index : nat) (shape : list vec3)
| SetVectors (V : bmat)
| Estimate (vertices : list vec3) (reg : R) (ws : list R).
Definition bs_do svd ldlt (op : bs_op) (s : bshape) : outcome bshape :=
  match op with
  | SetBase base => Ok (bs_set_base s base)
  | SetVector i shape => bs_set_vector s i shape
  | SetVectors V => Ok (bs_set_vectors s V)
  | Estimate vertices reg ws => let* r := estimate svd ldlt s vertices reg ws in Ok (fst r)
  end.
Definition bs_run svd ldlt (ops : list bs_op) (s : bshape) : outcome bshape := ofold (bs_do svd ldlt) ops s.
