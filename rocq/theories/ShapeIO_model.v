(** Shape and prior files: momentum/io/shape/blend_shape_io.cpp, momentum/io/skeleton/mppca_io.cpp.

    Simplifications: as in Mmo_model (floats are their four bytes, writing always succeeds, an input
    file that cannot be opened is not modelled, memory is unlimited except for the limits of
    std::string, std::vector and Eigen). *)

From Coq Require Import List Arith Ascii NArith ZArith Lia Bool.
From Verif Require Import Prelude Loops Bytes Mmo_model.
Import ListNotations.
Local Open Scope outcome_scope.

(** ** Blend shapes *)

(** Vector3f as it lies in memory. *)
Definition v3f : Type := (f32 * f32 * f32)%type.
Definition v3f_floats (v : v3f) : list f32 := let '(x, y, z) := v in [x; y; z].
Fixpoint v3fs_of (l : list f32) : list v3f :=
  match l with
  | x :: y :: z :: r => (x, y, z) :: v3fs_of r
  | _ => []
  end.

(** BlendShape, character/blend_shape.h:18-56 and blend_shape_base.h: base shape and shape vectors. *)
Record bshape : Type := BShape { bs_base : list v3f; bs_vectors : mtx }.

(** saveBlendShape, lines 120-143. *)
Definition save_blend (b : bshape) : outcome (list ascii) :=
  let rows := x_rows (bs_vectors b) in
  let cols := length (x_cols (bs_vectors b)) in
  if negb (rows =? length (bs_base b) * 3) then CheckFail
  else Ok (le_bytes 8 (N.of_nat rows) ++ le_bytes 8 (N.of_nat cols) ++
           flat_map f32_bytes (flat_map v3f_floats (bs_base b)) ++
           flat_map f32_bytes (mtx_data (bs_vectors b))).

(** The dimensions are not initialised (lines 50-53 and 74-77): using one that could not be read is
    undefined. *)
Definition read_dim (s : stream) : outcome (N * stream) :=
  let (n, s') := read_size s in if s_good s' then Ok (n, s') else UB.

(** ReadShapeVectors, lines 95-118. [junk]: uninitialised memory. expectedVertices * 3 overflows an
    int from 715827883 on. *)
Definition keep_cols (n : nat) (m : mtx) : mtx := Mtx (x_rows m) (firstn n (x_cols m)).
Definition keep_rows (n : nat) (m : mtx) : mtx := Mtx (Nat.min (x_rows m) n) (map (firstn n) (x_cols m)).
Definition read_vectors (junk : nat -> ascii) (rows cols : N) (shapes verts : Z) (s : stream) : outcome mtx :=
  if (eigen_max <? rows * cols)%N then Throw
  else
    let n := 4 * N.to_nat (rows * cols) in
    let (b, _) := fread n (map junk (seq 0 n)) s in
    let m := Mtx (N.to_nat rows) (columns (N.to_nat rows) (N.to_nat cols) (floats_of b)) in
    let m := if (0 <? shapes)%Z then keep_cols (Z.to_nat shapes) m else m in
    if (0 <? verts)%Z then
      if (715827882 <? verts)%Z then UB else Ok (keep_rows (3 * Z.to_nat verts) m)
    else Ok m.

(** loadBlendShape, lines 69-93. Reading numRows floats into numRows / 3 vertices runs over the end
    of the buffer unless numRows is a multiple of 3; the constructor's zero matrix is replaced by
    setShapeVectors. *)
Definition vector_max : N := (2 ^ 63 - 1) / 12.
Definition load_blend (junk1 junk2 : nat -> ascii) (file : list ascii) (shapes verts : Z) : outcome bshape :=
  let s := {| s_rest := file; s_good := true |} in
  let* (rows, s) := read_dim s in
  let* (cols, s) := read_dim s in
  if (vector_max <? rows / 3)%N then Throw
  else if negb (rows mod 3 =? 0)%N then UB
  else
    let n := 4 * N.to_nat rows in
    let (b, s) := fread n (map junk1 (seq 0 n)) s in
    let base := v3fs_of (floats_of b) in
    let base := if (0 <? verts)%Z then firstn (Z.to_nat verts) base else base in
    let* m := read_vectors junk2 rows cols shapes verts s in
    Ok (BShape base m).

(** loadBlendShapeBase, lines 46-61. *)
Definition load_blend_base (junk : nat -> ascii) (file : list ascii) (shapes verts : Z) : outcome mtx :=
  let s := {| s_rest := file; s_good := true |} in
  let* (rows, s) := read_dim s in
  let* (cols, s) := read_dim s in
  read_vectors junk rows cols shapes verts s.

(** ** Pose priors *)

(** MppcaT<float>, math/mppca.h:18-46; matrices as their data, column after column. *)
Record mppca : Type := Mppca {
  mp_d : nat; mp_p : nat;
  mp_names : list str;
  mp_mu : list f32;            (* p x d *)
  mp_cinv : list (list f32);   (* p matrices d x d *)
  mp_l : list (list f32);      (* p matrices d x d *)
  mp_rpre : list f32           (* p *)
}.

(** [k] floats from the start of a buffer; beyond its end is undefined. *)
Definition first_floats (k : nat) (l : list f32) : outcome (list ascii) :=
  if k <=? length l then Ok (flat_map f32_bytes (firstn k l)) else UB.
Fixpoint put_all (k : nat) (ms : list (list f32)) : outcome (list ascii) :=
  match ms with
  | [] => Ok []
  | m :: r => let* a := first_floats k m in let* b := put_all k r in Ok (a ++ b)
  end.

(** saveMppca, lines 84-115. *)
Definition save_mppca (m : mppca) : outcome (list ascii) :=
  let od := mp_d m in let op := mp_p m in
  if length (mp_names m) <? od then CheckFail
  else
    let* r := first_floats op (mp_rpre m) in
    let* c := put_all (od * od) (mp_cinv m) in
    let* u := first_floats (op * od) (mp_mu m) in
    Ok (le_bytes 8 (N.of_nat od) ++ le_bytes 8 (N.of_nat op) ++
        flat_map put_name (firstn od (mp_names m)) ++ r ++ c ++ u).

(** Lines 70-74: one matrix after the other. *)
Fixpoint load_mats (junk : nat -> ascii) (k n : nat) (s : stream) : list (list f32) * stream :=
  match n with
  | 0 => ([], s)
  | S n =>
    let (b, s) := fread (4 * k) (map junk (seq 0 (4 * k))) s in
    let (r, s) := load_mats junk k n s in
    (floats_of b :: r, s)
  end.

(** loadMppca, lines 37-82. [chol] is llt().matrixL().transpose(). Exceptions are caught and thrown
    again. *)
Definition load_mppca (junk : nat -> ascii) (chol : list f32 -> list f32) (file : list ascii) : outcome mppca :=
  let s := {| s_rest := file; s_good := true |} in
  let* (od, s) := read_dim s in
  let* (op, s) := read_dim s in
  let* ns := load_names (N.to_nat od) s in
  if (eigen_max <? op)%N || (eigen_max <? op * od)%N || (eigen_max <? od * od)%N then Throw
  else
    let d := N.to_nat od in let p := N.to_nat op in
    let (r, s) := fread (4 * p) (map junk (seq 0 (4 * p))) (snd ns) in
    let (c, s) := load_mats junk (d * d) p s in
    let (u, s) := fread (4 * (p * d)) (map junk (seq 0 (4 * (p * d)))) s in
    Ok (Mppca d p (fst ns) (floats_of u) c (map chol c) (floats_of r)).
