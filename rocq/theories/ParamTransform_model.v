(** momentum/character/parameter_transform.{h,cpp} and the limit records of
    momentum/character/parameter_limits.h. Scalars are reals. *)

From Coq Require Import Bool Reals List Arith ZArith String.
From Verif Require Import Prelude LinAlg.
Import ListNotations.
Local Open Scope R_scope.
Local Open Scope bool_scope.
Local Open Scope outcome_scope.

(** kMaxModelParams, momentum/math/types.h:401-402: ParameterSet is
    std::bitset<2048>; test(i) throws std::out_of_range for i >= 2048. *)
Definition kMaxModelParams : nat := 2048.
Definition pset := nat -> bool.

(** LimitType and LimitData, parameter_limits.h:24-84. [weight] is the field of
    ParameterLimit (86-96). Limits of the ellipsoid kind keep only the joint
    indices; the affine maps are opaque. *)
Inductive limit_data : Type :=
| LMinMax (param : nat) (lo hi : R)
| LMinMaxJoint (jt jparam : nat) (lo hi : R)
| LMinMaxJointPassive (jt jparam : nat) (lo hi : R)
| LLinear (ref tgt : nat) (scale offset rangeMin rangeMax : R)
| LEllipsoid (ellipsoidParent parent : nat)
| LHalfPlane (p1 p2 : nat) (n1 n2 offset : R).
Record plimit : Type := PLimit { ldata : limit_data; lweight : R }.

(** A stored entry of the sparse matrix: row, column, value. *)
Record entry : Type := Entry { erow : nat; ecol : nat; eval : R }.

(** ParameterTransformT, parameter_transform.h:61-86. The sparse matrix is the
    list of its stored entries (duplicates add up, as in setFromTriplets);
    unordered maps are association lists; VectorXi entries are integers. *)
Record ptransform : Type := PT {
  pt_name : list string;
  pt_rows : nat;
  pt_cols : nat;
  pt_entries : list entry;
  pt_offsets : list R;
  pt_active : list bool;
  pt_sets : list (string * pset);
  pt_pose : list (string * list (nat * R));
  pt_blend : list Z;
  pt_face : list Z
}.

(** Row [r] of the sparse matrix times vector [p]. *)
Definition row_dot (es : list entry) (p : list R) (r : nat) : R :=
  rsum (map (fun e => if Nat.eqb (erow e) r then eval e * nth (ecol e) p 0 else 0) es).

(** transform * v. *)
Definition mat_vec (pt : ptransform) (p : list R) : list R :=
  map (row_dot (pt_entries pt) p) (seq 0 (pt_rows pt)).

Definition vadd_list (a b : list R) : list R := map (fun '(x, y) => x + y) (combine a b).

(** getParameterIdByName, parameter_transform.cpp:21-28. *)
Fixpoint find_name_from (i : nat) (names : list string) (nm : string) : option nat :=
  match names with
  | [] => None
  | x :: r => if String.eqb x nm then Some i else find_name_from (S i) r nm
  end.
Definition get_parameter_id_by_name (pt : ptransform) (nm : string) : option nat :=
  find_name_from 0 (pt_name pt) nm.

(** apply(ModelParameters), parameter_transform.cpp:86-98. *)
Definition pt_apply (pt : ptransform) (p : list R) : outcome (list R) :=
  if negb (Nat.eqb (List.length p) (pt_cols pt)) then CheckFail
  else if negb (Nat.eqb (List.length (pt_offsets pt)) (pt_rows pt)) then CheckFail
  else Ok (vadd_list (mat_vec pt p) (pt_offsets pt)).

(** apply(CharacterParameters), parameter_transform.cpp:102-118. *)
Definition pt_apply_char (pt : ptransform) (pose offsets : list R) : outcome (list R) :=
  if negb (Nat.eqb (List.length pose) (pt_cols pt)) then CheckFail
  else
    let result := mat_vec pt pose in
    if Nat.ltb 0 (List.length offsets) then
      if negb (Nat.eqb (List.length offsets) (pt_rows pt)) then CheckFail
      else Ok (vadd_list result offsets)
    else Ok result.

(** zero, bindPose, parameter_transform.cpp:122-131. *)
Definition pt_zero (pt : ptransform) : outcome (list R) :=
  if negb (Nat.eqb (List.length (pt_offsets pt)) (pt_rows pt)) then CheckFail
  else Ok (pt_offsets pt).
Definition pt_bind_pose (pt : ptransform) : list R := repeat 0 (pt_rows pt).

(** empty, identity, parameter_transform.cpp:43-69 (identity's names are left
    to the caller). *)
Definition pt_empty (n : nat) : ptransform :=
  PT [] n 0 [] (repeat 0 n) (repeat false n) [] [] [] [].
Definition pt_identity (names : list string) (nJoints : nat) : ptransform :=
  let n := (7 * nJoints)%nat in
  PT names n n (map (fun i => Entry i i 1) (seq 0 n)) (repeat 0 n) (repeat true n) [] [] [] [].

(** computeActiveJointParams, parameter_transform.cpp:72-82. *)
Definition active_rows (rows : nat) (es : list entry) (ps : pset) : list bool :=
  map (fun r => existsb (fun e => Nat.eqb (erow e) r && ps (ecol e)) es) (seq 0 rows).
Definition compute_active (pt : ptransform) (ps : pset) : list bool :=
  active_rows (pt_rows pt) (pt_entries pt) ps.

(** getBlendShapeParameters / getFaceExpressionParameters,
    parameter_transform.cpp:397-418 (bitset.set(i) of a nonnegative index). *)
Definition index_set (l : list Z) : pset :=
  fun i => existsb (fun z => Z.leb 0 z && Z.eqb z (Z.of_nat i)) l.

(** ** subsetParameterTransform, parameter_transform.cpp:231-381 *)

(** The loop of lines 237-246: oldParamToNewParam and newParamToOldParam. *)
Fixpoint index_maps (todo i : nat) (S : pset) (o2n : list (option nat)) (n2o : list nat)
  : list (option nat) * list nat :=
  match todo with
  | O => (o2n, n2o)
  | Datatypes.S k =>
      if S i
      then index_maps k (Datatypes.S i) S (o2n ++ [Some (List.length n2o)]) (n2o ++ [i])
      else index_maps k (Datatypes.S i) S (o2n ++ [None]) n2o
  end.

(** Reads of a list of indices: [names[i]] for each i. *)
Fixpoint rd_all {A} (l : list A) (is : list nat) : outcome (list A) :=
  match is with
  | [] => Ok []
  | i :: r => let* x := rd l i in let* xs := rd_all l r in Ok (x :: xs)
  end.

(** Lines 263-275: remapped triplets. *)
Fixpoint subset_entries (o2n : list (option nat)) (es : list entry) : outcome (list entry) :=
  match es with
  | [] => Ok []
  | e :: r =>
      let* m := rd o2n (ecol e) in
      let* rest := subset_entries o2n r in
      match m with
      | None => Ok rest
      | Some c => Ok (Entry (erow e) c (eval e) :: rest)
      end
  end.

(** Lines 280-290: pose constraints. *)
Fixpoint subset_pose_list (o2n : list (option nat)) (l : list (nat * R)) : outcome (list (nat * R)) :=
  match l with
  | [] => Ok []
  | (i, v) :: r =>
      let* m := rd o2n i in
      let* rest := subset_pose_list o2n r in
      match m with
      | None => Ok rest
      | Some k => Ok ((k, v) :: rest)
      end
  end.
Fixpoint subset_pose (o2n : list (option nat)) (l : list (string * list (nat * R)))
  : outcome (list (string * list (nat * R))) :=
  match l with
  | [] => Ok []
  | (nm, pc) :: r =>
      let* pc' := subset_pose_list o2n pc in
      let* rest := subset_pose o2n r in
      Ok ((nm, pc') :: rest)
  end.

(** Lines 292-317: blend shape and face expression parameter indices. *)
Fixpoint subset_indices (o2n : list (option nat)) (l : list Z) : outcome (list Z) :=
  match l with
  | [] => Ok []
  | z :: r =>
      let* z' := if Z.leb 0 z
                 then let* m := rd o2n (Z.to_nat z) in
                      Ok (match m with Some k => Z.of_nat k | None => (-1)%Z end)
                 else Ok (-1)%Z in
      let* rest := subset_indices o2n r in
      Ok (z' :: rest)
  end.

(** Lines 319-329: parameter sets (bits at and above nNewParam are clear). *)
Definition subset_set (n2o : list nat) (s : pset) : pset :=
  fun k => match nth_error n2o k with Some i => s i | None => false end.

(** Lines 331-378: limits. *)
Fixpoint subset_limits (o2n : list (option nat)) (ls : list plimit) : outcome (list plimit) :=
  match ls with
  | [] => Ok []
  | l :: r =>
      let* l' :=
        match ldata l with
        | LMinMax p lo hi =>
            let* m := rd o2n p in
            Ok (match m with
                | Some p' => Some (PLimit (LMinMax p' lo hi) (lweight l))
                | None => None end)
        | LLinear rf tg sc off r1 r2 =>
            let* m1 := rd o2n rf in
            let* m2 := rd o2n tg in
            Ok (match m1, m2 with
                | Some rf', Some tg' => Some (PLimit (LLinear rf' tg' sc off r1 r2) (lweight l))
                | _, _ => None end)
        | LHalfPlane p1 p2 n1 n2 off =>
            let* m1 := rd o2n p1 in
            let* m2 := rd o2n p2 in
            Ok (match m1, m2 with
                | Some p1', Some p2' => Some (PLimit (LHalfPlane p1' p2' n1 n2 off) (lweight l))
                | _, _ => None end)
        | LMinMaxJoint _ _ _ _ | LMinMaxJointPassive _ _ _ _ | LEllipsoid _ _ => Ok (Some l)
        end in
      let* rest := subset_limits o2n r in
      Ok (match l' with Some x => x :: rest | None => rest end)
  end.

Definition subset_transform (pt : ptransform) (limits : list plimit) (S : pset)
  : outcome (ptransform * list plimit) :=
  if Nat.ltb kMaxModelParams (pt_cols pt) then Throw
  else
    let '(o2n, n2o) := index_maps (pt_cols pt) 0 S [] [] in
    let* names := rd_all (pt_name pt) n2o in
    let* es := subset_entries o2n (pt_entries pt) in
    let* pose := subset_pose o2n (pt_pose pt) in
    let* blend := subset_indices o2n (pt_blend pt) in
    let* face := subset_indices o2n (pt_face pt) in
    let* lims := subset_limits o2n limits in
    Ok (PT names (pt_rows pt) (List.length n2o) es (pt_offsets pt)
           (active_rows (pt_rows pt) es (fun _ => true))
           (map (fun '(nm, s) => (nm, subset_set n2o s)) (pt_sets pt))
           pose blend face, lims).

(** simplify, parameter_transform.cpp:165-168. *)
Definition pt_simplify (pt : ptransform) (S : pset) : outcome ptransform :=
  omap fst (subset_transform pt [] S).

(** ** mapParameterTransformJoints, parameter_transform.cpp:171-228

    The triplets are of type float; for T = double the C++ rounds the values
    (not modelled). [jmap] maps old joint to new joint (kInvalidIndex = None).
    Writes outside the new arrays are UB. *)
Fixpoint set_block (off : list R) (base : nat) (vals : list R) : outcome (list R) :=
  match vals with
  | [] => Ok off
  | v :: r => let* off' := wr off base v in set_block off' (S base) r
  end.

(** Lines 185-192, iterating over i = [i], [i]+1, ... *)
Fixpoint map_offsets (jmap : list (option nat)) (i : nat) (old new : list R) : outcome (list R) :=
  match jmap with
  | [] => Ok new
  | m :: r =>
      let* new' := match m with
                   | None => Ok new
                   | Some j =>
                       let* vals := rd_all old (seq (7 * i) 7) in
                       set_block new (7 * j) vals
                   end in
      map_offsets r (S i) old new'
  end.

(** Lines 195-213. *)
Fixpoint map_entries (jmap : list (option nat)) (rows : nat) (es : list entry) : outcome (list entry) :=
  match es with
  | [] => Ok []
  | e :: r =>
      let* m := rd jmap (erow e / 7) in
      let* rest := map_entries jmap rows r in
      match m with
      | None => Ok rest
      | Some j => if Nat.ltb (j * 7 + erow e mod 7) rows
                  then Ok (Entry (j * 7 + erow e mod 7) (ecol e) (eval e) :: rest)
                  else UB
      end
  end.

Definition map_transform_joints (pt : ptransform) (nTarget : nat) (jmap : list (option nat))
  : outcome ptransform :=
  let rows := (nTarget * 7)%nat in
  let* off := map_offsets jmap 0 (pt_offsets pt) (repeat 0 rows) in
  let* es := map_entries jmap rows (pt_entries pt) in
  Ok (PT (pt_name pt) rows (List.length (pt_name pt)) es off
         (active_rows rows es (fun _ => true)) (pt_sets pt) (pt_pose pt) [] []).

(** ** addBlendShapeParameters, parameter_transform.cpp:420-443 *)
Definition add_blend_shapes (fresh : nat -> string) (pt : ptransform) (limits : list plimit) (n : nat)
  : outcome (ptransform * list plimit) :=
  let* (pt1, lim1) := subset_transform pt limits (fun i => negb (index_set (pt_blend pt) i)) in
  let base := List.length (pt_name pt1) in
  let names := pt_name pt1 ++ map fresh (seq 0 n) in
  Ok (PT names (pt_rows pt1) (List.length names) (pt_entries pt1) (pt_offsets pt1) (pt_active pt1)
         (pt_sets pt1) (pt_pose pt1) (map (fun i => Z.of_nat (base + i)) (seq 0 n)) (pt_face pt1),
      lim1).

(** numSkeletonParameters, parameter_transform.h:165-167. *)
Definition num_skeleton_parameters (pt : ptransform) : Z :=
  (Z.of_nat (pt_cols pt) - Z.of_nat (List.length (pt_blend pt)) - Z.of_nat (List.length (pt_face pt)))%Z.
