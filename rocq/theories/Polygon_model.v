(** Model of momentum/io/openfbx/polygon_data.cpp: faces packed in one index list.

    uint32_t values are natural numbers below 2^32 ([N]). A gsl::span index out of range stops the
    program ([CheckFail]). *)

From Coq Require Import List Arith NArith ZArith Bool.
From Verif Require Import Prelude Loops.
Import ListNotations.
Local Open Scope outcome_scope.

(** gsl::span::operator[]. *)
Definition span_at (l : list N) (i : N) : outcome N :=
  match nth_error l (N.to_nat i) with Some x => Ok x | None => CheckFail end.

(** Conversion of a uint32_t to the int coefficients of Eigen::Vector3i. *)
Definition to_int (x : N) : Z := if (x <? 2 ^ 31)%N then Z.of_N x else (Z.of_N x - 2 ^ 32)%Z.

Definition tri : Type := Z * Z * Z.

(** Lines 33-35: the triangles of one face; [nv] corners from [start]. *)
Definition face_fan (indices : list N) (start nv : N) (res : list tri) : outcome (list tri) :=
  ofold (fun j r =>
    let* a := span_at indices (start + 0) in
    let* b := span_at indices (start + N.of_nat j) in
    let* c := span_at indices (start + N.of_nat j + 1) in
    Ok (r ++ [(to_int a, to_int b, to_int c)])) (seq 1 (N.to_nat nv - 2)) res.

(** triangulate, lines 17-39. Without offsets, size() - 1 wraps and reserve throws. *)
Definition triangulate (indices offsets : list N) : outcome (list tri) :=
  match indices with
  | [] => Ok []
  | _ =>
    match offsets with
    | [] => Throw
    | _ =>
      ofold (fun f r =>
        let* s := span_at offsets (N.of_nat f) in
        let* e := span_at offsets (N.of_nat f + 1) in
        let nv := ((e + 2 ^ 32 - s) mod 2 ^ 32)%N in
        if (nv <? 3)%N then Throw else face_fan indices s nv r) (seq 0 (length offsets - 1)) []
    end
  end.

(** The messages of errorMessage, lines 46-83. *)
Inductive problem := EmptyOffsets | FirstOffset | TextureMismatch | NonMonotonic | LargeOffset | FewVertices
  | LargeVertex | Trailing.

(** Lines 58-71: the first bad face. *)
Fixpoint face_problem (n : N) (offsets : list N) : option problem :=
  match offsets with
  | s :: (e :: _) as r =>
    if (e <=? s)%N then Some NonMonotonic
    else if (n <? e)%N then Some LargeOffset
    else if (e - s <? 3)%N then Some FewVertices
    else face_problem n r
  | _ => None
  end.

Definition error_message (indices offsets texture : list N) (num_vertices : N) : option problem :=
  match offsets with
  | [] => Some EmptyOffsets
  | o :: _ =>
    if negb (o =? 0)%N then Some FirstOffset
    else if negb (length texture =? 0) && negb (length texture =? length indices) then Some TextureMismatch
    else
      match face_problem (N.of_nat (length indices)) offsets with
      | Some p => Some p
      | None =>
        if existsb (fun i => num_vertices <=? i)%N indices then Some LargeVertex
        else if negb (last offsets 0 =? N.of_nat (length indices))%N then Some Trailing
        else None
      end
  end.

(** warnMessage, lines 85-93: true when there is a warning. *)
Definition warn_message (texture : list N) (num_tex : N) : bool :=
  existsb (fun i => negb (i =? 2 ^ 32 - 1)%N && (num_tex <=? i)%N) texture.
