(** Motion files: momentum/io/motion/mmo_io.cpp.

    Simplifications: floats are their four bytes; a std::ofstream that cannot be opened or written
    is not modelled (writing always succeeds), an input file that cannot be opened is the caller's
    [None]; memory is unlimited except for the limits of std::string and Eigen; the parameter
    transform has one name per parameter (numAllModelParameters() = name.size()). *)

From Coq Require Import List Arith Ascii NArith Lia Bool.
From Verif Require Import Prelude Loops Bytes.
Import ListNotations.
Local Open Scope outcome_scope.
Notation str := (list ascii).

(** MatrixXf: [x_rows] rows, the columns in order (Eigen stores column after column). *)
Record mtx := Mtx { x_rows : nat; x_cols : list (list f32) }.
Definition mtx_data (m : mtx) : list f32 := concat (x_cols m).

(** Writing a name: lines 144-146 and 151-153. *)
Definition put_name (n : str) : list ascii := le_bytes 8 (N.of_nat (length n)) ++ n.

(** saveMmo, lines 112-167. [None]: a warning is logged and no file is written. *)
Definition save_mmo (poses : mtx) (scale : list f32) (pnames jnames : list str) : option (list ascii) :=
  if negb (x_rows poses =? length pnames) then None
  else if negb (length scale =? length jnames * 7) then None
  else Some (
    le_bytes 8 (N.of_nat (length pnames)) ++
    le_bytes 8 (N.of_nat (length jnames)) ++
    le_bytes 8 (N.of_nat (length (x_cols poses))) ++
    flat_map put_name pnames ++
    flat_map put_name jnames ++
    flat_map f32_bytes scale ++
    flat_map f32_bytes (mtx_data poses)).

(** saveMmo, lines 42-110: the extra parameters are stored as further rows named "__name__".
    Assigning a matrix to bottomRows of another width is undefined (lines 106-107). *)
Definition underscored (n : str) : str := ["_"; "_"]%char ++ n ++ ["_"; "_"]%char.

Definition save_character (poses : mtx) (scale : list f32) (pnames jnames : list str)
  (aux : mtx) (aux_names : list str) : outcome (option (list ascii)) :=
  if negb (x_rows poses =? length pnames) then Ok None
  else if negb (length scale =? length jnames * 7) then Ok None
  else if negb (x_rows aux =? length aux_names) then Ok None
  else if negb (length (x_cols aux) =? 0) && negb (length (x_cols aux) =? length (x_cols poses)) then Ok None
  else
    let names := pnames ++ map underscored aux_names in
    let* pc :=
      if 0 <? x_rows aux then
        if length (x_cols aux) =? length (x_cols poses)
        then Ok (map (fun pq => fst pq ++ snd pq) (combine (x_cols poses) (x_cols aux)))
        else UB
      else Ok (x_cols poses) in
    Ok (save_mmo (Mtx (x_rows poses + x_rows aux) pc) scale names jnames).

(** saveMmo, lines 17-40: a list of poses. *)
Definition save_poses (poses : list (list f32)) (scale : list f32) (pnames jnames : list str)
  : outcome (option (list ascii)) :=
  match poses with
  | [] => Ok None
  | p :: _ =>
    if negb (length p =? length pnames) then Ok None
    else if negb (forallb (fun q => length q =? length p) poses) then Ok None
    else save_character (Mtx (length p) poses) scale pnames jnames (Mtx 0 []) []
  end.

(** std::string::resize throws above max_size() = 2^63 - 1; Eigen throws when the bytes of a
    vector do not fit in size_t or rows * cols does not fit in Index. *)
Definition string_max : N := 2 ^ 63 - 1.
Definition eigen_max : N := 2 ^ 62 - 1.

(** Lines 272-281 and 284-292: one name. *)
Definition load_name (s : stream) : outcome (str * stream) :=
  let (count, s1) := read_size s in
  if (string_max <? count)%N then Throw
  else Ok (fread (N.to_nat count) (repeat Ascii.zero (N.to_nat count)) s1).

Fixpoint load_names (n : nat) (s : stream) : outcome (list str * stream) :=
  match n with
  | 0 => Ok ([], s)
  | S n => let* ns := load_name s in
           let* rs := load_names n (snd ns) in
           Ok (fst ns :: fst rs, snd rs)
  end.

(** The columns of a matrix from its data. *)
Fixpoint columns (rows n : nat) (data : list f32) : list (list f32) :=
  match n with
  | 0 => []
  | S n => firstn rows data :: columns rows n (skipn rows data)
  end.

(** loadMmo, lines 247-301. [junk1] and [junk2] are the uninitialised contents of the offset
    vector and the pose matrix. *)
Definition load_mmo (junk1 junk2 : nat -> ascii) (file : list ascii)
  : outcome (mtx * list f32 * list str * list str) :=
  let s := {| s_rest := file; s_good := true |} in
  let (nP, s) := read_size s in
  let (nJ, s) := read_size s in
  let (nF, s) := read_size s in
  let* ps := load_names (N.to_nat nP) s in
  let* js := load_names (N.to_nat nJ) (snd ps) in
  let size := ((nJ * 7) mod 2 ^ 64)%N in
  if (eigen_max <? size)%N then Throw
  else
    let n1 := 4 * N.to_nat size in
    let (b1, s) := fread n1 (map junk1 (seq 0 n1)) (snd js) in
    if (eigen_max <? nP * nF)%N then Throw
    else
      let n2 := 4 * N.to_nat (nP * nF) in
      let (b2, s) := fread n2 (map junk2 (seq 0 n2)) s in
      Ok (Mtx (N.to_nat nP) (columns (N.to_nat nP) (N.to_nat nF) (floats_of b2)),
          floats_of b1, fst ps, fst js).

(** ** Using the data *)

(** std::find over names, and Skeleton::getJointIdByName (skeleton.h 30-35): [None] is
    kInvalidIndex. *)
Fixpoint index_of (n : str) (l : list str) : option nat :=
  match l with
  | [] => None
  | m :: r => if list_eq_dec ascii_dec m n then Some 0 else option_map S (index_of n r)
  end.

(** mapMotionToCharacter, lines 196-202: offsets. *)
Definition map_offsets (offsets : list f32) (jmap : list (option nat)) (nJ : nat) : outcome (list f32) :=
  ofold (fun i out =>
    let* j := rd jmap i in
    match j with
    | None => Ok out
    | Some j => ofold (fun k out => let* x := rd offsets (i * 7 + k) in wr out (j * 7 + k) x) (seq 0 7) out
    end) (seq 0 (length jmap)) (repeat f32_zero (nJ * 7)).

(** Lines 205-210: rows of the pose matrix, here column by column. *)
Definition map_column (pmap : list (option nat)) (nP : nat) (c : list f32) : outcome (list f32) :=
  ofold (fun i out =>
    let* j := rd pmap i in
    match j with
    | None => Ok out
    | Some j => let* x := rd c i in wr out j x
    end) (seq 0 (length pmap)) (repeat f32_zero nP).

Fixpoint omapM {A B} (f : A -> outcome B) (l : list A) : outcome (list B) :=
  match l with
  | [] => Ok []
  | a :: r => let* b := f a in let* br := omapM f r in Ok (b :: br)
  end.

(** Lines 169-213; the character has parameters [cp] and joints [cj]. *)
Definition map_motion (poses : mtx) (offsets : list f32) (pnames jnames cp cj : list str)
  : outcome (mtx * list f32) :=
  let* out := map_offsets offsets (map (fun n => index_of n cj) jnames) (length cj) in
  let* cols := omapM (map_column (map (fun n => index_of n cp) pnames) (length cp)) (x_cols poses) in
  Ok (Mtx (length cp) cols, out).

(** getAuxilaryDataFromMotion, lines 228-231: is this the name of an extra parameter? *)
Definition is_aux (n : str) : bool :=
  let l := length n in
  (4 <? l) &&
  match nth_error n 0, nth_error n 1, nth_error n (l - 1), nth_error n (l - 2) with
  | Some a, Some b, Some c, Some d =>
      Ascii.eqb a "_" && Ascii.eqb b "_" && Ascii.eqb c "_" && Ascii.eqb d "_"
  | _, _, _, _ => false
  end.

(** Lines 220-245. *)
Definition aux_data (poses : mtx) (pnames : list str) : outcome (mtx * list str) :=
  let map_ := filter (fun i => is_aux (nth i pnames [])) (seq 0 (length pnames)) in
  let names := map (fun i => let n := nth i pnames [] in firstn (length n - 4) (skipn 2 n)) map_ in
  let* cols := omapM (fun c => omapM (fun i => rd c i) map_) (x_cols poses) in
  Ok (Mtx (length names) cols, names).
