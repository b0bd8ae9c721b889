(** What a motion is: the vocabulary of the theorems about motion files. *)

From Coq Require Import List Ascii NArith.
From Verif Require Import Prelude Bytes Mmo_model.
Import ListNotations.

(** A list of names whose size and lengths a file can hold. *)
Definition names_fit (l : list str) : Prop :=
  (N.of_nat (length l) < 2 ^ 64)%N /\ forall n, In n l -> (N.of_nat (length n) <= string_max)%N.

(** A motion: one row per parameter name, columns of that length, seven offsets per joint, and
    sizes a machine can hold. *)
Record motion_ok (poses : mtx) (scale : list f32) (pnames jnames : list str) : Prop := {
  mo_columns : forall c, In c (x_cols poses) -> length c = x_rows poses;
  mo_rows : x_rows poses = length pnames;
  mo_scale : length scale = length jnames * 7;
  mo_pnames : names_fit pnames;
  mo_jnames : names_fit jnames;
  mo_frames : (N.of_nat (length (x_cols poses)) < 2 ^ 64)%N;
  mo_scale_fits : (N.of_nat (length scale) <= eigen_max)%N;
  mo_poses_fit : (N.of_nat (length pnames) * N.of_nat (length (x_cols poses)) <= eigen_max)%N }.

(** The bytes of a file before the offsets: three counts and the names, each name with its
    length. *)
Definition header_size (pnames jnames : list str) : nat :=
  24 + length (flat_map (fun n => repeat Ascii.zero 8 ++ n) (pnames ++ jnames)).

(** The name in the file of an extra parameter. *)
Definition extra_name (n : str) : str := ["_"; "_"]%char ++ n ++ ["_"; "_"]%char.

(** Columns of poses with columns of extra values below. *)
Definition stacked (P A : list (list f32)) : list (list f32) :=
  map (fun pq => fst pq ++ snd pq) (combine P A).
