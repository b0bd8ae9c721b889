(** The files of joint parameters and of pose shapes (C122). *)

From Coq Require Import List Arith Ascii NArith ZArith.
From Verif Require Import Prelude Bytes Mmo_model PoseIO_model.
Import ListNotations.

(** A number as eight bytes; a name with its length before it. *)
Definition number (n : nat) : list ascii := le_bytes 8 (N.of_nat n).
Definition named (n : list ascii) : list ascii := number (length n) ++ n.

(** A file of joint parameters: number of frames, number of parameters, the frames. *)
Definition jp_file (k : nat) (frames : list (list f32)) : list ascii := number (length frames) ++ number k ++ flat_map f32_bytes (concat frames).

(** A file of a pose shape: number of coordinates, number of joints, name of the base joint, names of the joints, mean shape, columns of the shape vectors. *)
Definition shape_file (rows : nat) (base : list ascii) (names : list (list ascii)) (mean : list f32) (cols : list (list f32)) : list ascii :=
  number rows ++ number (length names) ++ named base ++ flat_map named names ++ flat_map f32_bytes mean ++ flat_map f32_bytes (concat cols).

(** The first joint of that name. *)
Definition first_named {Q} (joints : list (list ascii * Q)) (n : list ascii) (j : nat) : Prop :=
  (exists q, nth_error joints j = Some (n, q)) /\ forall i q, i < j -> nth_error joints i <> Some (n, q).
