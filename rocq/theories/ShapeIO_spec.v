(** Shape and prior files (C43). *)

From Coq Require Import List Arith Ascii NArith ZArith.
From Verif Require Import Prelude Bytes Mmo_model ShapeIO_model.
Import ListNotations.

(** Sizes that fit in memory: the matrix has full columns and as many rows as the base shape has
    coordinates. *)
Record bshape_wf (b : bshape) : Prop := {
  bw_rows : x_rows (bs_vectors b) = 3 * length (bs_base b);
  bw_cols : forall c, In c (x_cols (bs_vectors b)) -> length c = x_rows (bs_vectors b);
  bw_base_size : (N.of_nat (length (bs_base b)) <= vector_max)%N;
  bw_count : (N.of_nat (length (x_cols (bs_vectors b))) < 2 ^ 64)%N;
  bw_size : (N.of_nat (x_rows (bs_vectors b)) * N.of_nat (length (x_cols (bs_vectors b))) <= eigen_max)%N
}.

(** At most [shapes] shapes and [verts] vertices, if these are positive. *)
Definition at_most {A} (n : Z) (l : list A) : list A := if (0 <? n)%Z then firstn (Z.to_nat n) l else l.
Definition cut (shapes verts : Z) (b : bshape) : bshape :=
  BShape (at_most verts (bs_base b))
    (Mtx (3 * length (at_most verts (bs_base b)))
         (map (at_most (3 * verts)) (at_most shapes (x_cols (bs_vectors b))))).

(** A mixture whose parts have the sizes they should have. *)
Record mppca_wf (m : mppca) : Prop := {
  mw_names : length (mp_names m) = mp_d m;
  mw_name : forall n, In n (mp_names m) -> (N.of_nat (length n) <= string_max)%N;
  mw_rpre : length (mp_rpre m) = mp_p m;
  mw_cinv : length (mp_cinv m) = mp_p m;
  mw_mat : forall c, In c (mp_cinv m) -> length c = mp_d m * mp_d m;
  mw_mu : length (mp_mu m) = mp_p m * mp_d m;
  mw_d : (N.of_nat (mp_d m) * N.of_nat (mp_d m) <= eigen_max)%N;
  mw_p : (N.of_nat (mp_p m) <= eigen_max)%N;
  mw_pd : (N.of_nat (mp_p m) * N.of_nat (mp_d m) <= eigen_max)%N
}.
