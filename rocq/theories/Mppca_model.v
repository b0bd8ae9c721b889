(** Mixtures of probabilistic PCA: momentum/math/mppca.{h,cpp}, over the reals. *)

From Coq Require Import Reals List Arith Bool String.
From Verif Require Import Prelude Loops LinAlg Rbool QR_model Cov_model.
Import ListNotations.
Local Open Scope R_scope.
Local Open Scope outcome_scope.

(** The members, mppca.h:17-31. The means are the rows of mu; a d x d matrix is a function. *)
Record mixture : Type := Mixture {
  mx_d : nat; mx_p : nat;
  mx_names : list string;
  mx_mu : list (list R);
  mx_Cinv : list mat;
  mx_L : list mat;
  mx_Rpre : list R
}.

(** A matrix W[c] with its numbers of rows and columns. *)
Record wmat : Type := WMat { wm_rows : nat; wm_cols : nat; wm_at : mat }.

(** MatrixX::Identity *)
Definition unit_vec (i : nat) : vec := fun k => if (k =? i)%nat then 1 else 0.

(** The body of the loop of set, mppca.cpp:34-52: Cinv, L and Rpre of one mode. A W with another
    number of rows than the means have components fails Eigen's assertion in solve. *)
Definition set_mode (d : nat) (pi : R) (w : wmat) (s2 : R) : outcome (mat * mat * R) :=
  let c := cov_reset (sqrt s2) (wm_cols w) (wm_rows w) (fun i j => wm_at w j i) in
  if (wm_rows w =? d)%nat then
    let U := q_R (cv_qr c) in
    let L : mat := fun i j => tri_solve d U (unit_vec i) j in
    let Cinv : mat := fun i j => tri_solve d U (col L j) i in
    let* ld := cov_logdet c in
    Ok (Cinv, L, ln pi - / 2 * ld - / 2 * INR d * ln (2 * PI))
  else CheckFail.

(** set, mppca.cpp:15-56; [d] is the number of columns of mu. *)
Definition mppca_set (d : nat) (pi : list R) (mu : list (list R)) (W : list wmat) (s2 : list R) : outcome mixture :=
  let p := List.length s2 in
  let* modes := ofold (fun c acc =>
      let* s := rd s2 c in let* w := rd W c in let* x := rd pi c in
      let* m := set_mode d x w s in
      Ok (acc ++ [m])) (seq 0 p) [] in
  Ok (Mixture d p (repeat EmptyString d) mu (map (fun m => fst (fst m)) modes) (map (fun m => snd (fst m)) modes) (map snd modes)).
