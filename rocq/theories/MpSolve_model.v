(** MultiposeSolver::doIteration (momentum/character_sequence_solver/multipose_solver.cpp 47-99).

    Simplifications: those of MpFn_model and BlockQR_model.  jacobianBlock_ and residualBlock_ are zeroed
    before every use (lines 77-81), so their earlier contents do not matter. *)

From Coq Require Import Reals List Arith Bool.
From Verif Require Import Prelude LinAlg Rbool Loops Seq_model SeqFn_model MpFn_model QR_model BlockQR_spec BlockQR_model.
Import ListNotations.
Local Open Scope outcome_scope.

(** Lines 74-91: the rows that one error function hands to the solver, split into the columns of
    genericParameters_ and of universalParameters_. *)
Definition mps_rows (s : mpfn) (f : nat) (e : serr) (x : list R) : block_rows :=
  let rows := se_rows e [x] in
  {| br_blk := f; br_w := length (mp_gen s); br_rows := padded (se_size e);
     br_A := fun k j => temp_at rows (nth j (mp_gen s) 0) k;
     br_C := fun k j => temp_at rows (nth j (mp_unv s) 0) k;
     br_b := fun k => snd (nth k rows (fun _ => 0%R, 0%R)) |}.

(** Lines 70-92: one error function of frame [f].  Rows beyond the block are written out of bounds. *)
Definition mps_fn (eps : R) (s : mpfn) (f : nat) (x : list R) (e : serr) (st : R * obq) : outcome (R * obq) :=
  if Rleb (se_weight e) 0 then Ok st
  else if length (se_rows e [x]) <=? padded (se_size e) then
    let* q := oq_add eps (snd st) (mps_rows s f e x) in
    Ok (fst st + se_jerror e [x], q)%R
  else UB.

(** Lines 59-93: error_ and the solver after all frames. *)
Definition mps_assemble (eps reg : R) (o : mpobj) (s : mpfn) : outcome (R * obq) :=
  ofold (fun f st =>
      let* x := rd (mp_frames s) f in
      let* fs := rd (mo_per o) f in
      ofold (mps_fn eps s f x) fs st)
    (seq 0 (length (mp_frames s))) (0%R, oq_new (length (mp_unv s)) (sqrt reg)).

(** The iteration: error_, the new parameters_ and the function object. *)
Definition mps_iteration (eps reg : R) (o : mpobj) (v : list R) : outcome (R * list R * mpobj) :=
  let* s := mp_set_joined (mo_fn o) v in
  let* st := mps_assemble eps reg o s in
  let* d := oq_x_dense (snd st) in
  let* vo := mo_update {| mo_fn := s; mo_per := mo_per o |} v d in
  Ok (fst st, fst vo, snd vo).
