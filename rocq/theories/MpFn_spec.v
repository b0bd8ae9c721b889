(** What the error, gradient and Jacobian of several poses should be (C109). *)

From Coq Require Import Bool List Arith Lia Reals.
From Verif Require Import Prelude LinAlg Rbool ListUtil Loops Seq_spec Seq_model SeqFn_model SeqFn_spec MpFn_model.
Import ListNotations.
Local Open Scope nat_scope.

(** What a user can do before solving. *)
Inductive mo_op := MParams (op : seq_op) | MAdd (f : nat) (e : serr).
Definition mo_do (o : mpobj) (op : mo_op) : outcome mpobj :=
  match op with
  | MParams p => obind (mp_do (mo_fn o) p) (fun s => Ok {| mo_fn := s; mo_per := mo_per o |})
  | MAdd f e => mo_add o f e
  end.
Definition mo_run (universal : list bool) (nF : nat) (ops : list mo_op) : outcome mpobj :=
  ofold (fun op o => mo_do o op) ops (mo_init universal nF).

(** The functions in use, each with its frame. *)
Definition mcalls (o : mpobj) : list (nat * serr) :=
  flat_map (fun f => map (pair f) (filter active (nth f (mo_per o) []))) (seq 0 (length (mo_per o))).

(** The place of a parameter and the length of the joined vector. *)
Definition place (universal : list bool) (nF f i : nat) : nat := slot (length universal) (uset universal) all_on nF f i.
Definition total_size (universal : list bool) (nF : nat) : nat := joined_size (length universal) (uset universal) all_on nF.
(** The parameters of frame [f]. *)
Definition pose (universal : list bool) (nF : nat) (v : list R) (f : nat) : list R :=
  map (fun i => nth (place universal nF f i) v 0%R) (seq 0 (length universal)).
Definition poses_error (o : mpobj) (x : nat -> list R) : R :=
  rsum (map (fun c => se_error (snd c) [x (fst c)]) (mcalls o)).

(** The rows of the Jacobian: the functions one after the other, each with the rows it asks for; rows that it does not
    write are [None]. *)
Definition asked_rows (e : serr) (x : list R) : list (option ((nat -> R) * R)) :=
  map Some (se_rows e [x]) ++ repeat None (se_size e - length (se_rows e [x])).
Definition pose_rows (o : mpobj) (x : nat -> list R) : list (nat * option ((nat -> R) * R)) :=
  flat_map (fun c => map (pair (fst c)) (asked_rows (snd c) (x (fst c)))) (mcalls o).
(** Row [q], at parameter [i] of frame [g]. *)
Definition pose_entry (universal : list bool) (rows : list (nat * option ((nat -> R) * R))) (q g i : nat) : R :=
  match nth_error rows q with
  | Some (f, Some row) => if uset universal i || (f =? g) then fst row i else 0%R
  | _ => 0%R
  end.
(** A number of rows rounded up to a multiple of 8, with at least one more. *)
Definition rounds_up (n m : nat) : Prop := n < m <= n + 8 /\ exists k, m = 8 * k.
(** Every function writes at most the rows it asks for. *)
Definition rows_ok (o : mpobj) (x : nat -> list R) : Prop :=
  forall c, In c (mcalls o) -> length (se_rows (snd c) [x (fst c)]) <= se_size (snd c).

(** The frame that each row belongs to. *)
Definition layout (o : mpobj) : list nat := flat_map (fun c => repeat (fst c) (se_size (snd c))) (mcalls o).
(** Matrix and residual that getJacobian can be given: they are resized, or the matrix is zero wherever a row does not
    depend on a parameter. *)
Definition ready (universal : list bool) (nF : nat) (o : mpobj) (J : fmat) (r : fvec) : Prop :=
  forall m, rounds_up (length (layout o)) m ->
  (fm_rows J < m \/ fm_cols J <> total_size universal nF) \/
  (m <= fv_len r /\ forall q g i, g < nF -> i < length universal ->
     match nth_error (layout o) q with Some f => uset universal i || (f =? g) | None => false end = false ->
     fm_at J q (place universal nF g i) = 0%R).
(** getJacobian called at several points with the same matrix and residual. *)
Definition jacobians (o : mpobj) (vs : list (list R)) (st : fmat * fvec) : outcome (fmat * fvec) :=
  ofold (fun v st => obind (mo_jacobian o v (fst st) (snd st)) (fun out => Ok (fst (fst (fst out)), snd (fst (fst out))))) vs st.
(** The product of the transposed matrix with the residual over the first [m] rows, at one column. *)
Definition jtr (m : nat) (J : fmat) (r : fvec) (p : nat) : R := sumn m (fun q => (fm_at J q p * fv_at r q)%R).
