(** What the error, gradient and Jacobian of a sequence should be. *)

From Coq Require Import Bool List Arith Lia Reals.
From Coquelicot Require Import Coquelicot.
From Verif Require Import Prelude LinAlg Rbool ListUtil Loops Seq_spec Seq_model SeqFn_model.
Import ListNotations.
Local Open Scope nat_scope.

(** What a user can do to a sequence before solving. *)
Inductive so_op :=
| Params (op : seq_op)
| AddFrame (frame : option nat) (e : serr)
| AddSequence (frame : option nat) (e : serr).

Definition so_do (o : seqobj) (op : so_op) : outcome seqobj :=
  match op with
  | Params p => obind (seq_do (so_fn o) p) (fun s =>
      Ok {| so_fn := s; so_per := so_per o; so_seq := so_seq o |})
  | AddFrame f e => so_add o f e
  | AddSequence f e => so_add_seq o f e
  end.

Definition so_run (np : nat) (univ : nat -> bool) (nF : nat) (ops : list so_op) : outcome seqobj :=
  ofold (fun op o => so_do o op) ops (so_init np univ nF).

Definition params_of (ops : list so_op) : list seq_op :=
  flat_map (fun op => match op with Params p => [p] | _ => [] end) ops.

(** Evaluations of error functions: function [c_fn] sees the [c_n] frames from [c_at]. Functions
    with a weight that is not positive are left out. *)
Record call := { c_at : nat; c_n : nat; c_fn : serr; c_seq : bool }.

Definition active (e : serr) : bool := negb (Rleb (se_weight e) 0).

Definition frame_calls (o : seqobj) : list call :=
  flat_map (fun f => map (fun e => {| c_at := f; c_n := 1; c_fn := e; c_seq := false |})
    (filter active (nth f (so_per o) []))) (seq 0 (length (so_per o))).
Definition sequence_calls (o : seqobj) : list call :=
  flat_map (fun f => map (fun e => {| c_at := f; c_n := se_frames e; c_fn := e; c_seq := true |})
    (filter active (nth f (so_seq o) []))) (seq 0 (length (so_seq o))).
Definition calls (o : seqobj) : list call := frame_calls o ++ sequence_calls o.

Definition seen (frames : list (list R)) (c : call) : list (list R) :=
  firstn (c_n c) (skipn (c_at c) frames).

(** The total error at given frames. *)
Definition total_error (o : seqobj) (frames : list (list R)) : R :=
  rsum (map (fun c => se_error (c_fn c) (seen frames c)) (calls o)).

(** The frames obtained from [frames] by writing a joined vector. *)
Definition frames_from (np : nat) (univ en : nat -> bool) (frames : list (list R)) (v : list R)
  : list (list R) :=
  map (fun f => map (fun i =>
      if en i then nth (slot np univ en (length frames) f i) v 0%R else nth i (nth f frames []) 0%R)
    (seq 0 np)) (seq 0 (length frames)).

(** ** What is asked of an error function *)

(** The window with [c sub * t] added to parameter [i] of its [sub]-th frame. *)
Definition moved_window (w : list (list R)) (i : nat) (c : nat -> R) (t : R) : list (list R) :=
  map (fun sub => store (nth sub w []) i (nth i (nth sub w []) 0 + c sub * t)%R) (seq 0 (length w)).

Record good_gradient (np : nat) (e : serr) (w : list (list R)) : Prop := {
  gg_error : se_gerror e w = se_error e w;
  gg_derive : forall i c, i < np ->
    is_derive (fun t => se_error e (moved_window w i c t)) 0%R
      (sumn (length w) (fun sub => (c sub * se_grad e w (sub * np + i)%nat)%R))
}.

Record good_jacobian (np : nat) (e : serr) (w : list (list R)) : Prop := {
  gj_error : se_jerror e w = se_error e w;
  gj_used : length (se_rows e w) <= se_used e w <= se_size e;
  gj_grad : forall sub i, sub < length w -> i < np ->
    (2 * rsum (map (fun row => fst row (sub * np + i)%nat * snd row) (se_rows e w)))%R =
    se_grad e w (sub * np + i)
}.

(** ** The Jacobian *)

(** The coefficient of parameter [i] of frame [f] in row [q] of a call. *)
Definition coefficient (np : nat) (univ : nat -> bool) (frames : list (list R)) (c : call) (q f i : nat) : R :=
  let entry sub := match nth_error (se_rows (c_fn c) (seen frames c)) q with
                   | Some row => fst row (sub * np + i)%nat | None => 0%R end in
  if univ i then sumn (c_n c) entry
  else if (c_at c <=? f) && (f <? c_at c + c_n c) then entry (f - c_at c) else 0%R.

(** The rows used by a list of calls. *)
Definition rows_used (frames : list (list R)) (cs : list call) : nat :=
  list_sum (map (fun c => se_used (c_fn c) (seen frames c)) cs).

(** The residual in row [q] of a call. *)
Definition row_value (frames : list (list R)) (c : call) (q : nat) : R :=
  match nth_error (se_rows (c_fn c) (seen frames c)) q with Some row => snd row | None => 0%R end.

(** The rows all active functions ask for. *)
Definition rows_asked (cs : list call) : nat := list_sum (map (fun c => se_size (c_fn c)) cs).

(** Every call writes at most the rows it reports, and reports at most the rows it asked for. *)
Definition rows_fit (frames : list (list R)) (cs : list call) : Prop :=
  forall c, In c cs ->
    length (se_rows (c_fn c) (seen frames c)) <= se_used (c_fn c) (seen frames c) <= se_size (c_fn c).

(** What the output arguments may hold so that nothing of it can show in the result: they are
    resized by the call, or they are all zero and large enough. *)
Definition clean (J : fmat) (r : fvec) (rows cols : nat) : Prop :=
  (fm_rows J < rows \/ fm_cols J <> cols) \/
  (rows <= fv_len r /\ (forall q c, fm_at J q c = 0%R) /\ (forall q, fv_at r q = 0%R)).
