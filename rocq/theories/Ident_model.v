(** Model of fillIdentity, removeIdentity and extractParameters,
    momentum/marker_tracking/tracker_utils.cpp:185-243. A motion is the list of the rows of its
    matrix, one row for each parameter; [X] is the type of its numbers. *)

From Coq Require Import List Arith.
From Verif Require Import Prelude Loops.
Import ListNotations.
Local Open Scope outcome_scope.

(** ParameterSet is std::bitset<2048>; test() throws for a larger index, operator[] checks nothing. *)
Definition set_size : nat := 2048.
Definition set_test (s : nat -> bool) (i : nat) : outcome bool := if i <? set_size then Ok (s i) else Throw.
Definition set_at (s : nat -> bool) (i : nat) : outcome bool := if i <? set_size then Ok (s i) else UB.

Section Ident.
Context {X : Type}.
Variables (add sub : X -> X -> X).

(** The common shape of lines 209-226 and 228-243: the rows in the set are changed by the value of
    the identity; the loop over the frames is a map. The value is read only if there are frames. The
    MT_CHECK of the sizes leaves no trace in a release build. *)
Definition change_rows (f : X -> X -> X) (s : nat -> bool) (identity : list X) (m : list (list X)) : outcome (list (list X)) :=
  ofold (fun i m =>
    let* b := set_test s i in
    if b then
      let* row := rd m i in
      match row with
      | [] => Ok m
      | _ => let* v := rd identity i in wr m i (map (fun x => f x v) row)
      end
    else Ok m) (seq 0 (length m)) m.
Definition fill_identity := change_rows add.
Definition remove_identity := change_rows sub.

(** extractParameters, lines 185-194. *)
Definition extract_parameters (zero : X) (s : nat -> bool) (p : list X) : outcome (list X) :=
  ofold (fun i p => let* b := set_at s i in if b then Ok p else wr p i zero) (seq 0 (length p)) p.
End Ident.
