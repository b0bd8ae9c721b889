(** The skin weights of a glTF file: momentum/io/gltf/gltf_io.cpp, addSkinWeights.

    Simplifications: the buffers that copyAccessorBuffer returns (C36, C37) are lists, empty if there is no such attribute; the matrices of indices and weights are one list of rows of
    pairs. *)

From Coq Require Import List Arith Bool.
From Verif Require Import Prelude.
Import ListNotations.
Local Open Scope outcome_scope.
Local Open Scope list_scope.

Section Skin.
Context {W : Type} (zero : W) (skin : list nat) (node_map : list (option nat)).
(** Lines 516-530: one influence; [old] is what is there. *)
Definition influence (k : nat) (w : W) (old : nat * W) : outcome (nat * W) :=
  match nth_error skin k with
  | None => CheckFail
  | Some node =>
    match nth_error node_map node with
    | None => UB
    | Some (Some j) => Ok (j, w)
    | Some None => Ok old
    end
  end.
(** Lines 515-531. *)
Fixpoint influences (ks : list nat) (ws : list W) (old : list (nat * W)) : outcome (list (nat * W)) :=
  match ks, ws, old with
  | k :: ks, w :: ws, o :: old => let* x := influence k w o in let* r := influences ks ws old in Ok (x :: r)
  | _, _, _ => Ok []
  end.
(** Columns 4i to 4i+3 of a row, lines 515-531. *)
Definition fill_row (i : nat) (ks : list nat) (ws : list W) (row : list (nat * W)) : outcome (list (nat * W)) :=
  let* x := influences ks ws (firstn 4 (skipn (i * 4) row)) in Ok (firstn (i * 4) row ++ x ++ skipn (i * 4 + 4) row).
(** Lines 514-532. *)
Fixpoint fill_rows (i : nat) (js : list (list nat)) (ws : list (list W)) (rows : list (list (nat * W))) : outcome (list (list (nat * W))) :=
  match js, ws, rows with
  | k :: js, w :: ws, r :: rows => let* x := fill_row i k w r in let* y := fill_rows i js ws rows in Ok (x :: y)
  | _, _, _ => Ok []
  end.
(** The loop of lines 467-533 over JOINTS_i and WEIGHTS_i; a set that is missing or has a wrong size ends it. *)
Fixpoint batches (i n : nat) (bs : list (list (list nat) * list (list W))) (rows : list (list (nat * W))) : outcome (list (list (nat * W))) :=
  match bs with
  | [] => Ok rows
  | (js, ws) :: bs =>
    if (length js =? 0) || (length ws =? 0) || negb (length js =? length ws) || negb (length js =? n) then Ok rows
    else let* rows := fill_rows i js ws rows in batches (S i) n bs rows
  end.
(** addSkinWeights, lines 453-534: [n] new rows, which start as zeros. *)
Definition add_skin (n : nat) (bs : list (list (list nat) * list (list W))) (rows : list (list (nat * W))) : outcome (list (list (nat * W))) :=
  let* new := batches 0 n (firstn 2 bs) (repeat (repeat (0, zero) 8) n) in Ok (rows ++ new).
End Skin.
