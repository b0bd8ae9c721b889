(** The main subject of a recording: momentum/io/marker/marker_io.cpp.

    Simplifications: of a marker only the flag of being occluded is kept; counts do not overflow an int (line 77); the loaders of the formats and the extension of
    the name of a file are arguments; std::tolower is that of the C locale; messages are left out. *)

From Coq Require Import List Arith Ascii Bool String.
From Verif Require Import Prelude Str_model Lines_model LocIO_model.
Import ListNotations.
Local Open Scope outcome_scope.
Local Open Scope list_scope.

(** MarkerSequence, character/marker.h; a frame is the list of the occluded flags of its markers. *)
Record sequence := Sequence { q_name : str; q_frames : list (list bool) }.

(** markerCount, lines 20-28. *)
Definition marker_count (frames : list (list bool)) : nat :=
  fold_left (fun m fr => Nat.max (List.length (filter negb fr)) m) frames 0.

(** std::tolower, line 96. *)
Definition to_lower (c : ascii) : ascii :=
  let n := nat_of_ascii c in if (65 <=? n) && (n <=? 90) then ascii_of_nat (n + 32) else c.

(** The loop of lines 92-102; [best] is the greatest count and its actor. *)
Fixpoint best_named (k : nat) (seqs : list sequence) (best : nat * nat) : nat * nat :=
  match seqs with
  | [] => best
  | s :: r =>
    let count := marker_count (q_frames s) in
    let name := map to_lower (q_name s) in
    best_named (S k) r
      (if (fst best <? count) && negb (s_eqb name []) && negb (s_eqb name (lit "unlabeled")) then (count, k) else best)
  end.
(** findMainSubjectIndex, lines 60-109; [None] is -1. *)
Definition find_main (seqs : list sequence) : option nat :=
  match seqs with
  | [] => None
  | [s] => if 0 <? marker_count (q_frames s) then Some 0 else None
  | _ => let best := best_named 0 seqs (0, 0) in if 0 <? fst best then Some (snd best) else None
  end.

(** loadMarkers, lines 31-48: every exception is caught. *)
Definition load_markers (c3d trc glb : outcome (list sequence)) (ext : str) : outcome (list sequence) :=
  let caught (o : outcome (list sequence)) := match o with Throw => Ok [] | _ => o end in
  if s_eqb ext (lit ".c3d") then caught c3d
  else if s_eqb ext (lit ".trc") then caught trc
  else if s_eqb ext (lit ".glb") then caught glb
  else Ok [].
(** loadMarkersForMainSubject, lines 50-58. *)
Definition load_main (c3d trc glb : outcome (list sequence)) (ext : str) : outcome (option sequence) :=
  let* seqs := load_markers c3d trc glb ext in
  match find_main seqs with
  | None => Ok None
  | Some k => match nth_error seqs k with Some s => Ok (Some s) | None => Throw end
  end.
