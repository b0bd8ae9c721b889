(** Marker files: momentum/io/marker/conversions.cpp and trc_io.cpp. Numbers are reals; the
    conversions std::stod and std::stoi are parameters ([None]: they throw). *)

From Coq Require Import List Arith Ascii ZArith Reals Bool String.
From Verif Require Import Prelude Loops R3 Str_model Lines_model.
Import ListNotations.
Local Open Scope outcome_scope.
Local Open Scope R_scope.

(** coordinate_system.h: Unit and UpVector. *)
Inductive unit_ := UM | UDM | UCM | UMM | UUnknown.
Inductive upvec := UpX | UpY | UpZ | UpYNeg.

Definition txt (s : string) : str := list_ascii_of_string s.

(** toUnit, conversions.cpp:16-28. *)
Definition to_unit (s : str) : unit_ :=
  if (s_eqb s (txt "m") || s_eqb s (txt "M"))%bool then UM
  else if (s_eqb s (txt "dm") || s_eqb s (txt "DM"))%bool then UDM
  else if (s_eqb s (txt "cm") || s_eqb s (txt "CM"))%bool then UCM
  else if (s_eqb s (txt "mm") || s_eqb s (txt "MM"))%bool then UMM
  else UUnknown.

(** toMomentumVector3, lines 48-98. *)
Definition to_momentum (v : vec3) (up : upvec) (u : unit_) : vec3 :=
  let c :=
    match u with
    | UM => V3 (vx v * 100) (vy v * 100) (vz v * 100)
    | UDM => V3 (vx v * 10) (vy v * 10) (vz v * 10)
    | UCM => v
    | UMM => V3 (vx v * / 10) (vy v * / 10) (vz v * / 10)
    | UUnknown => v
    end in
  match up with
  | UpX => V3 (vy c) (vz c) (vx c)
  | UpY => V3 (vx c) (vz c) (- vy c)
  | UpZ => c
  | UpYNeg => V3 (vx c) (- vz c) (vy c)
  end.

(** marker.h:18-46. *)
Record marker := { mk_name : str; mk_pos : vec3; mk_occluded : bool }.
Record mseq := { q_fps : R; q_frames : list (list marker) }.

(** line.find(needle) != npos. *)
Fixpoint starts_with (n l : str) : bool :=
  match n, l with
  | [], _ => true
  | a :: n', b :: l' => (Ascii.eqb a b && starts_with n' l')%bool
  | _ :: _, [] => false
  end.
Fixpoint contains (n l : str) : bool :=
  (starts_with n l || match l with [] => false | _ :: l' => contains n l' end)%bool.

Definition tab : ascii := "009"%char.
Definition blanks : str := [" "; "009"; "013"; "010"]%char.
Definition head1 : str := txt "PathFileType" ++ [tab] ++ txt "4" ++ [tab] ++ txt "(X/Y/Z)".
Definition head2 : str :=
  txt "DataRate" ++ [tab] ++ txt "CameraRate" ++ [tab] ++ txt "NumFrames" ++ [tab] ++ txt "NumMarkers" ++ [tab] ++
  txt "Units" ++ [tab] ++ txt "OrigDataRate" ++ [tab] ++ txt "OrigDataStartFrame" ++ [tab] ++ txt "OrigNumFrames".

Section Trc.
Variable stod : str -> option R.
Variable stoi : str -> option Z.
Definition or_throw {A} (o : option A) : outcome A := match o with Some x => Ok x | None => Throw end.

(** trc_io.cpp:71-83: marker [i] of a row. *)
Definition row_marker (up : upvec) (names tokens : list str) (i : nat) : outcome marker :=
  let pos := (i * 3 + 2)%nat in
  let* name := rd names i in
  let* a := rd tokens (pos + 0) in
  let* b := rd tokens (pos + 1) in
  let* c := rd tokens (pos + 2) in
  if ((List.length a =? 0) || (List.length b =? 0) || (List.length c =? 0))%nat%bool
  then Ok {| mk_name := name; mk_pos := vzero; mk_occluded := true |}
  else
    let* x := or_throw (stod a) in
    let* y := or_throw (stod b) in
    let* z := or_throw (stod c) in
    let* u := rd tokens 4 in
    Ok {| mk_name := name; mk_pos := to_momentum (V3 x y z) up (to_unit u); mk_occluded := false |}.

Fixpoint row_markers (up : upvec) (names tokens : list str) (is : list nat) : outcome (list marker) :=
  match is with
  | [] => Ok []
  | i :: r => let* m := row_marker up names tokens i in let* ms := row_markers up names tokens r in Ok (m :: ms)
  end.

(** Lines 61-87, over the lines that the loop sees. *)
Fixpoint rows (up : upvec) (names : list str) (nm : Z) (ls : list str) : outcome (list (list marker)) :=
  match ls with
  | [] => Ok []
  | l :: r =>
    let* tokens := tokenize l [tab] false in
    if negb (Z.of_nat (List.length tokens) =? (nm * 3 + 2) mod 2 ^ 64)%Z then rows up names nm r
    else
      let* m := row_markers up names tokens (seq 0 (Z.to_nat nm)) in
      let* ms := rows up names nm r in
      Ok (m :: ms)
  end.

Definition nothing : mseq := {| q_fps := 0; q_frames := [] |}.

(** loadTrc, lines 18-90, on a file that could be opened. [nm] is the marker
    count after the conversion to size_t; arithmetic on it wraps. *)
Definition load_trc (fuel : nat) (up : upvec) (t : str) : outcome mseq :=
  let h1 := get_line (open_text t) in
  if negb (contains head1 (fst h1)) then Ok nothing
  else
    let h2 := get_line (snd h1) in
    if negb (contains head2 (fst h2)) then Ok nothing
    else
      let h3 := get_line (snd h2) in
      let* tokens := tokenize (fst h3) blanks true in
      if negb (List.length tokens =? 8)%nat then Ok nothing
      else
        let* t0 := rd tokens 0 in
        let* rate := or_throw (stod t0) in
        let* t3 := rd tokens 3 in
        let* n := or_throw (stoi t3) in
        let nm := (n mod 2 ^ 64)%Z in
        let h4 := get_line (snd h3) in
        let* names := tokenize (fst h4) blanks true in
        if negb (Z.of_nat (List.length names) =? (nm + 2) mod 2 ^ 64)%Z then Ok nothing
        else
          let h5 := get_line (snd h4) in
          let* ls := while_lines fuel (snd h5) in
          let* fs := rows up (skipn 2 names) nm ls in
          Ok {| q_fps := rate; q_frames := fs |}.
End Trc.
