(** Joined parameter vectors of SequenceSolverFunction and MultiposeSolverFunction.

    Simplifications: scalars are reals; the skeleton states, the active joint parameters and the
    error functions are not part of this model; a ParameterSet is a predicate (the C++ bitset has
    2048 bits and throws beyond them); the parallel loop over frames of
    setFrameParametersFromJoinedParameterVector is run in frame order (each iteration writes only
    its own frame). MT_CHECK failures are the outcome CheckFail. *)

From Coq Require Import Bool List Arith Lia Reals.
From Verif Require Import Prelude Loops Seq_spec.
Import ListNotations.
Local Open Scope outcome_scope.

(** sequence_solver_function.h 96-121: the members used here. *)
Record seqfn := {
  sq_np : nat;                 (* parameterTransform_->numAllModelParameters() *)
  sq_univ : nat -> bool;       (* universalParameters_ *)
  sq_frames : list (list R);   (* frameParameters_ *)
  sq_per : list nat;           (* perFrameParameterIndices_ *)
  sq_unv : list nat;           (* universalParameterIndices_ *)
  sq_num : nat                 (* numParameters_ *)
}.

(** sequence_solver_function.cpp 72-82: one round of the loop over the parameters. *)
Definition split_step (univ en : nat -> bool) (acc : list nat * list nat) (i : nat) :=
  let (per, unv) := acc in
  if negb (en i) then (per, unv)
  else if univ i then (per, unv ++ [i]) else (per ++ [i], unv).

(** sequence_solver_function.cpp 62-87. *)
Definition seq_update_sets (s : seqfn) (en : nat -> bool) : seqfn :=
  let (per, unv) := fold_left (split_step (sq_univ s) en) (seq 0 (sq_np s)) ([], []) in
  {| sq_np := sq_np s; sq_univ := sq_univ s; sq_frames := sq_frames s;
     sq_per := per; sq_unv := unv;
     sq_num := length per * length (sq_frames s) + length unv |}.

(** sequence_solver_function.cpp 24-39. *)
Definition seq_init (np : nat) (univ : nat -> bool) (nF : nat) : seqfn :=
  seq_update_sets
    {| sq_np := np; sq_univ := univ; sq_frames := repeat (repeat 0%R np) nF;
       sq_per := []; sq_unv := []; sq_num := 0 |}
    (fun _ => true).

(** sequence_solver_function.cpp 41-60, without the active joints. *)
Definition seq_set_enabled (s : seqfn) (en : nat -> bool) : seqfn := seq_update_sets s en.

Definition with_frames (s : seqfn) (fr : list (list R)) : seqfn :=
  {| sq_np := sq_np s; sq_univ := sq_univ s; sq_frames := fr;
     sq_per := sq_per s; sq_unv := sq_unv s; sq_num := sq_num s |}.

(** sequence_solver_function.cpp 89-97. *)
Definition seq_set_frame (s : seqfn) (f : nat) (p : list R) : outcome seqfn :=
  if negb (f <? length (sq_frames s)) then CheckFail
  else if negb (length p =? sq_np s) then CheckFail
  else let* fr := wr (sq_frames s) f p in Ok (with_frames s fr).

(** sequence_solver_function.cpp 99-109. *)
Definition seq_universal (s : seqfn) : outcome (list R) :=
  ofold (fun i r =>
    if sq_univ s i then
      let* x := rd (sq_frames s) 0 in let* y := rd x i in wr r i y
    else Ok r) (seq 0 (sq_np s)) (repeat 0%R (sq_np s)).

(** sequence_solver_function.cpp 111-135; the frames are those of the function itself
    (137-140). *)
Definition seq_join (s : seqfn) : outcome (list R) :=
  let nPer := length (sq_per s) in
  let nF := length (sq_frames s) in
  let* res := ofold (fun f res =>
      let* x := rd (sq_frames s) f in
      ofold (fun k res =>
        let* i := rd (sq_per s) k in
        let* y := rd x i in
        wr res (nPer * f + k) y) (seq 0 nPer) res)
    (seq 0 nF) (repeat 0%R (sq_num s)) in
  ofold (fun k res =>
      let* x := rd (sq_frames s) 0 in
      let* i := rd (sq_unv s) k in
      let* y := rd x i in
      wr res (nPer * nF + k) y) (seq 0 (length (sq_unv s))) res.

(** sequence_solver_function.cpp 148-164 (and 142-146). *)
Definition seq_set_joined (s : seqfn) (v : list R) : outcome seqfn :=
  let nPer := length (sq_per s) in
  let nF := length (sq_frames s) in
  if negb (length v =? sq_num s) then CheckFail
  else
    let* fr := ofold (fun f fr =>
        let* x := rd fr f in
        let* x1 := ofold (fun k x =>
            let* i := rd (sq_per s) k in
            let* y := rd v (nPer * f + k) in
            wr x i y) (seq 0 nPer) x in
        let* x2 := ofold (fun k x =>
            let* i := rd (sq_unv s) k in
            let* y := rd v (nPer * nF + k) in
            wr x i y) (seq 0 (length (sq_unv s))) x1 in
        wr fr f x2) (seq 0 nF) (sq_frames s) in
    Ok (with_frames s fr).

(** A user's call. *)
Definition seq_do (s : seqfn) (o : seq_op) : outcome seqfn :=
  match o with
  | SetEnabled en => Ok (seq_set_enabled s en)
  | SetFrame f p => seq_set_frame s f p
  | SetJoined v => seq_set_joined s v
  end.

Definition seq_run (np : nat) (univ : nat -> bool) (nF : nat) (ops : list seq_op) : outcome seqfn :=
  ofold (fun o s => seq_do s o) ops (seq_init np univ nF).

(** ** MultiposeSolverFunction *)

(** multipose_solver_function.h 72-84: the members used here. [mp_univ] is the vector universal_
    (1 or 0) as booleans. *)
Record mpfn := {
  mp_np : nat;
  mp_univ : list bool;
  mp_frames : list (list R);
  mp_map : list nat;           (* parameterIndexMap_ *)
  mp_gen : list nat;           (* genericParameters_ *)
  mp_unv : list nat;           (* universalParameters_ *)
  mp_num : nat;                (* numParameters_ *)
  mp_actual : nat              (* actualParameters_ *)
}.

(** multipose_solver_function.cpp 40-49: one round of the loop; the argument is the caller's
    universal[i] != 0. *)
Definition index_step (acc : list nat * list nat * list nat) (iu : nat * bool) :=
  let '(map, gen, unv) := acc in
  let (i, u) := iu : nat * bool in
  if u then (map ++ [length unv], gen, unv ++ [i])
  else (map ++ [length gen], gen ++ [i], unv).

(** multipose_solver_function.cpp 18-53; the size of the argument is the number of parameters
    (MT_CHECK line 25). The index map is filled in order, so appending replaces assignment. *)
Definition mp_init (universal : list bool) (nF : nat) : mpfn :=
  let np := length universal in
  let '(map, gen, unv) := fold_left index_step (combine (seq 0 np) universal) ([], [], []) in
  let num := length gen * nF + length unv in
  {| mp_np := np; mp_univ := universal; mp_frames := repeat (repeat 0%R np) nF;
     mp_map := map; mp_gen := gen; mp_unv := unv; mp_num := num; mp_actual := num |}.

(** multipose_solver_function.cpp 55-72. [length frames - 1] is taken in nat; with no frames the
    C++ expression wraps around. *)
Definition mp_set_enabled (s : mpfn) (en : nat -> bool) : outcome mpfn :=
  let last := fold_left (fun a i => if en i then i else a) (seq 0 (mp_np s)) 0 in
  let nF := length (mp_frames s) in
  let* actual :=
    if 0 <? last then
      let* u := rd (mp_univ s) last in
      let* m := rd (mp_map s) last in
      if u : bool then Ok (length (mp_gen s) * nF + m + 1)
      else Ok (length (mp_gen s) * (nF - 1) + m + 1)
    else Ok last in
  Ok {| mp_np := mp_np s; mp_univ := mp_univ s; mp_frames := mp_frames s; mp_map := mp_map s;
        mp_gen := mp_gen s; mp_unv := mp_unv s; mp_num := mp_num s; mp_actual := actual |}.

Definition mp_with_frames (s : mpfn) (fr : list (list R)) : mpfn :=
  {| mp_np := mp_np s; mp_univ := mp_univ s; mp_frames := fr; mp_map := mp_map s;
     mp_gen := mp_gen s; mp_unv := mp_unv s; mp_num := mp_num s; mp_actual := mp_actual s |}.

(** multipose_solver_function.cpp 85-93. *)
Definition mp_set_frame (s : mpfn) (f : nat) (p : list R) : outcome mpfn :=
  if negb (f <? length (mp_frames s)) then CheckFail
  else if negb (length p =? mp_np s) then CheckFail
  else let* fr := wr (mp_frames s) f p in Ok (mp_with_frames s fr).

(** The index computed in lines 108, 111, 134 and 136. *)
Definition mp_place (s : mpfn) (f i : nat) : outcome nat :=
  let* u := rd (mp_univ s) i in
  let* m := rd (mp_map s) i in
  if u : bool then Ok (length (mp_gen s) * length (mp_frames s) + m)
  else Ok (length (mp_gen s) * f + m).

(** multipose_solver_function.cpp 100-117. The result vector is not initialised (line 102): its
    first contents are the argument [junk]. *)
Definition mp_join (s : mpfn) (junk : list R) : outcome (list R) :=
  ofold (fun f res =>
    let* x := rd (mp_frames s) f in
    ofold (fun i res =>
      let* p := mp_place s f i in
      let* y := rd x i in
      wr res p y) (seq 0 (mp_np s)) res) (seq 0 (length (mp_frames s))) junk.

(** multipose_solver_function.cpp 119-140. The size of the vector is not checked here. *)
Definition mp_set_joined (s : mpfn) (v : list R) : outcome mpfn :=
  let* fr := ofold (fun f fr =>
      let* x := rd fr f in
      let* x' := ofold (fun i x =>
          let* p := mp_place s f i in
          let* y := rd v p in
          wr x i y) (seq 0 (mp_np s)) x in
      wr fr f x') (seq 0 (length (mp_frames s))) (mp_frames s) in
  Ok (mp_with_frames s fr).

(** A user's call. *)
Definition mp_do (s : mpfn) (o : seq_op) : outcome mpfn :=
  match o with
  | SetEnabled en => mp_set_enabled s en
  | SetFrame f p => mp_set_frame s f p
  | SetJoined v => mp_set_joined s v
  end.

Definition mp_run (universal : list bool) (nF : nat) (ops : list seq_op) : outcome mpfn :=
  ofold (fun o s => mp_do s o) ops (mp_init universal nF).
