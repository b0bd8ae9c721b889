(** MultiposeSolverFunction: error, gradient and Jacobian of several poses
    (momentum/character_sequence_solver/multipose_solver_function.cpp 161-367).

    Simplifications: scalars are reals; the skeleton states are functions of the frame parameters
    (states_[f]->set(parameterTransform_->apply(...)) runs before they are used), so an error
    function is a function of the parameters of its frame, given as a window of one frame. *)

From Coq Require Import Bool List Arith Lia Reals.
From Verif Require Import Prelude LinAlg Rbool Loops Seq_spec Seq_model SeqFn_model.
Import ListNotations.
Local Open Scope outcome_scope.
Local Open Scope bool_scope.

Record mpobj := {
  mo_fn : mpfn;
  mo_per : list (list serr)     (* errorFunctions_ *)
}.

(** multipose_solver_function.cpp 18-53. *)
Definition mo_init (universal : list bool) (nF : nat) : mpobj :=
  {| mo_fn := mp_init universal nF; mo_per := repeat [] nF |}.

(** multipose_solver_function.cpp 362-367. *)
Definition mo_add (o : mpobj) (f : nat) (e : serr) : outcome mpobj :=
  if negb (f <? length (mp_frames (mo_fn o))) then CheckFail
  else
    let* l := rd (mo_per o) f in
    let* per := wr (mo_per o) f (l ++ [e]) in
    Ok {| mo_fn := mo_fn o; mo_per := per |}.

(** Lines 163-169, 195-206 and 239-255: the frames that a joined vector describes. *)
Definition mo_set (o : mpobj) (v : list R) : outcome mpfn :=
  if negb (length v =? mp_num (mo_fn o)) then CheckFail else mp_set_joined (mo_fn o) v.

(** ** getError, lines 161-185 *)
Definition mo_error (o : mpobj) (v : list R) : outcome (R * mpfn) :=
  let* s := mo_set o v in
  let* err := ofold (fun f acc =>
      let* x := rd (mp_frames s) f in
      let* fs := rd (mo_per o) f in
      ofold (fun e acc => if Rleb (se_weight e) 0 then Ok acc else Ok (acc + se_error e [x])%R) fs acc)
    (seq 0 (length (mp_frames s))) 0%R in
  Ok (err, s).

(** ** getGradient, lines 187-229 *)
Definition mo_gradient (o : mpobj) (v : list R) : outcome (R * list R) :=
  let* s := mo_set o v in
  ofold (fun f acc =>
      let* x := rd (mp_frames s) f in
      let* fs := rd (mo_per o) f in
      let* a := ofold (fun e a =>
          if Rleb (se_weight e) 0 then Ok a
          else Ok (fst a + se_gerror e [x], fun i => snd a i + se_grad e [x] i)%R) fs (fst acc, fun _ => 0%R) in
      let* g := ofold (fun i g =>
          let* p := mp_place s f i in
          let* y := rd g p in
          wr g p (y + snd a i)%R) (seq 0 (mp_np s)) (snd acc) in
      Ok (fst a, g))
    (seq 0 (length (mp_frames s))) (0%R, repeat 0%R (length v)).

(** ** getJacobian, lines 231-345 *)

(** size += 8 - (size % 8), lines 271 and 274. *)
Definition padded (n : nat) : nat := n + (8 - n mod 8).

(** Lines 262-270: the rows the functions of one frame ask for. *)
Definition frame_size (fs : list serr) : nat :=
  list_sum (map se_size (filter (fun e => negb (Rleb (se_weight e) 0)) fs)).

(** tempJac, localPosition, residual, position and error inside a frame. *)
Record tstate := TState { t_at : nat -> nat -> R; t_loc : nat; t_r : fvec; t_pos : nat; t_err : R }.

(** Lines 303-315: one error function writes its rows at the top of its block. *)
Definition frame_step (maxRows : nat) (x : list R) (e : serr) (t : tstate) : outcome tstate :=
  if Rleb (se_weight e) 0 then Ok t
  else
    let n := se_size e in
    let rows := se_rows e [x] in
    if t_loc t + n <=? maxRows then
      let* r := put_residual (t_r t) (t_pos t) n rows in
      Ok (TState (fun q c => if (t_loc t <=? q) && (q <? t_loc t + length rows)
                             then temp_at rows c (q - t_loc t) else t_at t q c)
                 (t_loc t + n) r (t_pos t + n) (t_err t + se_jerror e [x])%R)
    else UB.

Definition mo_jacobian (o : mpobj) (v : list R) (J0 : fmat) (r0 : fvec) : outcome (fmat * fvec * nat * R) :=
  let* s := mo_set o v in
  let size := padded (list_sum (map frame_size (mo_per o))) in
  let maxRows := fold_left Nat.max (map (fun fs => padded (frame_size fs)) (mo_per o)) 0 in
  let '(J1, r1) :=
    if (fm_rows J0 <? size) || negb (mp_num s =? fm_cols J0)
    then (FMat size (mp_num s) (fun _ _ => 0%R), FVec size (fun _ => 0%R))
    else (J0, r0) in
  let* st := ofold (fun f st =>
      let* x := rd (mp_frames s) f in
      let* fs := rd (mo_per o) f in
      let* t := ofold (frame_step maxRows x) fs (TState (fun _ _ => 0%R) 0 (j_r st) (j_pos st) (j_err st)) in
      let* J := ofold (fun i J =>
          let* p := mp_place s f i in
          put_col J (j_pos st) p (t_loc t) (fun q => t_at t q i)) (seq 0 (mp_np s)) (j_J st) in
      Ok (JState J (t_r t) (t_pos t) (t_err t)))
    (seq 0 (length (mp_frames s))) (JState J1 r1 0 0%R) in
  Ok (j_J st, j_r st, size, j_err st).

(** ** updateParameters, lines 347-360 *)
Definition mo_update (o : mpobj) (v g : list R) : outcome (list R * mpobj) :=
  if negb (length v =? length g) then CheckFail
  else
    let v' := map (fun '(a, b) => a - b)%R (combine v g) in
    let* s := mp_set_joined (mo_fn o) v' in
    Ok (v', {| mo_fn := s; mo_per := mo_per o |}).
