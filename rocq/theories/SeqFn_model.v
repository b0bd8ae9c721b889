(** SequenceSolverFunction: error, gradient and Jacobian of a sequence
    (momentum/character_sequence_solver/sequence_solver_function.cpp 166-454).

    Simplifications: scalars are reals; the skeleton states are functions of the frame parameters
    (states_[f].set(parameterTransform_->apply(...)) runs before they are used), so an error
    function is a function of the parameters of the frames it sees; parallel loops over frames are
    run in frame order (each iteration writes only its own entry of perFrameErrors). *)

From Coq Require Import Bool List Arith Lia Reals.
From Verif Require Import Prelude LinAlg Rbool Loops Seq_spec Seq_model.
Import ListNotations.
Local Open Scope outcome_scope.
Local Open Scope bool_scope.

(** An error function over [se_frames] consecutive frames (SkeletonErrorFunctionT: one frame;
    SequenceErrorFunctionT, sequence_error_function.h 18-89). Coefficients and gradients are
    indexed by [sub * np + i], parameter [i] of the [sub]-th frame it sees. getGradient adds
    [se_grad] to the segment it is given; getJacobian writes the rows [se_rows] at the top of the
    zeroed block and of its part of the residual, and reports [se_used] rows. *)
Record serr := {
  se_weight : R;
  se_frames : nat;
  se_size : nat;                                      (* getJacobianSize() *)
  se_error : list (list R) -> R;
  se_gerror : list (list R) -> R;                     (* returned by getGradient *)
  se_grad : list (list R) -> nat -> R;
  se_jerror : list (list R) -> R;                     (* returned by getJacobian *)
  se_rows : list (list R) -> list ((nat -> R) * R);
  se_used : list (list R) -> nat
}.

Record seqobj := {
  so_fn : seqfn;
  so_per : list (list serr);    (* perFrameErrorFunctions_ *)
  so_seq : list (list serr)     (* sequenceErrorFunctions_ *)
}.

(** sequence_solver_function.cpp 24-39. *)
Definition so_init (np : nat) (univ : nat -> bool) (nF : nat) : seqobj :=
  {| so_fn := seq_init np univ nF; so_per := repeat [] nF; so_seq := repeat [] nF |}.

(** sequence_solver_function.cpp 417-430; [None] is kAllFrames. *)
Definition so_add (o : seqobj) (frame : option nat) (e : serr) : outcome seqobj :=
  let add1 f per := let* l := rd per f in wr per f (l ++ [e]) in
  let* per :=
    match frame with
    | None => ofold add1 (seq 0 (length (sq_frames (so_fn o)))) (so_per o)
    | Some f => if negb (f <? length (sq_frames (so_fn o))) then CheckFail else add1 f (so_per o)
    end in
  Ok {| so_fn := so_fn o; so_per := per; so_seq := so_seq o |}.

(** sequence_solver_function.cpp 432-449. *)
Definition so_add_seq (o : seqobj) (frame : option nat) (e : serr) : outcome seqobj :=
  let nF := length (sq_frames (so_fn o)) in
  let add1 f sq :=
    if negb (f <? nF) then CheckFail
    else if negb (f + se_frames e <=? nF) then CheckFail
    else let* l := rd sq f in wr sq f (l ++ [e]) in
  let* sq :=
    match frame with
    | None => if se_frames e <=? nF then ofold add1 (seq 0 (nF - se_frames e + 1)) (so_seq o)
              else Ok (so_seq o)
    | Some f => add1 f (so_seq o)
    end in
  Ok {| so_fn := so_fn o; so_per := so_per o; so_seq := sq |}.

(** gsl::make_span(frameParameters_).subspan(f, n): leaving the range ends the program. *)
Definition window (frames : list (list R)) (f n : nat) : outcome (list (list R)) :=
  if f + n <=? length frames then Ok (firstn n (skipn f frames)) else Throw.

(** ** getError *)

(** sequence_solver_function.cpp 182-188 ([n] = 1) and 193-202 ([n] = numFrames()). *)
Definition sum_errors (frames : list (list R)) (f : nat) (n : serr -> nat) (fs : list serr) (acc : R)
  : outcome R :=
  ofold (fun e a =>
    if Rleb (se_weight e) 0 then Ok a
    else let* w := window frames f (n e) in Ok (a + se_error e w)%R) fs acc.

(** sequence_solver_function.cpp 166-206. Also returns the function with its new frames. *)
Definition so_error (o : seqobj) (v : list R) : outcome (R * seqfn) :=
  let* s := seq_set_joined (so_fn o) v in
  let* e := ofold (fun f acc =>
      let* per := rd (so_per o) f in
      let* sq := rd (so_seq o) f in
      let* a := sum_errors (sq_frames s) f (fun _ => 1) per 0%R in
      let* b := sum_errors (sq_frames s) f se_frames sq a in
      Ok (acc + b)%R) (seq 0 (length (sq_frames s))) 0%R in
  Ok (e, s).

(** ** getGradient *)

(** Adds [g] to the segment of [full] that starts at [start] and has [len] entries. *)
Definition add_segment (full : nat -> R) (start len : nat) (g : nat -> R) : nat -> R :=
  fun j => if (start <=? j) && (j <? start + len) then (full j + g (j - start)%nat)%R else full j.

(** sequence_solver_function.cpp 228-235 and 237-249. The full gradient has nFrames * np entries. *)
Definition sum_gradients (np : nat) (frames : list (list R)) (n : serr -> nat) (fss : list (list serr))
  (acc : R * (nat -> R)) : outcome (R * (nat -> R)) :=
  ofold (fun f acc =>
    let* fs := rd fss f in
    ofold (fun e acc =>
      if Rleb (se_weight e) 0 then Ok acc
      else
        let* w := window frames f (n e) in
        Ok (fst acc + se_gerror e w, add_segment (snd acc) (f * np) (n e * np) (se_grad e w))%R)
      fs acc) (seq 0 (length frames)) acc.

(** sequence_solver_function.cpp 208-268. *)
Definition so_gradient (o : seqobj) (v : list R) : outcome (R * list R) :=
  let* s := seq_set_joined (so_fn o) v in
  let np := sq_np s in
  let nF := length (sq_frames s) in
  let nPer := length (sq_per s) in
  let* a := sum_gradients np (sq_frames s) (fun _ => 1) (so_per o) (0%R, fun _ => 0%R) in
  let* b := sum_gradients np (sq_frames s) se_frames (so_seq o) a in
  let add g p x := let* y := rd g p in wr g p (y + x)%R in
  let* g := ofold (fun f g =>
      let* g1 := ofold (fun k g =>
          let* i := rd (sq_per s) k in
          add g (nPer * f + k) (snd b (f * np + i))) (seq 0 nPer) g in
      ofold (fun k g =>
          let* i := rd (sq_unv s) k in
          add g (nPer * nF + k) (snd b (f * np + i))) (seq 0 (length (sq_unv s))) g1)
    (seq 0 nF) (repeat 0%R (length v)) in
  Ok (fst b, g).

(** ** getJacobian *)

Record fmat := FMat { fm_rows : nat; fm_cols : nat; fm_at : nat -> nat -> R }.
Record fvec := FVec { fv_len : nat; fv_at : nat -> R }.

(** jacobian.block(pos, c, n, 1) = src, and += src. *)
Definition put_col (J : fmat) (pos c n : nat) (src : nat -> R) : outcome fmat :=
  if (pos + n <=? fm_rows J) && (c <? fm_cols J) then
    Ok (FMat (fm_rows J) (fm_cols J) (fun q c' =>
      if (c' =? c) && (pos <=? q) && (q <? pos + n) then src (q - pos)%nat else fm_at J q c'))
  else UB.
Definition add_col (J : fmat) (pos c n : nat) (src : nat -> R) : outcome fmat :=
  if (pos + n <=? fm_rows J) && (c <? fm_cols J) then
    Ok (FMat (fm_rows J) (fm_cols J) (fun q c' =>
      if (c' =? c) && (pos <=? q) && (q <? pos + n) then (fm_at J q c' + src (q - pos)%nat)%R
      else fm_at J q c'))
  else UB.

(** residual.middleRows(pos, n), of which the error function writes the first rows. *)
Definition put_residual (r : fvec) (pos n : nat) (rows : list ((nat -> R) * R)) : outcome fvec :=
  if (pos + n <=? fv_len r) && (length rows <=? n) then
    Ok (FVec (fv_len r) (fun q =>
      if (pos <=? q) && (q <? pos + length rows)
      then snd (nth (q - pos) rows (fun _ => 0%R, 0%R)) else fv_at r q))
  else UB.

(** Entry ([q], [c]) of the temporary block: zero below the rows that were written. *)
Definition temp_at (rows : list ((nat -> R) * R)) (c q : nat) : R :=
  fst (nth q rows (fun _ => 0%R, 0%R)) c.

Record jstate := JState { j_J : fmat; j_r : fvec; j_pos : nat; j_err : R }.

(** Lines 350-353 and 384-388: the per-frame columns of frame [frame]. *)
Definition put_frame (s : seqfn) (J : fmat) (pos used frame base : nat) (rows : list ((nat -> R) * R)) :=
  let nPer := length (sq_per s) in
  ofold (fun k J =>
    let* i := rd (sq_per s) k in
    put_col J pos (nPer * frame + k) used (temp_at rows (base + i))) (seq 0 nPer) J.

(** Lines 355-358 (assignment) and 390-393 (accumulation): the universal columns. *)
Definition put_shared (s : seqfn) (J : fmat) (put : fmat -> nat -> nat -> nat -> (nat -> R) -> outcome fmat)
  (pos used base : nat) (rows : list ((nat -> R) * R)) :=
  let nPer := length (sq_per s) in
  ofold (fun k J =>
    let* i := rd (sq_unv s) k in
    put J pos (nPer * length (sq_frames s) + k) used (temp_at rows (base + i)))
    (seq 0 (length (sq_unv s))) J.

(** Lines 334-362: one per-frame error function. *)
Definition jac_frame (s : seqfn) (f : nat) (e : serr) (st : jstate) : outcome jstate :=
  if Rleb (se_weight e) 0 then Ok st
  else
    let* w := window (sq_frames s) f 1 in
    let rows := se_rows e w in
    let used := se_used e w in
    let* r := put_residual (j_r st) (j_pos st) (se_size e) rows in
    let* J1 := put_frame s (j_J st) (j_pos st) used f 0 rows in
    let* J2 := put_shared s J1 put_col (j_pos st) used 0 rows in
    Ok (JState J2 r (j_pos st + used) (j_err st + se_jerror e w)).

(** Lines 366-397: one sequence error function. *)
Definition jac_seq (s : seqfn) (f : nat) (e : serr) (st : jstate) : outcome jstate :=
  if Rleb (se_weight e) 0 then Ok st
  else
    let* w := window (sq_frames s) f (se_frames e) in
    let rows := se_rows e w in
    let used := se_used e w in
    let* r := put_residual (j_r st) (j_pos st) (se_size e) rows in
    let* J := ofold (fun sub J =>
        let* J1 := put_frame s J (j_pos st) used (f + sub) (sub * sq_np s) rows in
        put_shared s J1 add_col (j_pos st) used (sub * sq_np s) rows)
      (seq 0 (se_frames e)) (j_J st) in
    Ok (JState J r (j_pos st + used) (j_err st + se_jerror e w)).

(** Lines 294-315. *)
Definition jac_size (o : seqobj) : nat :=
  let active fs := filter (fun e => negb (Rleb (se_weight e) 0)) fs in
  list_sum (map (fun fs => list_sum (map se_size (active fs))) (so_per o)) +
  list_sum (map (fun fs => list_sum (map se_size (active fs))) (so_seq o)).

(** sequence_solver_function.cpp 270-401: the Jacobian, the residual, actualRows and the error,
    given what the two output arguments contained. *)
Definition so_jacobian (o : seqobj) (v : list R) (J0 : fmat) (r0 : fvec)
  : outcome (fmat * fvec * nat * R) :=
  let* s := seq_set_joined (so_fn o) v in
  let size := jac_size o in
  let '(J1, r1) :=
    if (fm_rows J0 <? size) || negb (sq_num s =? fm_cols J0)
    then (FMat size (sq_num s) (fun _ _ => 0%R), FVec size (fun _ => 0%R))
    else (J0, r0) in
  let* st := ofold (fun f st =>
      let* fs := rd (so_per o) f in ofold (fun e st => jac_frame s f e st) fs st)
    (seq 0 (length (sq_frames s))) (JState J1 r1 0 0%R) in
  let* st := ofold (fun f st =>
      let* fs := rd (so_seq o) f in ofold (fun e st => jac_seq s f e st) fs st)
    (seq 0 (length (sq_frames s))) st in
  Ok (j_J st, j_r st, size, j_err st).

(** ** ModelParametersSequenceErrorFunction
    (momentum/character_sequence_solver/model_parameters_sequence_error_function.cpp) *)

(** Lines 46-53 and 79-87: is parameter [i] part of the sum? *)
Definition mps_on (weights : list R) (en : nat -> bool) (i : nat) : bool :=
  en i && Rltb 0 (nth i weights 0%R).

(** kMotionWeight, model_parameters_sequence_error_function.h 59. *)
Definition motion_weight : R := (/ 10)%R.

Definition mps_diff (weights : list R) (w : list (list R)) (i : nat) : R :=
  (nth i weights 0 * (nth i (nth 1 w []) 0 - nth i (nth 0 w []) 0))%R.

Definition mps_sum (np : nat) (weights : list R) (en : nat -> bool) (w : list (list R)) : R :=
  rsum (map (fun i => if mps_on weights en i then mps_diff weights w i * mps_diff weights w i else 0)%R
    (seq 0 np)).

(** The function with member weight_ [wt], targetWeights_ [weights] and enabledParameters_ [en]:
    getError 30-57, getGradient 59-91, getJacobianSize 93-96, getJacobian 98-151. A weight vector
    of another size makes it return zero and no rows. The vectors it is called with have the size
    that the sizes of the window's frames promise (MT_CHECK lines 42, 72, 105, 124). *)
Definition mps (np : nat) (wt : R) (weights : list R) (en : nat -> bool) : serr :=
  let ok := length weights =? np in
  let err w := if ok then (mps_sum np weights en w * wt * motion_weight)%R else 0%R in
  let sw := sqrt (wt * motion_weight) in
  let on := filter (mps_on weights en) (seq 0 np) in
  {| se_weight := wt;
     se_frames := 2;
     se_size := length (filter (fun x => Rltb 0 x) weights);
     se_error := err;
     se_gerror := err;
     se_grad := fun w j =>
       let i := (j mod np)%nat in
       if ok && mps_on weights en i then
         let d := (2 * nth i weights 0 * mps_diff weights w i * wt * motion_weight)%R in
         if (j / np =? 0)%nat then (- d)%R else d
       else 0%R;
     se_jerror := err;
     se_rows := fun w =>
       if ok then
         map (fun i =>
           ((fun j => if (j =? i)%nat then (- sw * nth i weights 0)%R
                      else if (j =? np + i)%nat then (sw * nth i weights 0)%R else 0%R),
            (mps_diff weights w i * sw)%R)) on
       else [];
     se_used := fun w => if ok then length on else 0 |}.
