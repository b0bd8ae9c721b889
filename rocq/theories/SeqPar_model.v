(** Model of one pass of the sequence solver over the per-frame error functions,
    momentum/character_sequence_solver/sequence_solver.cpp, processErrorFunctions_parallel
    (lines 253-357) with the processJac of processPerFrameErrors_parallel (lines 359-401), and
    its serial counterpart processPerFrameErrors_serial (lines 204-227).

    Every frame is one task (makeChunkedRange(0, end, 1), line 282) with its own program counter.
    A step of the system lets one task do one action: eliminate one column, take or release one
    mutex, or make one change to the data a mutex protects.  Any task may move at any time, which
    covers every number of worker threads and every way they are scheduled.  What is not
    modelled: weak memory, and the code that fills the Jacobian of a frame (it writes only data
    of that frame); its result is an input. *)

From Coq Require Import Reals List Arith Bool.
From Verif Require Import LinAlg ListUtil QR_spec QRBanded_spec QR_model QRBanded_model.
Import ListNotations.
Local Open Scope R_scope.

(** What computePerFrameJacobian returns for a frame (lines 95-133): rows, per-frame columns,
    universal columns, residual, error, number of error functions. *)
Record frame_data := {
  fd_rows : nat; fd_A : mat; fd_C : mat; fd_b : vec; fd_error : R; fd_functions : nat }.

(** Frames, per-frame parameters, universal parameters, bandwidth in frames, sqrt(regularization). *)
Record inputs := {
  in_frames : nat; in_per : nat; in_univ : nat; in_band : nat; in_lambda : R;
  in_data : nat -> frame_data }.

(** UniversalJacobianResid, sequence_solver.h:100-113. *)
Record item := {
  it_frame : nat; it_rows : nat; it_C : mat; it_b : vec; it_error : R; it_functions : nat }.

(** The solver made by doIteration, lines 457-461. *)
Definition fresh_qr (I : inputs) : bqr :=
  bq_new (in_frames I * in_per I) (in_univ I) (in_band I * in_per I) (in_lambda I).

(** ** The serial loop, lines 204-227: the error sum, the progress count, the solver. *)
Definition frame_block (I : inputs) (f : nat) : band_block :=
  {| bb_off := f * in_per I; bb_w := in_per I; bb_rows := fd_rows (in_data I f);
     bb_A := fd_A (in_data I f); bb_C := fd_C (in_data I f); bb_b := fd_b (in_data I f) |}.
Record totals := { t_qr : bqr; t_error : R; t_progress : nat }.
Definition serial_frame (I : inputs) (s : totals) (f : nat) : totals :=
  {| t_qr := if (fd_rows (in_data I f) =? 0)%nat then t_qr s else bq_give (t_qr s) (frame_block I f);
     t_error := t_error s + fd_error (in_data I f);
     t_progress := (t_progress s + fd_functions (in_data I f))%nat |}.
Definition serial_pass (I : inputs) : totals :=
  fold_left (serial_frame I) (seq 0 (in_frames I))
    {| t_qr := fresh_qr I; t_error := 0; t_progress := 0 |}.

(** ** The shared variables of the parallel loop, lines 266-275.  [None] is an unlocked mutex,
    [Some t] one held by task [t].  [sh_log] is not in the code: it records which frames have
    been folded into the common part of the solver, in order. *)
Record shared := {
  sh_qr : bqr; sh_reorder : list item; sh_next : nat; sh_ready : list item;
  sh_error : R; sh_progress : nat; sh_log : list nat;
  m_reorder : option nat; m_ready : option nat; m_qr : option nat }.

(** Where a task is in the lambda, lines 283-328. *)
Inductive pc :=
| Zeroing (k : nat) (A C : mat) (b : vec)  (* 290: in zeroBandedPart, before column k *)
| WantReorder (it : item)                  (* 293 *)
| Pushing (it : item)                      (* 294 *)
| Testing                                  (* 298 *)
| WantReady                                (* 300 *)
| Moving                                   (* 301 *)
| ReleasingReady                           (* 302 *)
| Popping                                  (* 303-304 *)
| ReleasingReorder                         (* 306 *)
| TryingQr                                 (* 309 *)
| DrainWantReady                           (* 314 *)
| DrainTaking                              (* 315-318 *)
| DrainReleasing (o : option item)         (* 319-323 *)
| Adding (it : item) (k : nat) (C : mat) (b : vec)  (* 324: in addMutating, before column k *)
| Counting (it : item)                     (* 325-326 *)
| ReleasingQr                              (* 330 *)
| Done.

(** PriorityQueue with std::greater, lines 229-251: top is an item with the least frame, pop
    removes it. *)
Fixpoint extract_min (l : list item) : option (item * list item) :=
  match l with
  | [] => None
  | x :: r =>
      match extract_min r with
      | None => Some (x, [])
      | Some (y, r') => if (it_frame x <=? it_frame y)%nat then Some (x, r) else Some (y, x :: r')
      end
  end.

(** Assignments to one shared variable. *)
Definition set_mem (s : shared) (B Rc : mat) (y : vec) : shared :=
  let q := sh_qr s in
  {| sh_qr := {| bq_nb := bq_nb q; bq_nc := bq_nc q; bq_bw := bq_bw q; bq_lambda := bq_lambda q;
                 bq_band := B; bq_common := Rc; bq_y := y |};
     sh_reorder := sh_reorder s; sh_next := sh_next s; sh_ready := sh_ready s;
     sh_error := sh_error s; sh_progress := sh_progress s; sh_log := sh_log s;
     m_reorder := m_reorder s; m_ready := m_ready s; m_qr := m_qr s |}.
Definition set_reorder (s : shared) (l : list item) (n : nat) : shared :=
  {| sh_qr := sh_qr s; sh_reorder := l; sh_next := n; sh_ready := sh_ready s;
     sh_error := sh_error s; sh_progress := sh_progress s; sh_log := sh_log s;
     m_reorder := m_reorder s; m_ready := m_ready s; m_qr := m_qr s |}.
Definition set_ready (s : shared) (l : list item) : shared :=
  {| sh_qr := sh_qr s; sh_reorder := sh_reorder s; sh_next := sh_next s; sh_ready := l;
     sh_error := sh_error s; sh_progress := sh_progress s; sh_log := sh_log s;
     m_reorder := m_reorder s; m_ready := m_ready s; m_qr := m_qr s |}.
Definition set_counts (s : shared) (e : R) (p : nat) (l : list nat) : shared :=
  {| sh_qr := sh_qr s; sh_reorder := sh_reorder s; sh_next := sh_next s; sh_ready := sh_ready s;
     sh_error := e; sh_progress := p; sh_log := l;
     m_reorder := m_reorder s; m_ready := m_ready s; m_qr := m_qr s |}.
Definition set_locks (s : shared) (a b c : option nat) : shared :=
  {| sh_qr := sh_qr s; sh_reorder := sh_reorder s; sh_next := sh_next s; sh_ready := sh_ready s;
     sh_error := sh_error s; sh_progress := sh_progress s; sh_log := sh_log s;
     m_reorder := a; m_ready := b; m_qr := c |}.
Definition lock_reorder (s : shared) (t : option nat) := set_locks s t (m_ready s) (m_qr s).
Definition lock_ready (s : shared) (t : option nat) := set_locks s (m_reorder s) t (m_qr s).
Definition lock_qr (s : shared) (t : option nat) := set_locks s (m_reorder s) (m_ready s) t.

(** What processJac hands to the last stage, lines 377-391 (the rest of the Jacobian is dropped
    when there are no universal parameters). *)
Definition make_item (I : inputs) (f : nat) (C : mat) (b : vec) : item :=
  let d := in_data I f in
  {| it_frame := f; it_rows := if (in_univ I =? 0)%nat then 0%nat else fd_rows d;
     it_C := C; it_b := b; it_error := fd_error d; it_functions := fd_functions d |}.

(** The actions task [t] (the task of frame [t]) can do next: the new shared state and where the
    task is then.  The list is empty while the task waits for a mutex.  try_to_lock (line 309)
    may fail even when the mutex is free. *)
Definition task_step (I : inputs) (t : nat) (s : shared) (p : pc) : list (shared * pc) :=
  match p with
  | Zeroing k A C b =>
      if (k <? in_per I)%nat then
        let q := sh_qr s in
        let r := zero_step (bq_bw q) (bq_nc q) (t * in_per I) (in_per I) (fd_rows (in_data I t))
          {| bs_band := bq_band q; bs_common := bq_common q; bs_y := bq_y q;
             bs_A := A; bs_C := C; bs_b := b |} k in
        [(set_mem s (bs_band r) (bs_common r) (bs_y r), Zeroing (S k) (bs_A r) (bs_C r) (bs_b r))]
      else [(s, WantReorder (make_item I t C b))]
  | WantReorder it =>
      match m_reorder s with
      | None => [(lock_reorder s (Some t), Pushing it)]
      | Some _ => []
      end
  | Pushing it => [(set_reorder s (it :: sh_reorder s) (sh_next s), Testing)]
  | Testing =>
      match extract_min (sh_reorder s) with
      | Some (x, _) => if (it_frame x =? sh_next s)%nat then [(s, WantReady)] else [(s, ReleasingReorder)]
      | None => [(s, ReleasingReorder)]
      end
  | WantReady =>
      match m_ready s with
      | None => [(lock_ready s (Some t), Moving)]
      | Some _ => []
      end
  | Moving =>
      match extract_min (sh_reorder s) with
      | Some (x, _) => [(set_ready s (sh_ready s ++ [x]), ReleasingReady)]
      | None => []
      end
  | ReleasingReady => [(lock_ready s None, Popping)]
  | Popping =>
      match extract_min (sh_reorder s) with
      | Some (_, l) => [(set_reorder s l (S (sh_next s)), Testing)]
      | None => []
      end
  | ReleasingReorder => [(lock_reorder s None, TryingQr)]
  | TryingQr =>
      (s, Done) :: match m_qr s with None => [(lock_qr s (Some t), DrainWantReady)] | Some _ => [] end
  | DrainWantReady =>
      match m_ready s with
      | None => [(lock_ready s (Some t), DrainTaking)]
      | Some _ => []
      end
  | DrainTaking =>
      match sh_ready s with
      | x :: l => [(set_ready s l, DrainReleasing (Some x))]
      | [] => [(s, DrainReleasing None)]
      end
  | DrainReleasing o =>
      [(lock_ready s None, match o with
                           | Some x => Adding x 0 (it_C x) (it_b x)
                           | None => ReleasingQr
                           end)]
  | Adding x k C b =>
      let q := sh_qr s in
      if (k <? bq_nc q)%nat then
        let '(Rc, y, C, b) := common_step (bq_nb q) (bq_nc q) (it_rows x) (bq_common q, bq_y q, C, b) k in
        [(set_mem s (bq_band q) Rc y, Adding x (S k) C b)]
      else [(s, Counting x)]
  | Counting x =>
      [(set_counts s (sh_error s + it_error x) (sh_progress s + it_functions x) (sh_log s ++ [it_frame x]),
        DrainWantReady)]
  | ReleasingQr => [(lock_qr s None, Done)]
  | Done => []
  end.

(** The system: the shared variables and the tasks. *)
Record system := { sys_sh : shared; sys_tasks : list pc }.
Definition start_system (I : inputs) : system :=
  {| sys_sh := {| sh_qr := fresh_qr I; sh_reorder := []; sh_next := 0; sh_ready := [];
                  sh_error := 0; sh_progress := 0; sh_log := [];
                  m_reorder := None; m_ready := None; m_qr := None |};
     sys_tasks := map (fun f => Zeroing 0 (fd_A (in_data I f)) (fd_C (in_data I f)) (fd_b (in_data I f)))
                    (seq 0 (in_frames I)) |}.
Definition sys_step (I : inputs) (a b : system) : Prop :=
  exists t p s' p', nth_error (sys_tasks a) t = Some p /\
    In (s', p') (task_step I t (sys_sh a) p) /\
    b = {| sys_sh := s'; sys_tasks := store (sys_tasks a) t p' |}.
(** Any number of steps in any order. *)
Inductive schedule (I : inputs) : system -> system -> Prop :=
| sched_stop s : schedule I s s
| sched_step a b c : schedule I a b -> sys_step I b c -> schedule I a c.
(** parallel_for returns when every task is done. *)
Definition all_done (s : system) : Prop := List.Forall (fun p => p = Done) (sys_tasks s).

(** ** After parallel_for, lines 331-354: drain the ready queue, then the reorder buffer. *)
Definition fold_item (s : shared) (x : item) : shared :=
  let q := add_common (sh_qr s) (it_rows x) (it_C x) (it_b x) in
  set_counts (set_mem s (bq_band q) (bq_common q) (bq_y q))
    (sh_error s + it_error x) (sh_progress s + it_functions x) (sh_log s ++ [it_frame x]).
Fixpoint drain_ready (l : list item) (s : shared) : shared :=
  match l with [] => set_ready s [] | x :: r => drain_ready r (set_ready (fold_item s x) r) end.
Fixpoint drain_reorder (fuel : nat) (s : shared) : shared :=
  match fuel with
  | O => s
  | S n => match extract_min (sh_reorder s) with
           | None => s
           | Some (x, l) => drain_reorder n (set_reorder (fold_item s x) l (sh_next s))
           end
  end.
(** One unit of fuel per item is enough: every pass removes one. *)
Definition final_drain (s : shared) : shared :=
  let s1 := drain_ready (sh_ready s) s in drain_reorder (length (sh_reorder s1)) s1.
