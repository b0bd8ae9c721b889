(** The constraint stores of the SIMD error functions: SimdPositionConstraints,
    SimdPlaneConstraints and SimdNormalConstraints
    (momentum/character_solver/simd_{position,plane,normal}_error_function.{h,cpp}).

    A store keeps each number of a constraint in its own array ("striped"): the
    arrays follow each other in one allocation, the weights last. Every joint has
    room for the same number of constraints.

    The numbers stored are reals. Memory is sequentially consistent. The counters
    are natural numbers: std::atomic<uint32_t> would wrap only with about 2^32
    calls of addConstraint in progress at once. *)

From Coq Require Import Bool Reals List Arith.
From Verif Require Import Prelude Loops.
Import ListNotations.
Local Open Scope bool_scope.
Local Open Scope outcome_scope.

(** kMaxConstraints (4096) and kMaxJoints (512), simd_position_error_function.h:40-41,
    simd_plane_error_function.h:41-42, simd_normal_error_function.h:39-40;
    kSimdPacketSize, momentum/simd/simd.h:27; nBlocks, the number of arrays: 7 for
    positions (simd_position_error_function.cpp:37), 8 for planes
    (simd_plane_error_function.cpp:37), 10 for normals
    (simd_normal_error_function.cpp:38). *)
Record sdim : Type := SDim { d_cap : nat; d_joints : nat; d_packet : nat; d_blocks : nat }.

(** numJoints, data, constraintCount. *)
Record sstore : Type := SS { ss_n : nat; ss_data : list R; ss_count : list nat }.

(** The index in [data] of array [b], joint [j], constraint [s]: the pointers are
    dataPtr + dataSize * b with dataSize = kMaxConstraints * numJoints
    (simd_position_error_function.cpp:33-48), the index in the array is
    jointIndex * kMaxConstraints + index (line 68). *)
Definition ss_addr (D : sdim) (n b j s : nat) : nat := d_cap D * n * b + (j * d_cap D + s).

(** std::fill_n(p + first, k, v). *)
Definition fill {A} (l : list A) (first k : nat) (v : A) : outcome (list A) :=
  ofold (fun i l => wr l (first + i) v) (seq 0 k) l.

(** clearConstraints, simd_position_error_function.cpp:88-91,
    simd_plane_error_function.cpp:91-94, simd_normal_error_function.cpp:100-105. *)
Definition ss_clear (D : sdim) (st : sstore) : outcome sstore :=
  let* data := fill (ss_data st) (ss_addr D (ss_n st) (d_blocks D - 1) 0 0) (d_cap D * ss_n st) 0%R in
  let* count := fill (ss_count st) 0 (ss_n st) 0 in
  Ok (SS (ss_n st) data count).

(** The part of the constructors before clearConstraints,
    simd_position_error_function.cpp:29-48: [raw] is what constraintCount holds, as
    C++17 leaves std::atomic objects uninitialised. kSimdAlignment is
    kSimdPacketSize * sizeof(float) (simd.h:28). *)
Definition ss_alloc (D : sdim) (raw : list nat) (n : nat) : outcome sstore :=
  if Nat.leb n (d_joints D) then
    let dataSize := d_cap D * n in
    if Nat.eqb (dataSize mod (d_packet D * 4)) 0 then
      Ok (SS n (repeat 0%R (dataSize * d_blocks D)) raw)
    else CheckFail
  else CheckFail.

(** SimdPositionConstraints (29-52) and SimdPlaneConstraints (29-53). *)
Definition ss_new (D : sdim) (raw : list nat) (n : nat) : outcome sstore :=
  let* st := ss_alloc D raw n in ss_clear D st.
(** SimdNormalConstraints (30-54): no clearConstraints. *)
Definition ss_new_normal (D : sdim) (raw : list nat) (n : nat) : outcome sstore := ss_alloc D raw n.

(** getNumConstraints, simd_position_error_function.cpp:80-86. *)
Fixpoint read_counts (count : list nat) (js : list nat) : outcome (list nat) :=
  match js with
  | [] => Ok []
  | j :: r => let* c := rd count j in let* rest := read_counts count r in Ok (c :: rest)
  end.
Definition ss_num (st : sstore) : outcome (list nat) := read_counts (ss_count st) (seq 0 (ss_n st)).

(** The stores of the numbers of one constraint, one array after the other:
    simd_position_error_function.cpp:69-75. *)
Definition write_lane (D : sdim) (n j s : nat) (vals : list R) (data : list R) : outcome (list R) :=
  ofold (fun b data => match nth_error vals b with
                       | Some v => wr data (ss_addr D n b j s) v
                       | None => UB end) (seq 0 (d_blocks D)) data.

(** addConstraint of positions and planes called from one thread,
    simd_position_error_function.cpp:58-77, simd_plane_error_function.cpp:59-80. *)
Definition ss_add (D : sdim) (st : sstore) (j : nat) (vals : list R) : outcome sstore :=
  if Nat.ltb j (d_joints D) then
    let* index := rd (ss_count st) j in
    let* count := wr (ss_count st) j (index + 1) in
    if Nat.ltb index (d_cap D) then
      let* data := write_lane D (ss_n st) j index vals (ss_data st) in
      Ok (SS (ss_n st) data count)
    else
      let* c := rd count j in
      let* count' := wr count j (c - 1) in
      Ok (SS (ss_n st) (ss_data st) count')
  else CheckFail.

(** addConstraint of normals called from one thread,
    simd_normal_error_function.cpp:57-90, with its return value. *)
Definition ss_add_normal (D : sdim) (st : sstore) (j : nat) (vals : list R) : outcome (sstore * bool) :=
  if Nat.ltb j (d_joints D) then
    let* index := rd (ss_count st) j in
    if Nat.eqb index (d_cap D) then Ok (st, false)
    else
      let* count := wr (ss_count st) j (index + 1) in
      let* data := write_lane D (ss_n st) j index vals (ss_data st) in
      Ok (SS (ss_n st) data count, true)
  else CheckFail.

(** ** Calls of addConstraint in parallel *)

(** One call: its joint and the numbers it stores. *)
Record call : Type := Call { c_joint : nat; c_vals : list R }.

(** Where a call is. [PStore s b]: it owns slot [s] and is about to store array
    [b]. [PDone r]: it has returned; [r] is the slot it filled. *)
Inductive cpc : Type :=
| PStart
| PTry (index : nat)
| PStore (s b : nat)
| PDec
| PDone (r : option nat).

(** One action of a call to addConstraint of positions and planes: the fetch_add
    (simd_position_error_function.cpp:63-66), one of the seven stores (69-75), the
    decrement (77). *)
Definition step_fetch (D : sdim) (st : sstore) (c : call) (p : cpc) : outcome (sstore * cpc) :=
  match p with
  | PStart =>
      if Nat.ltb (c_joint c) (d_joints D) then
        let* index := rd (ss_count st) (c_joint c) in
        let* count := wr (ss_count st) (c_joint c) (index + 1) in
        Ok (SS (ss_n st) (ss_data st) count, if Nat.ltb index (d_cap D) then PStore index 0 else PDec)
      else CheckFail
  | PStore s b =>
      match nth_error (c_vals c) b with
      | None => UB
      | Some v =>
          let* data := wr (ss_data st) (ss_addr D (ss_n st) b (c_joint c) s) v in
          Ok (SS (ss_n st) data (ss_count st),
              if Nat.eqb (S b) (d_blocks D) then PDone (Some s) else PStore s (S b))
      end
  | PDec =>
      let* x := rd (ss_count st) (c_joint c) in
      let* count := wr (ss_count st) (c_joint c) (x - 1) in
      Ok (SS (ss_n st) (ss_data st) count, PDone None)
  | PTry _ | PDone _ => Ok (st, p)
  end.

(** One action of a call to addConstraint of normals: the load and the test
    (simd_normal_error_function.cpp:68-71), compare_exchange_weak (73-75), which
    may also fail for no reason ([spurious]), one of the ten stores (79-88). *)
Definition step_cas (D : sdim) (spurious : bool) (st : sstore) (c : call) (p : cpc) : outcome (sstore * cpc) :=
  match p with
  | PStart =>
      if Nat.ltb (c_joint c) (d_joints D) then
        let* index := rd (ss_count st) (c_joint c) in
        Ok (st, if Nat.eqb index (d_cap D) then PDone None else PTry index)
      else CheckFail
  | PTry index =>
      let* x := rd (ss_count st) (c_joint c) in
      if Nat.eqb x index && negb spurious then
        let* count := wr (ss_count st) (c_joint c) (index + 1) in
        Ok (SS (ss_n st) (ss_data st) count, PStore index 0)
      else Ok (st, PStart)
  | PStore s b =>
      match nth_error (c_vals c) b with
      | None => UB
      | Some v =>
          let* data := wr (ss_data st) (ss_addr D (ss_n st) b (c_joint c) s) v in
          Ok (SS (ss_n st) data (ss_count st),
              if Nat.eqb (S b) (d_blocks D) then PDone (Some s) else PStore s (S b))
      end
  | PDec | PDone _ => Ok (st, p)
  end.

(** The calls in progress and the store. *)
Definition pstate : Type := (sstore * list (call * cpc))%type.
Definition started (calls : list call) : list (call * cpc) := map (fun c => (c, PStart)) calls.

(** A schedule names, for each step, the call that acts (and whether its
    compare_exchange_weak fails spuriously). *)
Definition step_at (step : sstore -> call -> cpc -> outcome (sstore * cpc)) (i : nat) (ps : pstate)
  : outcome pstate :=
  match nth_error (snd ps) i with
  | None => Ok ps
  | Some (c, p) =>
      let* (st, p') := step (fst ps) c p in
      let* ts := wr (snd ps) i (c, p') in
      Ok (st, ts)
  end.
Definition run_fetch (D : sdim) (sched : list nat) (ps : pstate) : outcome pstate :=
  ofold (fun i ps => step_at (step_fetch D) i ps) sched ps.
Definition run_cas (D : sdim) (sched : list (nat * bool)) (ps : pstate) : outcome pstate :=
  ofold (fun x ps => step_at (step_cas D (snd x)) (fst x) ps) sched ps.
