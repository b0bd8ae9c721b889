(** Binary files of joint parameters (momentum/io/motion/joint_params_binary_io.cpp) and of pose shapes (momentum/io/shape/pose_shape_io.cpp).

    Simplifications: floats are their four bytes, with addition as an argument; memory is unlimited except for the limits of std::string, std::vector and
    Eigen; what uninitialised memory holds is an argument.  A file that cannot be opened is [None]. *)

From Coq Require Import List Arith Ascii NArith ZArith Bool.
From Verif Require Import Prelude Loops Bytes Mmo_model.
Import ListNotations.
Local Open Scope outcome_scope.

(** A 64-bit integer as int64_t. *)
Definition signed64 (n : N) : Z := if (n <? 2 ^ 63)%N then Z.of_N n else (Z.of_N n - 2 ^ 64)%Z.
(** Limits: std::vector<JointParameters> (16 bytes each), Eigen's allocation (4 bytes each), std::vector<std::string> (32 bytes each). *)
Definition frames_max : Z := 2 ^ 59 - 1.
Definition floats_max : Z := 2 ^ 61 - 1.
Definition strings_max : N := 2 ^ 58 - 1.

(** The loop of loadJointParamsBinary, lines 27-31, [n] frames of [k] floats; [junk i] is the memory of frame [i] before it is read. *)
Fixpoint jp_frames (junk : nat -> nat -> ascii) (k n i : nat) (s : stream) : list (list f32) :=
  match n with
  | O => []
  | S n' => let (b, s') := fread (4 * k) (map (junk i) (seq 0 (4 * k))) s in floats_of b :: jp_frames junk k n' (S i) s'
  end.
(** loadJointParamsBinary, lines 14-34. The counts are uninitialised, so reading them from a file that is not open or too short is undefined. A negative size
    fails Eigen's assertion in Zero, a negative number of frames is a large size_t. The frame counter is an int: line 27 overflows at 2^31. *)
Definition load_jp (junk : nat -> nat -> ascii) (file : option (list ascii)) : outcome (list (list f32)) :=
  match file with
  | None => UB
  | Some bytes =>
    if length bytes <? 16 then UB
    else
      let frames := signed64 (of_le (firstn 8 bytes)) in
      let params := signed64 (of_le (firstn 8 (skipn 8 bytes))) in
      if (params <? 0)%Z then CheckFail
      else if (frames <? 0)%Z || (frames_max <? frames)%Z || (floats_max <? params)%Z then Throw
      else if (2 ^ 31 <=? frames)%Z then UB
      else Ok (jp_frames junk (Z.to_nat params) (Z.to_nat frames) 0 {| s_rest := skipn 16 bytes; s_good := true |})
  end.

(** PoseShape, pose_shape.h:18-23, with the floats of the file. *)
Record pshape {Q : Type} := PShape { pf_joint : nat; pf_rot : Q; pf_map : list nat; pf_base : list f32; pf_vectors : mtx }.
Arguments pshape : clear implicits.
(** Lines 43-45 and 58-60 of pose_shape_io.cpp: a name; a failed read keeps the old count, byte by byte. *)
Definition load_string (old : list ascii) (s : stream) : outcome (str * list ascii * stream) :=
  let (b, s1) := fread 8 old s in
  let count := of_le b in
  if (string_max <? count)%N then Throw
  else let (str, s2) := fread (N.to_nat count) (repeat Ascii.zero (N.to_nat count)) s1 in Ok (str, b, s2).
Fixpoint load_strings (n : nat) (old : list ascii) (s : stream) : outcome (list str * stream) :=
  match n with
  | O => Ok ([], s)
  | S n' =>
    let* x := load_string old s in
    let* rest := load_strings n' (snd (fst x)) (snd x) in
    Ok (fst (fst x) :: fst rest, snd rest)
  end.
(** Lines 77-81. *)
Fixpoint map_joints (joints : list str) (names : list str) : outcome (list nat) :=
  match names with
  | [] => Ok []
  | n :: r => match index_of n joints with
              | None => CheckFail
              | Some j => let* rest := map_joints joints r in Ok (j :: rest)
              end
  end.
(** loadPoseShape, lines 18-84: the names and pre-rotations of the joints and the coordinates of the mesh are what is used of the character. [Ok None]: the
    result of line 25, whose baseJoint is not initialised. Lines 67-68 take the address of the first vertex. *)
Definition load_pose_shape {Q} (fadd : f32 -> f32 -> f32) (junk1 junk2 : nat -> ascii) (joints : list (str * Q)) (mesh : option (list f32))
    (file : option (list ascii)) : outcome (option (pshape Q)) :=
  match mesh with
  | None => CheckFail
  | Some vertices =>
    match file with
    | None => Ok None
    | Some bytes =>
      if length bytes <? 16 then UB
      else
        let rows := of_le (firstn 8 bytes) in
        let njoints := of_le (firstn 8 (skipn 8 bytes)) in
        if negb (N.of_nat (length vertices) =? rows)%N then CheckFail
        else
          let* x := load_string (le_bytes 8 0) {| s_rest := skipn 16 bytes; s_good := true |} in
          match index_of (fst (fst x)) (map fst joints) with
          | None => CheckFail
          | Some base =>
            let* j := rd joints base in
            if (strings_max <? njoints)%N then Throw
            else
              let* ns := load_strings (N.to_nat njoints) (snd (fst x)) (snd x) in
              let n1 := 4 * N.to_nat rows in
              let (b1, s) := fread n1 (map junk1 (seq 0 n1)) (snd ns) in
              if length vertices =? 0 then UB
              else if (Z.to_N floats_max <? rows * (njoints * 4))%N then Throw
              else
                let n2 := 4 * N.to_nat (rows * (njoints * 4)) in
                let (b2, s) := fread n2 (map junk2 (seq 0 n2)) s in
                let* jm := map_joints (map fst joints) (fst ns) in
                Ok (Some (PShape Q base (snd j) jm (map (fun ab => fadd (fst ab) (snd ab)) (combine (floats_of b1) vertices))
                            (Mtx (N.to_nat rows) (columns (N.to_nat rows) (N.to_nat (njoints * 4)) (floats_of b2)))))
          end
    end
  end.
