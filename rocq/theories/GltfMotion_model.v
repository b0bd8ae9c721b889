(** The motion in the momentum extension of a glTF file: momentum/io/gltf/gltf_builder.cpp, addMotionToModel, and momentum/io/gltf/gltf_io.cpp, getMotionFromModel.

    Simplifications: the file has no motion before; what the accessors hold is stored with their names (that buffers are read back as written is C36); a matrix is the list of its columns, which
    are the frames; sizes fit 64 bits. *)

From Coq Require Import List Arith Bool.
Import ListNotations.
Local Open Scope list_scope.

Section Motion.
Context {S V : Type}.
(** The entries of "motion": "nframes", "parameterNames" with "poses", "jointNames" with "offsets". *)
Record stored := Stored { st_nframes : nat; st_poses : option (list S * list V); st_offsets : option (list S * list V) }.
(** MotionParameters and IdentityParameters. *)
Record motion := Motion { mo_names : list S; mo_frames : list (list V); mo_joints : list S; mo_identity : list V }.
Definition no_motion : motion := Motion [] [] [] [].
Definition nothing {X} (l : list X) : bool := match l with [] => true | _ => false end.
(** addMotionToModel, gltf_builder.cpp lines 549-587, with addExtension; the animation of nodes after it is not modelled. *)
Definition write_motion (m : motion) : stored :=
  if nothing (mo_frames m) then Stored 0 None None
  else
    Stored (length (mo_frames m))
      (if negb (nothing (mo_names m)) && negb (nothing (concat (mo_frames m))) then Some (mo_names m, concat (mo_frames m)) else None)
      (if negb (nothing (mo_joints m)) && negb (nothing (mo_identity m)) then Some (mo_joints m, mo_identity m) else None).
(** Eigen::Map of a matrix with [n] columns of [rows] values. *)
Fixpoint columns (rows n : nat) (l : list V) : list (list V) :=
  match n with
  | O => []
  | Datatypes.S n => firstn rows l :: columns rows n (skipn rows l)
  end.
(** getMotionFromModel, gltf_io.cpp lines 691-727. *)
Definition read_motion (s : stored) : motion :=
  match st_nframes s, st_poses s, st_offsets s with
  | O, _, _ => no_motion
  | _, None, None => no_motion
  | n, poses, offsets =>
    let bad_poses := match poses with None => false | Some (names, values) => negb (length values =? length names * n) end in
    let bad_offsets := match offsets with None => false | Some (names, values) => negb (length values =? length names * 7) end in
    if bad_poses || bad_offsets then no_motion
    else
      Motion (match poses with None => [] | Some (names, _) => names end)
             (match poses with None => [] | Some (names, values) => columns (length names) n values end)
             (match offsets with None => [] | Some (names, _) => names end)
             (match offsets with None => [] | Some (_, values) => values end)
  end.
End Motion.
