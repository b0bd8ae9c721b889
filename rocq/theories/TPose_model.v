(** Model of transformPose, momentum/character_solver/transform_pose.cpp:28-262, and getRigidParameters,
    momentum/character/parameter_transform.cpp:148-157. Scalars are reals. The Gauss-Newton solver and the
    random numbers are arguments. *)

From Coq Require Import String Bool Reals List Arith NArith.
From Verif Require Import Prelude Loops Rbool R3 Transform_model FK_model ParamTransform_model Simplify_model.
Import ListNotations.
Local Open Scope R_scope.
Local Open Scope outcome_scope.

(** std::string::find(sub) != npos, parameter_transform.cpp:152. *)
Fixpoint has_sub (sub s : string) : bool :=
  prefix sub s || match s with EmptyString => false | String _ r => has_sub sub r end.

(** getRigidParameters, parameter_transform.cpp:148-157. The bitset as a function; set throws for an index
    that is too large, which a transform of at most 2048 parameters excludes. *)
Definition rigid_parameters (pt : ptransform) : pset :=
  fun i => match nth_error (pt_name pt) i with
           | Some nm => has_sub "root_" nm || has_sub "hips" nm
           | None => false
           end.

(** The loop of lines 39-44: one more than the last joint that is set. *)
Definition count_to_last (rj : list bool) : nat :=
  fold_left (fun m i => if nth i rj false then S i else m) (seq 0 (List.length rj)) O.

(** createRigidBodySkeleton, lines 28-74. jointMapping is the identity on the first joints and kInvalidIndex
    on the others. *)
Definition rigid_body_skeleton (sk : skeleton) (pt : ptransform) : outcome (skeleton * ptransform) :=
  let* rj := parameters_to_joints (List.length sk) pt (rigid_parameters pt) in
  let m := count_to_last rj in
  if Nat.eqb m 0 then Throw
  else
    let* keep := joints_to_parameters (List.length sk) pt (repeat true m ++ skipn m rj) in
    let* (ipt, _) := subset_transform pt [] keep in
    let rsk := firstn m sk in
    let* rpt := map_transform_joints ipt (List.length rsk)
                  (map Some (seq 0 (List.length rsk)) ++ repeat None (List.length sk - List.length rsk)) in
    Ok (rsk, rpt).

(** PoseTransformSolverT: numModelParametersFull_, characterSimplified_ and parameterTransformSimplified_,
    rootJointSimplified_, rigidParametersSimplified_, simplifiedParamToFullParamIdx_. The cast of the
    transform to T (line 95) is the identity on reals. *)
Record tpsolver : Type := TPS {
  tp_full : nat;
  tp_skel : skeleton;
  tp_pt : ptransform;
  tp_root : nat;
  tp_rigid : pset;
  tp_map : list nat
}.

(** The loop of lines 99-106; getParameterIdByName returns the first parameter of that name. *)
Fixpoint find_all (pt : ptransform) (names : list string) : outcome (list nat) :=
  match names with
  | [] => Ok []
  | nm :: r =>
      match get_parameter_id_by_name pt nm with
      | None => CheckFail
      | Some i => let* rest := find_all pt r in Ok (i :: rest)
      end
  end.

(** PoseTransformSolverT(character), lines 87-129. *)
Definition new_tpsolver (sk : skeleton) (pt : ptransform) : outcome tpsolver :=
  let* (rsk, rpt) := rigid_body_skeleton sk pt in
  if Nat.eqb (List.length rsk) 0 then CheckFail
  else
    let* mp := find_all pt (pt_name rpt) in
    Ok (TPS (pt_cols pt) rsk rpt (List.length rsk - 1) (rigid_parameters rpt) mp).

(** solved[k] = new[k] where the bit k is set, lines 161-167 and 208-212. *)
Definition overwrite (rig : pset) (new old : list R) : list R :=
  map (fun k => if rig k then nth k new 0 else nth k old 0) (seq 0 (List.length old)).

(** norm() of the difference of two matrices, lines 201-203 (Frobenius). *)
Definition mat_dist (a b : mat3) : R :=
  sqrt (vnorm2 (vsub (col0 a) (col0 b)) + vnorm2 (vsub (col1 a) (col1 b)) + vnorm2 (vsub (col2 a) (col2 b))).

(** skelStateSimplified_ with the root's transform, lines 154-157 and 197-201. *)
Definition root_state (s : tpsolver) (sol : list R) : outcome tf :=
  let* q := pt_apply (tp_pt s) sol in
  let* sts := fk (tp_skel s) q in
  let* st := rd sts (tp_root s) in
  Ok (js_world st).

Section Attempts.
(** [solve k target p]: what the k-th call of solver_->solve makes of [p]; [rnd k i]: what rng_.uniform
    returns for parameter [i] after the k-th call. *)
Variable solve : nat -> tf -> list R -> list R.
Variable rnd : nat -> nat -> R.

(** The loop of lines 189-213, with [left] rounds left; the flag says whether the warning was logged. *)
Fixpoint attempts (s : tpsolver) (target : tf) (left k : nat) (sol : list R) : outcome (list R * bool) :=
  match left with
  | O => Ok (sol, true)
  | S left' =>
      let sol' := solve k target sol in
      let* t := root_state s sol' in
      if Rltb (mat_dist (qmat (rot t)) (qmat (rot target))) (1 / 1000) then Ok (sol', false)
      else attempts s target left' (S k)
             (overwrite (tp_rigid s) (map (rnd k) (seq 0 (pt_cols (tp_pt s)))) sol')
  end.

(** The rounds iIter = 0, ..., 10000. *)
Definition rounds : nat := N.to_nat 10001.

(** Lines 215-221. *)
Definition write_back (s : tpsolver) (sol full : list R) : outcome (list R) :=
  ofold (fun k full =>
    if tp_rigid s k then
      let* i := rd (tp_map s) k in
      let* v := rd sol k in
      wr full i v
    else Ok full) (seq 0 (List.length (tp_map s))) full.

(** PoseTransformSolverT::transformPose, lines 134-222. [prev] is empty when there is none; in lines 161-167
    all its mapped entries are read here, the code reads those of the rigid parameters. *)
Definition transform_pose (s : tpsolver) (full : list R) (transform : tf) (prev : list R)
  : outcome (list R * bool) :=
  if negb (Nat.eqb (List.length full) (tp_full s)) then CheckFail
  else if negb (Nat.eqb (List.length prev) (tp_full s) || Nat.eqb (List.length prev) 0) then CheckFail
  else
    let* sol0 := rd_all full (tp_map s) in
    let* t0 := root_state s sol0 in
    let* sol1 := match prev with
                 | [] => Ok sol0
                 | _ => let* pv := rd_all prev (tp_map s) in Ok (overwrite (tp_rigid s) pv sol0)
                 end in
    let target := tf_mul transform t0 in
    let* (sol, warned) := attempts s target rounds 0 sol1 in
    let* full' := write_back s sol full in
    Ok (full', warned).
End Attempts.

(** transforms.at(i), lines 252-253. *)
Definition transform_at (ts : list tf) (f : nat) : outcome tf :=
  match nth_error ts (if Nat.ltb f (List.length ts) then f else O) with
  | Some t => Ok t
  | None => Throw
  end.

(** The free function, lines 224-262; [solve f] and [rnd f] are used in frame [f]. The result of each frame
    comes with the flag of the warning. *)
Definition transform_poses (solve : nat -> nat -> tf -> list R -> list R) (rnd : nat -> nat -> nat -> R)
  (sk : skeleton) (pt : ptransform) (frames : list (list R)) (ts : list tf) (continuous : bool)
  : outcome (list (list R * bool)) :=
  if negb (Nat.eqb (List.length ts) 1 || Nat.eqb (List.length frames) (List.length ts)) then CheckFail
  else
    let* s := new_tpsolver sk pt in
    ofold (fun f res =>
      let* p := rd frames f in
      match p with
      | [] => Ok (res ++ [([], false)])
      | _ =>
          let* t := transform_at ts f in
          let* prev := if Nat.ltb 0 f && continuous
                       then let* r := rd res (f - 1) in Ok (fst r)
                       else Ok [] in
          let* r := transform_pose (solve f) (rnd f) s p t prev in
          Ok (res ++ [r])
      end) (seq 0 (List.length frames)) [].
