(** What the error between two consecutive poses should be. *)

From Coq Require Import Bool Reals List Arith.
From Verif Require Import Prelude LinAlg Rbool ListUtil SeqFn_model R3 Transform_model FK_model FK_spec
  ParamTransform_model Constraint_model ErrFn_model ErrFn_spec StSeq_model.
Import ListNotations.
Local Open Scope R_scope.

(** Weighted squared distances between the orientations and between the positions
    of every joint in the two poses. *)
Definition pose_change (E : ssq_fn) (prev next : list FK_model.jstate) : R :=
  ssq_weight E *
  sumn (List.length (ssq_sk E)) (fun j =>
    match nth_error prev j, nth_error next j with
    | Some a, Some b =>
        ssq_rotWgt E * nth j (ssq_rotw E) 0 * frob2 (qmat (rot (js_world b))) (qmat (rot (js_world a))) +
        ssq_posWgt E / 1000 * nth j (ssq_posw E) 0 * vnorm2 (vsub (trans (js_world b)) (trans (js_world a)))
    | _, _ => 0
    end).

(** One target weight of each kind per joint, one flag per joint parameter. *)
Record ssq_wf (E : ssq_fn) : Prop := {
  sqw_posw : List.length (ssq_posw E) = List.length (ssq_sk E);
  sqw_rotw : List.length (ssq_rotw E) = List.length (ssq_sk E);
  sqw_active_len : List.length (ssq_active E) = pt_rows (ssq_pt E)
}.

(** All joint parameters that model parameter [i] drives are active. *)
Definition drives_active (E : ssq_fn) (i : nat) : Prop :=
  forall e, In e (pt_entries (ssq_pt E)) -> ecol e = i -> nth (erow e) (ssq_active E) false = true.

Definition ssq_nonneg (E : ssq_fn) : Prop :=
  0 <= ssq_weight E /\ 0 <= ssq_posWgt E /\ 0 <= ssq_rotWgt E /\
  (forall j, (j < List.length (ssq_sk E))%nat -> 0 <= nth j (ssq_posw E) 0 /\ 0 <= nth j (ssq_rotw E) 0).

Definition ssq_positive (E : ssq_fn) : Prop :=
  0 < ssq_weight E /\ 0 < ssq_posWgt E /\ 0 < ssq_rotWgt E /\
  (forall j, (j < List.length (ssq_sk E))%nat -> 0 < nth j (ssq_posw E) 0 /\ 0 < nth j (ssq_rotw E) 0).

(** The pose at given model parameters, nothing if it cannot be computed. *)
Definition pose_at (E : ssq_fn) (p : list R) : list FK_model.jstate :=
  match state_of (ssq_sk E) (ssq_pt E) p with Ok s => s | _ => [] end.

(** [p] with [c * t] added to parameter [i]. *)
Definition nudged (p : list R) (i : nat) (c t : R) : list R := set_nth p i (nth i p 0 + c * t).

(** The error function as one of a sequence (C71-C73): what its functions return
    at the poses of the given frames, starting from a zero gradient and zero rows. *)
Definition ok_or {A} (d : A) (x : outcome A) : A := match x with Ok a => a | _ => d end.
Definition of_state_sequence (E : ssq_fn) : serr :=
  let n := pt_cols (ssq_pt E) in
  let gr w := ok_or (0, []) (ssq_gradient E (map (pose_at E) w) (repeat 0 (2 * n))) in
  let jc w := ok_or (0, [], 0%nat) (ssq_jacobian E (2 * n) (map (pose_at E) w)) in
  {| se_weight := ssq_weight E;
     se_frames := 2;
     se_size := ssq_jacobian_size E;
     se_error := fun w => ok_or 0 (ssq_error E (map (pose_at E) w));
     se_gerror := fun w => fst (gr w);
     se_grad := fun w c => nth c (snd (gr w)) 0;
     se_jerror := fun w => fst (fst (jc w));
     se_rows := fun w => map (fun row => (fun c => nth c (fst row) 0, snd row)) (snd (fst (jc w)));
     se_used := fun w => snd (jc w) |}.

(** What a user can do to the function after making it. *)
Inductive ssq_op :=
| SetTargetWeights (posw rotw : list R)
| SetWeights (pw rw : R)
| SetWeight (w : R)
| SetActiveJoints (a : list bool)
| Reset.
Definition ssq_do (E : ssq_fn) (op : ssq_op) : outcome ssq_fn :=
  match op with
  | SetTargetWeights posw rotw => ssq_set_target_weights E posw rotw
  | SetWeights pw rw => Ok (ssq_set_weights E pw rw)
  | SetWeight w => Ok (ssq_set_weight E w)
  | SetActiveJoints a => Ok (ssq_set_active E a)
  | Reset => Ok (ssq_reset E)
  end.
Fixpoint ssq_run (E : ssq_fn) (ops : list ssq_op) : outcome ssq_fn :=
  match ops with
  | [] => Ok E
  | op :: r => obind (ssq_do E op) (fun E' => ssq_run E' r)
  end.
