(** The error between the poses of two consecutive frames:
    momentum/character_sequence_solver/state_sequence_error_function.cpp and .h.
    Scalars are reals. The walk over the ancestors of a joint with its
    translation, rotation and scale derivatives (lines 124-183 and 258-321) is
    the one of state_error_function.cpp, so its definitions [st_terms] and
    [st_rows] are used; what they read of a state error function is given by
    [ssq_as_state]. *)

From Coq Require Import Bool Reals List Arith.
From Verif Require Import Prelude LinAlg Rbool R3 Transform_model FK_model ParamTransform_model
  Limits_model Loss_model Constraint_model ErrFn_model.
Import ListNotations.
Local Open Scope R_scope.
Local Open Scope bool_scope.
Local Open Scope outcome_scope.

(** Members, state_sequence_error_function.h:77-82 and sequence_error_function.h:76-80. *)
Record ssq_fn : Type := SsqFn {
  ssq_sk : skeleton;
  ssq_pt : ptransform;
  ssq_posw : list R;       (* targetPositionWeights_ *)
  ssq_rotw : list R;       (* targetRotationWeights_ *)
  ssq_posWgt : R;
  ssq_rotWgt : R;
  ssq_weight : R;
  ssq_active : list bool   (* activeJointParams_ *)
}.

(** Constants, state_sequence_error_function.h:86-87. *)
Definition kSsqPositionWeight : R := / 1000.
Definition kSsqOrientationWeight : R := 1.

(** The constructor, state_sequence_error_function.cpp:18-27; weight_ is 1
    (sequence_error_function.h:78). *)
Definition ssq_new (sk : skeleton) (pt : ptransform) (active : list bool) : ssq_fn :=
  SsqFn sk pt (repeat 1 (length sk)) (repeat 1 (length sk)) 1 1 1 active.

(** setTargetWeights, lines 39-48. *)
Definition ssq_set_target_weights (E : ssq_fn) (posw rotw : list R) : outcome ssq_fn :=
  let* _ := check (Nat.eqb (length posw) (length (ssq_sk E))) in
  let* _ := check (Nat.eqb (length rotw) (length (ssq_sk E))) in
  Ok (SsqFn (ssq_sk E) (ssq_pt E) posw rotw (ssq_posWgt E) (ssq_rotWgt E) (ssq_weight E) (ssq_active E)).
(** setWeights, header lines 55-58. *)
Definition ssq_set_weights (E : ssq_fn) (pw rw : R) : ssq_fn :=
  SsqFn (ssq_sk E) (ssq_pt E) (ssq_posw E) (ssq_rotw E) pw rw (ssq_weight E) (ssq_active E).
(** setWeight and setActiveJoints, sequence_error_function.h:29-38. *)
Definition ssq_set_weight (E : ssq_fn) (w : R) : ssq_fn :=
  SsqFn (ssq_sk E) (ssq_pt E) (ssq_posw E) (ssq_rotw E) (ssq_posWgt E) (ssq_rotWgt E) w (ssq_active E).
Definition ssq_set_active (E : ssq_fn) (a : list bool) : ssq_fn :=
  SsqFn (ssq_sk E) (ssq_pt E) (ssq_posw E) (ssq_rotw E) (ssq_posWgt E) (ssq_rotWgt E) (ssq_weight E) a.
(** reset, lines 34-38. *)
Definition ssq_reset (E : ssq_fn) : ssq_fn :=
  SsqFn (ssq_sk E) (ssq_pt E) (repeat 1 (length (ssq_sk E))) (repeat 1 (length (ssq_sk E)))
    (ssq_posWgt E) (ssq_rotWgt E) (ssq_weight E) (ssq_active E).

(** The members the shared walk reads: skeleton, transform and active joint
    parameters. The targets are not read by it. *)
Definition ssq_as_state (E : ssq_fn) : st_fn :=
  StFn (ssq_sk E) (ssq_pt E) (repeat tf_id (length (ssq_sk E)))
    (repeat 0 (pt_cols (ssq_pt E))) (repeat 0 (pt_cols (ssq_pt E)))
    (ssq_posw E) (ssq_rotw E) (ssq_posWgt E) (ssq_rotWgt E) (ssq_weight E) (ssq_active E) 0.

(** rotDiff and diff, lines 70-80, 106-116 and 223-232. *)
Definition ssq_rotdiff (prev next : jstate) : mat3 :=
  let a := qmat (rot (js_world next)) in
  let b := qmat (rot (js_world prev)) in
  M3 (vsub (col0 a) (col0 b)) (vsub (col1 a) (col1 b)) (vsub (col2 a) (col2 b)).
Definition ssq_diff (prev next : jstate) : vec3 :=
  vsub (trans (js_world next)) (trans (js_world prev)).

(** MT_CHECK(skelStates.size() == 2) and the two states, lines 59-62, 90-92, 209-211. *)
Definition ssq_two (states : list (list jstate)) : outcome (list jstate * list jstate) :=
  match states with
  | [prev; next] => Ok (prev, next)
  | _ => CheckFail
  end.

(** The loop of getError, lines 66-81. *)
Fixpoint ssq_err_loop (E : ssq_fn) (prev next : list jstate) (is : list nat) : outcome R :=
  match is with
  | [] => Ok 0
  | i :: r =>
      let* a := rd prev i in
      let* b := rd next i in
      let* rw := rd (ssq_rotw E) i in
      let* pw := rd (ssq_posw E) i in
      let* rest := ssq_err_loop E prev next r in
      Ok (msq (ssq_rotdiff a b) * kSsqOrientationWeight * ssq_rotWgt E * rw +
          vnorm2 (ssq_diff a b) * kSsqPositionWeight * ssq_posWgt E * pw + rest)
  end.
(** getError, lines 50-84. *)
Definition ssq_error (E : ssq_fn) (states : list (list jstate)) : outcome R :=
  let* s := ssq_two states in
  let* e := ssq_err_loop E (fst s) (snd s) (seq 0 (length (ssq_sk E))) in
  Ok (e * ssq_weight E).

(** addGradient, lines 118-184: [sign * 2] times the derivative of the squared
    distances along each active joint parameter of joint [i] and its ancestors. *)
Definition ssq_add_gradient (E : ssq_fn) (sts : list jstate) (i : nat) (si : jstate) (sign pwgt rwgt : R)
  (diff : vec3) (rdiff : mat3) (g : list R) : outcome (list R) :=
  let* ts := st_terms (ssq_as_state E) sts i si in
  add_all g (spread (pt_entries (ssq_pt E))
    (map (fun x => (fst x, sign * 2 * (vdot diff (fst (snd x)) * pwgt + rwgt * mdot (snd (snd x)) rdiff))) ts)).

(** The loop of getGradient, lines 102-188. The gradient is the pair of its two segments. *)
Fixpoint ssq_grad_loop (E : ssq_fn) (prev next : list jstate) (is : list nat) (g0 g1 : list R)
  : outcome (R * (list R * list R)) :=
  match is with
  | [] => Ok (0, (g0, g1))
  | i :: r =>
      let* rw := rd (ssq_rotw E) i in
      let* pw := rd (ssq_posw E) i in
      if Reqb rw 0 && Reqb pw 0 then ssq_grad_loop E prev next r g0 g1
      else
        let* a := rd prev i in
        let* b := rd next i in
        let rwgt := kSsqOrientationWeight * ssq_rotWgt E * ssq_weight E * rw in
        let pwgt := kSsqPositionWeight * ssq_posWgt E * ssq_weight E * pw in
        let rdiff := ssq_rotdiff a b in
        let diff := ssq_diff a b in
        let* g0' := ssq_add_gradient E prev i a (-1) pwgt rwgt diff rdiff g0 in
        let* g1' := ssq_add_gradient E next i b 1 pwgt rwgt diff rdiff g1 in
        let* y := ssq_grad_loop E prev next r g0' g1' in
        Ok (msq rdiff * rwgt + vnorm2 diff * pwgt + fst y, snd y)
  end.
(** getGradient, lines 86-193. *)
Definition ssq_gradient (E : ssq_fn) (states : list (list jstate)) (g : list R) : outcome (R * list R) :=
  let* s := ssq_two states in
  let n := pt_cols (ssq_pt E) in
  let* _ := check (Nat.eqb (length g) (2 * n)) in
  let* r := ssq_grad_loop E (fst s) (snd s) (seq 0 (length (ssq_sk E))) (firstn n g) (skipn n g) in
  Ok (fst r, fst (snd r) ++ snd (snd r)).

(** getJacobianSize, lines 195-200. *)
Definition ssq_jacobian_size (E : ssq_fn) : nat :=
  (length (filter (fun pr => negb (Reqb (fst pr) 0) || negb (Reqb (snd pr) 0)) (combine (ssq_posw E) (ssq_rotw E))) * 12)%nat.

(** The loop of getJacobian, lines 218-323: 12 rows per joint, addJacobian with
    sign -1 into the columns of the first frame and with sign 1 into those of
    the second; the residual is that of lines 244-248. The rows are zero before. *)
Fixpoint ssq_jac_loop (E : ssq_fn) (n : nat) (prev next : list jstate) (is : list nat)
  : outcome (R * list (list R * R)) :=
  match is with
  | [] => Ok (0, [])
  | i :: r =>
      let* rw := rd (ssq_rotw E) i in
      let* pw := rd (ssq_posw E) i in
      if Reqb rw 0 && Reqb pw 0 then ssq_jac_loop E n prev next r
      else
        let* a := rd prev i in
        let* b := rd next i in
        let d := (ssq_diff a b, ssq_rotdiff a b) in
        let rwgt := kSsqOrientationWeight * ssq_rotWgt E * ssq_weight E * rw in
        let pwgt := kSsqPositionWeight * ssq_posWgt E * ssq_weight E * pw in
        let* ta := st_terms (ssq_as_state E) prev i a in
        let* tb := st_terms (ssq_as_state E) next i b in
        let* ra := st_rows (ssq_as_state E) n (-1 * sqrt pwgt) (-1 * sqrt rwgt) d ta (seq 0 12) in
        let* rb := st_rows (ssq_as_state E) n (1 * sqrt pwgt) (1 * sqrt rwgt) d tb (seq 0 12) in
        let rows := map (fun xk => (fst (fst (fst xk)) ++ fst (snd (fst xk)),
                                    sel12 (snd xk) d * (if Nat.ltb (snd xk) 3 then sqrt pwgt else sqrt rwgt)))
                      (combine (combine ra rb) (seq 0 12)) in
        let* y := ssq_jac_loop E n prev next r in
        Ok (msq (snd d) * rwgt + vnorm2 (fst d) * pwgt + fst y, rows ++ snd y)
  end.
(** getJacobian, lines 202-327: error, rows with their residual, usedRows. Writing
    beyond the rows asked for is UB. *)
Definition ssq_jacobian (E : ssq_fn) (cols : nat) (states : list (list jstate))
  : outcome (R * list (list R * R) * nat) :=
  let* s := ssq_two states in
  let n := pt_cols (ssq_pt E) in
  let* _ := check (Nat.eqb cols (2 * n)) in
  let* b := ssq_jac_loop E n (fst s) (snd s) (seq 0 (length (ssq_sk E))) in
  if Nat.leb (length (snd b)) (ssq_jacobian_size E) then Ok (fst b, snd b, length (snd b)) else UB.
