(** C17, C18, C64: parameter limits. *)

From Coq Require Import Bool Reals List Arith String Lia Lra Psatz.
From Coquelicot Require Import Coquelicot.
From Verif Require Import Prelude LinAlg Rbool ParamTransform_model ParamTransform_spec ParamTransform_proofs
  Limits_model Limits_spec FK_spec FK_deriv_proofs Limits_proofs.
Import ListNotations.
Local Open Scope R_scope.

(** C17/C18. getError is exactly the documented penalty. *)
Theorem limit_error_is_penalty : forall E m p jp,
  limit_fn_wf E m -> List.length p = lf_n E -> List.length jp = m ->
  lim_error E p jp = Ok (limit_penalty E p jp).
Proof. exact error_spec_lemma. Qed.
Print Assumptions limit_error_is_penalty.

(** C18. The error is never negative, and zero exactly when every limit is met. *)
Theorem limit_error_zero_iff_inside : forall E m p jp,
  limit_fn_wf E m -> List.length p = lf_n E -> List.length jp = m -> 0 < lf_weight E ->
  (forall l, In l (lf_limits E) -> 0 < lweight l) ->
  exists e, lim_error E p jp = Ok e /\ 0 <= e /\
    (e = 0 <-> forall l, In l (lf_limits E) -> inside E p jp (ldata l)).
Proof. exact error_zero_lemma. Qed.
Print Assumptions limit_error_zero_iff_inside.

(** C17. For an enabled parameter the entry added to the gradient is the
    derivative of getError (linear and half-plane limits: weight 1). *)
Theorem limit_gradient_is_derivative_partial : forall E pt p i q g,
  pt_wf pt -> lf_entries E = pt_entries pt -> lf_n E = pt_cols pt ->
  limit_fn_wf E (pt_rows pt) -> List.length p = pt_cols pt -> List.length g = pt_cols pt ->
  (i < pt_cols pt)%nat -> lf_enabled E i = true ->
  (forall l, In l (lf_limits E) -> away_from_range_ends p (ldata l)) ->
  (forall l, In l (lf_limits E) -> unit_weight_if_two_params l) ->
  (forall t, pt_apply pt (set_nth p i t) = Ok (q t)) ->
  exists F e g',
    (forall t, lim_error E (set_nth p i t) (q t) = Ok (F t)) /\
    lim_gradient E p (q (nth i p 0)) g = Ok (e, g') /\
    is_derive F (nth i p 0) (nth i g' 0 - nth i g 0).
Proof. exact limit_gradient_lemma. Qed.
Print Assumptions limit_gradient_is_derivative_partial.

(** C16/C17. 2 J^T r is the derivative, |r|^2 the error, for all nonnegative
    weights, and the number of rows is getJacobianSize. *)
Theorem limit_jacobian_is_derivative_partial : forall E pt p i q,
  pt_wf pt -> lf_entries E = pt_entries pt -> lf_n E = pt_cols pt ->
  limit_fn_wf E (pt_rows pt) -> List.length p = pt_cols pt ->
  (i < pt_cols pt)%nat -> lf_enabled E i = true -> 0 <= lf_weight E ->
  (forall l, In l (lf_limits E) -> away_from_range_ends p (ldata l)) ->
  (forall l, In l (lf_limits E) -> jac_conditions l) ->
  (forall t, pt_apply pt (set_nth p i t) = Ok (q t)) ->
  exists F e rows,
    (forall t, lim_error E (set_nth p i t) (q t) = Ok (F t)) /\
    lim_jacobian E p (q (nth i p 0)) = Ok (e, rows) /\
    List.length rows = lim_jacobian_size (lf_limits E) /\
    (forall row, In row rows -> List.length (fst row) = lf_n E) /\
    e = F (nth i p 0) /\
    rsum (map (fun row => snd row * snd row) rows) = e /\
    is_derive F (nth i p 0) (2 * jt_r rows i).
Proof. exact limit_jacobian_lemma. Qed.
Print Assumptions limit_jacobian_is_derivative_partial.

(** C18. Clamping of passive joint limits: every limited joint parameter ends in
    its interval, the others and those already inside are untouched, and a second
    call changes nothing. *)
Theorem apply_passive_clamps : forall ls jp,
  (forall l i lo hi, In l ls -> passive_index l = Some (i, lo, hi) -> (i < List.length jp)%nat /\ lo <= hi) ->
  passive_once ls ->
  exists jp', apply_passive ls jp = Ok jp' /\ List.length jp' = List.length jp /\
    (forall l i lo hi, In l ls -> passive_index l = Some (i, lo, hi) -> lo <= nth i jp' 0 <= hi) /\
    (forall k, (forall l i lo hi, In l ls -> passive_index l = Some (i, lo, hi) -> i <> k) ->
       nth k jp' 0 = nth k jp 0) /\
    (forall k, (forall l lo hi, In l ls -> passive_index l = Some (k, lo, hi) -> lo <= nth k jp 0 <= hi) ->
       nth k jp' 0 = nth k jp 0) /\
    apply_passive ls jp' = Ok jp'.
Proof. exact apply_passive_lemma. Qed.
Print Assumptions apply_passive_clamps.

(** ** A concrete case *)

Definition exl_pt : ptransform := PT ["a"; "b"]%string 7 2
  [Entry 0 0 1; Entry 0 1 2; Entry 3 1 (-1)] [0; 0; 0; 1; 0; 0; 0] (repeat true 7) [] [] [] [].
Definition exl_E : limit_fn :=
  LimitFn [PLimit (LMinMax 0 (-1) 1) 3; PLimit (LMinMaxJoint 0 3 0 2) 2;
           PLimit (LLinear 0 1 2 0 0 0) 1; PLimit (LHalfPlane 0 1 1 1 5) 1;
           PLimit (LMinMaxJointPassive 0 0 0 1) 1]
          4 (fun _ => true) (repeat true 7) (pt_entries exl_pt) 2.
Definition exl_q (p : list R) : list R := vadd_list (mat_vec exl_pt p) (pt_offsets exl_pt).

Ltac in_cases H := cbn in H; repeat (destruct H as [<-|H]); try contradiction.

Example exl_pt_wf : pt_wf exl_pt.
Proof.
  constructor; try reflexivity; try (intros; contradiction).
  - cbn [exl_pt pt_cols]. unfold kMaxModelParams. lia.
  - intros e H. in_cases H; cbn; lia.
Qed.
Example exl_wf : limit_fn_wf exl_E 7.
Proof.
  constructor; try reflexivity.
  - cbn [exl_E lf_n]. unfold kMaxModelParams. lia.
  - intros e H. in_cases H; cbn; lia.
  - intros l H. in_cases H; cbn; lia.
Qed.
Example exl_hyps : (forall l, In l (lf_limits exl_E) -> 0 < lweight l) /\
  (forall l, In l (lf_limits exl_E) -> away_from_range_ends [2; 1] (ldata l)) /\
  (forall l, In l (lf_limits exl_E) -> unit_weight_if_two_params l) /\
  (forall l, In l (lf_limits exl_E) -> jac_conditions l) /\
  (forall t, pt_apply exl_pt (set_nth [2; 1] 1 t) = Ok (exl_q (set_nth [2; 1] 1 t))).
Proof.
  split; [|split; [|split; [|split]]].
  - intros l H. in_cases H; cbn; lra.
  - intros l H. in_cases H; cbn; auto.
  - intros l H. in_cases H; cbn; auto.
  - intros l H. in_cases H; unfold jac_conditions; cbn; split; try lra; try lia; exact I.
  - intros t. reflexivity.
Qed.
(** Parameter 0 exceeds its maximum by 1, the half plane is violated by 2. *)
Example exl_error : lim_error exl_E [2; 1] (exl_q [2; 1]) = Ok (10 * 4 * (3 * 1 + 1 * 0 + 1 * 4)).
Proof.
  rewrite (limit_error_is_penalty exl_E 7) by (auto; exact exl_wf). f_equal.
  unfold limit_penalty. cbn -[Rmult Rplus Rminus excess2 is_in_range]. unfold is_in_range.
  destruct (Reqb_spec 0 0) as [_|C]; [cbn [andb]|contradiction].
  rewrite !(excess2_neg (-1 - 2)), !(excess2_pos (2 - 1)) by lra.
  rewrite !(excess2_pos (5 - (2 * 1 + 1 * 1))) by lra.
  rewrite !(excess2_neg (0 - _)), !(excess2_neg (_ - 2)) by lra. ring.
Qed.
Example exl_passive : passive_once (lf_limits exl_E) /\
  (forall l i lo hi, In l (lf_limits exl_E) -> passive_index l = Some (i, lo, hi) -> (i < 7)%nat /\ lo <= hi).
Proof.
  split.
  - intros l1 l2 a b c i lo hi lo' hi' E E1 E2.
    assert (C : List.length (filter (fun l => match passive_index l with Some _ => true | None => false end) (lf_limits exl_E)) = 1%nat) by reflexivity.
    rewrite E, filter_app in C. cbn [filter] in C. rewrite E1, filter_app in C. cbn [filter] in C. rewrite E2 in C.
    rewrite app_length in C. cbn [List.length] in C. rewrite app_length in C. cbn [List.length] in C. lia.
  - intros l i lo hi H E. in_cases H; cbn in E; try discriminate. injection E as <- <- <-. split; [lia|lra].
Qed.

(** ** What fails *)

(** C17. The gradient of a linear limit ignores the weight of the limit. *)
Definition exw_E (w : R) : limit_fn :=
  LimitFn [PLimit (LLinear 1 0 1 0 0 0) w] 1 (fun _ => true) (repeat true 7) (pt_entries exl_pt) 2.
Theorem limit_gradient_uses_limit_weight_refuted :
  exists E p i q g F e g',
    limit_fn_wf E (pt_rows exl_pt) /\ lf_entries E = pt_entries exl_pt /\ (i < pt_cols exl_pt)%nat /\ lf_enabled E i = true /\
    (forall l, In l (lf_limits E) -> away_from_range_ends p (ldata l)) /\
    (forall t, pt_apply exl_pt (set_nth p i t) = Ok (q t)) /\
    (forall t, lim_error E (set_nth p i t) (q t) = Ok (F t)) /\
    lim_gradient E p (q (nth i p 0)) g = Ok (e, g') /\
    is_derive F (nth i p 0) (2 * (nth i g' 0 - nth i g 0)) /\
    nth i g' 0 - nth i g 0 <> 0.
Proof.
  assert (W : limit_fn_wf (exw_E 2) 7).
  { constructor; try reflexivity.
    - cbn [exw_E lf_n]. unfold kMaxModelParams. lia.
    - intros e H. in_cases H; cbn; lia.
    - intros l H. in_cases H; cbn; lia. }
  exists (exw_E 2), [1; 0], 0%nat, (fun t => exl_q (set_nth [1; 0] 0 t)), [0; 0],
    (fun t => limit_penalty (exw_E 2) (set_nth [1; 0] 0 t) (exl_q (set_nth [1; 0] 0 t))).
  eexists. eexists. split; [exact W|]. split; [reflexivity|]. split; [cbn; lia|]. split; [reflexivity|].
  assert (AW : forall l, In l (lf_limits (exw_E 2)) -> away_from_range_ends [1; 0] (ldata l)).
  { intros l H. in_cases H; cbn; auto. }
  split; [exact AW|]. split; [intros; reflexivity|]. split; [|split; [|split]].
  - intros t. apply (error_spec_lemma _ 7); [exact W|reflexivity|reflexivity].
  - unfold lim_gradient. cbn [lim_grad_loop exw_E lf_limits lim_grad1 ldata check obind List.length Nat.ltb Nat.leb rd nth_error].
    unfold is_in_range. destruct (Reqb_spec 0 0) as [_|C]; [cbn [andb]|contradiction].
    reflexivity.
  - eapply d_eq; [apply penalty_derive|].
    + cbn. lia.
    + apply (apply_derive exl_pt [1; 0] 0); [exact exl_pt_wf|reflexivity|cbn; lia|intros; reflexivity].
    + exact AW.
    + cbn -[Rmult Rplus Rminus Ropp is_in_range]. unfold is_in_range. destruct (Reqb_spec 0 0) as [_|C]; [cbn [andb]|contradiction].
      unfold kLimitWeight. ring.
  - cbn -[Rmult Rplus Rminus Ropp]. unfold kLimitWeight. lra.
Qed.
Print Assumptions limit_gradient_uses_limit_weight_refuted.

(** C64. getGradient counts a linear limit whose parameters are both disabled,
    getError does not. *)
Definition exd_E : limit_fn :=
  LimitFn [PLimit (LLinear 1 0 1 0 0 0) 1] 1 (fun _ => false) (repeat true 7) (pt_entries exl_pt) 2.
Theorem limit_gradient_returns_error_refuted :
  exists E p jp g e1 e2 g', limit_fn_wf E 7 /\ lim_error E p jp = Ok e1 /\ lim_gradient E p jp g = Ok (e2, g') /\ e1 <> e2.
Proof.
  exists exd_E, [1; 0], (exl_q [1; 0]), [0; 0], 0. eexists. eexists. split; [|split; [|split]].
  - constructor; try reflexivity.
    + cbn [exd_E lf_n]. unfold kMaxModelParams. lia.
    + intros e H. in_cases H; cbn; lia.
    + intros l H. in_cases H; cbn; lia.
  - unfold lim_error. cbn -[Rmult Rplus Rminus Ropp is_in_range]. f_equal. ring.
  - unfold lim_gradient. cbn [lim_grad_loop exd_E lf_limits lim_grad1 ldata check obind List.length Nat.ltb Nat.leb rd nth_error].
    unfold is_in_range. destruct (Reqb_spec 0 0) as [_|C]; [cbn [andb]|contradiction]. reflexivity.
  - unfold kLimitWeight. cbn -[Rmult Rplus Rminus Ropp]. lra.
Qed.
Print Assumptions limit_gradient_returns_error_refuted.

(** C64. Otherwise the two agree. *)
Theorem limit_gradient_returns_error_partial : forall E m p jp g i,
  limit_fn_wf E m -> List.length p = lf_n E -> List.length jp = m -> List.length g = lf_n E ->
  (i < lf_n E)%nat -> lf_enabled E i = true ->
  (forall l, In l (lf_limits E) -> unit_weight_if_two_params l) ->
  (forall l, In l (lf_limits E) -> counted (lf_enabled E) (ldata l)) ->
  exists e g', lim_error E p jp = Ok e /\ lim_gradient E p jp g = Ok (e, g').
Proof. exact gradient_error_lemma. Qed.
Print Assumptions limit_gradient_returns_error_partial.

(** C18. A limit whose index equals the number of parameters passes the check in
    getError and reads out of bounds. *)
Theorem limit_index_check_refuted :
  exists E p jp, lf_limits E = [PLimit (LMinMax (List.length p) 0 1) 1] /\ lim_error E p jp = UB.
Proof.
  exists (LimitFn [PLimit (LMinMax 2 0 1) 1] 1 (fun _ => true) [] [] 2), [0; 0], [].
  split; [reflexivity|]. reflexivity.
Qed.
Print Assumptions limit_index_check_refuted.

(** C18. Two passive limits on the same joint parameter: the later wins. *)
Theorem apply_passive_overlapping_refuted :
  exists ls jp jp' l i lo hi, apply_passive ls jp = Ok jp' /\ In l ls /\ passive_index l = Some (i, lo, hi) /\
    lo <= hi /\ ~ (lo <= nth i jp' 0 <= hi).
Proof.
  exists [PLimit (LMinMaxJointPassive 0 0 0 1) 1; PLimit (LMinMaxJointPassive 0 0 2 3) 1], [0], [2].
  exists (PLimit (LMinMaxJointPassive 0 0 0 1) 1), 0%nat, 0, 1.
  split; [|split; [left; reflexivity|split; [reflexivity|split; [lra|cbn; lra]]]].
  cbn -[Rltb].
  repeat match goal with |- context [Rltb ?a ?b] => destruct (Rltb_spec a b); [try (exfalso; lra)|try (exfalso; lra)]; cbn -[Rltb] end.
  reflexivity.
Qed.
Print Assumptions apply_passive_overlapping_refuted.
