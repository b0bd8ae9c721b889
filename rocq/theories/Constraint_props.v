(** C15, C16, C03: what the constraint error functions compute, for every
    skeleton, parameter transform, pose, loss and list of constraints. *)

From Coq Require Import Bool Reals List Arith Lia Lra String.
From Coquelicot Require Import Coquelicot.
From Verif Require Import Prelude LinAlg Rbool R3 Transform_model Skeleton_model Skeleton_spec FK_model
  FK_spec FK_proofs FK_deriv_proofs FK_axis_proofs ParamTransform_model ParamTransform_spec Limits_model
  Limits_spec Limits_proofs Loss_model Loss_proofs Constraint_model Constraint_spec Constraint_eval_proofs
  Constraint_proofs Constraint_deriv_proofs.
Import ListNotations.
Local Open Scope R_scope.

(** C03. The velocity of a direction fixed to a joint is the sum over the chain of
    the rotation accessors times the parameter velocities. *)
Theorem fk_direction_derivative :
  forall sk P P' t0 sts0 j l (S : R -> jstate),
  parents_first (sk_parents sk) -> unit_prerotations sk -> chain sk j l ->
  (forall t, exists sts, fk sk (P t) = Ok sts /\ nth_error sts j = Some (S t)) ->
  fk sk (P t0) = Ok sts0 ->
  (forall i, (i < 7 * List.length sk)%nat -> is_derive (fun t => nth i (P t) 0) t0 (nth i P' 0)) ->
  forall c, let x := qrot (rot (js_world (S t0))) c in
  is_vderive (fun t => qrot (rot (js_world (S t))) c) t0
    (vsum (map (fun a => match nth_error sts0 a with
                         | Some sa => axis_velocity sa (jparam_at P' a) x
                         | None => vzero end) l)).
Proof. exact fk_axis_derivative_lemma. Qed.
Print Assumptions fk_direction_derivative.

(** C15. getError is the weighted sum of the losses of the squared residuals. *)
Theorem constraint_error_is_objective : forall E params sts,
  parents_first (sk_parents (cf_sk E)) -> cfn_wf E -> fk (cf_sk E) params = Ok sts ->
  (forall c s, In c (cf_constraints E) -> nth_error sts (cparent c) = Some s -> smooth (cdat c) (js_world s)) ->
  cf_error E sts = Ok (constraint_objective E sts).
Proof. exact error_formula_lemma. Qed.
Print Assumptions constraint_error_is_objective.

(** C15. getGradient returns the error and adds its derivative: for an enabled
    parameter [i], [F] is getError along that parameter (through the parameter
    transform and forward kinematics). Entries of disabled parameters are left
    alone. Partial: residuals within the isZero tolerance of zero, and the points
    where the residual is not smooth, are excluded ([regular]). *)
Theorem constraint_gradient_is_derivative_partial : forall E p sts g al cc i,
  cfn_wf E -> parents_first (sk_parents (cf_sk E)) -> unit_prerotations (cf_sk E) -> pt_wf (cf_pt E) ->
  loss_make al cc = Ok (cf_loss E) ->
  List.length p = pt_cols (cf_pt E) -> List.length g = pt_cols (cf_pt E) ->
  state_of (cf_sk E) (cf_pt E) p = Ok sts ->
  (forall c s, In c (cf_constraints E) -> nth_error sts (cparent c) = Some s -> regular (cf_prec E) c s) ->
  (i < pt_cols (cf_pt E))%nat -> cf_enabled E i = true ->
  exists F g',
    (forall t, exists st, state_of (cf_sk E) (cf_pt E) (set_nth p i t) = Ok st /\ cf_error E st = Ok (F t)) /\
    cf_gradient E sts g = Ok (F (nth i p 0), g') /\
    is_derive F (nth i p 0) (nth i g' 0 - nth i g 0) /\
    (forall k, cf_enabled E k = false -> nth k g' 0 = nth k g 0).
Proof. exact constraint_gradient_lemma. Qed.
Print Assumptions constraint_gradient_is_derivative_partial.

(** C16. getJacobian: one block of rows per constraint, 2 J^T r is the derivative
    of getError, the returned error is getError, and for the L2 loss it is |r|^2.
    [n] is the number of columns of the matrix, beyond every enabled parameter. *)
Theorem constraint_jacobian_is_derivative_partial : forall E p sts n al cc i,
  cfn_wf E -> parents_first (sk_parents (cf_sk E)) -> unit_prerotations (cf_sk E) -> pt_wf (cf_pt E) ->
  loss_make al cc = Ok (cf_loss E) ->
  List.length p = pt_cols (cf_pt E) ->
  (forall k, cf_enabled E k = true -> (k < pt_cols (cf_pt E))%nat -> (k < n)%nat) ->
  state_of (cf_sk E) (cf_pt E) p = Ok sts ->
  (forall c s, In c (cf_constraints E) -> nth_error sts (cparent c) = Some s -> jac_regular E c s) ->
  (i < pt_cols (cf_pt E))%nat -> cf_enabled E i = true ->
  exists F rows,
    (forall t, exists st, state_of (cf_sk E) (cf_pt E) (set_nth p i t) = Ok st /\ cf_error E st = Ok (F t)) /\
    cf_jacobian E n sts = Ok (F (nth i p 0), rows) /\
    List.length rows = cf_jacobian_size (cf_constraints E) /\
    (forall row, In row rows -> List.length (fst row) = n) /\
    is_derive F (nth i p 0) (2 * jt_r rows i) /\
    (loss_kind (cf_loss E) = TL2 -> rsum (map (fun row => snd row * snd row) rows) = F (nth i p 0)) /\
    (forall k row, cf_enabled E k = false -> In row rows -> nth k (fst row) 0 = 0).
Proof. exact constraint_jacobian_lemma. Qed.
Print Assumptions constraint_jacobian_is_derivative_partial.

(** ** A concrete case: one joint that slides along x and turns about z *)

Definition exc_sk : skeleton := [Joint None vzero qid].
Definition exc_pt : ptransform := PT ["x"; "rz"]%string 7 2
  [Entry 0 0 1; Entry 5 1 2] (repeat 0 7) (repeat true 7) [] [] [] [].
Definition exc_loss : loss := Loss 2 (1 / (1 * 1)) (loss_type_of 2).
Definition exc_E (cs : list constr) : cfn :=
  CFn exc_sk exc_pt 3 (repeat true 7) (fun _ => true) exc_loss cs (/ 10 ^ 12) (/ 10 ^ 16).
Definition exc_cs : list constr :=
  [Constr 0 2 (CPosition ex (V3 0 1 0)); Constr 0 1 (CPlane true ex ey 1);
   Constr 0 1 (CFixedAxisCos ex ey); Constr 0 5 (CAimDist vzero ex (V3 0 2 0))].

Lemma exc_wf cs : (forall c, In c cs -> cparent c = 0%nat) -> cfn_wf (exc_E cs).
Proof.
  intros H. constructor; try reflexivity.
  - intros e He _. cbn in He. destruct He as [<-|[<-|[]]]; reflexivity.
  - intros c Hc. cbn in *. rewrite (H c Hc). lia.
  - cbn [exc_E cf_prec]. left. apply Rinv_0_lt_compat, pow_lt. lra.
Qed.
Lemma exc_pt_wf : pt_wf exc_pt.
Proof.
  constructor; try reflexivity; try (intros; contradiction).
  - cbn [exc_pt pt_cols]. unfold kMaxModelParams. lia.
  - intros e H. cbn in H. destruct H as [<-|[<-|[]]]; cbn; lia.
Qed.
Lemma exc_sk_ok : parents_first (sk_parents exc_sk) /\ unit_prerotations exc_sk.
Proof.
  split; [intros [|[|i]] q H; cbn in H; discriminate|].
  intros [|[|i]] jt H; cbn in H; try discriminate. injection H as <-. unfold qunit, qnorm2; cbn; lra.
Qed.
Lemma exc_loss_ok : loss_make 2 1 = Ok exc_loss.
Proof. unfold loss_make. destruct (Rltb_spec 0 1); [reflexivity|lra]. Qed.

Lemma qaxis_0 v : qaxis 0 v = qid.
Proof. unfold qaxis. replace (0 / 2) with 0 by field. rewrite cos_0, sin_0. unfold qid. f_equal; ring. Qed.
Lemma exp2_0 : exp2 0 = 1.
Proof. unfold exp2. rewrite Rmult_0_l. apply exp_0. Qed.
Definition exc_state (x : R) : jstate :=
  JS mid (TF qid (V3 x 0 0) 1) (TF qid (V3 x 0 0) 1) mid mid.
Lemma exc_jss x : joint_state_set (Joint None vzero qid) (JP x 0 0 0 0 0 0) None = exc_state x.
Proof.
  unfold joint_state_set. cbn [jtx jty jtz jrx jry jrz jsc jprerot joffset]. cbv zeta.
  rewrite !qaxis_0, exp2_0, !qmul_id_l.
  unfold tf_affine, tf_mul, tf_id, tf_linear. cbn [rot trans scl alin].
  rewrite !qmul_id_l, !qrot_id, ?vscale_1, !vadd_0_l, Rmult_1_l. unfold exc_state. f_equal. vec_ring.
Qed.
Lemma exc_state_of x cs : state_of (cf_sk (exc_E cs)) (cf_pt (exc_E cs)) [x; 0] = Ok [exc_state x].
Proof.
  unfold state_of. cbn [exc_E cf_sk cf_pt]. unfold pt_apply.
  cbn [exc_pt pt_cols pt_offsets pt_rows List.length Nat.eqb check obind repeat].
  unfold mat_vec, row_dot. cbn [pt_rows exc_pt pt_entries map seq erow ecol eval Nat.eqb filter rsum nth vadd_list].
  unfold fk. cbn [List.length exc_sk Nat.mul Nat.add Nat.eqb fk_from jparent obind app].
  unfold jparam_at. cbn [Nat.mul Nat.add nth].
  unfold vadd_list. cbn [negb obind map combine fst snd nth List.length Nat.eqb].
  match goal with |- Ok [joint_state_set _ ?j _] = _ => replace j with (JP x 0 0 0 0 0 0) by (f_equal; ring) end.
  rewrite exc_jss. reflexivity.
Qed.

Example exc_regular : forall c s, In c exc_cs -> nth_error [exc_state 0] (cparent c) = Some s ->
  regular (/ 10 ^ 12) c s.
Proof.
  assert (P : / 10 ^ 12 < 1).
  { rewrite <- Rinv_1. apply Rinv_lt_contravar; [rewrite Rmult_1_l; apply pow_lt; lra|].
    apply Rlt_pow_R1; [lra|lia]. }
  assert (A1 : Rabs 1 = 1) by (apply Rabs_pos_eq; lra).
  assert (A2 : Rabs (-1) = 1) by (rewrite Rabs_left by lra; ring).
  assert (A3 : Rabs (-2) = 2) by (rewrite Rabs_left by lra; ring).
  intros c s Hc Hs. cbn in Hc. destruct Hc as [<-|[<-|[<-|[<-|[]]]]]; injection Hs as <-.
  - constructor; [exact I| |].
    + right. exists 1. split; [left; unfold act; cbn; ring|rewrite A1; exact P].
    + intros m [<-|[]]. right. exists ex, 1. split; [left; reflexivity|]. split; [left; reflexivity|rewrite A1; exact P].
  - assert (V : vdot (act (exc_state 0) ex) ey - 1 = -1) by (unfold act, vdot; cbn; ring).
    constructor; [exact I| |]; cbn [eval_function cdat ev_f ev_d andb negb orb]; rewrite V;
      (destruct (Rltb_spec 0 (-1)); [lra|]).
    + right. exists (-1). split; [left; reflexivity|rewrite A2; exact P].
    + destruct (Rltb_spec (-1) 0); [|lra].
      intros m [<-|[]]. right. exists ey, 1. split; [left; reflexivity|]. split; [right; left; reflexivity|rewrite A1; exact P].
  - constructor; [exact I| |]; cbn [eval_function cdat ev_f ev_d].
    + right. exists 1. split; [left; unfold act_rot, vdot; cbn; ring|rewrite A1; exact P].
    + intros m [<-|[]]. right. exists (vscale (-1) ey), (-1). split; [left; reflexivity|].
      split; [right; left; cbn; ring|rewrite A2; exact P].
  - constructor; [exact I| |]; cbn [eval_function cdat ev_f ev_d].
    + right. exists (-2). split; [right; left; unfold act, act_rot, vdot; cbn; ring|rewrite A3; lra].
    + intros m [<-|[<-|[]]]; right.
      * eexists. exists 1. split; [right; left; reflexivity|].
        split; [right; left; unfold act_rot; cbn; ring|rewrite A1; exact P].
      * eexists. exists 2. split; [left; reflexivity|].
        split; [right; left; unfold act_rot, act; cbn; ring|rewrite Rabs_pos_eq; lra].
Qed.
(** 3 * (2 * (1 + 1) + 1 + 1 + 5 * 4) *)
Example exc_error : cf_error (exc_E exc_cs) [exc_state 0] = Ok 78.
Proof.
  rewrite cf_error_ok.
  - f_equal. cbn [exc_E cf_weight cf_constraints exc_cs map rsum]. unfold err1. cbn [cparent nth_error cweight cdat].
    cbn [exc_E cf_loss]. unfold loss_value, exc_loss. cbn [loss_kind loss_alpha loss_invC2]. rewrite type_2.
    unfold l2_loss, sqnorm. cbn [vecs feval nth andb].
    assert (V : vdot (act (exc_state 0) ex) ey - 1 = -1) by (unfold act, vdot; cbn; ring).
    rewrite V. destruct (Rltb_spec 0 (-1)); [lra|].
    unfold act, act_rot, vdot, vlist; cbn. field.
  - intros c Hc. cbn in Hc. destruct Hc as [<-|[<-|[<-|[<-|[]]]]]; cbn; lia.
Qed.
Example exc_jac_regular : forall c s, In c exc_cs -> nth_error [exc_state 0] (cparent c) = Some s ->
  jac_regular (exc_E exc_cs) c s.
Proof.
  intros c s Hc Hs. destruct (exc_regular c s Hc Hs) as [R1 _ R3].
  constructor; [exact R1|exact R3| |].
  - cbn in Hc. destruct Hc as [<-|[<-|[<-|[<-|[]]]]]; cbn; lra.
  - right. unfold loss_deriv. cbn [exc_E cf_loss exc_loss loss_kind loss_alpha loss_invC2 cf_tol]. rewrite type_2.
    unfold deriv_l2_loss. cbn [cf_weight].
    apply Rle_trans with (sqrt 1).
    + rewrite sqrt_1. rewrite <- Rinv_1. apply Rinv_le_contravar; [lra|].
      left. apply Rlt_pow_R1; [lra|lia].
    + apply sqrt_le_1_alt. cbn in Hc. destruct Hc as [<-|[<-|[<-|[<-|[]]]]]; cbn; lra.
Qed.

(** ** What fails *)

(** C15. A residual within the tolerance of isZero: getGradient reports error 0 and
    adds nothing, while the error and its derivative are not 0. *)
Theorem constraint_gradient_small_residual_refuted :
  exists E p sts g F D,
    cfn_wf E /\ parents_first (sk_parents (cf_sk E)) /\ unit_prerotations (cf_sk E) /\ pt_wf (cf_pt E) /\
    (0 < pt_cols (cf_pt E))%nat /\ cf_enabled E 0%nat = true /\
    state_of (cf_sk E) (cf_pt E) p = Ok sts /\
    (forall t, exists st, state_of (cf_sk E) (cf_pt E) (set_nth p 0 t) = Ok st /\ cf_error E st = Ok (F t)) /\
    cf_gradient E sts g = Ok (0, g) /\ F (nth 0 p 0) <> 0 /\
    is_derive F (nth 0 p 0) D /\ D <> 0.
Proof.
  set (d := / 10 ^ 12). assert (Hd : 0 < d) by (apply Rinv_0_lt_compat, pow_lt; lra).
  set (cs := [Constr 0 1 (CPosition vzero (V3 d 0 0))]).
  exists (exc_E cs), [0; 0], [exc_state 0], [0; 0], (fun t => 3 * ((t - d) * (t - d))), (- 6 * d).
  split; [apply exc_wf; intros c [<-|[]]; reflexivity|]. split; [apply exc_sk_ok|]. split; [apply exc_sk_ok|].
  split; [exact exc_pt_wf|]. split; [cbn; lia|]. split; [reflexivity|]. split; [apply exc_state_of|]. split; [|split; [|split; [|split]]].
  - intros t. exists [exc_state t]. split; [apply exc_state_of|].
    rewrite cf_error_ok by (intros c [<-|[]]; cbn; lia).
    f_equal. cbn [exc_E cf_weight cf_constraints cs map rsum]. unfold err1. cbn [cparent nth_error cweight cdat].
    cbn [exc_E cf_loss]. unfold loss_value, exc_loss. cbn [loss_kind loss_alpha loss_invC2]. rewrite type_2.
    unfold l2_loss, sqnorm, act, vlist. cbn. field.
  - assert (Z : is_zero d (ev_f (eval_function (CPosition vzero (V3 d 0 0)) (exc_state 0))) = true).
    { unfold is_zero. apply forallb_forall. intros x Hx. cbn in Hx.
      assert (X : x = - d \/ x = 0).
      { destruct Hx as [<-|[<-|[<-|[]]]]; [left|right|right]; ring. }
      destruct (Rleb_spec (Rabs x) d) as [_|C]; [reflexivity|]. exfalso. apply C.
      destruct X as [-> | ->]; [rewrite Rabs_Ropp, Rabs_pos_eq; lra|rewrite Rabs_R0; lra]. }
    unfold cf_gradient. cbn [exc_E cf_constraints cs cf_grad_loop]. unfold cf_grad1. cbn [cweight].
    destruct (Reqb_spec 1 0) as [C|_]; [lra|]. unfold at_. cbn [nth_error cparent obind cdat exc_E cf_prec].
    fold d. rewrite Z. cbn [obind snd add_all fst]. cbn [exc_E exc_pt cf_pt pt_cols repeat List.length Nat.eqb]. unfold vadd_list; cbn [map combine].
    rewrite !Rplus_0_r. reflexivity.
  - cbn. nra.
  - cbn [nth]. eapply d_eq.
    + apply (d_scal 3 (fun t => (t - d) * (t - d))).
      apply (d_mult (fun t => t - d) (fun t => t - d)); (apply d_minus; [apply @is_derive_id|apply d_const]).
    + cbv beta. unfold one; cbn. ring.
  - lra.
Qed.
Print Assumptions constraint_gradient_small_residual_refuted.
