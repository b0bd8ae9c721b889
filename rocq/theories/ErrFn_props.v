(** C19, C20, C21, C66, C67: the model-parameter, state and union error functions,
    and the function a solver minimises. *)

From Coq Require Import Bool Reals List Arith Lia Lra String.
From Coquelicot Require Import Coquelicot.
From Verif Require Import Prelude LinAlg Rbool R3 Transform_model Skeleton_model Skeleton_spec FK_model
  FK_spec FK_proofs FK_deriv_proofs ParamTransform_model ParamTransform_spec Limits_model
  Limits_spec Limits_proofs Loss_model Constraint_model Constraint_spec Constraint_deriv_proofs Constraint_props
  ErrFn_model ErrFn_spec ErrFn_mp_proofs ErrFn_st_proofs ErrFn_proofs.
Import ListNotations.
Local Open Scope R_scope.

(** ** C19: model parameters *)

Theorem model_parameters_error_is_objective : forall E p,
  mp_wf E (List.length p) -> mp_error E p = Ok (mp_objective E p).
Proof. exact mp_error_lemma. Qed.
Print Assumptions model_parameters_error_is_objective.

Theorem model_parameters_gradient_is_derivative : forall E p g i,
  mp_wf E (List.length p) -> List.length g = List.length p -> (i < List.length p)%nat ->
  exists g', mp_gradient E p g = Ok (mp_objective E p, g') /\ List.length g' = List.length g /\
    is_derive (fun t => mp_objective E (set_nth p i t)) (nth i p 0) (nth i g' 0 - nth i g 0) /\
    (mp_enabled E i = false -> nth i g' 0 = nth i g 0).
Proof. exact mp_gradient_lemma. Qed.
Print Assumptions model_parameters_gradient_is_derivative.

(** One row per enabled parameter of positive weight, within getJacobianSize. *)
Theorem model_parameters_jacobian_is_derivative : forall E p i,
  mp_wf E (List.length p) -> 0 <= mp_weight E ->
  (forall j, (j < List.length p)%nat -> 0 <= nth j (mp_weights E) 0) -> (i < List.length p)%nat ->
  exists rows, mp_jacobian E (List.length p) p = Ok (mp_objective E p, rows, List.length rows) /\
    List.length rows =
      List.length (filter (fun j => andb (mp_enabled E j) (Rltb 0 (nth j (mp_weights E) 0))) (seq 0 (List.length p))) /\
    (List.length rows <= mp_jacobian_size E)%nat /\
    (forall row, In row rows -> List.length (fst row) = List.length p) /\
    is_derive (fun t => mp_objective E (set_nth p i t)) (nth i p 0) (2 * jt_r rows i) /\
    rsum (map (fun row => snd row * snd row) rows) = mp_objective E p.
Proof. exact mp_jacobian_lemma. Qed.
Print Assumptions model_parameters_jacobian_is_derivative.

Definition exm_E : mp_fn := MpFn [1; 2; 3] [2; 0; 1] 5 (fun i => negb (Nat.eqb i 2)).
Example exm_wf : mp_wf exm_E 3 /\ 0 <= mp_weight exm_E /\
  (forall j, (j < 3)%nat -> 0 <= nth j (mp_weights exm_E) 0) /\ mp_objective exm_E [4; 4; 4] = 18.
Proof.
  split; [constructor; try reflexivity; unfold kMaxModelParams; lia|]. split; [cbn; lra|]. split.
  - intros [|[|[|j]]] H; cbn; try lra; lia.
  - unfold mp_objective, sumn. cbn. field.
Qed.

(** A negative weight counts in getError but has no row in getJacobian. *)
Theorem model_parameters_jacobian_negative_weight_refuted : exists E p e rows used D,
  mp_wf E (List.length p) /\ 0 <= mp_weight E /\ (0 < List.length p)%nat /\
  mp_jacobian E (List.length p) p = Ok (e, rows, used) /\
  e <> mp_objective E p /\
  is_derive (fun t => mp_objective E (set_nth p 0 t)) (nth 0 p 0) D /\ D <> 2 * jt_r rows 0.
Proof.
  set (E := MpFn [0] [-1] 10 (fun _ => true)).
  assert (W : mp_wf E 1) by (constructor; try reflexivity; unfold kMaxModelParams; lia).
  exists E, [1], 0, [], 0%nat, 2. split; [exact W|]. split; [cbn; lra|]. split; [cbn; lia|].
  split; [|split; [|split]].
  - unfold mp_jacobian. cbn -[Rltb Rmult]. unfold ps_test. cbn [mp_jac_loop obind].
    destruct (Rltb_spec 0 (-1)); [lra|]. cbn. f_equal. f_equal. f_equal. ring.
  - unfold mp_objective, sumn. cbn. lra.
  - destruct (mp_gradient_lemma E [1] [0] 0 W eq_refl ltac:(cbn; lia)) as [g' [E1 [_ [D _]]]].
    eapply d_eq; [exact D|]. unfold mp_gradient in E1. cbn -[Rmult Rminus Rplus] in E1. injection E1 as _ <-. unfold kMotionWeight. cbn. field.
  - unfold jt_r. cbn. lra.
Qed.
Print Assumptions model_parameters_jacobian_negative_weight_refuted.

(** ** C20: states *)

Theorem state_error_is_objective : forall E i p jp sts,
  st_wf E i -> character_wf (st_sk E) (st_pt E) -> List.length p = pt_cols (st_pt E) -> (i < pt_cols (st_pt E))%nat ->
  pt_apply (st_pt E) p = Ok jp -> fk (st_sk E) jp = Ok sts ->
  st_error E p jp sts = Ok (st_objective E p sts).
Proof. exact st_error_lemma. Qed.
Print Assumptions state_error_is_objective.

(** getGradient adds the derivative of getError. Partial: the parameter's own
    target must have weight 0 or 1, or be met. *)
Theorem state_gradient_is_derivative_partial : forall E p i,
  character_wf (st_sk E) (st_pt E) -> List.length p = pt_cols (st_pt E) -> (i < pt_cols (st_pt E))%nat ->
  st_wf E i ->
  (nth i (st_tpw E) 0 = 0 \/ nth i (st_tpw E) 0 = 1 \/ nth i p 0 = nth i (st_tparams E) 0) ->
  exists F d, gradient_contract (st_sk E) (st_pt E) (of_state E) p i F d.
Proof. exact state_gradient_thm. Qed.
Print Assumptions state_gradient_is_derivative_partial.

(** 2 J^T r is the derivative, and the squared residuals add up to the error. *)
Theorem state_jacobian_is_derivative : forall E p i,
  character_wf (st_sk E) (st_pt E) -> List.length p = pt_cols (st_pt E) -> (i < pt_cols (st_pt E))%nat ->
  st_wf E i -> nonneg_weights E -> resolved (st_prec E) (st_tpw E) -> 0 <= st_prec E ->
  exists F d, jacobian_contract (st_sk E) (st_pt E) (of_state E) p i F d /\
    forall s e rows used, sf_state (st_sk E) (st_pt E) p = Ok s ->
      ef_jacobian (of_state E) (List.length p) p s = Ok (e, rows, used) ->
      List.length rows = ef_jsize (of_state E) /\ rsum (map (fun row => snd row * snd row) rows) = e.
Proof. exact state_jacobian_thm. Qed.
Print Assumptions state_jacobian_is_derivative.

Definition exs_E (tpw0 : R) : st_fn :=
  StFn exc_sk exc_pt [TF qid (V3 2 1 0) 1] [0; 1] [tpw0; 0] [3] [2] 1000 1 1 (repeat true 7) (/ 10 ^ 12).
Lemma exs_wf w i : st_wf (exs_E w) i.
Proof.
  constructor; try reflexivity; [|cbn; lia]. intros e He _. cbn in He. destruct He as [<-|[<-|[]]]; reflexivity.
Qed.
Lemma exs_char w : character_wf (st_sk (exs_E w)) (st_pt (exs_E w)).
Proof. constructor; [apply exc_sk_ok|apply exc_sk_ok|exact exc_pt_wf|reflexivity]. Qed.
Example exs_case : character_wf (st_sk (exs_E 1)) (st_pt (exs_E 1)) /\ st_wf (exs_E 1) 0 /\ nonneg_weights (exs_E 1) /\
  resolved (st_prec (exs_E 1)) (st_tpw (exs_E 1)) /\ 0 <= st_prec (exs_E 1) /\
  (nth 0 (st_tpw (exs_E 1)) 0 = 0 \/ nth 0 (st_tpw (exs_E 1)) 0 = 1 \/ nth 0 [1; 0] 0 = nth 0 (st_tparams (exs_E 1)) 0).
Proof.
  assert (P : 0 < / 10 ^ 12 < 1).
  { split; [apply Rinv_0_lt_compat, pow_lt; lra|]. rewrite <- Rinv_1.
    apply Rinv_lt_contravar; [rewrite Rmult_1_l; apply pow_lt; lra|]. apply Rlt_pow_R1; [lra|lia]. }
  split; [apply exs_char|]. split; [apply exs_wf|]. split; [|split; [|split]].
  - split; [cbn; lra|]. split; [cbn; lra|]. split; [cbn; lra|]. intros [|j] H; cbn in *; [lra|lia].
  - right. exists 1. split; [left; reflexivity|]. rewrite Rabs_R1. cbn [exs_E st_prec]. apply P.
  - cbn [exs_E st_prec]. lra.
  - right. left. reflexivity.
Qed.

(** With any other weight the derivative of the parameter term is off by a factor
    of that weight: here it is 3 times as large as what getGradient adds. *)
Theorem state_gradient_parameter_weight_refuted :
  exists E p i s F D g', character_wf (st_sk E) (st_pt E) /\ st_wf E i /\ (i < pt_cols (st_pt E))%nat /\
    List.length p = pt_cols (st_pt E) /\ sf_state (st_sk E) (st_pt E) p = Ok s /\
    (forall t, exists s', sf_state (st_sk E) (st_pt E) (set_nth p i t) = Ok s' /\
       ef_error (of_state E) (set_nth p i t) s' = Ok (F t)) /\
    ef_gradient (of_state E) p s (repeat 0 (List.length p)) = Ok (F (nth i p 0), g') /\
    is_derive F (nth i p 0) D /\ D <> nth i g' 0.
Proof.
  set (E := exs_E 3).
  destruct (st_gradient_raw E [1; 0] 0 (exs_char 3) eq_refl ltac:(cbn; lia) (exs_wf 3 0)) as [s [F [g' [E1 [E2 [E3 D]]]]]].
  exists E, [1; 0], 0%nat, s, F. eexists. exists g'.
  split; [apply exs_char|]. split; [apply exs_wf|]. split; [cbn; lia|]. split; [reflexivity|]. split; [exact E1|].
  split; [exact E2|]. split; [exact E3|]. split; [exact D|]. cbn. lra.
Qed.
Print Assumptions state_gradient_parameter_weight_refuted.

(** ** C21: unions *)

(** The union's error is w times the sum; its Jacobian is the members' stacked. *)
Theorem union_jacobian_contract : forall sk pt p i,
  (forall t, exists s, sf_state sk pt (set_nth p i t) = Ok s) -> (i < List.length p)%nat ->
  forall w Es, 0 <= w ->
  (forall E, In E Es -> exists F d, jacobian_contract sk pt E p i F d) ->
  exists F d, jacobian_contract sk pt (union_fn w Es) p i F d.
Proof. exact union_jacobian_lemma. Qed.
Print Assumptions union_jacobian_contract.
Theorem union_error_is_weighted_sum : forall w Es p s es,
  Forall2 (fun E e => ef_error E p s = Ok e) Es es -> ef_error (union_fn w Es) p s = Ok (w * rsum es).
Proof. exact union_error_lemma. Qed.
Print Assumptions union_error_is_weighted_sum.

(** getGradient adds the derivative if the weight is 1; in general it also scales
    what was in the gradient before. *)
Theorem union_gradient_partial : forall sk pt p i,
  (forall t, exists s, sf_state sk pt (set_nth p i t) = Ok s) -> (i < List.length p)%nat ->
  forall w Es, (forall E, In E Es -> exists F d, gradient_contract sk pt E p i F d) ->
  exists F d,
    (forall t, exists s, sf_state sk pt (set_nth p i t) = Ok s /\ ef_error (union_fn w Es) (set_nth p i t) s = Ok (F t)) /\
    (forall s g, sf_state sk pt p = Ok s -> List.length g = List.length p ->
      exists g', ef_gradient (union_fn w Es) p s g = Ok (F (nth i p 0), g') /\ List.length g' = List.length g /\
                 nth i g' 0 = d + w * nth i g 0) /\
    is_derive F (nth i p 0) d.
Proof. exact union_gradient_lemma. Qed.
Print Assumptions union_gradient_partial.

(** A union of weight 2 doubles the gradient of the functions before it. *)
Theorem union_gradient_refuted : exists w Es p s g e g',
  ef_gradient (union_fn w Es) p s g = Ok (e, g') /\ Es = [] /\ e = 0 /\ nth 0 g' 0 <> nth 0 g 0.
Proof.
  exists 2, [], [0], (SState [] []), [1], 0, [1 * 2]. split; [|split; [reflexivity|split; [reflexivity|cbn; lra]]].
  cbn. rewrite Rmult_0_r. reflexivity.
Qed.
Print Assumptions union_gradient_refuted.

(** ** C66: the function a solver minimises *)

(** getError is the sum of the counted functions and getGradient its derivative. *)
Theorem solver_function_gradient : forall S p i,
  character_wf (sf_sk S) (sf_pt S) -> List.length p = pt_cols (sf_pt S) -> (i < List.length p)%nat ->
  (forall E, In E (sf_fns S) -> 0 < ef_weight E -> exists F d, gradient_contract (sf_sk S) (sf_pt S) E p i F d) ->
  exists F g', (forall t, sf_error S (set_nth p i t) = Ok (F t)) /\
    sf_gradient S p = Ok (F (nth i p 0), g') /\ List.length g' = List.length p /\
    is_derive F (nth i p 0) (nth i g' 0).
Proof. exact sf_gradient_thm. Qed.
Print Assumptions solver_function_gradient.

(** getJacobian: a multiple of 8 rows, 2 J^T r is the derivative of getError. *)
Theorem solver_function_jacobian : forall S p i,
  character_wf (sf_sk S) (sf_pt S) -> List.length p = pt_cols (sf_pt S) -> (i < List.length p)%nat ->
  (forall E, In E (sf_fns S) -> 0 < ef_weight E -> exists F d, jacobian_contract (sf_sk S) (sf_pt S) E p i F d) ->
  exists F rows, (forall t, sf_error S (set_nth p i t) = Ok (F t)) /\
    sf_jacobian S p = Ok (F (nth i p 0), rows) /\
    List.length rows = sf_rows (sf_fns S) /\ (List.length rows mod 8 = 0)%nat /\
    (forall row, In row rows -> List.length (fst row) = List.length p) /\
    is_derive F (nth i p 0) (2 * jt_r rows i).
Proof. exact sf_jacobian_thm. Qed.
Print Assumptions solver_function_jacobian.

Theorem solver_function_error_is_sum : forall S p s es,
  sf_state (sf_sk S) (sf_pt S) p = Ok s ->
  Forall2 (fun E e => if Rltb 0 (ef_weight E) then ef_error E p s = Ok e else e = 0) (sf_fns S) es ->
  sf_error S p = Ok (rsum es).
Proof. exact sf_error_lemma. Qed.
Print Assumptions solver_function_error_is_sum.

(** The members meet the contracts. *)
Theorem model_parameters_meet_contracts : forall sk pt p i,
  character_wf sk pt -> List.length p = pt_cols pt -> (i < pt_cols pt)%nat -> forall E,
  mp_wf E (List.length p) ->
  (exists F d, gradient_contract sk pt (of_model_parameters E) p i F d) /\
  (0 <= mp_weight E -> (forall j, (j < List.length p)%nat -> 0 <= nth j (mp_weights E) 0) ->
   exists F d, jacobian_contract sk pt (of_model_parameters E) p i F d).
Proof. exact mp_contracts. Qed.
Print Assumptions model_parameters_meet_contracts.
Theorem limits_meet_contracts_partial : forall sk pt p i,
  character_wf sk pt -> List.length p = pt_cols pt -> (i < pt_cols pt)%nat -> forall E,
  lf_entries E = pt_entries pt -> lf_n E = pt_cols pt -> limit_fn_wf E (pt_rows pt) ->
  lf_enabled E i = true ->
  (forall l, In l (lf_limits E) -> away_from_range_ends p (ldata l)) ->
  ((forall l, In l (lf_limits E) -> unit_weight_if_two_params l) ->
   (forall l, In l (lf_limits E) -> counted (lf_enabled E) (ldata l)) ->
   exists F d, gradient_contract sk pt (of_limits E) p i F d) /\
  (0 <= lf_weight E -> (forall l, In l (lf_limits E) -> jac_conditions l) ->
   exists F d, jacobian_contract sk pt (of_limits E) p i F d).
Proof. exact limits_contracts. Qed.
Print Assumptions limits_meet_contracts_partial.
Theorem constraints_meet_contracts_partial : forall sk pt p i,
  character_wf sk pt -> List.length p = pt_cols pt -> (i < pt_cols pt)%nat -> forall E al cc js,
  cf_sk E = sk -> cf_pt E = pt -> cfn_wf E -> loss_make al cc = Ok (cf_loss E) ->
  state_of sk pt p = Ok js -> cf_enabled E i = true ->
  ((forall c s, In c (cf_constraints E) -> nth_error js (cparent c) = Some s -> regular (cf_prec E) c s) ->
   exists F d, gradient_contract sk pt (of_constraints E) p i F d) /\
  ((forall c s, In c (cf_constraints E) -> nth_error js (cparent c) = Some s -> jac_regular E c s) ->
   exists F d, jacobian_contract sk pt (of_constraints E) p i F d).
Proof. exact constraints_contracts. Qed.
Print Assumptions constraints_meet_contracts_partial.

(** A solver function with one member of each kind, and a union. *)
Definition exf_limits : limit_fn :=
  LimitFn [PLimit (LMinMax 0 (-1) 1) 3] 4 (fun _ => true) (repeat true 7) (pt_entries exc_pt) 2.
Definition exf_mp : mp_fn := MpFn [1; 2] [2; 0] 5 (fun _ => true).
Definition exf_fns : list efn :=
  [of_limits exf_limits; of_constraints (exc_E exc_cs); of_model_parameters exf_mp; of_state (exs_E 1);
   union_fn 1 [of_model_parameters exf_mp; of_limits exf_limits]; union_fn (-1) [of_limits exf_limits]].
Definition exf_S : sf := Sf exc_sk exc_pt exf_fns 2.
Lemma exc_char : character_wf exc_sk exc_pt.
Proof. exact (exs_char 1). Qed.
Lemma exf_limits_wf : limit_fn_wf exf_limits 7.
Proof.
  constructor; try reflexivity.
  - cbn [exf_limits lf_n]. unfold kMaxModelParams. lia.
  - intros e H. cbn in H. destruct H as [<-|[<-|[]]]; cbn; lia.
  - intros l H. cbn in H. destruct H as [<-|[]]. cbn; lia.
Qed.
Lemma exf_mp_wf : mp_wf exf_mp 2.
Proof. constructor; try reflexivity. unfold kMaxModelParams; lia. Qed.
Example exf_members : forall E, In E (sf_fns exf_S) -> 0 < ef_weight E ->
  (exists F d, gradient_contract exc_sk exc_pt E [0; 0] 0 F d) /\
  (exists F d, jacobian_contract exc_sk exc_pt E [0; 0] 0 F d).
Proof.
  assert (Hs : state_of exc_sk exc_pt [0; 0] = Ok [exc_state 0]) by apply (exc_state_of 0 []).
  destruct (limits_contracts exc_sk exc_pt [0; 0] 0 exc_char eq_refl ltac:(cbn; lia) exf_limits eq_refl eq_refl exf_limits_wf eq_refl)
    as [LG LJ].
  { intros l [<-|[]]; exact I. }
  destruct (mp_contracts exc_sk exc_pt [0; 0] 0 exc_char eq_refl ltac:(cbn; lia) exf_mp exf_mp_wf) as [MG MJ].
  assert (LG' : exists F d, gradient_contract exc_sk exc_pt (of_limits exf_limits) [0; 0] 0 F d).
  { apply LG; intros l [<-|[]]; exact I. }
  assert (LJ' : exists F d, jacobian_contract exc_sk exc_pt (of_limits exf_limits) [0; 0] 0 F d).
  { apply LJ; [cbn; lra|]. intros l [<-|[]]; unfold jac_conditions; cbn; lra. }
  assert (MJ' : exists F d, jacobian_contract exc_sk exc_pt (of_model_parameters exf_mp) [0; 0] 0 F d).
  { apply MJ; [cbn; lra|]. intros [|[|j]] H; cbn in *; try lra; lia. }
  assert (PS : forall t, exists s, sf_state exc_sk exc_pt (set_nth [0; 0] 0 t) = Ok s).
  { intros t. apply (char_state exc_sk exc_pt _ exc_char). reflexivity. }
  intros E HE HW. cbn [sf_fns exf_S exf_fns In] in HE. destruct HE as [<-|[<-|[<-|[<-|[<-|[<-|[]]]]]]].
  - auto.
  - destruct (constraints_contracts exc_sk exc_pt [0; 0] 0 exc_char eq_refl ltac:(cbn; lia) (exc_E exc_cs) 2 1 [exc_state 0])
      as [CG CJ]; try reflexivity; try assumption.
    { apply exc_wf. intros c Hc. cbn in Hc. destruct Hc as [<-|[<-|[<-|[<-|[]]]]]; reflexivity. }
    { exact exc_loss_ok. }
    split; [apply CG, exc_regular|apply CJ, exc_jac_regular].
  - auto.
  - destruct exs_case as [C1 [C2 [C3 [C4 [C5 C6]]]]]. split.
    + apply (state_gradient_thm (exs_E 1) [0; 0] 0 C1 eq_refl ltac:(cbn; lia) C2). right; left; reflexivity.
    + destruct (state_jacobian_thm (exs_E 1) [0; 0] 0 C1 eq_refl ltac:(cbn; lia) C2 C3 C4 C5) as [F [d [C _]]]. eauto.
  - split.
    + destruct (union_gradient_lemma exc_sk exc_pt [0; 0] 0 PS ltac:(cbn; lia) 1 [of_model_parameters exf_mp; of_limits exf_limits])
        as [F [d [U1 [U2 U3]]]].
      { intros E [<-|[<-|[]]]; assumption. }
      exists F, d. constructor; [exact U1| |exact U3]. intros s g Hs' Hg.
      destruct (U2 s g Hs' Hg) as [g' [G1 [G2 G3]]]. exists g'. split; [exact G1|]. split; [exact G2|]. rewrite G3. ring.
    + apply (union_jacobian_lemma exc_sk exc_pt [0; 0] 0 PS ltac:(cbn; lia) 1); [lra|].
      intros E [<-|[<-|[]]]; assumption.
  - cbn in HW. lra.
Qed.

(** ** C67: normal equations *)

(** getJtJR and getSolverDerivatives hold the lower triangle of J^T J and J^T r of
    getJacobian, up to the factor 2, for the first sf_actual parameters. *)
Theorem normal_equations_agree_with_jacobian : forall S p s,
  sf_state (sf_sk S) (sf_pt S) p = Ok s ->
  (forall E, In E (sf_fns S) -> 0 < ef_weight E -> jacobian_fits E (List.length p) p s) ->
  exists e rows A1 v1 A2 v2, sf_jacobian S p = Ok (e, rows) /\
    sf_jtjr S p = Ok (e, (A1, v1)) /\ sf_derivatives S p = Ok (e, (A2, v2)) /\
    mat_is (sf_actual S) A1 (jt_j rows) /\ vec_is (sf_actual S) v1 (jt_r rows) /\
    mat_is (sf_actual S) A2 (fun a b => 2 * jt_j rows a b) /\ vec_is (sf_actual S) v2 (fun a => 2 * jt_r rows a).
Proof. exact sf_normal_lemma. Qed.
Print Assumptions normal_equations_agree_with_jacobian.
Theorem contract_means_fits : forall sk pt E p i F d s,
  jacobian_contract sk pt E p i F d -> sf_state sk pt p = Ok s -> jacobian_fits E (List.length p) p s.
Proof. exact contract_fits. Qed.
Print Assumptions contract_means_fits.
Example exf_fits : forall s, sf_state exc_sk exc_pt [0; 0] = Ok s ->
  forall E, In E (sf_fns exf_S) -> 0 < ef_weight E -> jacobian_fits E 2 [0; 0] s.
Proof.
  intros s Hs E HE HW. destruct (exf_members E HE HW) as [_ [F [d C]]]. exact (contract_fits _ _ _ _ _ _ _ _ C Hs).
Qed.

(** The columns that count are those up to the last enabled parameter. *)
Theorem actual_parameters_cover_enabled : forall n (en : pset),
  (forall i, (i < n)%nat -> en i = true -> (i < actual_parameters n en)%nat) /\
  (actual_parameters n en <= n)%nat /\
  ((exists i, (i < n)%nat /\ en i = true) ->
   exists i, (i < n)%nat /\ en i = true /\ actual_parameters n en = S i).
Proof. exact actual_lemma. Qed.
Print Assumptions actual_parameters_cover_enabled.

(** A state error function whose target has the wrong size returns without
    setting usedRows, which getSolverDerivatives then reads uninitialised. *)
Theorem solver_derivatives_defined_refuted : exists S p e g,
  sf_gradient S p = Ok (e, g) /\ sf_derivatives S p = UB.
Proof.
  set (E := StFn exc_sk exc_pt [] [0; 1] [1; 0] [3] [2] 1000 1 1 (repeat true 7) (/ 10 ^ 12)).
  destruct (char_state exc_sk exc_pt [0; 0] exc_char eq_refl) as [s Hs].
  exists (Sf exc_sk exc_pt [of_state E] 2), [0; 0], 0, [0; 0].
  assert (C : counted_fns [of_state E] = [of_state E]).
  { unfold counted_fns. cbn. destruct (Rltb_spec 0 1); [reflexivity|lra]. }
  assert (HS : exists q, s = SState q [exc_state 0] /\ List.length q = 7%nat).
  { unfold sf_state in Hs. pose proof (exc_state_of 0 []) as X. unfold state_of in X. cbn [cf_sk cf_pt exc_E] in X.
    destruct (pt_apply exc_pt [0; 0]) as [q| | | |] eqn:EQ; cbn [obind] in *; try discriminate.
    rewrite X in Hs. cbn in Hs. injection Hs as <-. exists q. split; [reflexivity|].
    apply (pt_apply_length _ _ _ exc_pt_wf EQ). }
  destruct HS as [q [-> Lq]].
  split.
  - unfold sf_gradient. cbn [sf_sk sf_pt sf_fns]. rewrite Hs, C. cbn. rewrite Lq. cbn. f_equal. f_equal. ring.
  - unfold sf_derivatives. cbn [sf_sk sf_pt sf_fns]. rewrite Hs, C. reflexivity.
Qed.
Print Assumptions solver_derivatives_defined_refuted.
