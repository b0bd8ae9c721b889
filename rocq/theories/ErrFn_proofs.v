From Coq Require Import Bool Reals List Arith Lia Lra Psatz.
From Coquelicot Require Import Coquelicot.
From Verif Require Import Prelude LinAlg Rbool R3 Transform_model Transform_proofs Skeleton_model
  Skeleton_spec FK_model FK_spec FK_proofs FK_deriv_proofs FK_axis_proofs ParamTransform_model
  ParamTransform_spec ParamTransform_proofs Limits_model Limits_spec Limits_proofs Loss_model
  Loss_proofs Constraint_model Constraint_spec Constraint_eval_proofs Constraint_proofs
  Constraint_deriv_proofs ErrFn_model ErrFn_spec ErrFn_mp_proofs ErrFn_st_proofs.
Import ListNotations.
Local Open Scope R_scope.

(** ** States *)

Lemma sf_state_ok sk pt p : valid_sk sk -> pt_wf pt -> pt_rows pt = (7 * length sk)%nat ->
  length p = pt_cols pt ->
  exists jp js, pt_apply pt p = Ok jp /\ fk sk jp = Ok js /\ sf_state sk pt p = Ok (SState jp js) /\
    state_of sk pt p = Ok js.
Proof.
  intros V WP HR Lp. unfold sf_state, state_of.
  destruct (apply_char_lemma pt p WP Lp) as [q [q0 [Eq _]]].
  rewrite Eq. cbn [obind]. destruct (fk_ok sk q V) as [s [Es _]].
  { rewrite (pt_apply_length _ _ _ WP Eq). exact HR. }
  rewrite Es. exists q, s. repeat split; first [assumption|reflexivity].
Qed.

(** ** The contracts of the four kinds *)

Section Kinds.
Context (sk : skeleton) (pt : ptransform) (p : list R) (i : nat)
  (V : valid_sk sk) (U : unit_prerotations sk) (WP : pt_wf pt) (HR : pt_rows pt = (7 * length sk)%nat)
  (Lp : length p = pt_cols pt) (Hi : (i < pt_cols pt)%nat).

Lemma Lset t : length (set_nth p i t) = pt_cols pt.
Proof. rewrite set_nth_length. exact Lp. Qed.
Lemma pself : set_nth p i (nth i p 0) = p. Proof. apply set_nth_self. lia. Qed.

Lemma mp_wf_set E t : mp_wf E (length p) -> mp_wf E (length (set_nth p i t)).
Proof. rewrite set_nth_length. auto. Qed.

Lemma mp_gradient_contract_lemma E : mp_wf E (length p) ->
  gradient_contract sk pt (of_model_parameters E) p i (fun t => mp_objective E (set_nth p i t)) (mp_d E p i).
Proof.
  intros W. constructor.
  - intros t. destruct (sf_state_ok sk pt (set_nth p i t) V WP HR (Lset t)) as [jp [js [_ [_ [Es _]]]]].
    eexists; split; [exact Es|]. cbn. apply mp_error_lemma, mp_wf_set, W.
  - intros s g _ HG. destruct (mp_gradient_ok E p g W HG) as [g' [E1 [L1 N1]]]. exists g'. cbn.
    rewrite pself. split; [exact E1|]. split; [exact L1|]. rewrite N1.
    assert (Hb : Nat.ltb i (length p) = true) by (apply Nat.ltb_lt; lia). rewrite Hb. ring.
  - apply mp_derive. lia.
Qed.
Lemma mp_jacobian_contract_lemma E : mp_wf E (length p) -> 0 <= mp_weight E ->
  (forall j, (j < length p)%nat -> 0 <= nth j (mp_weights E) 0) ->
  jacobian_contract sk pt (of_model_parameters E) p i (fun t => mp_objective E (set_nth p i t)) (mp_d E p i).
Proof.
  intros W Hw HW. constructor.
  - apply (mp_gradient_contract_lemma E W).
  - intros s _. destruct (mp_jacobian_ok E p W Hw HW) as [rows [E1 [L1 [W1 [J1 _]]]]].
    exists rows, (length rows). cbn. rewrite E1, pself. split; [reflexivity|]. split.
    + rewrite L1. split; [lia|apply cnt_le].
    + split; [exact W1|]. apply J1. lia.
  - apply mp_derive. lia.
Qed.

(** Limits. *)
Lemma lim_path E : limit_fn_wf E (pt_rows pt) -> lf_n E = pt_cols pt ->
  exists q, (forall t, pt_apply pt (set_nth p i t) = Ok (q t)) /\
    (forall t, exists s, sf_state sk pt (set_nth p i t) = Ok s /\ ss_jp s = q t) /\
    (forall t, lim_error E (set_nth p i t) (q t) = Ok (limit_penalty E (set_nth p i t) (q t))).
Proof.
  intros W Hn.
  exists (fun t => match pt_apply pt (set_nth p i t) with Ok q => q | _ => [] end).
  assert (A : forall t, exists jp js, pt_apply pt (set_nth p i t) = Ok jp /\ sf_state sk pt (set_nth p i t) = Ok (SState jp js)).
  { intros t. destruct (sf_state_ok sk pt (set_nth p i t) V WP HR (Lset t)) as [jp [js [E1 [_ [E2 _]]]]]. eauto. }
  split; [|split].
  - intros t. destruct (A t) as [jp [js [E1 _]]]. rewrite E1. reflexivity.
  - intros t. destruct (A t) as [jp [js [E1 E2]]]. eexists; split; [exact E2|]. rewrite E1. reflexivity.
  - intros t. destruct (A t) as [jp [js [E1 _]]]. rewrite E1. apply (error_spec_lemma E (pt_rows pt)); [exact W| |].
    + rewrite Lset. symmetry. exact Hn.
    + apply (pt_apply_length _ _ _ WP E1).
Qed.


Lemma limits_gradient_contract_lemma E :
  lf_entries E = pt_entries pt -> lf_n E = pt_cols pt -> limit_fn_wf E (pt_rows pt) ->
  lf_enabled E i = true ->
  (forall l, In l (lf_limits E) -> away_from_range_ends p (ldata l)) ->
  (forall l, In l (lf_limits E) -> unit_weight_if_two_params l) ->
  (forall l, In l (lf_limits E) -> counted (lf_enabled E) (ldata l)) ->
  exists F d, gradient_contract sk pt (of_limits E) p i F d.
Proof.
  intros He Hn W EN HA HU HC.
  destruct (lim_path E W Hn) as [q [Hq [HS HE]]].
  assert (Ljp : length (q (nth i p 0)) = pt_rows pt) by (apply (pt_apply_length _ _ _ WP (Hq _))).
  exists (fun t => limit_penalty E (set_nth p i t) (q t)),
    (10 * lf_weight E * rsum (map (fun l => lweight l * violation2_partial (lf_enabled E) (lf_active E) (lf_entries E) p
       (q (nth i p 0)) i (ldata l)) (lf_limits E))).
  constructor.
  - intros t. destruct (HS t) as [s [E1 E2]]. exists s. split; [exact E1|]. cbn. rewrite E2. apply HE.
  - intros s g Hs HG. cbn.
    assert (Ejp : ss_jp s = q (nth i p 0)).
    { destruct (HS (nth i p 0)) as [s' [E1 E2]]. rewrite pself in E1. congruence. }
    rewrite Ejp, pself.
    destruct (grad_loop_spec E (pt_rows pt) p (q (nth i p 0)) i (lf_limits E) g) as [e3 [g3 [G1 [G2 [G3 G4]]]]];
        try assumption; try congruence; try (apply (lw_limits E _ W)); try lia.
    exists g3. unfold lim_gradient. rewrite G1. split; [|split; [congruence|]].
    + f_equal. f_equal. rewrite (G3 HC). reflexivity.
    + rewrite G4. ring.
  - eapply d_eq; [apply penalty_derive|reflexivity].
    + lia.
    + intros r. rewrite He. apply (apply_derive pt p i q WP Lp Hi Hq).
    + exact HA.
Qed.

Lemma limits_jacobian_contract_lemma E :
  lf_entries E = pt_entries pt -> lf_n E = pt_cols pt -> limit_fn_wf E (pt_rows pt) ->
  lf_enabled E i = true -> 0 <= lf_weight E ->
  (forall l, In l (lf_limits E) -> away_from_range_ends p (ldata l)) ->
  (forall l, In l (lf_limits E) -> jac_conditions l) ->
  exists F d, jacobian_contract sk pt (of_limits E) p i F d.
Proof.
  intros He Hn W EN Hw HA HJ.
  destruct (lim_path E W Hn) as [q [Hq [HS HE]]].
  destruct (limit_jacobian_lemma E pt p i q WP He Hn W Lp Hi EN Hw HA HJ Hq)
    as [F [e [rows [HF [EJ [L1 [W1 [Ee [_ D1]]]]]]]]].
  exists F, (2 * jt_r rows i). constructor.
  - intros t. destruct (HS t) as [s [E1 E2]]. exists s. split; [exact E1|]. cbn. rewrite E2. apply HF.
  - intros s Hs. cbn.
    assert (Ejp : ss_jp s = q (nth i p 0)).
    { destruct (HS (nth i p 0)) as [s' [E1 E2]]. rewrite pself in E1. congruence. }
    rewrite Ejp, EJ. cbn [obind fst snd]. exists rows, (length rows). rewrite Ee. split; [reflexivity|].
    split; [lia|]. split; [|reflexivity]. intros row Hrow. rewrite (W1 row Hrow). congruence.
  - exact D1.
Qed.

(** Constraints. *)
Lemma con_path E : cf_sk E = sk -> cf_pt E = pt -> forall F,
  (forall t, exists st, state_of (cf_sk E) (cf_pt E) (set_nth p i t) = Ok st /\ cf_error E st = Ok (F t)) ->
  forall t, exists s, sf_state sk pt (set_nth p i t) = Ok s /\ ef_error (of_constraints E) (set_nth p i t) s = Ok (F t).
Proof.
  intros H1 H2 F HF t. destruct (sf_state_ok sk pt (set_nth p i t) V WP HR (Lset t)) as [jp [js [_ [_ [Es E3]]]]].
  exists (SState jp js). split; [exact Es|]. cbn. destruct (HF t) as [st [E4 E5]]. rewrite H1, H2 in E4. congruence.
Qed.
Lemma cf_gradient_length E sts g e g' : cf_gradient E sts g = Ok (e, g') -> length g' = length g.
Proof.
  unfold cf_gradient. destruct (cf_grad_loop E sts (cf_constraints E) (repeat 0 (pt_cols (cf_pt E)))) as [[e1 jg]| | | |];
    cbn [obind fst snd]; try discriminate.
  destruct (Nat.eqb_spec (length g) (length jg)) as [L|L]; [|discriminate].
  intros H. injection H as _ <-. rewrite vadd_list_length. lia.
Qed.

Lemma constraints_gradient_contract_lemma E al cc js :
  cf_sk E = sk -> cf_pt E = pt -> cfn_wf E -> loss_make al cc = Ok (cf_loss E) ->
  state_of sk pt p = Ok js ->
  (forall c s, In c (cf_constraints E) -> nth_error js (cparent c) = Some s -> regular (cf_prec E) c s) ->
  cf_enabled E i = true ->
  exists F d, gradient_contract sk pt (of_constraints E) p i F d.
Proof.
  intros H1 H2 W HL Hjs HReg EN.
  assert (G : forall g, length g = pt_cols (cf_pt E) -> exists F g',
    (forall t, exists st, state_of (cf_sk E) (cf_pt E) (set_nth p i t) = Ok st /\ cf_error E st = Ok (F t)) /\
    cf_gradient E js g = Ok (F (nth i p 0), g') /\
    is_derive F (nth i p 0) (nth i g' 0 - nth i g 0)).
  { intros g HG. destruct (constraint_gradient_lemma E p js g al cc i) as [F [g' [A [B [C _]]]]];
      rewrite ?H1, ?H2 in *; try assumption; try (rewrite H1; assumption); try (rewrite H2; assumption).
    exists F, g'. auto. }
  destruct (G (repeat 0 (pt_cols (cf_pt E)))) as [F [g0 [A0 [B0 C0]]]]; [apply repeat_length|].
  exists F, (nth i g0 0 - nth i (repeat 0 (pt_cols (cf_pt E))) 0). constructor.
  - apply (con_path E H1 H2 F A0).
  - intros s g Hs HG. cbn.
    destruct (sf_state_ok sk pt p V WP HR Lp) as [jp [js' [_ [_ [Es E3]]]]].
    assert (s = SState jp js) by congruence. subst s. cbn [ss_js].
    destruct (G g) as [F1 [g1 [A1 [B1 C1]]]]; [rewrite H2; congruence|].
    assert (FF : forall t, F1 t = F t).
    { intros t. destruct (A0 t) as [st [X1 X2]], (A1 t) as [st' [Y1 Y2]]. congruence. }
    exists g1. rewrite <- FF. split; [exact B1|]. split; [eapply cf_gradient_length; exact B1|].
    apply (d_ext F1 F) in C1; [|exact FF].
    apply is_derive_unique in C1. apply is_derive_unique in C0. congruence.
  - exact C0.
Qed.

Lemma constraints_jacobian_contract_lemma E al cc js :
  cf_sk E = sk -> cf_pt E = pt -> cfn_wf E -> loss_make al cc = Ok (cf_loss E) ->
  state_of sk pt p = Ok js ->
  (forall c s, In c (cf_constraints E) -> nth_error js (cparent c) = Some s -> jac_regular E c s) ->
  cf_enabled E i = true ->
  exists F d, jacobian_contract sk pt (of_constraints E) p i F d.
Proof.
  intros H1 H2 W HL Hjs HReg EN.
  destruct (constraint_jacobian_lemma E p js (length p) al cc i) as [F [rows [A [B [L1 [W1 [D1 _]]]]]]];
    rewrite ?H1, ?H2; try assumption.
  { intros k _ Hk. lia. }
  exists F, (2 * jt_r rows i). constructor.
  - apply (con_path E H1 H2 F A).
  - intros s Hs. cbn.
    destruct (sf_state_ok sk pt p V WP HR Lp) as [jp [js' [_ [_ [Es E3]]]]].
    assert (s = SState jp js) by congruence. subst s. cbn [ss_js]. rewrite B. cbn [obind fst snd].
    exists rows, (cf_jacobian_size (cf_constraints E)). split; [reflexivity|]. split; [lia|]. split; [exact W1|reflexivity].
  - exact D1.
Qed.

(** The state error function. *)
Lemma st_paths : exists sts, (forall t, state_of sk pt (set_nth p i t) = Ok (sts t)) /\
  forall t, exists jp, pt_apply pt (set_nth p i t) = Ok jp /\ sf_state sk pt (set_nth p i t) = Ok (SState jp (sts t)).
Proof.
  exists (fun t => match state_of sk pt (set_nth p i t) with Ok s => s | _ => [] end). split.
  - intros t. destruct (sf_state_ok sk pt (set_nth p i t) V WP HR (Lset t)) as [jp [js [_ [_ [_ E3]]]]]. rewrite E3. reflexivity.
  - intros t. destruct (sf_state_ok sk pt (set_nth p i t) V WP HR (Lset t)) as [jp [js [E1 [_ [E2 E3]]]]].
    exists jp. rewrite E3. auto.
Qed.

Lemma st_obj_F E sts t : st_F E i p sts t = st_objective E (set_nth p i t) (sts t).
Proof. reflexivity. Qed.

Lemma state_gradient_contract_lemma E : st_sk E = sk -> st_pt E = pt -> st_wf E i ->
  (nth i (st_tpw E) 0 = 0 \/ nth i (st_tpw E) 0 = 1 \/ nth i p 0 = nth i (st_tparams E) 0) ->
  exists F d, gradient_contract sk pt (of_state E) p i F d.
Proof.
  intros H1 H2 W HT. destruct st_paths as [sts [HS HP]].
  assert (V' : valid_sk (st_sk E)) by (rewrite H1; exact V). assert (U' : unit_prerotations (st_sk E)) by (rewrite H1; exact U).
  assert (WP' : pt_wf (st_pt E)) by (rewrite H2; exact WP). assert (Lp' : length p = pt_cols (st_pt E)) by (rewrite H2; exact Lp).
  assert (Hi' : (i < pt_cols (st_pt E))%nat) by (rewrite H2; exact Hi).
  assert (HS' : forall t, state_of (st_sk E) (st_pt E) (set_nth p i t) = Ok (sts t)) by (rewrite H1, H2; exact HS).
  assert (PD : par_d E i p = 2 * ((nth i p 0 - nth i (st_tparams E) 0) * nth i (st_tpw E) 0)).
  { unfold par_d. destruct HT as [-> |[-> | ->]]; ring. }
  assert (G : forall jp g, pt_apply pt p = Ok jp -> length g = length p ->
    exists g', st_gradient E p jp (sts (nth i p 0)) g = Ok (st_F E i p sts (nth i p 0), g') /\ length g' = length g /\
      is_derive (st_F E i p sts) (nth i p 0) (nth i g' 0 - nth i g 0)).
  { intros jp g HJ HG. rewrite <- H2 in HJ.
    destruct (st_gradient_path E i W V' U' WP' p Lp' Hi' sts HS' jp g HJ HG) as [g' [E1 [L1 D1]]].
    exists g'. split; [exact E1|]. split; [exact L1|]. eapply d_eq; [exact D1|]. rewrite PD. ring. }
  destruct (HP (nth i p 0)) as [jp [P1 P2]]. rewrite pself in P1, P2.
  destruct (G jp (repeat 0 (length p)) P1 (repeat_length _ _)) as [g0 [_ [_ D0]]].
  exists (st_F E i p sts), (nth i g0 0 - nth i (repeat 0 (length p)) 0). constructor; [| |exact D0].
  - intros t. destruct (HP t) as [jpt [Q1 Q2]]. eexists; split; [exact Q2|]. cbn. rewrite <- H2 in Q1.
    eapply st_error_path; eassumption.
  - intros s g Hs HG. rewrite P2 in Hs. injection Hs as <-. cbn.
    destruct (G jp g P1 HG) as [g' [E1 [L1 D1]]]. exists g'. split; [exact E1|]. split; [exact L1|].
    apply is_derive_unique in D1. apply is_derive_unique in D0. congruence.
Qed.

Lemma state_jacobian_contract_lemma E : st_sk E = sk -> st_pt E = pt -> st_wf E i ->
  nonneg_weights E -> resolved (st_prec E) (st_tpw E) -> 0 <= st_prec E ->
  exists F d, jacobian_contract sk pt (of_state E) p i F d.
Proof.
  intros H1 H2 W NN HT HP0. destruct st_paths as [sts [HS HP]].
  assert (V' : valid_sk (st_sk E)) by (rewrite H1; exact V). assert (U' : unit_prerotations (st_sk E)) by (rewrite H1; exact U).
  assert (WP' : pt_wf (st_pt E)) by (rewrite H2; exact WP). assert (Lp' : length p = pt_cols (st_pt E)) by (rewrite H2; exact Lp).
  assert (Hi' : (i < pt_cols (st_pt E))%nat) by (rewrite H2; exact Hi).
  assert (HS' : forall t, state_of (st_sk E) (st_pt E) (set_nth p i t) = Ok (sts t)) by (rewrite H1, H2; exact HS).
  destruct (st_jacobian_path E i W V' U' WP' p Lp' Hi' sts HS' NN (conj HT HP0)) as [rows [E1 [L1 [W1 [D1 _]]]]].
  exists (st_F E i p sts), (2 * jt_r rows i). constructor; [| |exact D1].
  - intros t. destruct (HP t) as [jpt [Q1 Q2]]. eexists; split; [exact Q2|]. cbn. rewrite <- H2 in Q1.
    eapply st_error_path; eassumption.
  - intros s Hs. destruct (HP (nth i p 0)) as [jp [P1 P2]]. rewrite pself in P1, P2. rewrite P2 in Hs. injection Hs as <-.
    cbn [of_state ef_jacobian ss_js]. rewrite E1. exists rows, (length rows). split; [reflexivity|]. cbn [ef_jsize of_state].
    split; [lia|]. split; [exact W1|reflexivity].
Qed.
End Kinds.

(** ** Sums *)

Lemma jt_r_app a b k : jt_r (a ++ b) k = jt_r a k + jt_r b k.
Proof. unfold jt_r. rewrite map_app, rsum_app. reflexivity. Qed.
Lemma jt_r_pad n k rows c : jt_r (pad_rows n k rows) c = jt_r rows c.
Proof.
  unfold pad_rows. rewrite jt_r_app. unfold jt_r at 2. rewrite rsum_map_zero; [ring|].
  intros row H. apply repeat_spec in H. subst row. cbn. ring.
Qed.
Lemma pad_rows_length n k rows : (length rows <= k)%nat -> length (pad_rows n k rows) = k.
Proof. intros H. unfold pad_rows. rewrite app_length, repeat_length. lia. Qed.
Lemma pad_rows_width n k rows : (forall row, In row rows -> length (fst row) = n) ->
  forall row, In row (pad_rows n k rows) -> length (fst row) = n.
Proof.
  intros H row Hr. unfold pad_rows in Hr. apply in_app_or in Hr as [Hr|Hr]; [auto|].
  apply repeat_spec in Hr. subst row. apply repeat_length.
Qed.

Section Sums.
Context (sk : skeleton) (pt : ptransform) (p : list R) (i : nat)
  (HS : forall t, exists s, sf_state sk pt (set_nth p i t) = Ok s) (Hi : (i < length p)%nat).

Lemma sums_gradient Es : (forall E, In E Es -> exists F d, gradient_contract sk pt E p i F d) ->
  exists F d,
    (forall t, exists s, sf_state sk pt (set_nth p i t) = Ok s /\ sum_errors Es (set_nth p i t) s = Ok (F t)) /\
    (forall s g, sf_state sk pt p = Ok s -> length g = length p ->
      exists g', sum_gradients Es p s g = Ok (F (nth i p 0), g') /\ length g' = length g /\
                 nth i g' 0 - nth i g 0 = d) /\
    is_derive F (nth i p 0) d.
Proof.
  induction Es as [|E Es IH]; intros H.
  - exists (fun _ => 0), 0. split; [|split].
    + intros t. destruct (HS t) as [s Hs]. exists s. split; [exact Hs|reflexivity].
    + intros s g _ _. exists g. split; [reflexivity|]. split; [reflexivity|]. ring.
    + apply d_const.
  - destruct (H E (or_introl eq_refl)) as [F [d [A B C]]].
    destruct IH as [F' [d' [A' [B' C']]]]; [intros; apply H; right; assumption|].
    exists (fun t => F t + F' t), (d + d'). split; [|split].
    + intros t. destruct (A t) as [s [S1 S2]], (A' t) as [s' [S1' S2']].
      assert (s' = s) by congruence. subst s'. exists s. split; [exact S1|]. cbn [sum_errors].
      rewrite S2. cbn [obind]. rewrite S2'. reflexivity.
    + intros s g Hs HG. destruct (B s g Hs HG) as [g1 [G1 [G2 G3]]].
      destruct (B' s g1 Hs ltac:(congruence)) as [g2 [G1' [G2' G3']]].
      exists g2. cbn [sum_gradients]. rewrite G1. cbn [obind fst snd]. rewrite G1'. cbn [obind fst snd].
      split; [reflexivity|]. split; [congruence|]. rewrite <- G3, <- G3'. ring.
    + apply d_plus; assumption.
Qed.

Lemma sums_jacobian Es : (forall E, In E Es -> exists F d, jacobian_contract sk pt E p i F d) ->
  exists F d,
    (forall t, exists s, sf_state sk pt (set_nth p i t) = Ok s /\ sum_errors Es (set_nth p i t) s = Ok (F t)) /\
    (forall s, sf_state sk pt p = Ok s ->
      exists rows, sum_jacobians Es (length p) p s = Ok (F (nth i p 0), rows) /\
        length rows = list_sum (map ef_jsize Es) /\ (forall row, In row rows -> length (fst row) = length p) /\
        2 * jt_r rows i = d) /\
    is_derive F (nth i p 0) d.
Proof.
  induction Es as [|E Es IH]; intros H.
  - exists (fun _ => 0), 0. split; [|split].
    + intros t. destruct (HS t) as [s Hs]. exists s. split; [exact Hs|reflexivity].
    + intros s _. exists []. split; [reflexivity|]. split; [reflexivity|]. split; [intros row []|]. unfold jt_r; cbn; ring.
    + apply d_const.
  - destruct (H E (or_introl eq_refl)) as [F [d [A B C]]].
    destruct IH as [F' [d' [A' [B' C']]]]; [intros; apply H; right; assumption|].
    exists (fun t => F t + F' t), (d + d'). split; [|split].
    + intros t. destruct (A t) as [s [S1 S2]], (A' t) as [s' [S1' S2']].
      assert (s' = s) by congruence. subst s'. exists s. split; [exact S1|]. cbn [sum_errors].
      rewrite S2. cbn [obind]. rewrite S2'. reflexivity.
    + intros s Hs. destruct (B s Hs) as [rows [u [G1 [G2 [G3 G4]]]]].
      destruct (B' s Hs) as [rows' [G1' [G2' [G3' G4']]]].
      exists (pad_rows (length p) (ef_jsize E) rows ++ rows'). cbn [sum_jacobians].
      rewrite G1. cbn [obind fst snd]. rewrite G1'. cbn [obind fst snd].
      split; [reflexivity|]. split; [rewrite app_length, pad_rows_length, G2' by lia; reflexivity|]. split.
      * intros row Hr. apply in_app_or in Hr as [Hr|Hr]; [exact (pad_rows_width (length p) (ef_jsize E) rows G3 row Hr)|auto].
      * rewrite jt_r_app, jt_r_pad, <- G4, <- G4'. ring.
    + apply d_plus; assumption.
Qed.

Lemma union_jacobian_lemma w Es : 0 <= w ->
  (forall E, In E Es -> exists F d, jacobian_contract sk pt E p i F d) ->
  exists F d, jacobian_contract sk pt (union_fn w Es) p i F d.
Proof.
  intros Hw H. destruct (sums_jacobian Es H) as [F [d [A [B C]]]].
  exists (fun t => w * F t), (w * d). constructor.
  - intros t. destruct (A t) as [s [S1 S2]]. exists s. split; [exact S1|]. cbn. rewrite S2. reflexivity.
  - intros s Hs. destruct (B s Hs) as [rows [G1 [G2 [G3 G4]]]]. cbn. rewrite G1. cbn [obind fst snd].
    eexists; eexists; split; [reflexivity|]. rewrite map_length. split; [lia|]. split.
    + intros row Hr. apply in_map_iff in Hr as [r [<- Hr]]. cbn. rewrite map_length. auto.
    + unfold jt_r. rewrite map_map. rewrite <- G4. unfold jt_r.
      rewrite (rsum_map_ext _ (fun row => w * (nth i (fst row) 0 * snd row))).
      * rewrite rsum_map_scal. ring.
      * intros row Hr. cbn [scale_row fst snd].
        rewrite (nth_indep _ 0 ((fun x => x * sqrt w) 0)) by (rewrite map_length, (G3 row Hr); exact Hi).
        rewrite (map_nth (fun x => x * sqrt w)).
        replace (nth i (fst row) 0 * sqrt w * (snd row * sqrt w)) with (nth i (fst row) 0 * snd row * (sqrt w * sqrt w)) by ring.
        rewrite sqrt_sqrt by exact Hw. ring.
  - apply d_scal, C.
Qed.

Lemma union_gradient_lemma w Es : (forall E, In E Es -> exists F d, gradient_contract sk pt E p i F d) ->
  exists F d,
    (forall t, exists s, sf_state sk pt (set_nth p i t) = Ok s /\ ef_error (union_fn w Es) (set_nth p i t) s = Ok (F t)) /\
    (forall s g, sf_state sk pt p = Ok s -> length g = length p ->
      exists g', ef_gradient (union_fn w Es) p s g = Ok (F (nth i p 0), g') /\ length g' = length g /\
                 nth i g' 0 = d + w * nth i g 0) /\
    is_derive F (nth i p 0) d.
Proof.
  intros H. destruct (sums_gradient Es H) as [F [d [A [B C]]]].
  exists (fun t => w * F t), (w * d). split; [|split].
  - intros t. destruct (A t) as [s [S1 S2]]. exists s. split; [exact S1|]. cbn. rewrite S2. reflexivity.
  - intros s g Hs HG. destruct (B s g Hs HG) as [g1 [G1 [G2 G3]]]. cbn. rewrite G1. cbn [obind fst snd].
    eexists; split; [reflexivity|]. split; [rewrite map_length; exact G2|].
    rewrite (nth_indep _ 0 ((fun x => x * w) 0)) by (rewrite map_length; lia).
    rewrite (map_nth (fun x => x * w)), <- G3. ring.
  - apply d_scal, C.
Qed.
End Sums.

(** ** The solver function *)

Lemma sf_gradient_lemma S p i : (forall t, exists s, sf_state (sf_sk S) (sf_pt S) (set_nth p i t) = Ok s) ->
  (i < length p)%nat ->
  (forall E, In E (sf_fns S) -> 0 < ef_weight E -> exists F d, gradient_contract (sf_sk S) (sf_pt S) E p i F d) ->
  exists F g', (forall t, sf_error S (set_nth p i t) = Ok (F t)) /\
    sf_gradient S p = Ok (F (nth i p 0), g') /\ length g' = length p /\
    is_derive F (nth i p 0) (nth i g' 0).
Proof.
  intros HS Hi H. destruct (sums_gradient (sf_sk S) (sf_pt S) p i HS (counted_fns (sf_fns S))) as [F [d [A [B C]]]].
  { intros E HE. apply filter_In in HE as [HE1 HE2]. destruct (Rltb_spec 0 (ef_weight E)); [auto|discriminate]. }
  destruct (HS (nth i p 0)) as [s Hs]. rewrite set_nth_self in Hs by exact Hi.
  destruct (B s (repeat 0 (length p)) Hs (repeat_length _ _)) as [g' [G1 [G2 G3]]].
  exists F, g'. split; [|split; [|split]].
  - intros t. destruct (A t) as [st [S1 S2]]. unfold sf_error. rewrite S1. exact S2.
  - unfold sf_gradient. rewrite Hs. exact G1.
  - rewrite G2. apply repeat_length.
  - eapply d_eq; [exact C|]. rewrite <- G3, zrow_nth. ring.
Qed.

Lemma sf_rows_le Es : (list_sum (map ef_jsize (counted_fns Es)) <= sf_rows Es)%nat.
Proof. unfold sf_rows. lia. Qed.

Lemma sf_jacobian_lemma S p i : (forall t, exists s, sf_state (sf_sk S) (sf_pt S) (set_nth p i t) = Ok s) ->
  (i < length p)%nat ->
  (forall E, In E (sf_fns S) -> 0 < ef_weight E -> exists F d, jacobian_contract (sf_sk S) (sf_pt S) E p i F d) ->
  exists F rows, (forall t, sf_error S (set_nth p i t) = Ok (F t)) /\
    sf_jacobian S p = Ok (F (nth i p 0), rows) /\
    length rows = sf_rows (sf_fns S) /\ (length rows mod 8 = 0)%nat /\
    (forall row, In row rows -> length (fst row) = length p) /\
    is_derive F (nth i p 0) (2 * jt_r rows i).
Proof.
  intros HS Hi H. destruct (sums_jacobian (sf_sk S) (sf_pt S) p i HS Hi (counted_fns (sf_fns S))) as [F [d [A [B C]]]].
  { intros E HE. apply filter_In in HE as [HE1 HE2]. destruct (Rltb_spec 0 (ef_weight E)); [auto|discriminate]. }
  destruct (HS (nth i p 0)) as [s Hs]. rewrite set_nth_self in Hs by exact Hi.
  destruct (B s Hs) as [rows [G1 [G2 [G3 G4]]]].
  exists F, (pad_rows (length p) (sf_rows (sf_fns S)) rows).
  assert (LR : length (pad_rows (length p) (sf_rows (sf_fns S)) rows) = sf_rows (sf_fns S)).
  { apply pad_rows_length. rewrite G2. apply sf_rows_le. }
  split; [|split; [|split; [|split; [|split]]]].
  - intros t. destruct (A t) as [st [S1 S2]]. unfold sf_error. rewrite S1. exact S2.
  - unfold sf_jacobian. rewrite Hs. cbn [obind]. rewrite G1. reflexivity.
  - exact LR.
  - rewrite LR. unfold sf_rows. set (n := list_sum _).
    pose proof (Nat.mod_upper_bound n 8 ltac:(lia)). pose proof (Nat.div_mod n 8 ltac:(lia)) as DM.
    replace (n + (8 - n mod 8))%nat with ((n / 8 + 1) * 8)%nat by lia. apply Nat.mod_mul. lia.
  - apply pad_rows_width. exact G3.
  - rewrite jt_r_pad, G4. exact C.
Qed.

(** ** Normal equations *)

Lemma jt_j_app a b x y : jt_j (a ++ b) x y = jt_j a x y + jt_j b x y.
Proof. unfold jt_j. rewrite map_app, rsum_app. reflexivity. Qed.
Lemma jt_j_pad n k rows x y : jt_j (pad_rows n k rows) x y = jt_j rows x y.
Proof.
  unfold pad_rows. rewrite jt_j_app. unfold jt_j at 2. rewrite rsum_map_zero; [ring|].
  intros row H. apply repeat_spec in H. subst row. cbn [fst]. rewrite zrow_nth. ring.
Qed.
Lemma firstn_pad n k u rows : (length rows <= u <= k)%nat ->
  firstn u (pad_rows n k rows) = pad_rows n u rows.
Proof.
  intros H. unfold pad_rows. rewrite firstn_app, firstn_all2 by lia. f_equal.
  replace (k - length rows)%nat with ((u - length rows) + (k - u))%nat by lia.
  rewrite repeat_app, firstn_app, firstn_all2 by (rewrite repeat_length; lia).
  rewrite repeat_length, Nat.sub_diag. cbn. apply app_nil_r.
Qed.

Lemma vec_is_map m f : vec_is m (map f (seq 0 m)) f.
Proof.
  split; [rewrite map_length; apply seq_length|]. intros a Ha.
  rewrite (nth_indep _ 0 (f 0%nat)) by (rewrite map_length, seq_length; exact Ha).
  rewrite map_nth, seq_nth by exact Ha. reflexivity.
Qed.
Lemma vec_is_add m u v f g : vec_is m u f -> vec_is m v g -> vec_is m (vadd_list u v) (fun a => f a + g a).
Proof.
  intros [L1 N1] [L2 N2]. split; [rewrite vadd_list_length; lia|]. intros a Ha.
  rewrite vadd_list_nth by lia. rewrite N1, N2 by exact Ha. reflexivity.
Qed.
Lemma vec_is_scale m k v f : vec_is m v f -> vec_is m (map (Rmult k) v) (fun a => k * f a).
Proof.
  intros [L1 N1]. split; [rewrite map_length; exact L1|]. intros a Ha.
  rewrite (nth_indep _ 0 (Rmult k 0)) by (rewrite map_length; lia). rewrite map_nth, N1 by exact Ha. reflexivity.
Qed.
Lemma vec_is_ext m v f g : (forall a, (a < m)%nat -> f a = g a) -> vec_is m v f -> vec_is m v g.
Proof. intros H [L N]. split; [exact L|]. intros a Ha. rewrite N, H by exact Ha. reflexivity. Qed.

Lemma mat_is_rows m A f : mat_is m A f <-> length A = m /\
  forall a, (a < m)%nat -> vec_is m (nth a A []) (fun b => if Nat.leb b a then f a b else 0).
Proof.
  unfold mat_is, vec_is. split; intros [L N]; (split; [exact L|exact N]).
Qed.
Lemma mat_is_add m A B f g : mat_is m A f -> mat_is m B g -> mat_is m (madd A B) (fun a b => f a b + g a b).
Proof.
  rewrite !mat_is_rows. intros [L1 N1] [L2 N2]. unfold madd.
  split; [rewrite map_length, combine_length; lia|]. intros a Ha.
  set (h := fun rs : list R * list R => vadd_list (fst rs) (snd rs)).
  rewrite (nth_indep _ [] (h ([], []))) by (rewrite map_length, combine_length; lia).
  rewrite (map_nth h), combine_nth by lia. unfold h. cbn [fst snd].
  eapply vec_is_ext; [|apply vec_is_add; [apply N1|apply N2]; exact Ha].
  intros b _. cbv beta. destruct (Nat.leb b a); ring.
Qed.
Lemma mat_is_scale m k A f : mat_is m A f -> mat_is m (map (map (Rmult k)) A) (fun a b => k * f a b).
Proof.
  rewrite !mat_is_rows. intros [L1 N1]. split; [rewrite map_length; exact L1|]. intros a Ha.
  rewrite (nth_indep _ [] (map (Rmult k) [])) by (rewrite map_length; lia). rewrite map_nth.
  eapply vec_is_ext; [|apply vec_is_scale, N1, Ha]. intros b _. cbv beta. destruct (Nat.leb b a); ring.
Qed.
Lemma mat_is_map m f : mat_is m (map (fun a => map (fun b => if Nat.leb b a then f a b else 0) (seq 0 m)) (seq 0 m)) f.
Proof.
  apply mat_is_rows. split; [rewrite map_length; apply seq_length|]. intros a Ha.
  set (h := fun a => map (fun b => if Nat.leb b a then f a b else 0) (seq 0 m)).
  rewrite (nth_indep _ [] (h 0%nat)) by (rewrite map_length, seq_length; exact Ha).
  rewrite (map_nth h), seq_nth by exact Ha. apply vec_is_map.
Qed.
Lemma mat_is_zero m : mat_is m (repeat (repeat 0 m) m) (fun _ _ => 0).
Proof.
  apply mat_is_rows. split; [apply repeat_length|]. intros a Ha. rewrite (nth_indep _ [] (repeat 0 m)) by (rewrite repeat_length; exact Ha). rewrite nth_repeat.
  split; [apply repeat_length|]. intros b _. rewrite zrow_nth. destruct (Nat.leb b a); reflexivity.
Qed.

Lemma jtj_is rows a b : jtj rows a b = jt_j rows a b.
Proof. reflexivity. Qed.
Lemma jtr_is rows a : jtr rows a = jt_r rows a.
Proof. reflexivity. Qed.

Lemma sum_normal_ok k Es init n m p s :
  (forall E, In E Es -> jacobian_fits E n p s) ->
  exists e rows A v, sum_jacobians Es n p s = Ok (e, rows) /\ sum_normal k Es init n m p s = Ok (e, (A, v)) /\
    mat_is m A (fun a b => k * jt_j rows a b) /\ vec_is m v (fun a => k * jt_r rows a).
Proof.
  induction Es as [|E Es IH]; intros H.
  - exists 0, [], (repeat (repeat 0 m) m), (repeat 0 m). split; [reflexivity|]. split; [reflexivity|]. split.
    + pose proof (mat_is_zero m) as M. apply mat_is_rows in M as [L N]. apply mat_is_rows. split; [exact L|].
      intros a Ha. eapply vec_is_ext; [|apply N, Ha]. intros b _. unfold jt_j. cbn [map rsum fold_right]. rewrite Rmult_0_r. reflexivity.
    + split; [apply repeat_length|]. intros a _. rewrite zrow_nth. unfold jt_r. cbn. ring.
  - destruct (H E (or_introl eq_refl)) as [e [rows [u [G1 [G2 _]]]]].
    destruct IH as [e' [rows' [A [v [I1 [I2 [I3 I4]]]]]]]; [intros; apply H; right; assumption|].
    cbn [sum_jacobians sum_normal]. rewrite G1. cbn [obind fst snd]. rewrite I1, I2. cbn [obind fst snd].
    destruct (Nat.leb_spec u (ef_jsize E)) as [L|L]; [|lia]. cbn [check obind].
    eexists; eexists; eexists; eexists. split; [reflexivity|]. split; [reflexivity|].
    rewrite firstn_pad by lia. split.
    + pose proof (mat_is_add m _ _ _ _ (mat_is_scale m k _ _ (mat_is_map m (jtj (pad_rows n u rows)))) I3) as M.
      apply mat_is_rows in M as [L1 N1]. apply mat_is_rows. split; [exact L1|]. intros a Ha.
      eapply vec_is_ext; [|apply N1, Ha]. intros b _. cbv beta. rewrite jtj_is, jt_j_app, !jt_j_pad.
      destruct (Nat.leb b a); ring.
    + eapply vec_is_ext; [|apply vec_is_add; [apply vec_is_scale, (vec_is_map m (jtr (pad_rows n u rows)))|exact I4]].
      intros a _. cbv beta. rewrite jtr_is, jt_r_app, !jt_r_pad. ring.
Qed.

Lemma sf_normal_lemma S p s : sf_state (sf_sk S) (sf_pt S) p = Ok s ->
  (forall E, In E (sf_fns S) -> 0 < ef_weight E -> jacobian_fits E (length p) p s) ->
  exists e rows A1 v1 A2 v2, sf_jacobian S p = Ok (e, rows) /\
    sf_jtjr S p = Ok (e, (A1, v1)) /\ sf_derivatives S p = Ok (e, (A2, v2)) /\
    mat_is (sf_actual S) A1 (jt_j rows) /\ vec_is (sf_actual S) v1 (jt_r rows) /\
    mat_is (sf_actual S) A2 (fun a b => 2 * jt_j rows a b) /\ vec_is (sf_actual S) v2 (fun a => 2 * jt_r rows a).
Proof.
  intros Hs H.
  assert (HC : forall E, In E (counted_fns (sf_fns S)) -> jacobian_fits E (length p) p s).
  { intros E HE. apply filter_In in HE as [HE1 HE2]. destruct (Rltb_spec 0 (ef_weight E)); [auto|discriminate]. }
  destruct (sum_normal_ok 1 (counted_fns (sf_fns S)) (Some 0%nat) (length p) (sf_actual S) p s HC)
    as [e [rows [A1 [v1 [J1 [N1 [M1 V1]]]]]]].
  destruct (sum_normal_ok 2 (counted_fns (sf_fns S)) None (length p) (sf_actual S) p s HC)
    as [e2 [rows2 [A2 [v2 [J2 [N2 [M2 V2]]]]]]].
  rewrite J1 in J2. injection J2 as <- <-.
  exists e, (pad_rows (length p) (sf_rows (sf_fns S)) rows), A1, v1, A2, v2.
  unfold sf_jacobian, sf_jtjr, sf_derivatives. rewrite Hs. cbn [obind]. rewrite J1, N1, N2.
  split; [reflexivity|]. split; [reflexivity|]. split; [reflexivity|].
  assert (ME : forall A f g, (forall a b, f a b = g a b) -> mat_is (sf_actual S) A f -> mat_is (sf_actual S) A g).
  { intros A f g X [L N]. split; [exact L|]. intros a Ha. destruct (N a Ha) as [N3 N4]. split; [exact N3|].
    intros b Hb. rewrite (N4 b Hb), X. reflexivity. }
  split; [|split; [|split]].
  - eapply ME; [|exact M1]. intros a b. cbv beta. rewrite jt_j_pad. ring.
  - eapply vec_is_ext; [|exact V1]. intros a _. cbv beta. rewrite jt_r_pad. ring.
  - eapply ME; [|exact M2]. intros a b. cbv beta. rewrite jt_j_pad. ring.
  - eapply vec_is_ext; [|exact V2]. intros a _. cbv beta. rewrite jt_r_pad. ring.
Qed.

Lemma actual_lemma n (en : pset) : (forall i, (i < n)%nat -> en i = true -> (i < actual_parameters n en)%nat) /\
  (actual_parameters n en <= n)%nat /\
  ((exists i, (i < n)%nat /\ en i = true) ->
   exists i, (i < n)%nat /\ en i = true /\ actual_parameters n en = S i).
Proof.
  unfold actual_parameters. induction n as [|n [IH1 [IH2 IH3]]].
  - split; [intros; lia|]. split; [cbn; lia|]. intros [i [H _]]; lia.
  - rewrite seq_S, fold_left_app. cbn [fold_left Nat.add]. set (a := fold_left _ (seq 0 n) 0%nat) in *.
    destruct (en n) eqn:E.
    + split; [intros; lia|]. split; [lia|]. intros _. exists n. auto.
    + split; [|split].
      * intros i Hi He. destruct (Nat.eq_dec i n) as [->|]; [congruence|]. apply IH1; [lia|exact He].
      * lia.
      * intros [i [Hi He]]. destruct (Nat.eq_dec i n) as [->|]; [congruence|].
        destruct IH3 as [k [K1 [K2 K3]]]; [exists i; split; [lia|exact He]|]. exists k. repeat split; [lia|exact K2|exact K3].
Qed.

Lemma contract_fits sk pt E p i F d s : jacobian_contract sk pt E p i F d -> sf_state sk pt p = Ok s ->
  jacobian_fits E (length p) p s.
Proof.
  intros [_ J _] Hs. destruct (J s Hs) as [rows [u [E1 [L1 [W1 _]]]]]. exists (F (nth i p 0)), rows, u. auto.
Qed.

(** ** In the form of the theorems *)

Lemma char_state sk pt p : character_wf sk pt -> length p = pt_cols pt -> exists s, sf_state sk pt p = Ok s.
Proof.
  intros [V U WP HR] Lp. destruct (sf_state_ok sk pt p V WP HR Lp) as [jp [js [_ [_ [E _]]]]]. eauto.
Qed.
Lemma char_path sk pt p i : character_wf sk pt -> length p = pt_cols pt ->
  forall t, exists s, sf_state sk pt (set_nth p i t) = Ok s.
Proof. intros C Lp t. apply char_state; [exact C|]. rewrite set_nth_length. exact Lp. Qed.

Lemma sf_gradient_thm S p i : character_wf (sf_sk S) (sf_pt S) -> length p = pt_cols (sf_pt S) -> (i < length p)%nat ->
  (forall E, In E (sf_fns S) -> 0 < ef_weight E -> exists F d, gradient_contract (sf_sk S) (sf_pt S) E p i F d) ->
  exists F g', (forall t, sf_error S (set_nth p i t) = Ok (F t)) /\
    sf_gradient S p = Ok (F (nth i p 0), g') /\ length g' = length p /\
    is_derive F (nth i p 0) (nth i g' 0).
Proof. intros C Lp Hi H. apply sf_gradient_lemma; [apply char_path; assumption|exact Hi|exact H]. Qed.
Lemma sf_jacobian_thm S p i : character_wf (sf_sk S) (sf_pt S) -> length p = pt_cols (sf_pt S) -> (i < length p)%nat ->
  (forall E, In E (sf_fns S) -> 0 < ef_weight E -> exists F d, jacobian_contract (sf_sk S) (sf_pt S) E p i F d) ->
  exists F rows, (forall t, sf_error S (set_nth p i t) = Ok (F t)) /\
    sf_jacobian S p = Ok (F (nth i p 0), rows) /\
    length rows = sf_rows (sf_fns S) /\ (length rows mod 8 = 0)%nat /\
    (forall row, In row rows -> length (fst row) = length p) /\
    is_derive F (nth i p 0) (2 * jt_r rows i).
Proof. intros C Lp Hi H. apply sf_jacobian_lemma; [apply char_path; assumption|exact Hi|exact H]. Qed.

Lemma sum_errors_ok Es p s es : Forall2 (fun E e => ef_error E p s = Ok e) Es es -> sum_errors Es p s = Ok (rsum es).
Proof.
  induction 1 as [|E e Es es H1 H2 IH]; [reflexivity|]. cbn [sum_errors rsum]. rewrite H1. cbn [obind]. rewrite IH. reflexivity.
Qed.
Lemma union_error_lemma w Es p s es : Forall2 (fun E e => ef_error E p s = Ok e) Es es ->
  ef_error (union_fn w Es) p s = Ok (w * rsum es).
Proof. intros H. cbn. rewrite (sum_errors_ok _ _ _ _ H). reflexivity. Qed.
Lemma sf_error_lemma S p s es : sf_state (sf_sk S) (sf_pt S) p = Ok s ->
  Forall2 (fun E e => if Rltb 0 (ef_weight E) then ef_error E p s = Ok e else e = 0) (sf_fns S) es ->
  sf_error S p = Ok (rsum es).
Proof.
  intros Hs H. unfold sf_error. rewrite Hs. cbn [obind]. unfold counted_fns.
  induction H as [|E e Es es H1 H2 IH]; [reflexivity|]. cbn [filter rsum].
  destruct (Rltb 0 (ef_weight E)).
  - cbn [sum_errors]. rewrite H1. cbn [obind]. rewrite IH. reflexivity.
  - rewrite IH, H1. f_equal. ring.
Qed.

Lemma mp_contracts sk pt p i : character_wf sk pt -> length p = pt_cols pt -> (i < pt_cols pt)%nat -> forall E,
  mp_wf E (length p) ->
  (exists F d, gradient_contract sk pt (of_model_parameters E) p i F d) /\
  (0 <= mp_weight E -> (forall j, (j < length p)%nat -> 0 <= nth j (mp_weights E) 0) ->
   exists F d, jacobian_contract sk pt (of_model_parameters E) p i F d).
Proof.
  intros [V U WP HR] Lp Hi E W. split.
  - eexists; eexists; apply mp_gradient_contract_lemma; assumption.
  - intros H1 H2. eexists; eexists; apply mp_jacobian_contract_lemma; assumption.
Qed.
Lemma limits_contracts sk pt p i : character_wf sk pt -> length p = pt_cols pt -> (i < pt_cols pt)%nat -> forall E,
  lf_entries E = pt_entries pt -> lf_n E = pt_cols pt -> limit_fn_wf E (pt_rows pt) ->
  lf_enabled E i = true ->
  (forall l, In l (lf_limits E) -> away_from_range_ends p (ldata l)) ->
  ((forall l, In l (lf_limits E) -> unit_weight_if_two_params l) ->
   (forall l, In l (lf_limits E) -> counted (lf_enabled E) (ldata l)) ->
   exists F d, gradient_contract sk pt (of_limits E) p i F d) /\
  (0 <= lf_weight E -> (forall l, In l (lf_limits E) -> jac_conditions l) ->
   exists F d, jacobian_contract sk pt (of_limits E) p i F d).
Proof.
  intros [V U WP HR] Lp Hi E H1 H2 H3 H4 H5. split.
  - intros H6 H7. apply limits_gradient_contract_lemma; assumption.
  - intros H6 H7. apply limits_jacobian_contract_lemma; assumption.
Qed.
Lemma constraints_contracts sk pt p i : character_wf sk pt -> length p = pt_cols pt -> (i < pt_cols pt)%nat -> forall E al cc js,
  cf_sk E = sk -> cf_pt E = pt -> cfn_wf E -> loss_make al cc = Ok (cf_loss E) ->
  state_of sk pt p = Ok js -> cf_enabled E i = true ->
  ((forall c s, In c (cf_constraints E) -> nth_error js (cparent c) = Some s -> regular (cf_prec E) c s) ->
   exists F d, gradient_contract sk pt (of_constraints E) p i F d) /\
  ((forall c s, In c (cf_constraints E) -> nth_error js (cparent c) = Some s -> jac_regular E c s) ->
   exists F d, jacobian_contract sk pt (of_constraints E) p i F d).
Proof.
  intros [V U WP HR] Lp Hi E al cc js H1 H2 H3 H4 H5 H6. split; intros H7.
  - eapply constraints_gradient_contract_lemma; eassumption.
  - eapply constraints_jacobian_contract_lemma; eassumption.
Qed.

Lemma st_error_lemma E i p jp sts : st_wf E i -> character_wf (st_sk E) (st_pt E) -> length p = pt_cols (st_pt E) ->
  (i < pt_cols (st_pt E))%nat ->
  pt_apply (st_pt E) p = Ok jp -> fk (st_sk E) jp = Ok sts -> st_error E p jp sts = Ok (st_objective E p sts).
Proof.
  intros W [V U WP HR] Lp Hi HJ HF.
  destruct (st_paths (st_sk E) (st_pt E) p i V WP HR Lp) as [ss [HS HP]].
  pose proof (HS (nth i p 0)) as H0. pose proof (st_error_path E i W V WP p Lp Hi ss HS (nth i p 0) jp) as HE.
  rewrite (set_nth_self p i) in * by lia. unfold state_of in H0. rewrite HJ in H0. cbn [obind] in H0.
  assert (ss (nth i p 0) = sts) by congruence. subst sts. rewrite (HE HJ). reflexivity.
Qed.
Lemma state_gradient_thm E p i : character_wf (st_sk E) (st_pt E) -> length p = pt_cols (st_pt E) -> (i < pt_cols (st_pt E))%nat ->
  st_wf E i ->
  (nth i (st_tpw E) 0 = 0 \/ nth i (st_tpw E) 0 = 1 \/ nth i p 0 = nth i (st_tparams E) 0) ->
  exists F d, gradient_contract (st_sk E) (st_pt E) (of_state E) p i F d.
Proof. intros [V U WP HR] Lp Hi W HT. apply state_gradient_contract_lemma; first [assumption|reflexivity]. Qed.
Lemma state_jacobian_thm E p i : character_wf (st_sk E) (st_pt E) -> length p = pt_cols (st_pt E) -> (i < pt_cols (st_pt E))%nat ->
  st_wf E i -> nonneg_weights E -> resolved (st_prec E) (st_tpw E) -> 0 <= st_prec E ->
  exists F d, jacobian_contract (st_sk E) (st_pt E) (of_state E) p i F d /\
    forall s e rows used, sf_state (st_sk E) (st_pt E) p = Ok s ->
      ef_jacobian (of_state E) (length p) p s = Ok (e, rows, used) ->
      length rows = ef_jsize (of_state E) /\ rsum (map (fun row => snd row * snd row) rows) = e.
Proof.
  intros [V U WP HR] Lp Hi W NN HT HP0.
  destruct (state_jacobian_contract_lemma (st_sk E) (st_pt E) p i V U WP HR Lp Hi E eq_refl eq_refl W NN HT HP0) as [F [d C]].
  exists F, d. split; [exact C|]. intros s e rows used Hs HJ.
  destruct (st_paths (st_sk E) (st_pt E) p i V WP HR Lp) as [sts [HS HP]].
  destruct (st_jacobian_path E i W V U WP p Lp Hi sts HS NN (conj HT HP0)) as [rows' [E1 [L1 [_ [_ Q1]]]]].
  destruct (HP (nth i p 0)) as [jp [P1 P2]]. rewrite (set_nth_self p i) in * by lia.
  rewrite P2 in Hs. injection Hs as <-. cbn in HJ. rewrite E1 in HJ. injection HJ as <- <- _. auto.
Qed.
Lemma st_gradient_raw E p i : character_wf (st_sk E) (st_pt E) -> length p = pt_cols (st_pt E) -> (i < pt_cols (st_pt E))%nat ->
  st_wf E i ->
  exists s F g', sf_state (st_sk E) (st_pt E) p = Ok s /\
    (forall t, exists s', sf_state (st_sk E) (st_pt E) (set_nth p i t) = Ok s' /\
       ef_error (of_state E) (set_nth p i t) s' = Ok (F t)) /\
    ef_gradient (of_state E) p s (repeat 0 (length p)) = Ok (F (nth i p 0), g') /\
    is_derive F (nth i p 0) (nth i g' 0 + st_weight E *
      ((nth i p 0 - nth i (st_tparams E) 0) * (2 * nth i (st_tpw E) 0 * (nth i (st_tpw E) 0 - 1)))).
Proof.
  intros [V U WP HR] Lp Hi W.
  destruct (st_paths (st_sk E) (st_pt E) p i V WP HR Lp) as [sts [HS HP]].
  destruct (HP (nth i p 0)) as [jp [P1 P2]]. rewrite (set_nth_self p i) in P1, P2 by lia.
  destruct (st_gradient_path E i W V U WP p Lp Hi sts HS jp (repeat 0 (length p)) P1 (repeat_length _ _)) as [g' [E1 [L1 D1]]].
  exists (SState jp (sts (nth i p 0))), (st_F E i p sts), g'. split; [exact P2|]. split; [|split; [exact E1|]].
  - intros t. destruct (HP t) as [jpt [Q1 Q2]]. eexists; split; [exact Q2|]. cbn. eapply st_error_path; eassumption.
  - eapply d_eq; [exact D1|]. unfold par_d. rewrite zrow_nth. ring.
Qed.
