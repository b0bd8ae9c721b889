(** C14, C65: the robust loss. *)

From Coq Require Import Bool Reals Lra Psatz.
From Coquelicot Require Import Coquelicot.
From Verif Require Import Prelude Rbool Loss_model Loss_spec Loss_proofs.
Local Open Scope R_scope.

(** For every accepted alpha and c, deriv() is the derivative of value(). *)
Theorem loss_deriv_is_derivative : forall a c l, loss_make a c = Ok l ->
  forall s, 0 <= s -> is_derive (loss_value l) s (loss_deriv l s).
Proof. exact loss_derivative_lemma. Qed.
Print Assumptions loss_deriv_is_derivative.

(** The loss vanishes exactly at zero error, is never negative and grows
    strictly with the squared error; its derivative stays positive, so the
    square root taken by the constraint jacobian is that of a positive number. *)
Theorem loss_is_a_penalty : forall a c l, loss_make a c = Ok l ->
  (forall s, 0 <= s -> 0 <= loss_value l s /\ (loss_value l s = 0 <-> s = 0)) /\
  (forall s s', 0 <= s -> s < s' -> loss_value l s < loss_value l s') /\
  (forall s, 0 <= s -> 0 < loss_deriv l s).
Proof.
  intros a c l H. split; [|split].
  - exact (loss_nonneg_lemma a c l H).
  - exact (loss_increasing_lemma a c l H).
  - exact (loss_deriv_pos_lemma a c l H).
Qed.
Print Assumptions loss_is_a_penalty.

(** The constructor accepts exactly the positive c. *)
Theorem loss_accepts_positive_c : forall a c,
  (exists l, loss_make a c = Ok l) <-> 0 < c.
Proof.
  intros a c. unfold loss_make. split.
  - intros [l E]. destruct (Rltb_spec 0 c); [assumption|discriminate].
  - intros Hc. destruct (Rltb_spec 0 c); [eexists; reflexivity|contradiction].
Qed.
Print Assumptions loss_accepts_positive_c.

(** Away from the special values the loss is the one of the paper, and so it is
    at alpha = 1. Missing: alpha = 0 and alpha < 0. *)
Theorem loss_matches_paper_partial : forall a c l s,
  loss_make a c = Ok l -> 0 <= s ->
  kEps < a -> (a < 1 - kEps \/ 1 + kEps < a \/ a = 1) -> (a < 2 - kEps \/ 2 + kEps < a) ->
  loss_value l s = barron a c s.
Proof. exact loss_is_barron_lemma. Qed.
Print Assumptions loss_matches_paper_partial.

(** Every alpha below -1e-9 is treated as minus infinity: alpha = -2
    (Geman-McClure) does not give the loss of the paper. *)
Theorem negative_alpha_matches_paper_refuted : exists a c l s,
  loss_make a c = Ok l /\ 0 <= s /\ a < 0 /\ loss_value l s <> barron a c s.
Proof.
  exists (-2), 1, (Loss (-2) (1 / (1 * 1)) TWelsch), 4. split; [|split; [lra|split; [lra|]]].
  - unfold loss_make. destruct (Rltb_spec 0 1); [|lra]. rewrite welsch_type; [reflexivity|].
    pose proof kEps_pos. lra.
  - unfold loss_value, barron; cbn [loss_kind loss_alpha loss_invC2].
    unfold welsch_loss, l2_loss.
    replace (Rabs (-2 - 2)) with 4 by (rewrite Rabs_left; lra).
    replace (-2 / 2) with (- (1)) by field. rewrite Rpower_Ropp.
    rewrite Rpower_1 by lra.
    replace (- (1 / 2) * (4 * (1 / (1 * 1)))) with (- (1) + - (1)) by field.
    rewrite exp_plus, !exp_Ropp.
    assert (E : 2 <= exp 1) by (pose proof (exp_ineq1 1 ltac:(lra)); lra).
    assert (I : / exp 1 <= / 2) by (apply Rinv_le_contravar; lra).
    assert (I0 : 0 < / exp 1) by (apply Rinv_0_lt_compat; lra).
    assert (P : / exp 1 * / exp 1 <= / 4) by nra.
    intros E1. assert (E2 : 4 / -2 * (/ (4 / (1 * 1) / 4 + 1) - 1) = 1) by field.
    rewrite E2 in E1. nra.
Qed.
Print Assumptions negative_alpha_matches_paper_refuted.

(** At zero error every kind of loss has slope 1/(2c^2) except the quadratic
    one, which has twice that: switching alpha to 2 doubles the weight. *)
Theorem loss_slope_at_zero : forall a c l, loss_make a c = Ok l ->
  loss_deriv l 0 = (match loss_kind l with TL2 => 1 | _ => / 2 end) / (c * c).
Proof. exact loss_slope_lemma. Qed.
Print Assumptions loss_slope_at_zero.

Theorem loss_slope_same_for_every_alpha_refuted : exists a a' c l l',
  loss_make a c = Ok l /\ loss_make a' c = Ok l' /\ loss_deriv l 0 <> loss_deriv l' 0.
Proof.
  exists 2, 1, 1, (Loss 2 (1 / (1 * 1)) TL2), (Loss 1 (1 / (1 * 1)) TL1).
  unfold loss_make. destruct (Rltb_spec 0 1); [|lra]. rewrite type_2, type_1.
  split; [reflexivity|split; [reflexivity|]].
  unfold loss_deriv; cbn [loss_kind loss_alpha loss_invC2].
  unfold deriv_l2_loss, deriv_l1_loss, l2_loss.
  rewrite Rmult_0_l, Rplus_0_l, sqrt_1. lra.
Qed.
Print Assumptions loss_slope_same_for_every_alpha_refuted.

(** A general loss exists: alpha = 3/2, c = 2. *)
Example general_loss_exists : exists l, loss_make (3/2) 2 = Ok l /\ loss_kind l = TGeneral.
Proof.
  unfold loss_make. destruct (Rltb_spec 0 2); [|lra]. eexists; split; [reflexivity|].
  cbn. pose proof kEps_pos. apply general_type; lra.
Qed.
