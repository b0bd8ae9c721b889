From Coq Require Import Bool Reals Lra Psatz.
From Coquelicot Require Import Coquelicot.
From Verif Require Import Prelude Rbool FK_deriv_proofs Loss_model Loss_spec.
Local Open Scope R_scope.

Lemma kEps_pos : 0 < kEps < / 10.
Proof. unfold kEps. split; [apply Rinv_0_lt_compat; lra|apply Rinv_lt_contravar; lra]. Qed.

Lemma loss_make_inv a c l : loss_make a c = Ok l ->
  0 < c /\ l = Loss a (1 / (c * c)) (loss_type_of a).
Proof.
  unfold loss_make. destruct (Rltb_spec 0 c); intros E; [|discriminate].
  split; [assumption|]. congruence.
Qed.
Lemma general_alpha a : loss_type_of a = TGeneral -> 0 < a /\ a <> 2.
Proof.
  unfold loss_type_of. pose proof kEps_pos.
  destruct (Rleb_spec (2 - kEps) a), (Rleb_spec a (2 + kEps)); cbn [andb]; try discriminate;
  destruct (Rleb_spec (1 - kEps) a), (Rleb_spec a (1 + kEps)); cbn [andb]; try discriminate;
  destruct (Rleb_spec (0 - kEps) a), (Rleb_spec a (0 + kEps)); cbn [andb]; try discriminate;
  destruct (Rleb_spec a (- kEps)); try discriminate; intros _; split; lra.
Qed.
Lemma general_type a : kEps < a -> (a < 1 - kEps \/ 1 + kEps < a) -> (a < 2 - kEps \/ 2 + kEps < a) ->
  loss_type_of a = TGeneral.
Proof.
  intros H1 H2 H3. unfold loss_type_of. pose proof kEps_pos.
  destruct (Rleb_spec (2 - kEps) a), (Rleb_spec a (2 + kEps)); cbn [andb]; try lra;
  destruct (Rleb_spec (1 - kEps) a), (Rleb_spec a (1 + kEps)); cbn [andb]; try lra;
  destruct (Rleb_spec (0 - kEps) a), (Rleb_spec a (0 + kEps)); cbn [andb]; try lra;
  destruct (Rleb_spec a (- kEps)); try lra; reflexivity.
Qed.
Lemma welsch_type a : a < - kEps -> loss_type_of a = TWelsch.
Proof.
  intros H1. unfold loss_type_of. pose proof kEps_pos.
  destruct (Rleb_spec (2 - kEps) a), (Rleb_spec a (2 + kEps)); cbn [andb]; try lra;
  destruct (Rleb_spec (1 - kEps) a), (Rleb_spec a (1 + kEps)); cbn [andb]; try lra;
  destruct (Rleb_spec (0 - kEps) a), (Rleb_spec a (0 + kEps)); cbn [andb]; try lra;
  destruct (Rleb_spec a (- kEps)); try lra; reflexivity.
Qed.
Lemma type_2 : loss_type_of 2 = TL2.
Proof.
  unfold loss_type_of. pose proof kEps_pos.
  destruct (Rleb_spec (2 - kEps) 2), (Rleb_spec 2 (2 + kEps)); cbn [andb]; try lra. reflexivity.
Qed.
Lemma type_1 : loss_type_of 1 = TL1.
Proof.
  unfold loss_type_of. pose proof kEps_pos.
  destruct (Rleb_spec (2 - kEps) 1), (Rleb_spec 1 (2 + kEps)); cbn [andb]; try lra;
  destruct (Rleb_spec (1 - kEps) 1), (Rleb_spec 1 (1 + kEps)); cbn [andb]; try lra; reflexivity.
Qed.

Section One.
Context (a c : R) (l : loss) (H : loss_make a c = Ok l).

Lemma ic_pos : 0 < loss_invC2 l.
Proof.
  destruct (loss_make_inv _ _ _ H) as [Hc ->]. cbn.
  apply Rdiv_lt_0_compat; [lra|]. apply Rmult_lt_0_compat; lra.
Qed.

Lemma l2_pos s : 0 <= s -> 0 <= l2_loss s (loss_invC2 l).
Proof. intros Hs. unfold l2_loss. apply Rmult_le_pos; [exact Hs|]. left. apply ic_pos. Qed.

Lemma d_l2 (s : R) : is_derive (fun u => l2_loss u (loss_invC2 l)) s (loss_invC2 l).
Proof.
  unfold l2_loss. eapply d_eq; [apply d_mult; [apply @is_derive_id|apply d_const]|].
  cbv beta. unfold one; cbn. ring.
Qed.

Lemma loss_derivative_lemma s : 0 <= s -> is_derive (loss_value l) s (loss_deriv l s).
Proof.
  intros Hs. pose proof (l2_pos s Hs) as H2. pose proof ic_pos as Hic.
  pose proof (d_l2 s) as D2.
  pose proof (loss_make_inv _ _ _ H) as [Hc El].
  unfold loss_value, loss_deriv.
  set (ic := loss_invC2 l) in *. destruct (loss_kind l) eqn:K; cbv zeta.
  - unfold l1_loss, deriv_l1_loss. eapply d_eq.
    + apply d_minus; [|apply d_const].
      apply (is_derive_sqrt (fun u => l2_loss u ic + 1) s (ic + 0)); [|cbv beta; lra].
      apply d_plus; [exact D2|apply d_const].
    + cbv beta. set (q := sqrt _) in *. assert (q <> 0) by (apply Rgt_not_eq, sqrt_lt_R0; lra). field_simplify_eq; [lra|lra].
  - exact D2.
  - unfold cauchy_loss, deriv_cauchy_loss. eapply d_eq.
    + apply (d_comp ln (fun u => (1 / 2) * l2_loss u ic + 1)).
      * apply is_derive_ln. cbv beta. lra.
      * apply d_plus; [|apply d_const]. apply d_mult; [apply d_const|exact D2].
    + cbv beta. unfold l2_loss in *. field. rewrite ?(Rmult_comm ic s). repeat split; lra.
  - unfold welsch_loss, deriv_welsch_loss. eapply d_eq.
    + apply d_minus; [apply d_const|].
      apply (d_comp exp (fun u => - (1 / 2) * l2_loss u ic)); [apply is_derive_exp|].
      apply d_mult; [apply d_const|exact D2].
    + cbv beta. field.
  - subst l. cbn [loss_kind loss_alpha loss_invC2] in *.
    apply general_alpha in K. destruct K as [Ha0 Ha2].
    assert (Hm : 0 < Rabs (a - 2)) by (apply Rabs_pos_lt; lra).
    set (m := Rabs (a - 2)) in *.
    assert (Hb : 0 < l2_loss s ic / m + 1).
    { assert (0 <= l2_loss s ic / m) by (apply Rdiv_le_0_compat; assumption). lra. }
    eapply d_eq.
    + unfold Rdiv. apply d_mult; [|apply d_const]. apply d_mult; [|apply d_const].
      apply d_minus; [|apply d_const].
      unfold Rpower.
      apply (d_comp exp (fun u => (1 / 2) * a * ln (l2_loss u ic * / m + 1))); [apply is_derive_exp|].
      apply d_mult; [apply d_const|].
      apply (d_comp ln (fun u => l2_loss u ic * / m + 1)).
      * apply is_derive_ln. exact Hb.
      * apply d_plus; [|apply d_const]. apply d_mult; [exact D2|apply d_const].
    + cbv beta. fold (Rdiv (l2_loss s ic) m).
      replace (exp ((1 / 2) * a * ln (l2_loss s ic / m + 1))) with
        (Rpower (l2_loss s ic / m + 1) ((1 / 2) * a - 1) * (l2_loss s ic / m + 1)).
      * field. split; [lra|]. split; lra.
      * rewrite <- (Rpower_1 (l2_loss s ic / m + 1)) at 2 by exact Hb.
        rewrite <- Rpower_plus. unfold Rpower. do 2 f_equal. ring.
Qed.

Lemma loss_zero_lemma : loss_value l 0 = 0.
Proof.
  unfold loss_value. destruct (loss_kind l) eqn:K; cbv zeta;
    unfold l1_loss, cauchy_loss, welsch_loss, l2_loss; rewrite ?Rmult_0_l, ?Rmult_0_r, ?Rplus_0_l.
  - rewrite sqrt_1. ring.
  - reflexivity.
  - apply ln_1.
  - rewrite exp_0. ring.
  - unfold Rdiv. rewrite Rmult_0_l, Rplus_0_l. unfold Rpower. rewrite ln_1, Rmult_0_r, exp_0. ring.
Qed.

Lemma loss_deriv_pos_lemma s : 0 <= s -> 0 < loss_deriv l s.
Proof.
  intros Hs. pose proof (l2_pos s Hs) as H2. pose proof ic_pos as Hic.
  unfold loss_deriv. set (ic := loss_invC2 l) in *. destruct (loss_kind l); cbv zeta.
  - unfold deriv_l1_loss. apply Rdiv_lt_0_compat; [lra|]. apply sqrt_lt_R0. lra.
  - exact Hic.
  - unfold deriv_cauchy_loss. apply Rdiv_lt_0_compat; [exact Hic|].
    unfold l2_loss in H2. rewrite Rmult_comm in H2. lra.
  - unfold deriv_welsch_loss. apply Rmult_lt_0_compat; [lra|apply exp_pos].
  - apply Rmult_lt_0_compat; [lra|apply exp_pos].
Qed.

Lemma loss_increasing_lemma s s' : 0 <= s -> s < s' -> loss_value l s < loss_value l s'.
Proof.
  intros Hs Hss.
  destruct (MVT_gen (loss_value l) s s' (loss_deriv l)) as [x [Hx E]].
  - intros x Hx. apply loss_derivative_lemma.
    rewrite Rmin_left, Rmax_right in Hx by lra. lra.
  - intros x Hx. rewrite Rmin_left, Rmax_right in Hx by lra.
    apply continuity_pt_filterlim.
    apply (ex_derive_continuous (loss_value l)). exists (loss_deriv l x).
    apply loss_derivative_lemma. lra.
  - rewrite Rmin_left, Rmax_right in Hx by lra.
    pose proof (loss_deriv_pos_lemma x ltac:(lra)).
    assert (0 < loss_deriv l x * (s' - s)) by (apply Rmult_lt_0_compat; lra). lra.
Qed.

Lemma loss_nonneg_lemma s : 0 <= s -> 0 <= loss_value l s /\ (loss_value l s = 0 <-> s = 0).
Proof.
  intros Hs. pose proof loss_zero_lemma as Z.
  destruct (Rle_lt_or_eq_dec 0 s Hs) as [Hlt|<-].
  - pose proof (loss_increasing_lemma 0 s (Rle_refl 0) Hlt). split; [lra|]. split; lra.
  - split; [lra|tauto].
Qed.

(** The slope at zero error. *)
Lemma loss_slope_lemma : loss_deriv l 0 = (match loss_kind l with TL2 => 1 | _ => / 2 end) / (c * c).
Proof.
  destruct (loss_make_inv _ _ _ H) as [Hc El]. subst l.
  unfold loss_deriv; cbn [loss_kind loss_alpha loss_invC2].
  assert (Hcc : c * c <> 0) by nra.
  destruct (loss_type_of a); unfold deriv_l1_loss, deriv_l2_loss, deriv_cauchy_loss, deriv_welsch_loss, l2_loss;
    rewrite ?Rmult_0_l, ?Rmult_0_r, ?Rplus_0_l.
  - rewrite sqrt_1. field. lra.
  - reflexivity.
  - field. lra.
  - rewrite exp_0. field. lra.
  - replace (0 / Rabs (a - 2) + 1) with 1 by (unfold Rdiv; ring). unfold Rpower. rewrite ln_1, Rmult_0_r, exp_0. field. lra.
Qed.
End One.

Lemma loss_is_barron_lemma a c l s :
  loss_make a c = Ok l -> 0 <= s ->
  kEps < a -> (a < 1 - kEps \/ 1 + kEps < a \/ a = 1) -> (a < 2 - kEps \/ 2 + kEps < a) ->
  loss_value l s = barron a c s.
Proof.
  intros H Hs H1 H2 H3. pose proof kEps_pos.
  destruct (loss_make_inv _ _ _ H) as [Hc ->].
  assert (Hcc : 0 < c * c) by nra.
  unfold barron, loss_value; cbn [loss_kind loss_alpha loss_invC2].
  destruct H2 as [H2|[H2|H2]].
  - rewrite general_type by tauto. unfold l2_loss.
    replace (s * (1 / (c * c))) with (s / (c * c)) by (field; lra).
    replace ((1 / 2) * a) with (a / 2) by field. field. lra.
  - rewrite general_type by tauto. unfold l2_loss.
    replace (s * (1 / (c * c))) with (s / (c * c)) by (field; lra).
    replace ((1 / 2) * a) with (a / 2) by field. field. lra.
  - subst a. rewrite type_1. unfold l1_loss, l2_loss.
    replace (Rabs (1 - 2)) with 1 by (rewrite Rabs_left; lra).
    replace (s * (1 / (c * c))) with (s / (c * c)) by (field; lra).
    replace (s / (c * c) / 1 + 1) with (s / (c * c) + 1) by (field; lra).
    replace (1 / 2) with (/ 2) by field.
    rewrite Rpower_sqrt.
    + field.
    + assert (0 <= s / (c * c)) by (apply Rdiv_le_0_compat; lra). lra.
Qed.
