From Coq Require Import Reals List Arith Lia Lra Wf_nat.
From Coquelicot Require Import Coquelicot.
From Verif Require Import Prelude R3 Transform_model Transform_proofs Skeleton_model Skeleton_spec
  Skeleton_proofs FK_model FK_spec.
Import ListNotations.
Local Open Scope R_scope.

(** ** The states produced by the loop *)

Definition parent_state (sts : list jstate) (o : option nat) (ps : option jstate) : Prop :=
  match o with
  | None => ps = None
  | Some p => exists s, nth_error sts p = Some s /\ ps = Some s
  end.

Definition fk_states (sk : skeleton) (params : list R) (sts : list jstate) : Prop :=
  length sts = length sk /\
  forall k jt, nth_error sk k = Some jt ->
    exists ps, parent_state sts (jparent jt) ps /\
      nth_error sts k = Some (joint_state_set jt (jparam_at params k) ps).

Lemma fk_from_spec params : forall js acc,
  (forall i jt p, nth_error js i = Some jt -> jparent jt = Some p -> (p < length acc + i)%nat) ->
  exists sts, fk_from js params acc = Ok (acc ++ sts) /\ length sts = length js /\
    forall i jt, nth_error js i = Some jt ->
      exists ps, parent_state (acc ++ sts) (jparent jt) ps /\
        nth_error sts i = Some (joint_state_set jt (jparam_at params (length acc + i)) ps).
Proof.
  induction js as [|jt js IH]; intros acc H.
  - exists []. rewrite app_nil_r. split; [reflexivity|]. split; [reflexivity|].
    intros [|i] jt E; discriminate.
  - cbn [fk_from].
    assert (exists ps, (match jparent jt with
                  | None => Ok None
                  | Some p => obind (rd acc p) (fun s => Ok (Some s))
                  end) = Ok ps /\
                 match jparent jt with
                 | None => ps = None
                 | Some p => exists s, nth_error acc p = Some s /\ ps = Some s end) as [ps [E1 E2]].
    { destruct (jparent jt) as [p|] eqn:Ep; [|eauto].
      specialize (H 0%nat jt p eq_refl Ep). rewrite Nat.add_0_r in H.
      destruct (rd_ok acc p H) as [s [Es1 Es2]]. rewrite Es1. cbn [obind]. eauto. }
    rewrite E1. cbn [obind].
    set (st := joint_state_set jt (jparam_at params (length acc)) ps).
    destruct (IH (acc ++ [st])) as [sts [F1 [F2 F3]]].
    { intros i jt' p Hi Hp. rewrite app_length. cbn [length].
      specialize (H (S i) jt' p Hi Hp). lia. }
    exists (st :: sts). rewrite F1, <- app_assoc. split; [reflexivity|]. split; [cbn; lia|].
    intros [|i] jt' Hi; cbn in Hi.
    + injection Hi as <-. exists ps. split.
      * unfold parent_state. destruct (jparent jt) as [p|]; [|exact E2].
        destruct E2 as [s [Es ->]]. exists s. split; [|reflexivity].
        rewrite nth_error_app1; [exact Es|]. apply nth_error_Some. congruence.
      * cbn. rewrite Nat.add_0_r. reflexivity.
    + destruct (F3 i jt' Hi) as [ps' [G1 G2]]. exists ps'. rewrite <- app_assoc in G1. split; [exact G1|].
      cbn [nth_error]. rewrite G2. rewrite app_length. cbn [length].
      replace (length acc + 1 + i)%nat with (length acc + S i)%nat by lia. reflexivity.
Qed.

Definition valid_sk (sk : skeleton) : Prop := parents_first (sk_parents sk).

Lemma valid_sk_parent sk k jt p :
  valid_sk sk -> nth_error sk k = Some jt -> jparent jt = Some p -> (p < k)%nat.
Proof.
  intros V E P. apply (V k p). unfold sk_parents. rewrite nth_error_map, E. cbn. rewrite P. reflexivity.
Qed.

Lemma fk_ok sk params :
  valid_sk sk -> length params = (7 * length sk)%nat ->
  exists sts, fk sk params = Ok sts /\ fk_states sk params sts.
Proof.
  intros V L. unfold fk. rewrite L, Nat.eqb_refl.
  destruct (fk_from_spec params sk []) as [sts [E [L2 H]]].
  { intros i jt p Hi Hp. eapply valid_sk_parent; eauto. }
  exists sts. split; [exact E|]. split; [exact L2|]. exact H.
Qed.

Lemma fk_inv sk params sts :
  valid_sk sk -> fk sk params = Ok sts ->
  length params = (7 * length sk)%nat /\ fk_states sk params sts.
Proof.
  intros V E. unfold fk in E.
  destruct (Nat.eqb_spec (length params) (7 * length sk)) as [L|L]; [|discriminate].
  split; [exact L|]. destruct (fk_ok sk params V L) as [sts' [E' H]].
  unfold fk in E'. rewrite L, Nat.eqb_refl in E'. congruence.
Qed.

Lemma fk_states_get sk params sts k :
  fk_states sk params sts -> (k < length sk)%nat ->
  exists jt ps, nth_error sk k = Some jt /\ parent_state sts (jparent jt) ps /\
    nth_error sts k = Some (joint_state_set jt (jparam_at params k) ps).
Proof.
  intros [L H] Hk. destruct (nth_error sk k) as [jt|] eqn:E.
  - destruct (H k jt E) as [ps [H1 H2]]. eauto 6.
  - apply nth_error_None in E. lia.
Qed.

Definition parent_tf (ps : option jstate) : tf :=
  match ps with Some s => js_world s | None => tf_id end.

Definition local_tf (jt : joint) (p : jparam) : tf :=
  TF (qmul (qmul (qmul (jprerot jt) (qaxis (jrz p) ez)) (qaxis (jry p) ey)) (qaxis (jrx p) ex))
     (vadd (joffset jt) (V3 (jtx p) (jty p) (jtz p))) (exp2 (jsc p)).

Lemma js_world_set jt p ps :
  js_world (joint_state_set jt p ps) = tf_mul (parent_tf ps) (local_tf jt p).
Proof. reflexivity. Qed.
Lemma js_local_set jt p ps : js_local (joint_state_set jt p ps) = local_tf jt p.
Proof. reflexivity. Qed.

(** ** Unit rotations, positive scales *)

Definition tf_good (a : tf) : Prop := qunit (rot a) /\ 0 < scl a.
Lemma tf_good_ok a : tf_good a -> tf_ok a.
Proof. intros [H1 H2]. split; [exact H1|lra]. Qed.
Lemma tf_good_id : tf_good tf_id.
Proof. split; [apply qunit_id|cbn; lra]. Qed.
Lemma tf_good_mul a b : tf_good a -> tf_good b -> tf_good (tf_mul a b).
Proof.
  intros [A1 A2] [B1 B2]. split; cbn; [apply qunit_mul; assumption|apply Rmult_lt_0_compat; assumption].
Qed.
Lemma local_tf_good jt p : qunit (jprerot jt) -> tf_good (local_tf jt p).
Proof.
  intros H. split; cbn.
  - repeat apply qunit_mul; try exact H; apply qaxis_unit; auto using ex_unit, ey_unit, ez_unit.
  - apply exp_pos.
Qed.

Lemma fk_good sk params sts (V : valid_sk sk) (U : unit_prerotations sk) :
  fk_states sk params sts ->
  forall k s, nth_error sts k = Some s -> tf_good (js_local s) /\ tf_good (js_world s).
Proof.
  intros F k. induction (lt_wf k) as [k _ IH]. intros s E.
  assert (Hk : (k < length sk)%nat).
  { destruct F as [<- _]. apply nth_error_Some. congruence. }
  destruct (fk_states_get _ _ _ _ F Hk) as [jt [ps [E1 [E2 E3]]]].
  rewrite E in E3. injection E3 as ->.
  rewrite js_world_set, js_local_set.
  assert (G : tf_good (local_tf jt (jparam_at params k))) by (apply local_tf_good, (U k jt E1)).
  split; [exact G|]. apply tf_good_mul; [|exact G].
  unfold parent_state in E2. destruct (jparent jt) as [p|] eqn:Ep.
  - destruct E2 as [sp [Es ->]]. cbn. apply (IH p); [|exact Es].
    eapply valid_sk_parent; eauto.
  - subst. apply tf_good_id.
Qed.

(** ** The chain of joints *)

Lemma chain_exists sk (V : valid_sk sk) : forall j, (j < length sk)%nat -> exists l, chain sk j l.
Proof.
  intros j. induction (lt_wf j) as [j _ IH]. intros Hj.
  destruct (nth_error sk j) as [jt|] eqn:E; [|apply nth_error_None in E; lia].
  destruct (jparent jt) as [p|] eqn:P.
  - pose proof (valid_sk_parent _ _ _ _ V E P) as Hp.
    destruct (IH p Hp) as [l Hl]; [lia|]. exists (l ++ [j]). eapply chain_child; eauto.
  - exists [j]. eapply chain_root; eauto.
Qed.

Lemma chain_unique sk j l : chain sk j l -> forall l', chain sk j l' -> l = l'.
Proof.
  induction 1 as [j jt E P|j jt p l E P _ IH]; intros l' H.
  - destruct H as [j jt' E' P'|j jt' p' l' E' P' H']; [reflexivity|].
    congruence.
  - destruct H as [j jt' E' P'|j jt' p' l' E' P' H']; [congruence|].
    f_equal. apply IH. replace p with p' by congruence. exact H'.
Qed.

Lemma chain_ancestor sk j l : chain sk j l ->
  forall a, In a l <-> ancestor (sk_parents sk) j a.
Proof.
  induction 1 as [j jt E P|j jt p l E P Hc IH]; intros a.
  - assert (N : nth_error (sk_parents sk) j = Some None).
    { unfold sk_parents. rewrite nth_error_map, E. cbn. congruence. }
    split.
    + intros [<-|[]]. apply ancestor_self. unfold sk_parents. rewrite map_length.
      apply nth_error_Some. congruence.
    + intros H. apply ancestor_inv in H. destruct H as [->|[p [E' _]]]; [left; reflexivity|congruence].
  - assert (N : nth_error (sk_parents sk) j = Some (Some p)).
    { unfold sk_parents. rewrite nth_error_map, E. cbn. congruence. }
    rewrite in_app_iff, IH. split.
    + intros [H|[<-|[]]].
      * eapply ancestor_up; eauto.
      * apply ancestor_self. unfold sk_parents. rewrite map_length.
        apply nth_error_Some. congruence.
    + intros H. apply ancestor_inv in H. destruct H as [->|[p' [E' H]]].
      * right; left; reflexivity.
      * left. congruence.
Qed.

Lemma chain_map_app sk params l1 l2 x :
  (forall a, In a l1 -> (a < length sk)%nat) ->
  chain_map sk params (l1 ++ l2) x = chain_map sk params l1 (chain_map sk params l2 x).
Proof.
  induction l1 as [|a l1 IH]; intros H; [reflexivity|].
  cbn [app chain_map]. destruct (nth_error sk a) as [jt|] eqn:E.
  - rewrite IH; [reflexivity|]. intros b Hb. apply H. right; exact Hb.
  - exfalso. apply nth_error_None in E. specialize (H a (or_introl eq_refl)). lia.
Qed.

Lemma chain_in_range sk j l : chain sk j l -> forall a, In a l -> (a < length sk)%nat.
Proof.
  intros H a Ha. apply (chain_ancestor _ _ _ H) in Ha. apply ancestor_bounds in Ha.
  unfold sk_parents in Ha. rewrite map_length in Ha. tauto.
Qed.

Lemma local_tf_point jt p x :
  qunit (jprerot jt) -> tf_point (local_tf jt p) x = joint_map jt p x.
Proof.
  intros U. unfold tf_point, local_tf, joint_map; cbn [rot trans scl].
  rewrite !qrot_mul; try (repeat apply qunit_mul; auto using qaxis_unit, ex_unit, ey_unit, ez_unit);
    auto using qaxis_unit, ex_unit, ey_unit, ez_unit.
  rewrite qmat_vec, qrot_axis_x, qrot_axis_y, qrot_axis_z.
  unfold exp2, Rpower, Rx, Ry, Rz. reflexivity.
Qed.

Lemma fk_chain sk params sts (V : valid_sk sk) (U : unit_prerotations sk) :
  fk_states sk params sts ->
  forall j l, chain sk j l -> forall s, nth_error sts j = Some s ->
  forall x, tf_point (js_world s) x = chain_map sk params l x.
Proof.
  intros F j l H. induction H as [j jt E P|j jt p l E P Hc IH]; intros s Es x.
  - destruct F as [_ F]. destruct (F j jt E) as [ps [E2 E3]]. rewrite Es in E3. injection E3 as ->.
    rewrite P in E2. cbn in E2. subst ps.
    rewrite js_world_set. cbn [parent_tf]. rewrite tf_mul_id_l.
    cbn [chain_map]. rewrite E. apply local_tf_point. exact (U j jt E).
  - pose proof F as F0. destruct F as [_ F]. destruct (F j jt E) as [ps [E2 E3]]. rewrite Es in E3. injection E3 as ->.
    rewrite P in E2. destruct E2 as [sp [Esp ->]].
    rewrite js_world_set. cbn [parent_tf].
    rewrite tf_point_mul.
    + rewrite chain_map_app by (eapply chain_in_range; eauto).
      rewrite (IH sp Esp). f_equal. cbn [chain_map]. rewrite E. apply local_tf_point. exact (U j jt E).
    + apply tf_good_ok. eapply fk_good; eauto.
    + apply tf_good_ok, local_tf_good, (U j jt E).
Qed.

(** ** Locality *)

Lemma fk_local sk params params' sts sts' (V : valid_sk sk) a :
  fk_states sk params sts -> fk_states sk params' sts' ->
  (forall j, (j < length sk)%nat -> j <> a -> jparam_at params j = jparam_at params' j) ->
  forall j, ~ ancestor (sk_parents sk) j a -> nth_error sts j = nth_error sts' j.
Proof.
  intros F F' Heq j. induction (lt_wf j) as [j _ IH]. intros Hna.
  destruct (Nat.lt_ge_cases j (length sk)) as [Hj|Hj].
  - destruct (fk_states_get _ _ _ _ F Hj) as [jt [ps [E1 [E2 E3]]]].
    destruct (fk_states_get _ _ _ _ F' Hj) as [jt' [ps' [E1' [E2' E3']]]].
    rewrite E1 in E1'. injection E1' as <-.
    rewrite E3, E3'. f_equal.
    assert (Hja : j <> a).
    { intros ->. apply Hna. apply ancestor_self. unfold sk_parents. rewrite map_length. exact Hj. }
    rewrite (Heq j Hj Hja). f_equal.
    unfold parent_state in E2, E2'. destruct (jparent jt) as [p|] eqn:P.
    + destruct E2 as [s [Es ->]], E2' as [s' [Es' ->]].
      pose proof (valid_sk_parent _ _ _ _ V E1 P) as Hp.
      assert (~ ancestor (sk_parents sk) p a).
      { intros H. apply Hna. eapply ancestor_up; [|exact H].
        unfold sk_parents. rewrite nth_error_map, E1. cbn. congruence. }
      specialize (IH p Hp H). rewrite Es, Es' in IH. exact IH.
    + congruence.
  - destruct F as [L _], F' as [L' _].
    rewrite (proj2 (nth_error_None sts j)) by lia.
    rewrite (proj2 (nth_error_None sts' j)) by lia. reflexivity.
Qed.
