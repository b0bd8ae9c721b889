From Coq Require Import List Arith Lia Wf_nat.
From Verif Require Import Prelude Skeleton_model Skeleton_spec.
Import ListNotations.

Lemma ctor_check_from_ok ps : forall k,
  ctor_check_from k ps = true <->
  (forall i p, nth_error ps i = Some (Some p) -> p < k + i).
Proof.
  induction ps as [|x ps IH]; intros k; simpl.
  - split; [intros _ [|i] p H; discriminate H | reflexivity].
  - rewrite Bool.andb_true_iff, IH. split.
    + intros [H1 H2] [|i] p H; simpl in H.
      * injection H as ->. apply Nat.ltb_lt in H1. lia.
      * specialize (H2 _ _ H). lia.
    + intros H. split.
      * destruct x as [q|]; [|reflexivity]. apply Nat.ltb_lt.
        specialize (H 0 q eq_refl). lia.
      * intros i p Hi. specialize (H (S i) p Hi). lia.
Qed.

Lemma make_skeleton_iff ps :
  (make_skeleton ps = Ok ps <-> parents_first ps) /\
  (make_skeleton ps = CheckFail <-> ~ parents_first ps).
Proof.
  unfold make_skeleton, parents_first.
  pose proof (ctor_check_from_ok ps 0) as H. simpl in H.
  destruct (ctor_check_from 0 ps) eqn:E.
  - split; split; intros G; try discriminate; try tauto.
  - split; split; intros G; try discriminate; try tauto.
    + apply H in G. discriminate.
    + intros G'. apply H in G'. discriminate.
Qed.

Lemma ancestor_bounds ps j a : ancestor ps j a -> j < length ps /\ a < length ps.
Proof.
  induction 1 as [j H|j p a H _ [IH1 IH2]]; [auto|].
  split; [|exact IH2]. apply nth_error_Some. rewrite H. discriminate.
Qed.

Lemma ancestor_le ps j a : parents_first ps -> ancestor ps j a -> a <= j.
Proof.
  intros V. induction 1 as [j H|j p a H _ IH]; [lia|].
  specialize (V _ _ H). lia.
Qed.

Lemma ancestor_trans ps a b c : ancestor ps a b -> ancestor ps b c -> ancestor ps a c.
Proof.
  induction 1 as [j H|j p a H _ IH]; intros G; [exact G|].
  eapply ancestor_up; eauto.
Qed.

Lemma ancestor_inv ps j a :
  ancestor ps j a -> j = a \/ exists p, nth_error ps j = Some (Some p) /\ ancestor ps p a.
Proof. destruct 1; eauto. Qed.

(* the loop from joint j, given enough fuel *)
Lemma is_ancestor_loop_spec ps anc (V : parents_first ps) :
  forall fuel j, j < length ps -> j + 2 <= fuel ->
  exists b, is_ancestor_loop fuel ps (Some j) anc = Ok b /\ (b = true <-> ancestor ps j anc).
Proof.
  induction fuel as [|fuel IH]; intros j Hj Hf; [lia|].
  cbn [is_ancestor_loop].
  destruct (Nat.eqb_spec j anc) as [->|Hne].
  - exists true. split; [reflexivity|]. split; [|reflexivity].
    intros _. apply ancestor_self. exact Hj.
  - destruct (rd_ok ps j Hj) as [p [E1 E2]]. rewrite E1. cbn [obind].
    destruct p as [p|].
    + pose proof (V _ _ E2) as Hp.
      destruct (IH p) as [b [Eb Hb]]; [lia|lia|].
      exists b. split; [exact Eb|]. rewrite Hb. split; intros H.
      * eapply ancestor_up; eauto.
      * apply ancestor_inv in H. destruct H as [H|[q [E3 H]]]; [congruence|].
        rewrite E2 in E3. injection E3 as <-. exact H.
    + destruct fuel as [|fuel]; [lia|]. cbn [is_ancestor_loop].
      exists false. split; [reflexivity|]. split; [discriminate|].
      intros H. apply ancestor_inv in H. destruct H as [H|[q [E3 H]]]; congruence.
Qed.

Lemma is_ancestor_correct ps j a fuel :
  parents_first ps -> j < length ps -> a < length ps -> length ps < fuel ->
  exists b, is_ancestor fuel ps j a = Ok b /\ (b = true <-> ancestor ps j a).
Proof.
  intros V Hj Ha Hf. unfold is_ancestor.
  apply Nat.ltb_lt in Hj as Hj'. apply Nat.ltb_lt in Ha as Ha'.
  rewrite Hj', Ha'. apply is_ancestor_loop_spec; [exact V|exact Hj|lia].
Qed.

(* ---- common ancestor ---- *)

Definition idx (o : option nat) : nat := match o with None => 0 | Some i => S i end.

Lemma common_up_right ps a b p (V : parents_first ps) :
  a < b -> nth_error ps b = Some p ->
  forall c, common_anc ps a b c <-> match p with Some q => common_anc ps a q c | None => False end.
Proof.
  intros Hab E c. unfold common_anc. split.
  - intros [H1 H2]. pose proof (ancestor_le _ _ _ V H1).
    apply ancestor_inv in H2. destruct H2 as [H2|[q [E2 H2]]]; [lia|].
    rewrite E in E2. injection E2 as ->. auto.
  - destruct p as [q|]; [|contradiction]. intros [H1 H2]. split; [exact H1|].
    eapply ancestor_up; eauto.
Qed.

Lemma common_up_left ps a b p (V : parents_first ps) :
  b < a -> nth_error ps a = Some p ->
  forall c, common_anc ps a b c <-> match p with Some q => common_anc ps q b c | None => False end.
Proof.
  intros Hab E c. unfold common_anc.
  pose proof (common_up_right ps b a p V Hab E c) as H. unfold common_anc in H.
  destruct p; tauto.
Qed.

(* The loop ends; what it returns when a common ancestor exists, and when not. *)
Lemma common_loop_spec ps (V : parents_first ps) :
  forall fuel a b,
  a < length ps -> b < length ps -> a + b + 3 <= fuel ->
  exists r, common_ancestor_loop fuel ps (Some a) (Some b) = Ok r /\
    ((exists c, common_anc ps a b c) ->
       exists c, r = Some c /\ deepest_common ps a b c) /\
    ((forall c, ~ common_anc ps a b c) ->
       r = None \/ exists c, r = Some c /\ ancestor ps a c /\ nth_error ps c <> None).
Proof.
  induction fuel as [|fuel IH]; intros a b Ha Hb Hf; [lia|].
  cbn [common_ancestor_loop].
  destruct (Nat.eqb_spec a b) as [->|Hne].
  - exists (Some b). split; [reflexivity|]. split.
    + intros _. exists b. split; [reflexivity|].
      split; [split; apply ancestor_self; auto|]. intros d [H _]. exact H.
    + intros H. exfalso. apply (H b). split; apply ancestor_self; auto.
  - destruct (Nat.ltb_spec a b) as [Hlt|Hge].
    + destruct (rd_ok ps b Hb) as [p [E1 E2]]. rewrite E1. cbn [obind].
      pose proof (common_up_right ps a b p V Hlt E2) as HC.
      destruct p as [q|].
      * pose proof (V _ _ E2) as Hq.
        destruct (IH a q) as [r [Er [H1 H2]]]; [lia|lia|lia|].
        exists r. split; [exact Er|]. split.
        -- intros [c Hc]. destruct H1 as [c' [-> [Hc1 Hc2]]]; [exists c; apply HC; exact Hc|].
           exists c'. split; [reflexivity|]. split; [apply HC; exact Hc1|].
           intros d Hd. apply Hc2. apply HC. exact Hd.
        -- intros H. apply H2. intros c Hc. apply (H c). apply HC. exact Hc.
      * destruct fuel as [|fuel]; [lia|]. cbn [common_ancestor_loop].
        exists (Some a). split; [reflexivity|]. split.
        -- intros [c Hc]. apply HC in Hc. contradiction.
        -- intros _. right. exists a. split; [reflexivity|]. split; [apply ancestor_self; exact Ha|].
           apply nth_error_Some. exact Ha.
    + assert (Hlt : b < a) by lia.
      destruct (rd_ok ps a Ha) as [p [E1 E2]]. rewrite E1. cbn [obind].
      pose proof (common_up_left ps a b p V Hlt E2) as HC.
      destruct p as [q|].
      * pose proof (V _ _ E2) as Hq.
        destruct (IH q b) as [r [Er [H1 H2]]]; [lia|lia|lia|].
        exists r. split; [exact Er|]. split.
        -- intros [c Hc]. destruct H1 as [c' [-> [Hc1 Hc2]]]; [exists c; apply HC; exact Hc|].
           exists c'. split; [reflexivity|]. split; [apply HC; exact Hc1|].
           intros d Hd. apply Hc2. apply HC. exact Hd.
        -- intros H. destruct H2 as [->|[c [-> [Hc1 Hc2]]]].
           ++ intros c Hc. apply (H c). apply HC. exact Hc.
           ++ left; reflexivity.
           ++ right. exists c. split; [reflexivity|]. split; [|exact Hc2].
              eapply ancestor_up; eauto.
      * destruct fuel as [|fuel]; [lia|]. cbn [common_ancestor_loop].
        exists None. split; [destruct fuel; reflexivity|]. split.
        -- intros [c Hc]. apply HC in Hc. contradiction.
        -- intros _. left; reflexivity.
Qed.

Lemma common_ancestor_deepest ps a b fuel :
  parents_first ps -> a < length ps -> b < length ps ->
  2 * length ps < fuel ->
  (exists c, common_anc ps a b c) ->
  exists c, common_ancestor fuel ps (Some a) (Some b) = Ok (Some c) /\ deepest_common ps a b c.
Proof.
  intros V Ha Hb Hf Hc. unfold common_ancestor, index_ok.
  apply Nat.ltb_lt in Ha as Ha'. apply Nat.ltb_lt in Hb as Hb'. rewrite Ha', Hb'.
  destruct (common_loop_spec ps V fuel a b Ha Hb) as [r [Er [H1 _]]]; [lia|].
  destruct (H1 Hc) as [c [-> Hd]]. eauto.
Qed.

Lemma common_ancestor_total ps a b fuel :
  parents_first ps -> a < length ps -> b < length ps ->
  2 * length ps < fuel ->
  exists r, common_ancestor fuel ps (Some a) (Some b) = Ok r.
Proof.
  intros V Ha Hb Hf. unfold common_ancestor, index_ok.
  apply Nat.ltb_lt in Ha as Ha'. apply Nat.ltb_lt in Hb as Hb'. rewrite Ha', Hb'.
  destruct (common_loop_spec ps V fuel a b Ha Hb) as [r [Er _]]; [lia|]. eauto.
Qed.

Lemma root_is_ancestor ps (V : parents_first ps) (S0 : single_root ps) :
  forall j, j < length ps -> ancestor ps j 0.
Proof.
  intros j. induction (lt_wf j) as [j _ IH]. intros Hj.
  destruct (nth_error ps j) as [[p|]|] eqn:E.
  - pose proof (V _ _ E). eapply ancestor_up; [exact E|]. apply IH; lia.
  - apply S0 in E. subst. apply ancestor_self. exact Hj.
  - apply nth_error_None in E. lia.
Qed.

Lemma deepest_common_unique ps a b c d :
  parents_first ps -> deepest_common ps a b c -> deepest_common ps a b d -> c = d.
Proof.
  intros V [H1 H2] [G1 G2].
  pose proof (ancestor_le _ _ _ V (H2 _ G1)). pose proof (ancestor_le _ _ _ V (G2 _ H1)). lia.
Qed.

Lemma common_ancestor_single_root ps a b fuel :
  parents_first ps -> single_root ps -> a < length ps -> b < length ps ->
  2 * length ps < fuel ->
  exists c, common_ancestor fuel ps (Some a) (Some b) = Ok (Some c) /\
            common_ancestor fuel ps (Some b) (Some a) = Ok (Some c) /\
            deepest_common ps a b c.
Proof.
  intros V S0 Ha Hb Hf.
  destruct (common_ancestor_deepest ps a b fuel V Ha Hb Hf) as [c [E1 H1]].
  { exists 0. split; apply root_is_ancestor; auto. }
  destruct (common_ancestor_deepest ps b a fuel V Hb Ha Hf) as [d [E2 H2]].
  { exists 0. split; apply root_is_ancestor; auto. }
  assert (H2' : deepest_common ps a b d).
  { destruct H2 as [[G1 G2] G3]. split; [split; assumption|].
    intros e [He1 He2]. apply G3. split; assumption. }
  rewrite (deepest_common_unique ps a b c d V H1 H2') in *. eauto.
Qed.

(* ---- joint lookup ---- *)
Lemma joint_id_from_spec {name} (eqb : name -> name -> bool) names nm :
  forall i r, joint_id_from eqb i names nm = r ->
  match r with
  | Some k => exists m x, k = i + m /\ nth_error names m = Some x /\ eqb x nm = true /\
              (forall m' y, m' < m -> nth_error names m' = Some y -> eqb y nm = false)
  | None => forall m x, nth_error names m = Some x -> eqb x nm = false
  end.
Proof.
  induction names as [|x names IH]; intros i r; simpl.
  - intros <-. intros [|m] y H; discriminate.
  - destruct (eqb x nm) eqn:E.
    + intros <-. exists 0, x. repeat split; auto. intros m' y H; lia.
    + intros H. specialize (IH _ _ H). destruct r as [k|].
      * destruct IH as [m [y [-> [H1 [H2 H3]]]]]. exists (S m), y.
        repeat split; [lia|exact H1|exact H2|].
        intros [|m'] z Hm Hz; simpl in Hz; [congruence|]. eapply H3; [|exact Hz]. lia.
      * intros [|m] y Hy; simpl in Hy; [congruence|eauto].
Qed.

Lemma joint_id_by_name_spec {name} (eqb : name -> name -> bool) names nm :
  match joint_id_by_name eqb names nm with
  | Some k => exists x, nth_error names k = Some x /\ eqb x nm = true /\
              (forall k' y, k' < k -> nth_error names k' = Some y -> eqb y nm = false)
  | None => forall k x, nth_error names k = Some x -> eqb x nm = false
  end.
Proof.
  pose proof (joint_id_from_spec eqb names nm 0 _ eq_refl) as H.
  unfold joint_id_by_name. destruct (joint_id_from eqb 0 names nm) as [k|].
  - destruct H as [m [x [-> H]]]. exists x. exact H.
  - exact H.
Qed.
