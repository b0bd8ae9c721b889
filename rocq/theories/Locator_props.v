(** Property C48: locators turned into joints keep their positions and are mapped back. *)

From Coq Require Import Bool Reals List Arith Lia Lra ZifyBool String.
From Verif Require Import Prelude Loops Rbool R3 LinAlg Transform_model Transform_proofs Skeleton_spec FK_model FK_spec FK_proofs
  ParamTransform_model ParamTransform_spec ParamTransform_proofs Locator_model Locator_spec Locator_proofs.
Import ListNotations.
Local Open Scope R_scope.

(** ** The result is a consistent character *)

Lemma new_skel_parents c : ch_wf c -> valid_sk (ch_skel c ++ map new_joint (filter moved (ch_locators c))).
Proof.
  intros [P _ _ _ Lo] i p H. unfold sk_parents in H. rewrite map_app in H.
  destruct (Nat.lt_ge_cases i (List.length (ch_skel c))) as [L|L].
  - rewrite nth_error_app1 in H by (rewrite map_length; exact L). apply (P i p H).
  - rewrite nth_error_app2 in H by (rewrite map_length; exact L). rewrite map_map, nth_error_map in H.
    destruct (nth_error (filter moved (ch_locators c)) _) as [l|] eqn:E; [|discriminate]. cbn in H.
    apply nth_error_In, filter_In in E as [E _]. destruct (Lo l E) as (p' & E1 & E2). rewrite E1 in H.
    apply (f_equal (fun o => match o with Some (Some x) => x | _ => p end)) in H. subst. lia.
Qed.
Lemma qunit_qid : qunit qid.
Proof. unfold qunit, qnorm2, qid. cbn. ring. Qed.
Lemma new_skel_unit c : ch_wf c -> unit_prerotations (ch_skel c ++ map new_joint (filter moved (ch_locators c))).
Proof.
  intros [_ U _ _ _] j jt H. destruct (Nat.lt_ge_cases j (List.length (ch_skel c))) as [L|L].
  - rewrite nth_error_app1 in H by exact L. apply (U j jt H).
  - rewrite nth_error_app2 in H by exact L. rewrite nth_error_map in H.
    destruct (nth_error (filter moved (ch_locators c)) _) as [l|]; [|discriminate].
    apply (f_equal (fun o => match o with Some x => x | _ => jt end)) in H. cbn in H. subst jt. apply qunit_qid.
Qed.

Lemma filter_firstn_lt {A} (P : A -> bool) ls i x : nth_error ls i = Some x -> P x = true ->
  (List.length (filter P (firstn i ls)) < List.length (filter P ls))%nat.
Proof. intros H1 H2. eapply nth_error_len, filter_nth; eauto. Qed.
Lemma nlocs_in ls id x : In x (nlocs id ls) -> exists i l, nth_error ls i = Some l /\
  x = if all_locked l then l else reattached (id + List.length (filter moved (firstn i ls))) l.
Proof.
  intros H. apply In_nth_error in H as [i H].
  destruct (nth_error_lt ls i) as [l Hl]. { rewrite <- (nlocs_length ls id). eapply nth_error_len; eauto. }
  exists i, l. split; [exact Hl|]. rewrite (nlocs_nth ls i l id Hl) in H. congruence.
Qed.

(** Where there is room for the new parameters, the function succeeds and returns a consistent
    character; where there is not, it throws. *)
Theorem create_locator_succeeds c prefix : ch_wf c ->
  if (pt_cols (ch_pt c) + free_total (ch_locators c) <=? 2048)%nat
  then exists c', create_locator_character c prefix = Ok c' /\ ch_wf c'
  else create_locator_character c prefix = Throw.
Proof.
  intros W. destruct (Nat.leb_spec (pt_cols (ch_pt c) + free_total (ch_locators c)) 2048) as [H|H].
  - destruct (create_ok c prefix W H) as (S & E & HS). rewrite E. eexists. split; [reflexivity|].
    pose proof W as [P U [W1 W2 W3 W4 W5 W6 W7] R Lo].
    constructor; cbn [ch_skel ch_pt ch_locators pt_rows].
    + apply new_skel_parents, W.
    + apply new_skel_unit, W.
    + assert (LN : List.length (all_names prefix (ch_locators c)) = free_total (ch_locators c)).
      { unfold all_names, free_total. generalize (ch_locators c). intros ls. induction ls as [|l ls IH]; [reflexivity|].
        cbn [flat_map map]. rewrite app_length, IH. unfold anames. rewrite map_length. reflexivity. }
      constructor; cbn [pt_name pt_cols pt_rows pt_offsets pt_entries pt_pose pt_blend pt_face].
      * rewrite app_length, W1, LN. reflexivity.
      * rewrite app_length, repeat_length, W2, R. lia.
      * exact H.
      * intros e He. apply in_app_iff in He as [He|He].
        -- specialize (W4 e He). lia.
        -- pose proof (ents_rows _ _ _ _ He). pose proof (ents_cols _ _ _ _ He). lia.
      * intros nm l i v A B. specialize (W5 nm l i v A B). lia.
      * intros z Hz. specialize (W6 z Hz). lia.
      * intros z Hz. specialize (W7 z Hz). lia.
    + rewrite app_length, map_length. reflexivity.
    + intros x Hx. rewrite app_length, map_length. apply nlocs_in in Hx as (i & l & Hl & ->). destruct (all_locked l) eqn:A.
      * destruct (Lo l) as (p & E1 & E2); [eapply nth_error_In; eauto|]. exists p. split; [exact E1|lia].
      * eexists. split; [reflexivity|]. pose proof (filter_firstn_lt moved _ i l Hl) as Q. unfold moved at 1 in Q. rewrite A in Q.
        specialize (Q eq_refl). lia.
  - unfold create_locator_character. rewrite loop_throw; [reflexivity|]. cbn [lb_names].
    destruct W as [_ _ [W1 _ W3 _ _ _ _] _ _]. rewrite W1. unfold kMaxModelParams in *. lia.
Qed.
Print Assumptions create_locator_succeeds.

(** What the new character consists of. *)
Theorem create_locator_structure c prefix c' : ch_wf c -> create_locator_character c prefix = Ok c' ->
  firstn (List.length (ch_skel c)) (ch_skel c') = ch_skel c /\
  List.length (ch_skel c') = (List.length (ch_skel c) + List.length (filter (fun l => negb (all_locked l)) (ch_locators c)))%nat /\
  pt_cols (ch_pt c') = (pt_cols (ch_pt c) + free_total (ch_locators c))%nat /\
  List.length (ch_inv c') = (List.length (ch_inv c) + List.length (ch_skel c') - List.length (ch_skel c))%nat /\
  List.length (ch_locators c') = List.length (ch_locators c) /\
  (forall i l, nth_error (ch_locators c) i = Some l -> all_locked l = true -> nth_error (ch_locators c') i = Some l) /\
  (forall i l, nth_error (ch_locators c) i = Some l -> all_locked l = false ->
     nth_error (ch_skel c') (joint_of c i) = Some (Joint (lo_parent l) (lo_offset l) qid) /\
     exists l', nth_error (ch_locators c') i = Some l' /\ lo_parent l' = Some (joint_of c i) /\
       lo_name l' = lo_name l /\ lo_locked l' = lo_locked l /\ lo_weight l' = lo_weight l) /\
  (exists s, In ("locators"%string, s) (pt_sets (ch_pt c')) /\
     forall k, s k = true <-> (pt_cols (ch_pt c) <= k < pt_cols (ch_pt c'))%nat).
Proof.
  intros W E.
  destruct (Nat.le_gt_cases (pt_cols (ch_pt c) + free_total (ch_locators c)) 2048) as [H|H].
  2:{ pose proof (create_locator_succeeds c prefix W) as Q. apply Nat.leb_gt in H. rewrite H in Q. congruence. }
  destruct (create_ok c prefix W H) as (S & E' & HS). rewrite E' in E.
  apply (f_equal (fun o => match o with Ok x => x | _ => c' end)) in E. subst c'.
  cbn [ch_skel ch_pt ch_locators ch_inv pt_cols pt_sets]. rewrite !app_length, map_length, repeat_length, nlocs_length.
  split; [rewrite firstn_app, Nat.sub_diag, firstn_O, app_nil_r; apply firstn_all|].
  split; [reflexivity|]. split; [reflexivity|]. split; [lia|]. split; [reflexivity|].
  split; [intros i l Hl A; rewrite (nlocs_nth _ _ _ _ Hl), A; reflexivity|]. split.
  - intros i l Hl A. split.
    + unfold joint_of. change (fun l => negb (all_locked l)) with moved.
      rewrite nth_error_app2 by lia. replace (_ + _ - _)%nat with (List.length (filter moved (firstn i (ch_locators c)))) by lia.
      rewrite nth_error_map, (filter_nth moved _ i l Hl); [reflexivity|]. unfold moved. rewrite A. reflexivity.
    + eexists. split; [rewrite (nlocs_nth _ _ _ _ Hl), A; reflexivity|]. repeat split; reflexivity.
  - exists S. split; [left; reflexivity|]. exact HS.
Qed.
Print Assumptions create_locator_structure.

(** The limits of the new character: the old ones, and for each free axis with a positive weight one
    that holds the locator at limitOrigin. *)
Lemma lims_in x : forall ls id, In x (lims id ls) <-> exists i l j, nth_error ls i = Some l /\ (j < 3)%nat /\ locked l j = false /\
  0 < vget (lo_lweight l) j /\
  x = PLimit (LMinMaxJoint (id + List.length (filter moved (firstn i ls))) j (vget (lo_origin l) j - vget (lo_offset l) j)
         (vget (lo_origin l) j - vget (lo_offset l) j)) (vget (lo_lweight l) j).
Proof.
  induction ls as [|l0 ls IH]; intros id; cbn [lims].
  - split; [contradiction|]. intros (i & l & j & H & _). destruct i; discriminate.
  - assert (K : (exists i l j, nth_error (l0 :: ls) i = Some l /\ (j < 3)%nat /\ locked l j = false /\ 0 < vget (lo_lweight l) j /\
        x = PLimit (LMinMaxJoint (id + List.length (filter moved (firstn i (l0 :: ls)))) j (vget (lo_origin l) j - vget (lo_offset l) j)
         (vget (lo_origin l) j - vget (lo_offset l) j)) (vget (lo_lweight l) j)) <->
      In x (alims id l0 [0; 1; 2]%nat) \/ In x (lims (id + if moved l0 then 1 else 0) ls)).
    { rewrite IH. split.
      - intros (i & l & j & H1 & H2 & H3 & H4 & H5). destruct i as [|i]; cbn [nth_error] in H1.
        + left. apply (f_equal (fun o => match o with Some y => y | None => l0 end)) in H1. subst l0.
          unfold alims. apply in_flat_map. exists j. split.
          * unfold free_in. apply filter_In. split; [|rewrite H3; reflexivity]. destruct j as [|[|[|j]]]; cbn; auto; lia.
          * unfold alim. cbv zeta. unfold Rltb. destruct (Rlt_dec 0 (vget (lo_lweight l) j)); [|contradiction]. left.
            rewrite H5. cbn [firstn filter List.length]. rewrite Nat.add_0_r. reflexivity.
        + right. exists i, l, j. repeat split; try assumption. rewrite H5. cbn [firstn filter].
          destruct (moved l0); cbn [List.length]; do 2 f_equal; lia.
      - intros [H|(i & l & j & H1 & H2 & H3 & H4 & H5)].
        + unfold alims in H. apply in_flat_map in H as (j & H1 & H2). unfold free_in in H1. apply filter_In in H1 as [H1 H3].
          exists 0%nat, l0, j. split; [reflexivity|]. split; [cbn in H1; lia|]. split; [destruct (locked l0 j); [discriminate|reflexivity]|].
          unfold alim in H2. cbv zeta in H2. unfold Rltb in H2. destruct (Rlt_dec 0 (vget (lo_lweight l0) j)); [|contradiction].
          split; [assumption|]. destruct H2 as [<-|[]]. cbn [firstn filter List.length]. rewrite Nat.add_0_r. reflexivity.
        + exists (S i), l, j. repeat split; try assumption. rewrite H5. cbn [firstn filter].
          destruct (moved l0); cbn [List.length]; do 2 f_equal; lia. }
    rewrite K. unfold moved. destruct (all_locked l0) eqn:A; cbn [negb].
    + rewrite Nat.add_0_r. unfold alims. rewrite (all_locked_free l0 A). cbn [flat_map In]. tauto.
    + rewrite in_app_iff, Nat.add_1_r. tauto.
Qed.
Theorem create_locator_limits c prefix c' x : ch_wf c -> create_locator_character c prefix = Ok c' ->
  In x (ch_limits c') <-> In x (ch_limits c) \/
    exists i l j, nth_error (ch_locators c) i = Some l /\ (j < 3)%nat /\ locked l j = false /\ 0 < vget (lo_lweight l) j /\
      let to := vget (lo_origin l) j - vget (lo_offset l) j in x = PLimit (LMinMaxJoint (joint_of c i) j to to) (vget (lo_lweight l) j).
Proof.
  intros W E.
  destruct (Nat.le_gt_cases (pt_cols (ch_pt c) + free_total (ch_locators c)) 2048) as [H|H].
  2:{ pose proof (create_locator_succeeds c prefix W) as Q. apply Nat.leb_gt in H. rewrite H in Q. congruence. }
  destruct (create_ok c prefix W H) as (S & E' & HS). rewrite E' in E.
  apply (f_equal (fun o => match o with Ok x => x | _ => c' end)) in E. subst c'. cbn [ch_limits].
  rewrite in_app_iff, lims_in. unfold joint_of. cbv zeta. reflexivity.
Qed.
Print Assumptions create_locator_limits.

(** ** Poses *)

Lemma fk_from_app a b params acc : fk_from (a ++ b) params acc = obind (fk_from a params acc) (fk_from b params).
Proof.
  revert acc. induction a as [|jt a IH]; intros acc; cbn [fk_from app]; [reflexivity|].
  destruct (jparent jt) as [p|]; [destruct (rd acc p); cbn [obind]; try reflexivity|cbn [obind]]; apply IH.
Qed.
Lemma fk_from_ext a p1 p2 : forall acc, (forall k, (List.length acc <= k < List.length acc + List.length a)%nat -> jparam_at p1 k = jparam_at p2 k) ->
  fk_from a p1 acc = fk_from a p2 acc.
Proof.
  induction a as [|jt a IH]; intros acc H; cbn [fk_from]; [reflexivity|]. cbn [List.length] in H.
  rewrite (H (List.length acc)) by lia.
  assert (I : forall st, fk_from a p1 (acc ++ [st]) = fk_from a p2 (acc ++ [st])).
  { intros st. apply IH. rewrite app_length. cbn [List.length]. intros k Hk. apply H. lia. }
  destruct (jparent jt) as [p|]; [destruct (rd acc p); cbn [obind]; try reflexivity|cbn [obind]]; apply I.
Qed.

(** The states of the new character, for joint parameters that move the new joints by translations only. *)
Lemma new_states c jp jp' : ch_wf c -> List.length jp = (7 * List.length (ch_skel c))%nat ->
  List.length jp' = (7 * (List.length (ch_skel c) + List.length (filter moved (ch_locators c))))%nat ->
  (forall r, (r < 7 * List.length (ch_skel c))%nat -> nth r jp' 0 = nth r jp 0) ->
  (forall i l k, nth_error (ch_locators c) i = Some l -> all_locked l = false -> (3 <= k < 7)%nat ->
     nth (7 * joint_of c i + k) jp' 0 = 0) ->
  exists sts sts', fk (ch_skel c) jp = Ok sts /\
    fk (ch_skel c ++ map new_joint (filter moved (ch_locators c))) jp' = Ok sts' /\
    firstn (List.length (ch_skel c)) sts' = sts /\
    (forall k s, nth_error sts' k = Some s -> tf_ok (js_world s)) /\
    forall i l, nth_error (ch_locators c) i = Some l -> all_locked l = false ->
      exists p sp s', lo_parent l = Some p /\ nth_error sts' p = Some sp /\ nth_error sts' (joint_of c i) = Some s' /\
        tf_point (js_world s') vzero = tf_point (js_world sp)
          (vadd (lo_offset l) (V3 (nth (7 * joint_of c i) jp' 0) (nth (7 * joint_of c i + 1) jp' 0) (nth (7 * joint_of c i + 2) jp' 0))).
Proof.
  intros W L L' Old Zero. pose proof W as [P U _ _ Lo].
  destruct (fk_ok (ch_skel c) jp P L) as (sts & E & F).
  assert (V' := new_skel_parents c W). assert (U' := new_skel_unit c W).
  set (sk' := ch_skel c ++ map new_joint (filter moved (ch_locators c))) in *.
  destruct (fk_ok sk' jp' V') as (sts' & E' & F').
  { unfold sk'. rewrite app_length, map_length. exact L'. }
  exists sts, sts'. split; [exact E|]. split; [exact E'|].
  assert (Good : forall k s, nth_error sts' k = Some s -> tf_ok (js_world s)).
  { intros k s Hs. apply tf_good_ok, (fk_good sk' jp' sts' V' U' F' k s Hs). }
  split; [|split; [exact Good|]].
  - unfold fk in E, E'. destruct (Nat.eqb_spec (List.length jp) (7 * List.length (ch_skel c))); [|discriminate].
    destruct (Nat.eqb_spec (List.length jp') (7 * List.length sk')); [|discriminate].
    unfold sk' in E'. rewrite fk_from_app, (fk_from_ext _ jp' jp), E in E'.
    2:{ cbn [List.length]. intros k Hk. unfold jparam_at. f_equal; apply Old; lia. }
    cbn [obind] in E'. destruct F as [FL _].
    destruct (fk_from_spec jp' (map new_joint (filter moved (ch_locators c))) sts) as (s2 & E2 & _ & _).
    { intros i jt p Hi Hp. rewrite FL. assert (Q : nth_error sk' (List.length (ch_skel c) + i) = Some jt).
      { unfold sk'. rewrite nth_error_app2 by lia. replace (_ + i - _)%nat with i by lia. exact Hi. }
      apply (valid_sk_parent sk' _ jt p V' Q Hp). }
    rewrite E2 in E'. apply (f_equal (fun o => match o with Ok x => x | _ => sts' end)) in E'. rewrite <- E', <- FL.
    rewrite firstn_app, Nat.sub_diag, firstn_O, app_nil_r. apply firstn_all.
  - intros i l Hl A. destruct (Lo l) as (p & Ep & Hp); [eapply nth_error_In; eauto|].
    assert (Q : nth_error sk' (joint_of c i) = Some (new_joint l)).
    { unfold sk', joint_of. change (fun l => negb (all_locked l)) with moved. rewrite nth_error_app2 by lia.
      replace (_ + _ - _)%nat with (List.length (filter moved (firstn i (ch_locators c)))) by lia.
      rewrite nth_error_map, (filter_nth moved _ i l Hl); [reflexivity|]. unfold moved. rewrite A. reflexivity. }
    destruct F' as [FL F']. destruct (F' _ _ Q) as (ps & H1 & H2). unfold new_joint in H1. cbn [jparent] in H1. rewrite Ep in H1.
    cbn [parent_state] in H1. destruct H1 as (sp & H1 & ->). exists p, sp. eexists. split; [exact Ep|]. split; [exact H1|]. split; [exact H2|].
    rewrite js_world_set, tf_point_mul.
    + cbn [parent_tf]. f_equal. unfold local_tf, tf_point, new_joint. cbn [jprerot joffset rot trans scl].
      unfold jparam_at. cbv zeta. cbn [jrx jry jrz jsc jtx jty jtz]. rewrite Nat.add_0_r.
      rewrite vscale_0_r, qrot_zero, vadd_0_r. reflexivity.
    + exact (Good p sp H1).
    + apply tf_good_ok, local_tf_good. apply qunit_qid.
Qed.

(** In every pose of the new character the old joints are where they were, and each locator is where
    the old one would be if its offset were moved by the new parameters. *)
Lemma new_rows c q r : ch_wf c -> (r < 7 * List.length (ch_skel c))%nat ->
  row_dot (pt_entries (ch_pt c) ++ ents (List.length (ch_skel c)) (pt_cols (ch_pt c)) (ch_locators c)) q r =
  row_dot (pt_entries (ch_pt c)) (firstn (pt_cols (ch_pt c)) q) r.
Proof.
  intros [_ _ W _ _] Hr. rewrite row_dot_app, (row_dot_out (ents _ _ _)), Rplus_0_r.
  2:{ intros e He. apply ents_rows in He. lia. }
  unfold row_dot. apply rsum_map_ext. intros e He. destruct (wf_entries _ W e He) as [_ C].
  assert (N : nth (ecol e) (firstn (pt_cols (ch_pt c)) q) 0 = nth (ecol e) q 0); [|rewrite N; reflexivity].
  rewrite <- (firstn_skipn (pt_cols (ch_pt c)) q) at 2. destruct (Nat.lt_ge_cases (ecol e) (List.length (firstn (pt_cols (ch_pt c)) q))) as [L|L].
  - rewrite app_nth1 by exact L. reflexivity.
  - rewrite firstn_length in L. rewrite nth_overflow by (rewrite firstn_length; lia). rewrite firstn_skipn, nth_overflow by lia. reflexivity.
Qed.
Lemma new_rows_joint c q i l k : ch_wf c -> nth_error (ch_locators c) i = Some l -> all_locked l = false -> (k < 7)%nat ->
  row_dot (pt_entries (ch_pt c) ++ ents (List.length (ch_skel c)) (pt_cols (ch_pt c)) (ch_locators c)) q (7 * joint_of c i + k) =
  if ((k <? 3)%nat && negb (locked l k))%bool then nth (param_of c i l k) q 0 else 0.
Proof.
  intros [_ _ W Rw _] Hl A Hk. rewrite row_dot_app, (row_dot_out (pt_entries (ch_pt c))), Rplus_0_l.
  2:{ intros e He. destruct (wf_entries _ W e He) as [C _]. unfold joint_of. lia. }
  unfold joint_of, param_of. change (fun l => negb (all_locked l)) with moved. apply ents_value; assumption.
Qed.
Lemma joint_of_range c i l : nth_error (ch_locators c) i = Some l -> all_locked l = false ->
  (List.length (ch_skel c) <= joint_of c i < List.length (ch_skel c) + List.length (filter moved (ch_locators c)))%nat.
Proof.
  intros Hl A. unfold joint_of. change (fun l => negb (all_locked l)) with moved.
  pose proof (filter_firstn_lt moved _ i l Hl) as Q. unfold moved at 1 in Q. rewrite A in Q. specialize (Q eq_refl). lia.
Qed.
Lemma moved_by_locked c q i l : all_locked l = true -> moved_by c q i l = vzero.
Proof. unfold all_locked, moved_by. rewrite !andb_true_iff. intros [[-> ->] ->]. reflexivity. Qed.
Lemma with_offset_same l : with_offset l (lo_offset l) = l.
Proof. destruct l; reflexivity. Qed.

(** The joint parameters [mat_vec + off] of the new character. *)
Lemma new_params c q off sts' : ch_wf c -> (forall r, (7 * List.length (ch_skel c) <= r)%nat -> nth r off 0 = 0) ->
  let n := List.length (ch_skel c) in let m := List.length (filter moved (ch_locators c)) in
  let es := pt_entries (ch_pt c) ++ ents n (pt_cols (ch_pt c)) (ch_locators c) in
  forall jp', List.length jp' = (7 * (n + m))%nat ->
  (forall r, (r < 7 * (n + m))%nat -> nth r jp' 0 = row_dot es q r + nth r off 0) ->
  fk (ch_skel c ++ map new_joint (filter moved (ch_locators c))) jp' = Ok sts' ->
  exists jp, List.length jp = (7 * n)%nat /\
    (forall r, (r < 7 * n)%nat -> nth r jp 0 = row_dot (pt_entries (ch_pt c)) (firstn (pt_cols (ch_pt c)) q) r + nth r off 0) /\
    fk (ch_skel c) jp = Ok (firstn n sts') /\
    (forall k s, nth_error sts' k = Some s -> tf_ok (js_world s)) /\
    forall i l, nth_error (ch_locators c) i = Some l -> all_locked l = false ->
      exists p sp s', lo_parent l = Some p /\ (p < n)%nat /\ nth_error sts' p = Some sp /\ nth_error sts' (joint_of c i) = Some s' /\
        tf_point (js_world s') vzero = tf_point (js_world sp) (vadd (lo_offset l) (moved_by c q i l)).
Proof.
  intros W Hoff. cbv zeta. intros jp' L' Rows E.
  set (n := List.length (ch_skel c)) in *. set (m := List.length (filter moved (ch_locators c))) in *.
  assert (Jr : forall i l k, nth_error (ch_locators c) i = Some l -> all_locked l = false -> (k < 7)%nat ->
     nth (7 * joint_of c i + k) jp' 0 = if ((k <? 3)%nat && negb (locked l k))%bool then nth (param_of c i l k) q 0 else 0).
  { intros i l k Hl A Hk. pose proof (joint_of_range c i l Hl A) as Rg. fold n m in Rg. rewrite Rows by lia.
    unfold n. rewrite (new_rows_joint c q i l k W Hl A Hk). rewrite Hoff by (fold n; lia). ring. }
  exists (firstn (7 * n) jp').
  assert (L : List.length (firstn (7 * n) jp') = (7 * n)%nat) by (rewrite firstn_length; lia).
  assert (Nt : forall r, (r < 7 * n)%nat -> nth r (firstn (7 * n) jp') 0 = nth r jp' 0).
  { intros r Hr. rewrite <- (firstn_skipn (7 * n) jp') at 2. rewrite app_nth1 by lia. reflexivity. }
  split; [exact L|]. split.
  { intros r Hr. rewrite Nt, Rows by lia. unfold n. rewrite new_rows by assumption. reflexivity. }
  destruct (new_states c (firstn (7 * n) jp') jp' W L L') as (sts & sts2 & E1 & E2 & Pre & Good & Pos).
  { intros r Hr. symmetry. apply Nt, Hr. }
  { intros i l k Hl A Hk. rewrite (Jr i l k Hl A) by lia. destruct (Nat.ltb_spec k 3); [lia|]. reflexivity. }
  rewrite E in E2. apply (f_equal (fun o => match o with Ok x => x | _ => sts' end)) in E2. subst sts2.
  fold n in Pre. rewrite Pre. split; [exact E1|]. split; [exact Good|]. intros i l Hl A.
  destruct (Pos i l Hl A) as (p & sp & s' & P1 & P2 & P3 & P4). exists p, sp, s'. split; [exact P1|].
  split. { destruct W as [_ _ _ _ Lo]. destruct (Lo l) as (p' & Ep & Hp); [eapply nth_error_In; eauto|]. unfold n. congruence. }
  split; [exact P2|]. split; [exact P3|]. rewrite P4. do 2 f_equal.
  pose proof (Jr i l 0%nat Hl A ltac:(lia)) as J0. rewrite Nat.add_0_r in J0. rewrite J0.
  rewrite (Jr i l 1%nat Hl A), (Jr i l 2%nat Hl A) by lia. unfold moved_by. cbn [Nat.ltb Nat.leb andb].
  destruct (locked l 0), (locked l 1), (locked l 2); reflexivity.
Qed.

Lemma firstn_nth_error {A} (l : list A) n i : (i < n)%nat -> nth_error (firstn n l) i = nth_error l i.
Proof. revert n i. induction l as [|x l IH]; intros [|n] [|i] H; cbn; try reflexivity; try lia. apply IH. lia. Qed.

Theorem locator_positions c prefix c' q : ch_wf c -> create_locator_character c prefix = Ok c' ->
  List.length q = pt_cols (ch_pt c') ->
  exists sts sts', posed c (firstn (pt_cols (ch_pt c)) q) sts /\ posed c' q sts' /\
    firstn (List.length (ch_skel c)) sts' = sts /\
    forall i l, nth_error (ch_locators c) i = Some l ->
      exists l' pos, nth_error (ch_locators c') i = Some l' /\ locator_at sts' l' pos /\
        locator_at sts (with_offset l (vadd (lo_offset l) (moved_by c q i l))) pos.
Proof.
  intros W E Lq.
  destruct (Nat.le_gt_cases (pt_cols (ch_pt c) + free_total (ch_locators c)) 2048) as [H|H].
  2:{ pose proof (create_locator_succeeds c prefix W) as Q. apply Nat.leb_gt in H. rewrite H in Q. congruence. }
  pose proof (create_locator_succeeds c prefix W) as Q. pose proof H as H'. apply Nat.leb_le in H'. rewrite H' in Q. destruct Q as (c2 & E2 & W').
  assert (c2 = c') as -> by congruence.
  destruct (create_ok c prefix W H) as (S & E' & HS). rewrite E' in E. clear E2.
  apply (f_equal (fun o => match o with Ok x => x | _ => c' end)) in E.
  set (n := List.length (ch_skel c)) in *. set (m := List.length (filter moved (ch_locators c))) in *.
  pose proof W' as [P' _ Wp' Rw' _]. pose proof W as [_ _ Wp Rw Lo].
  assert (Esk : ch_skel c' = ch_skel c ++ map new_joint (filter moved (ch_locators c))) by (rewrite <- E; reflexivity).
  assert (Ees : pt_entries (ch_pt c') = pt_entries (ch_pt c) ++ ents n (pt_cols (ch_pt c)) (ch_locators c)) by (rewrite <- E; reflexivity).
  assert (Eof : pt_offsets (ch_pt c') = pt_offsets (ch_pt c) ++ repeat 0 (7 * m)) by (rewrite <- E; reflexivity).
  assert (Elo : ch_locators c' = nlocs n (ch_locators c)) by (rewrite <- E; reflexivity).
  assert (Lsk : List.length (ch_skel c') = (n + m)%nat) by (rewrite Esk, app_length, map_length; reflexivity).
  assert (Hc : pt_cols (ch_pt c') = (pt_cols (ch_pt c) + free_total (ch_locators c))%nat) by (rewrite <- E; reflexivity).
  set (jp' := vadd_list (mat_vec (ch_pt c') q) (pt_offsets (ch_pt c'))).
  assert (A' : pt_apply (ch_pt c') q = Ok jp').
  { unfold pt_apply. rewrite Lq, (wf_offsets _ Wp'), !Nat.eqb_refl. reflexivity. }
  assert (Lj : List.length jp' = (7 * (n + m))%nat).
  { unfold jp'. rewrite vadd_list_length, mat_vec_length, (wf_offsets _ Wp'), Nat.min_id, Rw', Lsk. reflexivity. }
  assert (Nj : forall r, (r < 7 * (n + m))%nat -> nth r jp' 0 = row_dot (pt_entries (ch_pt c')) q r + nth r (pt_offsets (ch_pt c')) 0).
  { intros r Hr. unfold jp'. rewrite vadd_list_nth, mat_vec_nth; [reflexivity| | |]; rewrite ?mat_vec_length, ?(wf_offsets _ Wp'), ?Rw', ?Lsk; lia. }
  destruct (fk_ok (ch_skel c') jp' P') as (sts' & F' & _). { rewrite Lsk. exact Lj. }
  pose proof F' as F2. rewrite Esk in F2. rewrite Ees in Nj.
  destruct (new_params c q (pt_offsets (ch_pt c')) sts' W) with (jp' := jp') as (jp & J1 & J2 & J3 & Good & Pos); try assumption.
  { intros r Hr. rewrite Eof. destruct (Nat.lt_ge_cases r (List.length (pt_offsets (ch_pt c)))) as [Q|Q].
    - rewrite (wf_offsets _ Wp), Rw in Q. lia.
    - rewrite app_nth2 by exact Q. apply nth_repeat0. }
  fold n in J1, J2, J3.
  exists (firstn n sts'), sts'. split.
  { exists jp. split; [|exact J3]. unfold pt_apply. rewrite firstn_length, Lq, (wf_offsets _ Wp).
    rewrite Nat.min_l by lia. rewrite !Nat.eqb_refl. cbn [negb]. f_equal. symmetry. apply (nth_ext _ _ 0 0).
    - rewrite vadd_list_length, mat_vec_length, (wf_offsets _ Wp), Nat.min_id, Rw. exact J1.
    - intros r Hr. rewrite J1 in Hr. rewrite J2 by exact Hr. rewrite vadd_list_nth, mat_vec_nth.
      + f_equal. rewrite Eof, app_nth1; [reflexivity|]. rewrite (wf_offsets _ Wp), Rw. exact Hr.
      + rewrite Rw. exact Hr.
      + rewrite mat_vec_length, Rw. exact Hr.
      + rewrite mat_vec_length, (wf_offsets _ Wp). reflexivity. }
  split; [exists jp'; auto|]. split; [reflexivity|]. intros i l Hl. rewrite Elo, (nlocs_nth _ _ _ _ Hl).
  destruct (all_locked l) eqn:A.
  - exists l. destruct (Lo l) as (p & Ep & Hp); [eapply nth_error_In; eauto|].
    destruct (fk_inv _ _ _ P' F') as [_ [FL _]]. destruct (nth_error_lt sts' p) as [s Hs]. { fold n in Hp. lia. }
    exists (tf_point (js_world s) (lo_offset l)). split; [reflexivity|]. split; [exists p, s; auto|].
    rewrite (moved_by_locked c q i l A), vadd_0_r, with_offset_same. exists p, s. split; [exact Ep|]. split; [|reflexivity].
    rewrite firstn_nth_error by exact Hp. exact Hs.
  - destruct (Pos i l Hl A) as (p & sp & s' & P1 & P2 & P3 & P4 & P5). eexists. eexists. split; [reflexivity|]. split.
    + exists (joint_of c i), s'. split; [reflexivity|]. split; [exact P4|]. cbn [reattached lo_offset]. reflexivity.
    + exists p, sp. split; [exact P1|]. split; [rewrite firstn_nth_error by exact P2; exact P3|]. cbn [with_offset lo_offset]. exact P5.
Qed.
Print Assumptions locator_positions.

Lemma moved_by_zero c q i l k : List.length q = pt_cols (ch_pt c) -> moved_by c (q ++ repeat 0 k) i l = vzero.
Proof.
  intros L. assert (Z : forall j, nth (param_of c i l j) (q ++ repeat 0 k) 0 = 0).
  { intros j. unfold param_of. rewrite app_nth2 by lia. apply nth_repeat0. }
  unfold moved_by. cbv zeta. rewrite !Z. destruct (locked l 0), (locked l 1), (locked l 2); reflexivity.
Qed.
Lemma sat_length c prefix c' : ch_wf c -> create_locator_character c prefix = Ok c' ->
  pt_cols (ch_pt c') = (pt_cols (ch_pt c) + free_total (ch_locators c))%nat.
Proof. intros W E. destruct (create_locator_structure c prefix c' W E) as (_ & _ & H & _). exact H. Qed.

(** With the new parameters at zero nothing has moved. *)
Theorem locators_stay c prefix c' q : ch_wf c -> create_locator_character c prefix = Ok c' ->
  List.length q = pt_cols (ch_pt c) ->
  exists sts sts', posed c q sts /\ posed c' (q ++ repeat 0 (free_total (ch_locators c))) sts' /\
    firstn (List.length (ch_skel c)) sts' = sts /\
    forall i l, nth_error (ch_locators c) i = Some l ->
      exists l' pos, nth_error (ch_locators c') i = Some l' /\ locator_at sts' l' pos /\ locator_at sts l pos.
Proof.
  intros W E Lq.
  destruct (locator_positions c prefix c' (q ++ repeat 0 (free_total (ch_locators c))) W E) as (sts & sts' & H1 & H2 & H3 & H4).
  { rewrite app_length, repeat_length, (sat_length c prefix c' W E). lia. }
  rewrite firstn_app, Lq, Nat.sub_diag, firstn_O, app_nil_r, <- Lq, firstn_all in H1.
  exists sts, sts'. split; [exact H1|]. split; [exact H2|]. split; [exact H3|]. intros i l Hl.
  destruct (H4 i l Hl) as (l' & pos & A & B & C). exists l', pos. split; [exact A|]. split; [exact B|].
  rewrite moved_by_zero in C by exact Lq. rewrite vadd_0_r, with_offset_same in C. exact C.
Qed.
Print Assumptions locators_stay.

(** ** Mapping the locators back *)

Lemma extract_all_ok sk sts : forall ls ls', List.length ls' = List.length ls ->
  (forall i l l', nth_error ls i = Some l -> nth_error ls' i = Some l' -> extract_locator sk sts l = Ok l') ->
  extract_all sk sts ls = Ok ls'.
Proof.
  induction ls as [|l ls IH]; intros [|l' ls'] L H; try discriminate; [reflexivity|]. cbn [extract_all].
  rewrite (H 0%nat l l' eq_refl eq_refl). cbn [obind]. rewrite (IH ls').
  - reflexivity.
  - cbn in L. lia.
  - intros i a b Ha Hb. apply (H (S i) a b Ha Hb).
Qed.

(** The original attachment, with the offset moved by the solved translation. *)
Definition solved (c : character) (q : list R) : list locator :=
  map (fun x => with_offset (snd x) (vadd (lo_offset (snd x)) (moved_by c q (fst x) (snd x))))
    (combine (seq 0 (List.length (ch_locators c))) (ch_locators c)).
Lemma solved_nth c q i l : nth_error (ch_locators c) i = Some l ->
  nth_error (solved c q) i = Some (with_offset l (vadd (lo_offset l) (moved_by c q i l))).
Proof.
  intros H. unfold solved. rewrite nth_error_map.
  assert (K : forall (ls : list locator) s i, nth_error ls i = Some l -> nth_error (combine (seq s (List.length ls)) ls) i = Some ((s + i)%nat, l)).
  { clear. induction ls as [|a ls IH]; intros s [|i] Hi; try discriminate; cbn [List.length seq combine nth_error] in *.
    - rewrite Nat.add_0_r. congruence.
    - rewrite (IH (S s) i Hi). do 2 f_equal. lia. }
  rewrite (K _ 0%nat i H). reflexivity.
Qed.
Lemma solved_length c q : List.length (solved c q) = List.length (ch_locators c).
Proof. unfold solved. rewrite map_length, combine_length, seq_length. apply Nat.min_id. Qed.

Theorem extract_locators_correct c prefix c' q offsets : ch_wf c -> create_locator_character c prefix = Ok c' ->
  List.length q = pt_cols (ch_pt c') ->
  offsets = [] \/ List.length offsets = pt_rows (ch_pt c') /\ old_joints_only c offsets ->
  exists ls, extract_locators c' q offsets = Ok ls /\ List.length ls = List.length (ch_locators c) /\
    forall i l, nth_error (ch_locators c) i = Some l ->
      nth_error ls i = Some (with_offset l (vadd (lo_offset l) (moved_by c q i l))).
Proof.
  intros W E Lq Ho.
  destruct (Nat.le_gt_cases (pt_cols (ch_pt c) + free_total (ch_locators c)) 2048) as [H|H].
  2:{ pose proof (create_locator_succeeds c prefix W) as Q. apply Nat.leb_gt in H. rewrite H in Q. congruence. }
  pose proof (create_locator_succeeds c prefix W) as Q. pose proof H as H'. apply Nat.leb_le in H'. rewrite H' in Q. destruct Q as (c2 & E2 & W').
  assert (c2 = c') as -> by congruence.
  destruct (create_ok c prefix W H) as (S & E' & HS). rewrite E' in E. clear E2.
  apply (f_equal (fun o => match o with Ok x => x | _ => c' end)) in E.
  set (n := List.length (ch_skel c)) in *. set (m := List.length (filter moved (ch_locators c))) in *.
  pose proof W' as [P' _ Wp' Rw' _]. pose proof W as [_ _ Wp Rw Lo].
  assert (Esk : ch_skel c' = ch_skel c ++ map new_joint (filter moved (ch_locators c))) by (rewrite <- E; reflexivity).
  assert (Ees : pt_entries (ch_pt c') = pt_entries (ch_pt c) ++ ents n (pt_cols (ch_pt c)) (ch_locators c)) by (rewrite <- E; reflexivity).
  assert (Elo : ch_locators c' = nlocs n (ch_locators c)) by (rewrite <- E; reflexivity).
  assert (Lsk : List.length (ch_skel c') = (n + m)%nat) by (rewrite Esk, app_length, map_length; reflexivity).
  assert (A' : exists jp', pt_apply_char (ch_pt c') q offsets = Ok jp' /\ List.length jp' = (7 * (n + m))%nat /\
     (forall r, (r < 7 * (n + m))%nat -> nth r jp' 0 = row_dot (pt_entries (ch_pt c')) q r + nth r offsets 0) /\
     (forall r, (7 * n <= r)%nat -> nth r offsets 0 = 0)).
  { unfold pt_apply_char. rewrite Lq, Nat.eqb_refl. cbn [negb]. destruct Ho as [->|[Ho1 Ho2]].
    - cbn [List.length Nat.ltb Nat.leb]. eexists. split; [reflexivity|]. rewrite mat_vec_length, Rw', Lsk. split; [reflexivity|]. split.
      + intros r Hr. rewrite mat_vec_nth by (rewrite Rw', Lsk; exact Hr). destruct r; cbn [nth]; ring.
      + intros r _. destruct r; reflexivity.
    - rewrite Ho1, Nat.eqb_refl. cbn [negb]. destruct (Nat.ltb_spec 0 (pt_rows (ch_pt c'))) as [Q|Q].
      + eexists. split; [reflexivity|]. rewrite vadd_list_length, mat_vec_length, Ho1, Nat.min_id, Rw', Lsk. split; [reflexivity|]. split; [|exact Ho2].
        intros r Hr. rewrite vadd_list_nth, mat_vec_nth; [reflexivity| | |]; rewrite ?mat_vec_length, ?Ho1, ?Rw', ?Lsk; lia.
      + eexists. split; [reflexivity|]. rewrite mat_vec_length, Rw', Lsk. split; [reflexivity|]. split; [|exact Ho2]. intros r Hr. lia. }
  destruct A' as (jp' & A' & Lj & Nj & Zo). unfold extract_locators. rewrite A'. cbn [obind].
  destruct (fk_ok (ch_skel c') jp' P') as (sts' & F' & _). { rewrite Lsk. exact Lj. }
  rewrite F'. cbn [obind].
  pose proof F' as F2. rewrite Esk in F2. rewrite Ees in Nj.
  destruct (new_params c q offsets sts' W Zo) with (jp' := jp') as (jp & _ & _ & _ & Good & Pos); try assumption.
  exists (solved c q). split; [|split; [apply solved_length|intros i l; apply solved_nth]].
  rewrite Elo. apply extract_all_ok. { rewrite solved_length, nlocs_length. reflexivity. }
  intros i l1 l2 H1 H2.
  destruct (nth_error_lt (ch_locators c) i) as [l Hl]. { rewrite <- (nlocs_length (ch_locators c) n). eapply nth_error_len; eauto. }
  rewrite (nlocs_nth _ _ _ _ Hl) in H1. rewrite (solved_nth c q i l Hl) in H2.
  apply (f_equal (fun o => match o with Some x => x | _ => l1 end)) in H1. apply (f_equal (fun o => match o with Some x => x | _ => l2 end)) in H2.
  subst l1 l2. unfold extract_locator. destruct (all_locked l) eqn:A.
  - rewrite A, (moved_by_locked c q i l A), vadd_0_r, with_offset_same. reflexivity.
  - assert (A2 : all_locked (reattached (n + List.length (filter moved (firstn i (ch_locators c)))) l) = false) by exact A.
    rewrite A2. cbn [reattached lo_parent lo_offset lo_name lo_locked lo_weight lo_origin lo_lweight].
    change (n + List.length (filter moved (firstn i (ch_locators c))))%nat with (joint_of c i).
    destruct (Pos i l Hl A) as (p & sp & s' & P1 & P2 & P3 & P4 & P5). rewrite (rd_some _ _ _ P4). cbn [obind].
    assert (Qj : nth_error (ch_skel c') (joint_of c i) = Some (new_joint l)).
    { rewrite Esk. unfold joint_of. change (fun l => negb (all_locked l)) with moved. rewrite nth_error_app2 by lia.
      replace (_ + _ - _)%nat with (List.length (filter moved (firstn i (ch_locators c)))) by lia.
      rewrite nth_error_map, (filter_nth moved _ i l Hl); [reflexivity|]. unfold moved. rewrite A. reflexivity. }
    rewrite (rd_some _ _ _ Qj). cbn [obind new_joint jparent]. rewrite P1, (rd_some _ _ _ P3). cbn [obind].
    rewrite !tf_affine_point, P5. unfold with_offset. rewrite P1. f_equal. f_equal.
    pose proof (Good _ _ P3) as G. rewrite <- tf_point_mul by (try apply tf_inv_ok; exact G).
    rewrite (tf_mul_inv_l _ G). unfold tf_point, tf_id. cbn [trans rot scl]. rewrite vscale_1, qrot_id, vadd_0_l. reflexivity.
Qed.
Print Assumptions extract_locators_correct.

(** With no solved translation the locators come back as they were. *)
Theorem extract_locators_identity c prefix c' q offsets : ch_wf c -> create_locator_character c prefix = Ok c' ->
  List.length q = pt_cols (ch_pt c) ->
  offsets = [] \/ List.length offsets = pt_rows (ch_pt c') /\ old_joints_only c offsets ->
  extract_locators c' (q ++ repeat 0 (free_total (ch_locators c))) offsets = Ok (ch_locators c).
Proof.
  intros W E Lq Ho.
  destruct (extract_locators_correct c prefix c' (q ++ repeat 0 (free_total (ch_locators c))) offsets W E) as (ls & E1 & L & N); [|exact Ho|].
  { rewrite app_length, repeat_length, (sat_length c prefix c' W E). lia. }
  rewrite E1. f_equal. apply nth_error_ext_len; [exact L|]. intros i Hi. rewrite L in Hi. destruct (nth_error_lt (ch_locators c) i Hi) as [l Hl].
  rewrite (N i l Hl), Hl, moved_by_zero by exact Lq. rewrite vadd_0_r, with_offset_same. reflexivity.
Qed.
Print Assumptions extract_locators_identity.

(** A character with two joints and three locators: free, fixed, and free on one axis with a limit. *)
Example locator_case_char : character :=
  Ch [Joint None (V3 0 1 0) qid; Joint (Some 0%nat) (V3 0 2 0) qid]
    (PT ["a"%string] 14 1 [Entry 3 0 1] (repeat 0 14) (repeat true 14) [] [] [] [])
    [Locator "l" (Some 1%nat) (V3 1 2 3) (false, false, false) 1 (V3 1 2 3) vzero;
     Locator "m" (Some 0%nat) (V3 0 0 1) (true, true, true) 1 vzero vzero;
     Locator "n" (Some 0%nat) (V3 0 0 1) (true, false, true) 1 (V3 0 1 0) (V3 0 2 0)] [] [].
Example locator_case : ch_wf locator_case_char /\ free_total (ch_locators locator_case_char) = 4%nat /\
  (exists c', create_locator_character locator_case_char "p_" = Ok c' /\ List.length (ch_skel c') = 4%nat /\ pt_cols (ch_pt c') = 5%nat) /\
  moved_by locator_case_char [0; 1; 2; 3; 4] 0 (Locator "l" (Some 1%nat) (V3 1 2 3) (false, false, false) 1 (V3 1 2 3) vzero) = V3 1 2 3 /\
  moved_by locator_case_char [0; 1; 2; 3; 4] 2 (Locator "n" (Some 0%nat) (V3 0 0 1) (true, false, true) 1 (V3 0 1 0) (V3 0 2 0)) = V3 0 4 0.
Proof.
  assert (W : ch_wf locator_case_char).
  { constructor.
    - intros [|[|[|i]]] p H; cbn in H; try discriminate; try (destruct i; discriminate). injection H as <-. lia.
    - intros [|[|[|i]]] jt H; cbn in H; try discriminate; try (destruct i; discriminate); injection H as <-; apply qunit_qid.
    - constructor; cbn [locator_case_char ch_pt pt_name pt_cols pt_rows pt_offsets pt_entries pt_pose pt_blend pt_face]; try reflexivity; try contradiction.
      + unfold kMaxModelParams. lia.
      + intros e [<-|[]]. cbn. lia.
    - reflexivity.
    - intros l [<-|[<-|[<-|[]]]]; cbn; eexists; (split; [reflexivity|lia]). }
  split; [exact W|]. split; [reflexivity|]. split; [|split; reflexivity].
  pose proof (create_locator_succeeds locator_case_char "p_" W) as Q.
  change (pt_cols (ch_pt locator_case_char) + free_total (ch_locators locator_case_char))%nat with 5%nat in Q.
  destruct (Nat.leb_spec 5 2048) as [_|]; [|lia]. destruct Q as (c' & E & _). exists c'. split; [exact E|].
  destruct (create_locator_structure _ _ _ W E) as (_ & L & C & _). rewrite L, C. split; reflexivity.
Qed.
