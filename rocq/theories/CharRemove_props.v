(** Property C95: removing joints. *)

From Coq Require Import Bool Reals List Arith Lia Lra String.
From Verif Require Import Prelude Loops Rbool R3 LinAlg Transform_model Transform_proofs Skeleton_model Skeleton_spec Skeleton_proofs FK_model FK_spec FK_proofs
  ParamTransform_model ParamTransform_spec ParamTransform_proofs ParamTransform_map_proofs Locator_model Skin_model Skin_spec Skin_props Blend_model PoseShape_model
  Simplify_model Simplify_spec Simplify_proofs CharUtil_model CharUtil_spec CharScale_props CharRemove_spec CharRemove_proofs.
Import ListNotations.
Local Open Scope nat_scope.

Lemma make_zero names joints pt limits locs mesh skin caps pose blend : valid_sk joints -> pt_rows pt = 7 * List.length joints ->
  exists sts, fk joints (repeat 0%R (7 * List.length joints)) = Ok sts /\
  make_character names joints pt limits locs mesh skin caps pose blend [] =
  Ok (FC names joints pt limits locs (match mesh, skin with Some m, Some _ => Some m | _, _ => None end)
        (match mesh, skin with Some _, Some s => Some s | _, _ => None end) caps pose blend (inverse_bind sts)).
Proof.
  intros V Rw. destruct (fk_ok joints (repeat 0%R (7 * List.length joints)) V) as (sts & F & FS); [apply repeat_length|]. exists sts. split; [exact F|].
  unfold make_character, bind_states, pt_bind_pose. rewrite Rw, F. cbn [obind]. unfold inverse_bind at 1. rewrite map_length, (proj1 FS), Nat.eqb_refl. cbn [negb].
  destruct mesh, skin; reflexivity.
Qed.

(** The parts of the result. *)
Record parts (c : fchar) (enabled pkept : list bool) (c' : fchar) : Prop := {
  pa_joints : kept_joints (fc_joints c) enabled (fc_names c) (List.length (fc_joints c)) (fc_joints c') (fc_names c');
  pa_names : pt_name (fc_pt c') = kept_names (pt_name (fc_pt c)) pkept;
  pa_rows : pt_rows (fc_pt c') = 7 * List.length (fc_joints c');
  pa_cols : pt_cols (fc_pt c') = new_index pkept (List.length pkept);
  pa_entries : pt_entries (fc_pt c') = flat_map (row_new (fc_pt c) (nmap 0 enabled (List.length (fc_joints c))) pkept 0) (seq 0 (pt_rows (fc_pt c)));
  pa_offsets : pt_offsets (fc_pt c') = repeat 0%R (7 * List.length (fc_joints c'));
  pa_active : pt_active (fc_pt c') = repeat false (7 * List.length (fc_joints c'));
  pa_sets : forall nm k, in_set (pt_sets (fc_pt c')) nm k <-> exists i, in_set (pt_sets (fc_pt c)) nm i /\ is_kept pkept i /\ k = new_index pkept i;
  pa_rest : pt_pose (fc_pt c') = [] /\ pt_blend (fc_pt c') = [] /\ pt_face (fc_pt c') = [];
  pa_up : exists up skin, (forall i, i < List.length (fc_joints c) -> forall k, nth_error up i = Some (Some k) -> exists a, nearest_kept (sk_parents (fc_joints c)) enabled i a /\ k = new_index enabled a) /\
    List.length up = List.length (fc_joints c) /\
    match fc_skin c with Some s => exists s', skin = Some s' /\ Forall2 (Forall2 (weight_to up)) s s' | None => skin = None end /\
    fc_mesh c' = (match fc_mesh c, skin with Some m, Some _ => Some m | _, _ => None end) /\
    fc_skin c' = (match fc_mesh c, skin with Some _, Some s => Some s | _, _ => None end);
  pa_locs : Forall2 (fun x x' => exists p k, lo_parent x = Some p /\ nth_error (nmap 0 enabled (List.length (fc_joints c))) p = Some (Some k) /\ x' = loc_with x k)
      (filter (parent_mapped lo_parent (nmap 0 enabled (List.length (fc_joints c)))) (fc_locs c)) (fc_locs c');
  pa_caps : exists caps, fc_caps c' = (match caps with [] => None | _ => Some caps end) /\
    Forall2 (fun x x' => exists p k, cap_parent x = Some p /\ nth_error (nmap 0 enabled (List.length (fc_joints c))) p = Some (Some k) /\ x' = cap_with x k)
      (filter (parent_mapped cap_parent (nmap 0 enabled (List.length (fc_joints c)))) (match fc_caps c with Some l => l | None => [] end)) caps;
  pa_limits : Forall2 (limit_to (nmap 0 enabled (List.length (fc_joints c))) (nmap 0 pkept (pt_cols (fc_pt c))))
      (filter (limit_mapped (nmap 0 enabled (List.length (fc_joints c))) (nmap 0 pkept (pt_cols (fc_pt c)))) (fc_limits c)) (fc_limits c');
  pa_inv : exists sts, fk (fc_joints c') (repeat 0%R (7 * List.length (fc_joints c'))) = Ok sts /\ fc_inv c' = inverse_bind sts;
  pa_shapes : fc_pose c' = fc_pose c /\ fc_blend c' = fc_blend c
}.

Lemma drives_nmap pt enabled n c : n = List.length enabled -> drives_mapped pt (nmap 0 enabled n) c <-> drives_active pt enabled c.
Proof.
  intros ->. split.
  - intros (e & j & H & E & N). apply nmap_inv in N as [K _]. exists e. auto.
  - intros (e & H & E & K). exists e. eexists. split; [exact H|]. split; [exact E|]. apply nmap_kept; [exact K|apply (nth_error_len _ _ _ K)].
Qed.

Lemma up_some c js enabled up : removable c js -> marks (fc_joints c) js enabled ->
  (forall i, i < List.length (fc_joints c) -> (exists a, nearest_kept (sk_parents (fc_joints c)) enabled i a /\ nth_error up i = Some (Some (new_index enabled a))) \/
    ((forall a, ancestor (sk_parents (fc_joints c)) i a -> ~ is_kept enabled a) /\ nth_error up i = Some None)) ->
  forall s row j w, fc_skin c = Some s -> In row s -> In (j, w) row -> w <> 0%R -> exists k, nth_error up j = Some (Some k).
Proof.
  intros RM [Le Mk] Nu s row j w Es Hr Hj Hw. destruct (rm_skin c js RM s row j w Es Hr Hj Hw) as (a & Ha & Sa).
  assert (Hjn : j < List.length (fc_joints c)).
  { replace (List.length (fc_joints c)) with (List.length (sk_parents (fc_joints c))) by apply map_length. apply (ancestor_bounds _ _ _ Ha). }
  destruct (Nu j Hjn) as [(b & _ & E)|[H _]]; [eauto|]. destruct (H a Ha). apply Mk, Sa.
Qed.

Lemma remove_parts c js enabled : removable c js -> marks (fc_joints c) js enabled ->
  exists c' pkept, remove_joints c js = Ok c' /\ List.length pkept = pt_cols (fc_pt c) /\
    (forall i, is_kept pkept i <-> drives_active (fc_pt c) enabled i) /\ parts c enabled pkept c'.
Proof.
  intros RM MK. pose proof (rm_ok c js RM) as O. pose proof (fo_parents c O) as V. change (valid_sk (fc_joints c)) in V.
  set (n := List.length (fc_joints c)) in *. pose proof MK as [Le Mk].
  destruct (removal_flags_ok n js) as (flags & Ef & Lf & Af); [intros j Hj; apply (rm_js c js RM j Hj)|].
  destruct (keep_joints_ok (fc_joints c) V js enabled (fc_names c) MK (fo_names c O) flags Lf Af) as (joints & nms & Ek & KJ).
  pose proof (kept_parents_first (fc_joints c) V js enabled (fc_names c) MK (fo_names c O) joints nms KJ) as V'.
  pose proof (rm_pt c js RM) as W.
  destruct (add_mapped_ok (fc_pt c) (nmap 0 enabled n) (List.length joints) (pt_empty (List.length joints * 7))) as (pkept & sets & Lp & Mp & Ea & As).
  - exact W.
  - rewrite nmap_length, Le. apply (rm_rows c js RM).
  - intros a j E. apply nmap_inv in E as [K ->]. rewrite (kj_len _ _ _ _ _ _ KJ), <- Le. apply new_index_bound, K.
  - reflexivity.
  - cbn [pt_empty pt_name List.length Nat.add]. apply (wf_max _ W).
  - intros c0 nm _ _ [].
  - cbn [pt_empty pt_name pt_entries pt_offsets pt_active pt_sets pt_pose pt_blend pt_face pt_rows List.length Nat.add List.app] in Ea, As.
    destruct (climb_all_ok (fc_joints c) V js enabled (fc_names c) MK (fo_names c O)) as (up & Eup & Lup & Nup). fold n in Eup, Lup, Nup.
    assert (Esk : exists skin, match fc_skin c with None => Ok None | Some s => obind (map_weights up s) (fun s' => Ok (Some s')) end = Ok skin /\
       match fc_skin c with Some s => exists s', skin = Some s' /\ Forall2 (Forall2 (weight_to up)) s s' | None => skin = None end).
    { destruct (fc_skin c) as [s|] eqn:Es; [|exists None; auto].
      destruct (map_weights_ok up s) as (s' & E & F); [intros row j w; apply (up_some c js enabled up RM MK Nup s row j w Es)|].
      rewrite E. cbn [obind]. exists (Some s'). split; [reflexivity|]. exists s'. auto. }
    destruct Esk as (skin & Esk & Hsk).
    destruct (map_parents_ok lo_parent loc_with (nmap 0 enabled n) (fc_locs c)) as (locs & El & Fl).
    { intros l Hl. rewrite nmap_length, Le. apply (rm_locs c js RM l Hl). }
    assert (Ecap : exists caps, match fc_caps c with None => Ok [] | Some l => map_parents cap_parent cap_with (nmap 0 enabled n) l end = Ok caps /\
      Forall2 (fun x x' => exists p k, cap_parent x = Some p /\ nth_error (nmap 0 enabled n) p = Some (Some k) /\ x' = cap_with x k)
        (filter (parent_mapped cap_parent (nmap 0 enabled n)) (match fc_caps c with Some l => l | None => [] end)) caps).
    { destruct (fc_caps c) as [l|] eqn:Ec; [|exists []; split; [reflexivity|constructor]]. apply map_parents_ok. intros x Hx. rewrite nmap_length, Le. apply (rm_caps c js RM l x Ec Hx). }
    destruct Ecap as (caps & Ecap & Fcap).
    destruct (map_limits_ok (nmap 0 enabled n) (nmap 0 pkept (pt_cols (fc_pt c))) (fc_limits c)) as (lims & Elim & Flim).
    { intros l j Hl Hj. rewrite nmap_length, Le. apply (rm_limit_joints c js RM l j Hl Hj). }
    { intros l j Hl Hj. rewrite nmap_length, Lp. apply (rm_limit_params c js RM l j Hl Hj). }
    match type of Ea with _ = Ok (?p, _) => set (pt' := p) in Ea end.
    destruct (make_zero nms joints pt' lims locs (fc_mesh c) skin (match caps with [] => None | _ => Some caps end) (fc_pose c) (fc_blend c) V') as (sts & Fz & Em); [unfold pt'; cbn [pt_rows]; lia|].
    eexists _, pkept. split.
    { unfold remove_joints. fold n. rewrite Ef. cbn [obind]. rewrite Ek. cbn [obind]. fold n. rewrite Ea. cbn [obind]. rewrite Eup. cbn [obind].
      rewrite Esk. cbn [obind]. rewrite El. cbn [obind]. rewrite Ecap. cbn [obind]. rewrite Elim. cbn [obind]. exact Em. }
    split; [exact Lp|]. split. { intros i. rewrite Mp. apply drives_nmap. symmetry. exact Le. }
    unfold pt'. constructor; cbn [fc_joints fc_names fc_pt fc_limits fc_locs fc_mesh fc_skin fc_caps fc_pose fc_blend fc_inv pt_name pt_rows pt_cols pt_entries pt_offsets pt_active pt_sets pt_pose pt_blend pt_face]; fold n; auto.
    + lia.
    + rewrite (Nat.mul_comm 7). reflexivity.
    + rewrite (Nat.mul_comm 7). reflexivity.
    + intros nm k. rewrite As. split; [intros [(s & [] & _)|H]; exact H|auto].
    + exists up, skin. split; [|auto]. intros i Hi k Ei. destruct (Nup i Hi) as [(a & Na & E)|[_ E]]; [exists a; split; [exact Na|congruence]|congruence].
    + exists caps. auto.
    + exists sts. auto.
Qed.

(** ** Joints *)

(** A joint that does not exist cannot be removed. *)
Theorem remove_unknown c js j : In j js -> List.length (fc_joints c) <= j -> remove_joints c js = Throw.
Proof. intros H L. unfold remove_joints, removal_flags. rewrite (flags_throw _ js _ (repeat_length _ _)); [reflexivity|eauto]. Qed.
Print Assumptions remove_unknown.

(** The joints that are to be removed and the joints below them go; the others stay, in their order, with
    their names, offsets and prerotations, under the joints that they were under. *)
Theorem remove_structure c js enabled : removable c js -> marks (fc_joints c) js enabled -> exists c', remove_joints c js = Ok c' /\
  List.length (fc_joints c') = new_index enabled (List.length enabled) /\ List.length (fc_names c') = List.length (fc_joints c') /\
  parents_first (map jparent (fc_joints c')) /\
  forall i jt, is_kept enabled i -> nth_error (fc_joints c) i = Some jt ->
    nth_error (fc_names c') (new_index enabled i) = nth_error (fc_names c) i /\
    exists jt', nth_error (fc_joints c') (new_index enabled i) = Some jt' /\ joffset jt' = joffset jt /\ jprerot jt' = jprerot jt /\
      jparent jt' = option_map (new_index enabled) (jparent jt) /\ (forall p, jparent jt = Some p -> is_kept enabled p).
Proof.
  intros RM MK. destruct (remove_parts c js enabled RM MK) as (c' & pk & E & Lp & Mp & P). exists c'. split; [exact E|]. pose proof (pa_joints _ _ _ _ P) as KJ.
  destruct MK as [Le Mk]. rewrite Le. split; [apply (kj_len _ _ _ _ _ _ KJ)|]. split; [rewrite (kj_len _ _ _ _ _ _ KJ), (kj_names _ _ _ _ _ _ KJ); reflexivity|].
  pose proof (rm_ok c js RM) as O. pose proof (fo_parents c O) as V. split; [apply (kept_parents_first (fc_joints c) V js enabled (fc_names c) (conj Le Mk) (fo_names c O) _ _ KJ)|].
  intros i jt K Ei. pose proof (nth_error_len _ _ _ Ei) as Hi. split; [apply (kj_name _ _ _ _ _ _ KJ i Hi K)|]. eexists. split; [apply (kj_joint _ _ _ _ _ _ KJ i jt Hi K Ei)|].
  cbn [joffset jprerot jparent]. repeat split. intros p Ep. apply Mk. eapply (stays_parent (fc_joints c) V js); [apply Mk, K|]. rewrite (psn (fc_joints c) i jt Ei), Ep. reflexivity.
Qed.
Print Assumptions remove_structure.

Lemma parts_unique c js enabled c' : removable c js -> marks (fc_joints c) js enabled -> remove_joints c js = Ok c' ->
  exists pkept, List.length pkept = pt_cols (fc_pt c) /\ (forall i, is_kept pkept i <-> drives_active (fc_pt c) enabled i) /\ parts c enabled pkept c'.
Proof. intros RM MK E. destruct (remove_parts c js enabled RM MK) as (c2 & pk & E2 & H). rewrite E in E2. injection E2 as <-. eauto. Qed.

Lemma worlds_of_parts c js enabled pk c' p p' sts : removable c js -> marks (fc_joints c) js enabled -> parts c enabled pk c' ->
  fk (fc_joints c) p = Ok sts -> same_params enabled p p' -> exists sts', fk (fc_joints c') p' = Ok sts' /\ same_worlds enabled sts sts'.
Proof.
  intros RM MK P F [Lp Np]. pose proof (rm_ok c js RM) as O. pose proof (fo_parents c O) as V. pose proof (pa_joints _ _ _ _ P) as KJ.
  pose proof MK as [Le Mk]. pose proof (kept_parents_first (fc_joints c) V js enabled (fc_names c) MK (fo_names c O) _ _ KJ) as V'.
  destruct (fk_inv _ p sts V F) as [L FS]. destruct (fk_ok (fc_joints c') p' V') as (sts' & F' & FS'); [rewrite Lp, (kj_len _ _ _ _ _ _ KJ), Le; reflexivity|].
  exists sts'. split; [exact F'|]. intros a. induction (lt_wf a) as [a _ IH]. intros s K Es.
  assert (Ha : a < List.length (fc_joints c)) by (rewrite <- (proj1 FS); apply (nth_error_len _ _ _ Es)).
  destruct (fk_states_get _ _ _ _ FS Ha) as (jt & ps & E1 & E2 & E3).
  pose proof (kj_joint _ _ _ _ _ _ KJ a jt Ha K E1) as J. destruct (proj2 FS' _ _ J) as (ps' & E2' & E3'). eexists. split; [exact E3'|].
  assert (s = joint_state_set jt (jparam_at p a) ps) as -> by congruence. rewrite !js_world_set.
  assert (EJ : jparam_at p' (new_index enabled a) = jparam_at p a) by (apply jparam_ext; intros d Hd; apply Np; assumption). rewrite EJ.
  assert (Hl : forall pr, local_tf (Joint pr (joffset jt) (jprerot jt)) (jparam_at p a) = local_tf jt (jparam_at p a)) by reflexivity. rewrite Hl. f_equal.
  cbn [jparent] in E2'. destruct (jparent jt) as [q|] eqn:Q; cbn [option_map] in E2'.
  - destruct E2 as (t & Et & ->), E2' as (t' & Et' & ->).
    assert (Kq : is_kept enabled q) by (apply Mk; eapply (stays_parent (fc_joints c) V js); [apply Mk, K|]; rewrite (psn (fc_joints c) a jt E1), Q; reflexivity).
    destruct (IH q (valid_sk_parent _ a jt q V E1 Q) t Kq Et) as (t2 & Et2 & W). assert (t2 = t') as -> by congruence. cbn [parent_tf]. exact W.
  - cbn in E2, E2'. subst. reflexivity.
Qed.

(** With the joint parameters that they had, the joints that stay are where they were. *)
Theorem remove_worlds c js enabled c' p p' sts : removable c js -> marks (fc_joints c) js enabled -> remove_joints c js = Ok c' ->
  fk (fc_joints c) p = Ok sts -> same_params enabled p p' -> exists sts', fk (fc_joints c') p' = Ok sts' /\ same_worlds enabled sts sts'.
Proof. intros RM MK E. destruct (parts_unique c js enabled c' RM MK E) as (pk & _ & _ & P). apply (worlds_of_parts c js enabled pk c'); assumption. Qed.
Print Assumptions remove_worlds.

(** ** Parameters *)

Lemma kept_entry_row c enabled pk c' : parts c enabled pk c' -> List.length enabled = List.length (fc_joints c) -> forall i d, is_kept enabled i -> d < 7 -> 7 * new_index enabled i + d < 7 * List.length (fc_joints c').
Proof. intros P Le i d K Hd. rewrite (kj_len _ _ _ _ _ _ (pa_joints _ _ _ _ P)), <- Le. pose proof (new_index_bound enabled i K). lia. Qed.

(** The parameters that have an effect on a joint that stays are kept, in their order, with their names.
    They have the effect on the joints that stay that they had, but the constant offsets are gone. *)
Theorem remove_parameters c js enabled c' : removable c js -> marks (fc_joints c) js enabled -> remove_joints c js = Ok c' ->
  exists pkept, List.length pkept = pt_cols (fc_pt c) /\ (forall i, is_kept pkept i <-> drives_active (fc_pt c) enabled i) /\
    List.length (pt_name (fc_pt c')) = new_index pkept (List.length pkept) /\
    (forall i, is_kept pkept i -> nth_error (pt_name (fc_pt c')) (new_index pkept i) = nth_error (pt_name (fc_pt c)) i) /\
    pt_wf (fc_pt c') /\ pt_rows (fc_pt c') = 7 * List.length (fc_joints c') /\
    (forall nm k, in_set (pt_sets (fc_pt c')) nm k <-> exists i, in_set (pt_sets (fc_pt c)) nm i /\ is_kept pkept i /\ k = new_index pkept i) /\
    forall q q' p, same_values pkept q q' -> pt_apply (fc_pt c) q = Ok p ->
      exists p', pt_apply (fc_pt c') q' = Ok p' /\ List.length p' = 7 * new_index enabled (List.length enabled) /\
        forall i d, is_kept enabled i -> d < 7 -> nth (7 * new_index enabled i + d) p' 0%R = (nth (7 * i + d) p 0 - nth (7 * i + d) (pt_offsets (fc_pt c)) 0)%R.
Proof.
  intros RM MK E. destruct (parts_unique c js enabled c' RM MK E) as (pk & Lp & Mp & P). exists pk. pose proof (rm_pt c js RM) as W. pose proof MK as [Le Mk].
  set (jmap := nmap 0 enabled (List.length (fc_joints c))).
  assert (Rw : pt_rows (fc_pt c) = 7 * List.length jmap) by (unfold jmap; rewrite nmap_length, Le; apply (rm_rows c js RM)).
  assert (Mp' : forall i, is_kept pk i <-> drives_mapped (fc_pt c) jmap i) by (intros i; unfold jmap; rewrite drives_nmap by (symmetry; exact Le); apply Mp).
  assert (Ln : List.length (pt_name (fc_pt c')) = new_index pk (List.length pk)) by (rewrite (pa_names _ _ _ _ P); apply (kept_names_length (fc_pt c) jmap Rw)).
  split; [exact Lp|]. split; [exact Mp|]. split; [exact Ln|]. split.
  { intros i K. rewrite (pa_names _ _ _ _ P). apply (kept_names_at (fc_pt c) jmap Rw); [exact K|]. rewrite (wf_names _ W), <- Lp. apply (nth_error_len _ _ _ K). }
  assert (W' : pt_wf (fc_pt c')).
  { destruct (pa_rest _ _ _ _ P) as (R1 & R2 & R3). constructor.
    - rewrite Ln, (pa_cols _ _ _ _ P). reflexivity.
    - rewrite (pa_offsets _ _ _ _ P), (pa_rows _ _ _ _ P). apply repeat_length.
    - rewrite (pa_cols _ _ _ _ P). pose proof (new_index_le pk (List.length pk)). pose proof (wf_max _ W). lia.
    - intros e He. rewrite (pa_entries _ _ _ _ P) in He. fold jmap in He. split.
      + apply in_flat_map in He as (k & Hk & He). apply row_new_rows in He as (j & Ej & ->). apply nmap_inv in Ej as [K ->]. rewrite (pa_rows _ _ _ _ P).
        apply (kept_entry_row c enabled pk c' P Le _ _ K). apply Nat.mod_upper_bound. lia.
      + destruct (new_cols (fc_pt c) jmap pk 0 Mp' e He) as (i & K & ->). rewrite (pa_cols _ _ _ _ P). apply new_index_bound, K.
    - rewrite R1. intros nm l i v [].
    - rewrite R2. intros z [].
    - rewrite R3. intros z []. }
  split; [exact W'|]. split; [apply (pa_rows _ _ _ _ P)|]. split; [apply (pa_sets _ _ _ _ P)|].
  intros q q' p [Lq Nq] A. destruct (apply_affine_lemma (fc_pt c') q' W') as (p' & A' & Lp' & _); [rewrite (pa_cols _ _ _ _ P); exact Lq|]. exists p'. split; [exact A'|].
  split; [rewrite Lp', (pa_rows _ _ _ _ P), (kj_len _ _ _ _ _ _ (pa_joints _ _ _ _ P)), Le; reflexivity|]. intros i d K Hd.
  assert (Lq0 : List.length q = pt_cols (fc_pt c)).
  { destruct (Nat.eq_dec (List.length q) (pt_cols (fc_pt c))) as [|N]; [assumption|]. rewrite (apply_rejects_lemma _ q N) in A. discriminate. }
  unfold pt_apply in A. rewrite Lq0, Nat.eqb_refl, (wf_offsets _ W), Nat.eqb_refl in A. cbn [negb] in A. injection A as <-.
  unfold pt_apply in A'. rewrite Lq, (pa_cols _ _ _ _ P), Nat.eqb_refl, (wf_offsets _ W'), Nat.eqb_refl in A'. cbn [negb] in A'. injection A' as <-.
  pose proof (kept_entry_row c enabled pk c' P Le i d K Hd) as Hr. assert (Hi : i < List.length (fc_joints c)) by (rewrite <- Le; apply (nth_error_len _ _ _ K)).
  assert (Hr0 : 7 * i + d < pt_rows (fc_pt c)) by (rewrite (rm_rows c js RM); lia).
  rewrite !vadd_list_nth; try (rewrite mat_vec_length, ?(wf_offsets _ W), ?(wf_offsets _ W'), ?(pa_rows _ _ _ _ P); first [reflexivity|assumption]).
  rewrite (mat_vec_nth _ q _ Hr0), mat_vec_nth by (rewrite (pa_rows _ _ _ _ P); exact Hr).
  rewrite (pa_entries _ _ _ _ P), (pa_offsets _ _ _ _ P), nth_repeat. fold jmap.
  rewrite (new_row_dot (fc_pt c) jmap Rw pk 0 Lp Mp' (nmap_injective 0 enabled _) q q' i (new_index enabled i) d Nq (nmap_kept 0 enabled _ i K Hi) Hd). ring.
Qed.
Print Assumptions remove_parameters.

(** So the pose of the joints that stay is that of the same model parameters, if they have no offset. *)
Theorem remove_pose_partial c js enabled c' : removable c js -> marks (fc_joints c) js enabled -> remove_joints c js = Ok c' ->
  (forall i d, is_kept enabled i -> d < 7 -> nth (7 * i + d) (pt_offsets (fc_pt c)) 0%R = 0%R) ->
  exists pkept, List.length pkept = pt_cols (fc_pt c) /\ (forall i, is_kept pkept i <-> drives_active (fc_pt c) enabled i) /\
    forall q q' p sts, same_values pkept q q' -> pt_apply (fc_pt c) q = Ok p -> fk (fc_joints c) p = Ok sts ->
      exists p' sts', pt_apply (fc_pt c') q' = Ok p' /\ fk (fc_joints c') p' = Ok sts' /\ same_worlds enabled sts sts'.
Proof.
  intros RM MK E Z. destruct (remove_parameters c js enabled c' RM MK E) as (pk & Lp & Mp & _ & _ & _ & _ & _ & H). exists pk. split; [exact Lp|]. split; [exact Mp|].
  intros q q' p sts Sv A F. destruct (H q q' p Sv A) as (p' & A' & Lp' & N). exists p'.
  destruct (remove_worlds c js enabled c' p p' sts RM MK E F) as (sts' & F' & SW); [|eauto]. split; [exact Lp'|]. intros i d K Hd. rewrite (N i d K Hd), (Z i d K Hd). ring.
Qed.
Print Assumptions remove_pose_partial.

(** Whatever the character, the result has no pose constraints, no blend shape parameters, and no joint
    parameter that is marked as active. *)
Theorem remove_forgets c js c' : removable c js -> remove_joints c js = Ok c' ->
  pt_pose (fc_pt c') = [] /\ pt_blend (fc_pt c') = [] /\ pt_face (fc_pt c') = [] /\ pt_active (fc_pt c') = repeat false (7 * List.length (fc_joints c')) /\
  fc_blend c' = fc_blend c /\ fc_pose c' = fc_pose c.
Proof.
  intros RM E. destruct (marks_exist (fc_joints c) (fo_parents c (rm_ok c js RM)) js) as (enabled & MK). destruct (parts_unique c js enabled c' RM MK E) as (pk & _ & _ & P).
  destruct (pa_rest _ _ _ _ P) as (R1 & R2 & R3). destruct (pa_shapes _ _ _ _ P). pose proof (pa_active _ _ _ _ P). auto 6.
Qed.
Print Assumptions remove_forgets.

(** ** Skin *)

(** The mesh is the same; the weight of a joint that goes is that of the nearest joint above that stays. *)
Theorem remove_skin c js enabled c' m s : removable c js -> marks (fc_joints c) js enabled -> remove_joints c js = Ok c' -> fc_mesh c = Some m -> fc_skin c = Some s ->
  fc_mesh c' = Some m /\ exists s', fc_skin c' = Some s' /\ Forall2 (Forall2 (influence_moved (sk_parents (fc_joints c)) enabled)) s s'.
Proof.
  intros RM MK E Em Es. destruct (parts_unique c js enabled c' RM MK E) as (pk & _ & _ & P). destruct (pa_up _ _ _ _ P) as (up & skin & U & Lu & S1 & S2 & S3).
  rewrite Em, Es in *. destruct S1 as (s' & -> & F). split; [exact S2|]. exists s'. split; [exact S3|].
  refine (forall2_impl _ _ _ _ _ F). intros row row'. apply forall2_impl. intros x x' [W1 W2]. split; [exact W1|]. intros N. pose proof (W2 N) as X.
  apply (U (fst x)); [rewrite <- Lu; apply (nth_error_len _ _ _ X)|exact X].
Qed.
Print Assumptions remove_skin.

Lemma map_weights_row_cases up row : (forall j w, In (j, w) row -> w <> 0%R -> j < List.length up) ->
  (exists r, map_weights_row up row = Ok r) /\ (forall j w, In (j, w) row -> w <> 0%R -> nth_error up j <> Some None) \/ map_weights_row up row = CheckFail.
Proof.
  induction row as [|[j w] row IH]; intros H; cbn [map_weights_row]; [left; split; [eauto|intros j w []]|].
  destruct IH as [[(r & E) N]|E]; [intros; eapply H; [right|]; eassumption| |].
  - destruct (Reqb_spec w 0) as [->|D]; [left; rewrite E; cbn [obind]; split; [eauto|]; intros j' w' [X|X] D; [injection X as <- <-; congruence|eauto]|].
    destruct (nth_error_lt up j (H j w (or_introl eq_refl) D)) as [[k|] Ek]; rewrite (rd_some _ _ _ Ek); cbn [obind]; [|right; reflexivity].
    left. rewrite E. cbn [obind]. split; [eauto|]. intros j' w' [X|X] D'; [injection X as <- <-; congruence|eauto].
  - destruct (Reqb_spec w 0) as [->|D]; [right; rewrite E; reflexivity|].
    destruct (nth_error_lt up j (H j w (or_introl eq_refl) D)) as [[k|] Ek]; rewrite (rd_some _ _ _ Ek); cbn [obind]; [right; rewrite E; reflexivity|right; reflexivity].
Qed.
Lemma map_weights_fails up skin : (forall row j w, In row skin -> In (j, w) row -> w <> 0%R -> j < List.length up) ->
  (exists row j w, In row skin /\ In (j, w) row /\ w <> 0%R /\ nth_error up j = Some None) -> map_weights up skin = CheckFail.
Proof.
  unfold map_weights. match goal with |- context [ofold ?g skin []] => set (f := g) end. generalize (@nil (list influence)).
  induction skin as [|row skin IH]; intros acc H (r & j & w & Hr & Hj & Hw & N); [destruct Hr|]. cbn [ofold]. unfold f at 1.
  destruct (map_weights_row_cases up row) as [[(r' & E) G]|E]; [intros; eapply H; [left; reflexivity|eassumption|assumption]| |rewrite E; reflexivity].
  rewrite E. cbn [obind]. apply IH; [intros; eapply H; [right; eassumption|eassumption|assumption]|].
  destruct Hr as [<-|Hr]; [destruct (G j w Hj Hw N)|]. exists r, j, w. auto.
Qed.

(** If a vertex has weight on a joint that goes with all joints above it, removing fails. *)
Theorem remove_unskinnable c js s row j w : removable c js ->
  (forall row j w, In row s -> In (j, w) row -> w <> 0%R -> j < List.length (fc_joints c)) ->
  In row s -> In (j, w) row -> w <> 0%R -> (forall a, ancestor (sk_parents (fc_joints c)) j a -> ~ stays (sk_parents (fc_joints c)) js a) ->
  remove_joints (with_skin c s) js = CheckFail.
Proof.
  intros RM Rg Hr Hj Hw Ha. pose proof (rm_ok c js RM) as O. pose proof (fo_parents c O) as V. change (valid_sk (fc_joints c)) in V.
  destruct (marks_exist (fc_joints c) V js) as (enabled & MK). set (n := List.length (fc_joints c)) in *. pose proof MK as [Le Mk].
  destruct (removal_flags_ok n js) as (flags & Ef & Lf & Af); [intros i Hi; apply (rm_js c js RM i Hi)|].
  destruct (keep_joints_ok (fc_joints c) V js enabled (fc_names c) MK (fo_names c O) flags Lf Af) as (joints & nms & Ek & KJ).
  destruct (add_mapped_ok (fc_pt c) (nmap 0 enabled n) (List.length joints) (pt_empty (List.length joints * 7))) as (pkept & sets & Lp & Mp & Ea & As).
  - apply (rm_pt c js RM).
  - rewrite nmap_length, Le. apply (rm_rows c js RM).
  - intros a i E. apply nmap_inv in E as [K ->]. rewrite (kj_len _ _ _ _ _ _ KJ), <- Le. apply new_index_bound, K.
  - reflexivity.
  - cbn [pt_empty pt_name List.length Nat.add]. apply (wf_max _ (rm_pt c js RM)).
  - intros c0 nm _ _ [].
  - destruct (climb_all_ok (fc_joints c) V js enabled (fc_names c) MK (fo_names c O)) as (up & Eup & Lup & Nup). fold n in Eup, Lup, Nup.
    unfold remove_joints, with_skin. cbn [fc_names fc_joints fc_pt fc_limits fc_locs fc_mesh fc_skin fc_caps fc_pose fc_blend fc_inv]. fold n. rewrite Ef. cbn [obind]. rewrite Ek. cbn [obind]. fold n.
    rewrite Ea. cbn [obind]. rewrite Eup. cbn [obind]. rewrite (map_weights_fails up s); [reflexivity|rewrite Lup; exact Rg|]. exists row, j, w. repeat split; auto.
    destruct (Nup j (Rg row j w Hr Hj Hw)) as [(a & (N1 & N2 & _) & _)|[_ E]]; [|exact E]. destruct (Ha a N1). apply Mk, N2.
Qed.
Print Assumptions remove_unskinnable.

(** The inverse bind poses of the joints that stay are the same, if they are those of zero parameters. *)
Theorem remove_bind_partial c js enabled c' : removable c js -> marks (fc_joints c) js enabled -> remove_joints c js = Ok c' -> zero_bind c ->
  zero_bind c' /\ forall i, is_kept enabled i -> nth_error (fc_inv c') (new_index enabled i) = nth_error (fc_inv c) i.
Proof.
  intros RM MK E (sts & F & Ei). destruct (parts_unique c js enabled c' RM MK E) as (pk & Lp & Mp & P). destruct (pa_inv _ _ _ _ P) as (z & Fz & Ez).
  split; [exists z; auto|]. intros i K. pose proof MK as [Le Mk].
  destruct (worlds_of_parts c js enabled pk c' _ (repeat 0%R (7 * List.length (fc_joints c'))) sts RM MK P F) as (sts' & F' & SW).
  { split; [rewrite repeat_length, (kj_len _ _ _ _ _ _ (pa_joints _ _ _ _ P)), Le; reflexivity|]. intros a d _ _. rewrite !nth_repeat. reflexivity. }
  assert (sts' = z) as -> by congruence. rewrite Ei, Ez. unfold inverse_bind. rewrite !nth_error_map.
  destruct (fk_inv _ _ sts (fo_parents c (rm_ok c js RM)) F) as [_ FS]. destruct (nth_error_lt sts i) as [s Es]; [rewrite (proj1 FS), <- Le; apply (nth_error_len _ _ _ K)|].
  destruct (SW i s K Es) as (s' & Es' & Ew). rewrite Es, Es'. cbn [option_map]. rewrite Ew. reflexivity.
Qed.
Print Assumptions remove_bind_partial.

Lemma nearest_self_kept ps enabled j a : is_kept enabled j -> nearest_kept ps enabled j a -> parents_first ps -> a = j.
Proof.
  intros K (A1 & A2 & A3) V. pose proof (ancestor_le _ _ _ V A1). destruct (ancestor_bounds _ _ _ A1) as [Hj _].
  pose proof (ancestor_le _ _ _ V (A3 j (ancestor_self _ _ Hj) K)). lia.
Qed.

(** A vertex is skinned as before in a pose in which the joints that go move as the nearest joints above
    that stay; so always if all its weight is on joints that stay. *)
Theorem remove_mesh_partial c js enabled c' p p' sts sts' row row' pos v : removable c js -> marks (fc_joints c) js enabled -> remove_joints c js = Ok c' -> zero_bind c ->
  fk (fc_joints c) p = Ok sts -> same_params enabled p p' -> fk (fc_joints c') p' = Ok sts' ->
  Forall2 (influence_moved (sk_parents (fc_joints c)) enabled) row row' ->
  (forall j w a, In (j, w) row -> w <> 0%R -> nearest_kept (sk_parents (fc_joints c)) enabled j a ->
     moves_with (map (fun s => tf_affine (js_world s)) sts) (fc_inv c) j a) ->
  skinned (map (fun s => tf_affine (js_world s)) sts) (fc_inv c) row pos v ->
  skinned (map (fun s => tf_affine (js_world s)) sts') (fc_inv c') row' pos v.
Proof.
  intros RM MK E Z F SP F' FM MW (vs & FA & ->). destruct (remove_worlds c js enabled c' p p' sts RM MK E F SP) as (t & Ft & SW). assert (t = sts') as -> by congruence.
  destruct (remove_bind_partial c js enabled c' RM MK E Z) as [_ NB]. exists vs. split; [|reflexivity]. revert vs FA MW.
  induction FM as [|[j w] [j' w'] row row' [W1 W2] FM IH]; intros vs FA MW; inversion FA as [|x v0 l vs0 A0 FA0]; subst; constructor; [|apply IH; [exact FA0|intros; eapply MW; [right|..]; eassumption]].
  cbn [fst snd] in *. subst w'. destruct (Req_EM_T w 0) as [->|D].
  - destruct A0 as [[_ ->]|(x & y & _ & _ & ->)]; left; cbn [fst snd]; (split; [reflexivity|]); [reflexivity|]. apply vscale_0_l.
  - destruct (W2 D) as (a & Na & ->). destruct (MW j w a (or_introl eq_refl) D Na) as (wj & bj & wa & ba & E1 & E2 & E3 & E4 & Eq).
    destruct A0 as [[X _]|(x & y & X & Y & ->)]; [contradiction|]. cbn [fst snd] in *. right. cbn [fst snd]. pose proof Na as (_ & Ka & _).
    assert (Ew : nth_error (map (fun s => tf_affine (js_world s)) sts') (new_index enabled a) = Some wa).
    { rewrite nth_error_map in E3 |- *. destruct (nth_error sts a) as [s|] eqn:Es; [|discriminate]. destruct (SW a s Ka Es) as (s' & Es' & W). rewrite Es'. cbn [option_map] in *. rewrite W. exact E3. }
    exists wa, ba. split; [exact Ew|]. split; [rewrite (NB a Ka); exact E4|]. f_equal. rewrite <- Eq. congruence.
Qed.
Print Assumptions remove_mesh_partial.

(** ** What is fixed to the joints *)

Lemma mapped_to_kept enabled n j : mapped_to (nmap 0 enabled n) j = true -> is_kept enabled j.
Proof. unfold mapped_to. destruct (nth_error (nmap 0 enabled n) j) as [[k|]|] eqn:E; try discriminate. intros _. apply (nmap_inv _ _ _ _ _ E). Qed.
Lemma kept_mapped_to enabled n j : n = List.length enabled -> is_kept enabled j -> mapped_to (nmap 0 enabled n) j = true.
Proof. intros -> K. unfold mapped_to. rewrite (nmap_kept 0 enabled _ j K (nth_error_len _ _ _ K)). reflexivity. Qed.

(** The locators of the joints that stay are kept, in their order and unchanged but for the joint's
    number, so they are where they were. *)
Theorem remove_locators c js enabled c' : removable c js -> marks (fc_joints c) js enabled -> remove_joints c js = Ok c' ->
  passed (locator_kept enabled) (locator_renumbered enabled) (fc_locs c) (fc_locs c') /\
  forall sts sts' l l' v, same_worlds enabled sts sts' -> locator_kept enabled l -> locator_renumbered enabled l l' ->
    locator_position sts l = Ok v -> locator_position sts' l' = Ok v.
Proof.
  intros RM MK E. destruct (parts_unique c js enabled c' RM MK E) as (pk & _ & _ & P). pose proof MK as [Le _]. split.
  - exists (parent_mapped lo_parent (nmap 0 enabled (List.length (fc_joints c)))). split.
    + intros l _. unfold parent_mapped, locator_kept. destruct (lo_parent l) as [p|]; [|split; [discriminate|intros (p & X & _); discriminate]]. split.
      * intros H. exists p. split; [reflexivity|]. apply (mapped_to_kept _ _ _ H).
      * intros (q & X & K). injection X as <-. apply kept_mapped_to; [symmetry; exact Le|exact K].
    + refine (forall2_impl _ _ _ _ _ (pa_locs _ _ _ _ P)). intros x x' (p & k & Ep & Ek & ->). apply nmap_inv in Ek as [K ->].
      unfold locator_renumbered, loc_with. cbn. rewrite Ep. repeat split.
  - intros sts sts' l l' v SW (p & Ep & K) (_ & Ep' & Eo & _) H. unfold locator_position in *. rewrite Ep in *. rewrite Ep'. cbn [option_map]. unfold rd in *.
    destruct (nth_error sts p) as [s|] eqn:Es; [|discriminate]. destruct (SW p s K Es) as (s' & Es' & W). rewrite Es', Eo. cbn [obind] in *. rewrite W. exact H.
Qed.
Print Assumptions remove_locators.

(** So are the capsules. *)
Theorem remove_capsules c js enabled c' : removable c js -> marks (fc_joints c) js enabled -> remove_joints c js = Ok c' ->
  passed (capsule_kept enabled) (capsule_renumbered enabled) (match fc_caps c with Some l => l | None => [] end) (match fc_caps c' with Some l => l | None => [] end) /\
  forall sts sts' l l' v, same_worlds enabled sts sts' -> capsule_kept enabled l -> capsule_renumbered enabled l l' ->
    capsule_state sts l = Ok v -> capsule_state sts' l' = Ok v.
Proof.
  intros RM MK E. destruct (parts_unique c js enabled c' RM MK E) as (pk & _ & _ & P). pose proof MK as [Le _]. split.
  - exists (parent_mapped cap_parent (nmap 0 enabled (List.length (fc_joints c)))). split.
    + intros l _. unfold parent_mapped, capsule_kept. destruct (cap_parent l) as [p|]; [|split; [discriminate|intros (p & X & _); discriminate]]. split.
      * intros H. exists p. split; [reflexivity|]. apply (mapped_to_kept _ _ _ H).
      * intros (q & X & K). injection X as <-. apply kept_mapped_to; [symmetry; exact Le|exact K].
    + destruct (pa_caps _ _ _ _ P) as (caps & Ec & F).
      assert (Eq : match fc_caps c' with Some l => l | None => [] end = caps) by (rewrite Ec; destruct caps; reflexivity). rewrite Eq.
      refine (forall2_impl _ _ _ _ _ F). intros x x' (p & k & Ep & Ek & ->). apply nmap_inv in Ek as [K ->].
      unfold capsule_renumbered, cap_with. cbn. rewrite Ep. repeat split.
  - intros sts sts' l l' v SW (p & Ep & K) (E1 & E2 & E3 & E4 & Ep') H. unfold capsule_state in *. rewrite Ep in *. rewrite Ep'. cbn [option_map]. unfold rd in *.
    destruct (nth_error sts p) as [s|] eqn:Es; [|discriminate]. destruct (SW p s K Es) as (s' & Es' & W). rewrite Es', E1, E2, E3, E4. cbn [obind] in *. rewrite W. exact H.
Qed.
Print Assumptions remove_capsules.

Lemma limit_moved_impl (m m' : nat -> nat -> Prop) d d' : (forall j k, m j k -> m' j k) -> limit_moved m d d' -> limit_moved m' d d'.
Proof. intros H X. destruct X; constructor; auto. Qed.
Lemma limit_renamed_impl (m m' : nat -> nat -> Prop) d d' : (forall j k, m j k -> m' j k) -> limit_renamed m d d' -> limit_renamed m' d d'.
Proof. intros H X. destruct X; constructor; auto. Qed.

(** The limits whose joints and parameters all stay are kept, in their order, with their numbers changed. *)
Theorem remove_limits c js enabled c' : removable c js -> marks (fc_joints c) js enabled -> remove_joints c js = Ok c' ->
  exists pkept, List.length pkept = pt_cols (fc_pt c) /\ (forall i, is_kept pkept i <-> drives_active (fc_pt c) enabled i) /\
    passed (limit_stays enabled pkept) (limit_renumbered enabled pkept) (fc_limits c) (fc_limits c').
Proof.
  intros RM MK E. destruct (parts_unique c js enabled c' RM MK E) as (pk & Lp & Mp & P). pose proof MK as [Le _]. exists pk. split; [exact Lp|]. split; [exact Mp|].
  exists (limit_mapped (nmap 0 enabled (List.length (fc_joints c))) (nmap 0 pk (pt_cols (fc_pt c)))). split.
  - intros l _. unfold limit_mapped, limit_stays. rewrite andb_true_iff, !forallb_forall. split.
    + intros [H1 H2]. split; intros j Hj; [apply (mapped_to_kept _ _ _ (H1 j Hj))|apply (mapped_to_kept _ _ _ (H2 j Hj))].
    + intros [H1 H2]. split; intros j Hj; apply kept_mapped_to; auto.
  - refine (forall2_impl _ _ _ _ _ (pa_limits _ _ _ _ P)). intros x x' [(d & D1 & D2) H]. split; [|exact H]. exists d. split.
    + refine (limit_moved_impl _ _ _ _ _ D1). intros j k X. apply nmap_inv in X. exact X.
    + refine (limit_renamed_impl _ _ _ _ _ D2). intros j k X. apply nmap_inv in X. exact X.
Qed.
Print Assumptions remove_limits.

(** ** What does not stay the same *)

Local Open Scope R_scope.
(** A root with two arms; each arm is moved along x by its own parameter, a third parameter drives a
    blend shape only. The second arm has the constant offset [k]. *)
Definition fork_shape : pose_shape := PS 0 qid [2%nat] [0; 0; 0] (BM 3 4 (fun _ _ => 0)).
Definition fork_char (k : R) (inv : list affine) : fchar :=
  FC ["root"%string; "left"%string; "right"%string] [Joint None vzero qid; Joint (Some 0%nat) (V3 1 0 0) qid; Joint (Some 0%nat) (V3 0 1 0) qid]
    (PT ["left_tx"%string; "right_tx"%string; "smile"%string] 21 3 [Entry 7 0 1; Entry 14 1 1] (repeat 0 14 ++ k :: repeat 0 6)
       (map (fun r => (r =? 7)%nat || (r =? 14)%nat) (seq 0 21)) [("arms"%string, fun i => (i <? 2)%nat)] [("rest"%string, [(1%nat, 2)])] [2%Z] [])
    [FL (PLimit (LMinMax 0 (-1) 1) 1) id_aff id_aff vzero; FL (PLimit (LMinMax 1 (-1) 1) 1) id_aff id_aff vzero; FL (PLimit (LEllipsoid 2 0) 1) id_aff id_aff vzero]
    [Locator "l" (Some 1%nat) vzero (false, false, false) 1 vzero vzero; Locator "r" (Some 2%nat) vzero (false, false, false) 1 vzero vzero]
    (Some (FM [V3 1 0 0; V3 0 1 0] [])) (Some [[(1%nat, 1)]; [(2%nat, / 2); (0%nat, / 2)]]) (Some [Cap id_aff 1 1 (Some 1%nat) 1]) (Some fork_shape)
    (Some (BS (BM 6 1 (fun _ _ => 1)) [V3 1 0 0; V3 0 1 0] None false)) inv.
Definition right_stays : list bool := [true; false; true].

Lemma fork_stays : marks (fc_joints (fork_char 0 [])) [1%nat] right_stays.
Proof.
  set (ps := sk_parents (fc_joints (fork_char 0 []))).
  assert (V : parents_first ps) by (intros [|[|[|i]]] p H; try discriminate; [injection H as <-; lia|injection H as <-; lia|destruct i; discriminate]).
  split; [reflexivity|]. intros i. split.
  - intros K. split; [apply (nth_error_len _ _ _ K)|]. intros a A [<-|[]]. destruct i as [|[|[|i]]]; try discriminate.
    + pose proof (ancestor_le _ _ _ V A). lia.
    + apply ancestor_inv in A as [A|(p & Ep & A)]; [discriminate|]. injection Ep as <-. pose proof (ancestor_le _ _ _ V A). lia.
    + destruct i; discriminate.
  - intros [L H]. destruct i as [|[|[|i]]]; try reflexivity.
    + destruct (H 1%nat); [apply ancestor_self; exact L|left; reflexivity].
    + cbn in L. lia.
Qed.
Lemma fork_removable k inv : List.length inv = 3%nat -> removable (fork_char k inv) [1%nat].
Proof.
  intros Li. constructor.
  - constructor; [|discriminate|reflexivity|exact Li]. intros [|[|[|i]]] p H; try discriminate; [injection H as <-; lia|injection H as <-; lia|destruct i; discriminate].
  - constructor; try reflexivity.
    + apply Nat.leb_le. reflexivity.
    + intros e [<-|[<-|[]]]; cbn; lia.
    + intros nm l i v [X|[]] Y. injection X as <- <-. destruct Y as [Y|[]]. injection Y as <- _. cbn. lia.
    + intros z [<-|[]]. reflexivity.
    + intros z [].
  - reflexivity.
  - intros j [<-|[]]. cbn. lia.
  - intros l [<-|[<-|[]]]; eexists; (split; [reflexivity|cbn; lia]).
  - intros l x X Y. injection X as <-. destruct Y as [<-|[]]. eexists. split; [reflexivity|cbn; lia].
  - intros l j [<-|[<-|[<-|[]]]] H; cbn in H; try contradiction. destruct H as [<-|[<-|[]]]; cbn; lia.
  - intros l j [<-|[<-|[<-|[]]]] H; cbn in H; try contradiction; destruct H as [<-|[]]; cbn; lia.
  - intros s row j w X Hr Hj Hw. injection X as <-. assert (S0 : stays (sk_parents (fc_joints (fork_char k inv))) [1%nat] 0) by (apply (proj2 fork_stays); reflexivity).
    exists 0%nat. split; [|exact S0]. destruct Hr as [<-|[<-|[]]]; [destruct Hj as [Y|[]]|destruct Hj as [Y|[Y|[]]]]; injection Y as <- _; try (apply ancestor_self; cbn; lia);
      (eapply ancestor_up; [reflexivity|]; apply ancestor_self; cbn; lia).
Qed.
Lemma fork_result k inv : List.length inv = 3%nat -> exists c' sts, remove_joints (fork_char k inv) [1%nat] = Ok c' /\
  fc_joints c' = [Joint None vzero qid; Joint (Some 0%nat) (V3 0 1 0) qid] /\
  pt_name (fc_pt c') = ["right_tx"%string] /\ pt_entries (fc_pt c') = [Entry 7 0 1] /\ pt_rows (fc_pt c') = 14%nat /\ pt_cols (fc_pt c') = 1%nat /\ pt_offsets (fc_pt c') = repeat 0 14 /\
  fk (fc_joints c') (repeat 0 14) = Ok sts /\ fc_inv c' = inverse_bind sts.
Proof.
  intros Li. pose proof (fork_removable k inv Li) as RM. destruct (remove_parts _ _ _ RM fork_stays) as (c' & pk & E & Lp & Mp & P). cbn [fork_char fc_joints fc_pt pt_cols] in Lp.
  destruct pk as [|a [|b [|d [|? ?]]]]; try discriminate Lp.
  assert (a = false) as ->.
  { destruct a; [|reflexivity]. destruct (proj1 (Mp 0%nat) eq_refl) as (e & He & Hc & Hk). destruct He as [<-|[<-|[]]]; discriminate. }
  assert (b = true) as ->.
  { destruct b; [reflexivity|]. assert (X : is_kept [false; false; d] 1) by (apply Mp; exists (Entry 14 1 1); repeat split; right; left; reflexivity). discriminate. }
  assert (d = false) as ->.
  { destruct d; [|reflexivity]. destruct (proj1 (Mp 2%nat) eq_refl) as (e & He & Hc & Hk). destruct He as [<-|[<-|[]]]; discriminate. }
  pose proof (pa_joints _ _ _ _ P) as KJ.
  assert (EJ : fc_joints c' = [Joint None vzero qid; Joint (Some 0%nat) (V3 0 1 0) qid]).
  { pose proof (kj_len _ _ _ _ _ _ KJ) as L. cbn in L. pose proof (kj_joint _ _ _ _ _ _ KJ 0 _ ltac:(cbn; lia) eq_refl eq_refl) as J0.
    pose proof (kj_joint _ _ _ _ _ _ KJ 2 _ ltac:(cbn; lia) eq_refl eq_refl) as J2. cbn in J0, J2.
    destruct (fc_joints c') as [|x [|y [|? ?]]]; try discriminate. injection J0 as ->. injection J2 as ->. reflexivity. }
  destruct (pa_inv _ _ _ _ P) as (sts & F & EI). exists c', sts. split; [exact E|]. split; [exact EJ|].
  rewrite (pa_names _ _ _ _ P), (pa_entries _ _ _ _ P), (pa_rows _ _ _ _ P), (pa_cols _ _ _ _ P), (pa_offsets _ _ _ _ P), EJ. repeat split; try reflexivity; [|exact EI].
  rewrite EJ in F. exact F.
Qed.

Lemma two_fk a b p : List.length p = 14%nat -> fk [Joint None a qid; Joint (Some 0%nat) b qid] p =
  Ok (let s0 := joint_state_set (Joint None a qid) (jparam_at p 0) None in [s0; joint_state_set (Joint (Some 0%nat) b qid) (jparam_at p 1) (Some s0)]).
Proof. intros L. unfold fk. rewrite L. reflexivity. Qed.
Lemma three_fk a b d p : List.length p = 21%nat -> fk [Joint None a qid; Joint (Some 0%nat) b qid; Joint (Some 0%nat) d qid] p =
  Ok (let s0 := joint_state_set (Joint None a qid) (jparam_at p 0) None in
      [s0; joint_state_set (Joint (Some 0%nat) b qid) (jparam_at p 1) (Some s0); joint_state_set (Joint (Some 0%nat) d qid) (jparam_at p 2) (Some s0)]).
Proof. intros L. unfold fk. rewrite L. reflexivity. Qed.
Lemma tf_moved pr o x : tf_mul (TF qid vzero 1) (local_tf (Joint pr o qid) (JP x 0 0 0 0 0 0)) = TF qid (vadd o (V3 x 0 0)) 1.
Proof.
  unfold local_tf. cbn [jprerot joffset jtx jty jtz jrx jry jrz jsc]. unfold exp2. rewrite Rmult_0_l, exp_0.
  unfold qaxis. replace (0 / 2) with 0 by field. rewrite cos_0, sin_0. destruct o. unfold tf_mul. cbn [rot trans scl]. f_equal; [vec_ring|vec_ring|ring].
Qed.

(** Constant offsets are lost: the arm that stays moves. *)
Theorem remove_pose_refuted : exists c js enabled c' pkept q q' p p' sts sts', removable c js /\ marks (fc_joints c) js enabled /\ remove_joints c js = Ok c' /\
  List.length pkept = pt_cols (fc_pt c) /\ (forall i, is_kept pkept i <-> drives_active (fc_pt c) enabled i) /\ same_values pkept q q' /\
  pt_apply (fc_pt c) q = Ok p /\ fk (fc_joints c) p = Ok sts /\ pt_apply (fc_pt c') q' = Ok p' /\ fk (fc_joints c') p' = Ok sts' /\ ~ same_worlds enabled sts sts'.
Proof.
  set (c := fork_char 5 [id_aff; id_aff; id_aff]). pose proof (fork_removable 5 [id_aff; id_aff; id_aff] eq_refl) as RM. fold c in RM.
  destruct (fork_result 5 [id_aff; id_aff; id_aff] eq_refl) as (c' & z & E & EJ & EN & EE & ER & EC & EO & _). fold c in E.
  destruct (remove_parameters c [1%nat] right_stays c' RM fork_stays E) as (pk & Lp & Mp & Ln & _ & _ & _ & _ & _).
  assert (Eq : new_index pk (List.length pk) = 1%nat) by (rewrite <- Ln, EN; reflexivity).
  assert (A : pt_apply (fc_pt c) [0; 0; 0] = Ok (repeat 0 14 ++ 5 :: repeat 0 6)).
  { unfold pt_apply, c. cbn. f_equal. repeat (f_equal; try ring). }
  assert (A' : pt_apply (fc_pt c') [0] = Ok (repeat 0 14)).
  { unfold pt_apply. rewrite EC, EO, ER. cbn [List.length Nat.eqb negb repeat]. unfold mat_vec. rewrite ER, EE. cbn. f_equal. repeat (f_equal; try ring). }
  exists c, [1%nat], right_stays, c', pk, [0; 0; 0], [0], (repeat 0 14 ++ 5 :: repeat 0 6), (repeat 0 14).
  assert (Ef : fk (fc_joints c) (repeat 0 14 ++ 5 :: repeat 0 6) = fk [Joint None vzero qid; Joint (Some 0%nat) (V3 1 0 0) qid; Joint (Some 0%nat) (V3 0 1 0) qid] (repeat 0 14 ++ 5 :: repeat 0 6)) by reflexivity.
  rewrite Ef, three_fk by reflexivity. rewrite EJ, two_fk by reflexivity. eexists _, _.
  split; [exact RM|]. split; [exact fork_stays|]. split; [exact E|]. split; [exact Lp|]. split; [exact Mp|].
  split. { split; [rewrite Eq; reflexivity|]. intros i K. pose proof (new_index_bound pk i K) as B. rewrite Eq in B. destruct (new_index pk i); [|lia]. destruct i as [|[|[|[|i]]]]; reflexivity. }
  split; [exact A|]. split; [reflexivity|]. split; [exact A'|]. split; [reflexivity|]. cbv zeta. intros SW.
  destruct (SW 2%nat _ eq_refl eq_refl) as (s' & Es & W). cbn in Es. injection Es as <-. rewrite !js_world_set in W. cbn [parent_tf] in W. rewrite !js_world_set in W. cbn [parent_tf] in W.
  change (jparam_at (repeat 0 14) 0) with (JP 0 0 0 0 0 0 0) in W. change (jparam_at (repeat 0 14) 1) with (JP 0 0 0 0 0 0 0) in W.
  change (jparam_at (repeat 0 14 ++ 5 :: repeat 0 6) 0) with (JP 0 0 0 0 0 0 0) in W. change (jparam_at (repeat 0 14 ++ 5 :: repeat 0 6) 2) with (JP 5 0 0 0 0 0 0) in W.
  rewrite tf_plain, !tf_moved in W. apply (f_equal (fun t => vx (trans t))) in W. cbn in W. lra.
Qed.
Print Assumptions remove_pose_refuted.

(** A parameter that only drives a blend shape is lost, although the blend shape is kept; a joint
    parameter that is driven is not marked as active; pose shapes name joints that are no longer there. *)
Theorem remove_shapes_refuted : exists c js c' e shape, removable c js /\ remove_joints c js = Ok c' /\
  pt_blend (fc_pt c) = [2%Z] /\ nth_error (pt_name (fc_pt c)) 2 = Some "smile"%string /\ fc_blend c <> None /\ fc_blend c' = fc_blend c /\
  pt_blend (fc_pt c') = [] /\ ~ In "smile"%string (pt_name (fc_pt c')) /\
  In e (pt_entries (fc_pt c')) /\ nth_error (pt_active (fc_pt c')) (erow e) = Some false /\
  fc_pose c = Some shape /\ fc_pose c' = Some shape /\ (forall j, In j (ps_map shape) -> (j < List.length (fc_joints c))%nat) /\
  exists j, In j (ps_map shape) /\ (List.length (fc_joints c') <= j)%nat.
Proof.
  pose proof (fork_removable 0 [id_aff; id_aff; id_aff] eq_refl) as RM. destruct (fork_result 0 [id_aff; id_aff; id_aff] eq_refl) as (c' & z & E & EJ & EN & EE & ER & EC & EO & _).
  destruct (remove_forgets _ _ _ RM E) as (_ & F2 & _ & F4 & F5 & F6).
  exists (fork_char 0 [id_aff; id_aff; id_aff]), [1%nat], c', (Entry 7 0 1), fork_shape. split; [exact RM|]. split; [exact E|]. split; [reflexivity|]. split; [reflexivity|].
  split; [discriminate|]. split; [exact F5|]. split; [exact F2|]. split; [rewrite EN; intros [X|[]]; discriminate|]. split; [rewrite EE; left; reflexivity|].
  split; [rewrite F4, EJ; reflexivity|]. split; [reflexivity|]. split; [exact F6|]. split; [intros j [<-|[]]; cbn; lia|]. exists 2%nat. rewrite EJ. split; [left; reflexivity|cbn; lia].
Qed.
Print Assumptions remove_shapes_refuted.

(** An inverse bind pose that is not that of zero parameters is replaced. *)
Theorem remove_bind_refuted : exists c js enabled c' i, removable c js /\ marks (fc_joints c) js enabled /\ remove_joints c js = Ok c' /\ is_kept enabled i /\
  nth_error (fc_inv c') (new_index enabled i) <> nth_error (fc_inv c) i.
Proof.
  set (b := Aff mid (V3 3 0 0)). pose proof (fork_removable 0 [b; b; b] eq_refl) as RM. destruct (fork_result 0 [b; b; b] eq_refl) as (c' & z & E & EJ & _ & _ & _ & _ & _ & F & EI).
  exists (fork_char 0 [b; b; b]), [1%nat], right_stays, c', 0%nat. split; [exact RM|]. split; [exact fork_stays|]. split; [exact E|]. split; [reflexivity|].
  rewrite EJ, two_fk in F by reflexivity. injection F as <-. rewrite EI. cbn [inverse_bind map new_index right_stays firstn filter List.length nth_error fork_char fc_inv].
  rewrite js_world_set. change (jparam_at _ 0) with (JP 0 0 0 0 0 0 0). cbn [parent_tf]. rewrite tf_plain. intros X.
  apply (f_equal (fun o => match o with Some a => vx (atrans a) | None => 0 end)) in X. cbn in X. lra.
Qed.
Print Assumptions remove_bind_refuted.

Lemma inv_plain o : tf_affine (tf_inv (TF qid o 1)) = Aff mid (vscale (-1) o).
Proof.
  destruct o. unfold tf_affine, tf_inv, tf_linear, mid. cbn [rot trans scl]. f_equal; unfold qmat, qinv, qnorm2, qid, qrot, mscale, vscale, qvec, vcross, vadd, ex, ey, ez; cbn; f_equal; try (f_equal; field); field.
Qed.

(** The fork again, without its left arm. *)
Example remove_case : let c := fork_char 0 [id_aff; Aff mid (V3 (-1) 0 0); Aff mid (V3 0 (-1) 0)] in
  removable c [1%nat] /\ marks (fc_joints c) [1%nat] right_stays /\ (forall i d, is_kept right_stays i -> (d < 7)%nat -> nth (7 * i + d) (pt_offsets (fc_pt c)) 0 = 0) /\
  zero_bind c /\ same_params right_stays (map INR (seq 0 21)) (map INR (seq 0 7 ++ seq 14 7)) /\
  (forall a, ancestor (sk_parents (fc_joints c)) 1 a -> ~ stays (sk_parents (fc_joints c)) [0%nat] a).
Proof.
  cbv zeta. split; [apply fork_removable; reflexivity|]. split; [exact fork_stays|]. split.
  { intros i d _ _. change (pt_offsets _) with (repeat 0 21). apply nth_repeat. }
  split.
  { eexists. cbn [fork_char fc_joints List.length]. rewrite three_fk by reflexivity. split; [reflexivity|]. cbn [fork_char fc_inv map]. rewrite !js_world_set. cbn [parent_tf]. rewrite !js_world_set. cbn [parent_tf].
    assert (Z : forall i, jparam_at (repeat 0 (7 * 3)) i = JP 0 0 0 0 0 0 0) by (intros i; unfold jparam_at; cbv zeta; rewrite !nth_repeat; reflexivity). rewrite !Z, tf_plain, !tf_moved.
    unfold id_aff. rewrite !inv_plain. repeat f_equal; vec_ring. }
  split.
  { split; [reflexivity|]. intros i d K Hd. destruct i as [|[|[|i]]]; try discriminate; [| |destruct i; discriminate]; do 7 (destruct d as [|d]; [reflexivity|]); lia. }
  intros a A [_ H]. assert (a = 1 \/ a = 0)%nat as [->| ->].
  { apply ancestor_inv in A as [A|(p & Ep & A)]; [left; congruence|]. injection Ep as <-. right. apply ancestor_inv in A as [A|(p & Ep & A)]; [congruence|discriminate]. }
  - apply (H 0%nat); [eapply ancestor_up; [reflexivity|]; apply ancestor_self; cbn; lia|left; reflexivity].
  - apply (H 0%nat); [apply ancestor_self; cbn; lia|left; reflexivity].
Qed.
