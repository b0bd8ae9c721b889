(** C120: the state of a character. *)

From Coq Require String.
From Coq Require Import Reals List Arith ZArith Permutation Bool Lia Lra.
From Verif Require Import Prelude LinAlg Loops Rbool R3 Transform_model Skeleton_model Skeleton_spec FK_model FK_spec FK_proofs ParamTransform_model ParamTransform_spec ParamTransform_proofs
  Limits_model Limits_spec Limits_props Skin_model Skin_spec Skin_props Blend_model PoseShape_model Locator_model Simplify_model CharUtil_model Coll_model
  Normals_model Normals_spec Normals_props Blend_spec Blend_props PoseShape_props CharState_model CharState_spec.
Import ListNotations.
Local Open Scope outcome_scope.
Local Open Scope R_scope.

(** ** History *)

Lemma fv_start {X B} skin (points : list X) (f : list influence -> X -> outcome B) : forall order r r' (D : nat -> Prop), length r = length r' ->
  (forall i, D i -> nth_error r i = nth_error r' i) ->
  match for_vertices order skin points f r, for_vertices order skin points f r' with
  | Ok x, Ok x' => length x = length r /\ length x' = length r /\ forall i, D i \/ In i order -> nth_error x i = nth_error x' i
  | y, y' => y = y'
  end.
Proof.
  unfold for_vertices. induction order as [|i order IH]; intros r r' D L H; cbn [ofold].
  - split; [reflexivity|]. split; [symmetry; exact L|]. intros i [Hi|[]]. apply H, Hi.
  - destruct (rd skin i) as [row| | | |]; cbn [obind]; try reflexivity. destruct (rd points i) as [p| | | |]; cbn [obind]; try reflexivity.
    destruct (f row p) as [v| | | |]; cbn [obind]; try reflexivity.
    destruct (Nat.lt_ge_cases i (length r)) as [C|C].
    + destruct (wr_ok r i v C) as (r1 & E1 & L1 & N1 & O1). destruct (wr_ok r' i v ltac:(lia)) as (r2 & E2 & L2 & N2 & O2).
      rewrite E1, E2. cbn [obind].
      assert (G : forall k, D k \/ k = i -> nth_error r1 k = nth_error r2 k).
      { intros k Hk. destruct (Nat.eq_dec k i) as [->|N]; [congruence|]. rewrite O1, O2 by exact N. destruct Hk as [Hk|Hk]; [apply H, Hk|contradiction]. }
      specialize (IH r1 r2 (fun k => D k \/ k = i) ltac:(congruence) G).
      destruct (ofold _ order r1) as [x| | | |]; destruct (ofold _ order r2) as [x'| | | |]; try exact IH; try discriminate IH.
      destruct IH as (A1 & A2 & A3). split; [congruence|]. split; [congruence|]. intros k Hk. apply A3. cbn [In] in Hk. destruct Hk as [Hk|[Hk|Hk]]; auto.
    + assert (W : forall l : list B, (length l <= i)%nat -> wr l i v = UB).
      { intros l Hl. destruct (wr l i v) as [l'| | | |] eqn:Ew; [|unfold wr in Ew; destruct (upd l i v); discriminate Ew..|reflexivity|unfold wr in Ew; destruct (upd l i v); discriminate Ew].
        apply wr_ok_inv in Ew. lia. }
      rewrite !W by lia. reflexivity.
Qed.

Definition keeps {A} (c : cchar A) (old : option (gmesh A)) : Prop :=
  forall o, old = Some o -> exists m, cc_mesh c = Some m /\ gm_faces o = gm_faces m /\ gm_rest o = gm_rest m /\
    (fc_pose (cc_char c) = None -> fc_blend (cc_char c) = None ->
      length (gm_normals o) = length (gm_normals m) /\ skipn (length (gm_vertices m)) (gm_normals o) = skipn (length (gm_vertices m)) (gm_normals m)).

Lemma ssd_mesh_keeps {A} order inv skin (m o r : gmesh A) worlds : ssd_mesh order inv skin m worlds o = Ok r ->
  length (gm_normals o) = length (gm_normals m) -> skipn (length (gm_vertices m)) (gm_normals o) = skipn (length (gm_vertices m)) (gm_normals m) ->
  gm_faces r = gm_faces o /\ gm_rest r = gm_rest o /\
  length (gm_normals r) = length (gm_normals m) /\ skipn (length (gm_vertices m)) (gm_normals r) = skipn (length (gm_vertices m)) (gm_normals m).
Proof.
  unfold ssd_mesh. destruct (length inv <=? length worlds)%nat; [|discriminate]. cbn [negb].
  destruct (length skin =? length (gm_vertices m))%nat; [|discriminate]. cbn [negb].
  destruct (Nat.eqb_spec (length (gm_vertices o)) (length (gm_vertices m))) as [Lv|]; [|discriminate]. cbn [negb].
  destruct (length (gm_normals o) =? length (gm_normals m))%nat; [|discriminate]. cbn [negb].
  destruct (length (gm_faces o) =? length (gm_faces m))%nat; [|discriminate]. cbn [negb].
  match goal with |- context [for_vertices order skin ?p ?f ?z] => pose proof (fv_start skin p f order z z (fun _ => False) eq_refl ltac:(tauto)) as H;
    destruct (for_vertices order skin p f z) as [x| | | |]; try discriminate end.
  destruct H as (L & _). cbn [obind]. intros E Ln T. injection E as <-. cbn [gm_faces gm_rest gm_normals]. split; [reflexivity|]. split; [reflexivity|].
  rewrite combine_length in L. split.
  - rewrite app_length, map_length, skipn_length. lia.
  - rewrite skipn_app, map_length. destruct (Nat.le_gt_cases (length (gm_vertices m)) (length (gm_normals m))) as [C|C].
    + rewrite skipn_all2 by (rewrite map_length; lia). cbn [app]. replace (length (gm_vertices m) - length x)%nat with 0%nat by lia. cbn [skipn].
      replace (length x) with (length (gm_vertices m)) by lia. exact T.
    + rewrite !skipn_all2; [reflexivity|..]; rewrite ?map_length, ?skipn_length; lia.
Qed.

Lemma set_mesh_keeps {A} order (c : cchar A) pose sts old new : set_mesh order c pose sts old = Ok new -> keeps c old -> keeps c new.
Proof.
  unfold set_mesh. destruct (cc_mesh c) as [m|] eqn:Em; [|intros E; injection E as <-; auto]. destruct (fc_skin (cc_char c)) as [skin|]; [|intros E; injection E as <-; auto].
  set (out := match old with Some o => _ | None => m end). intros E K.
  assert (O : gm_faces out = gm_faces m /\ gm_rest out = gm_rest m /\
    (fc_pose (cc_char c) = None -> fc_blend (cc_char c) = None ->
      length (gm_normals out) = length (gm_normals m) /\ skipn (length (gm_vertices m)) (gm_normals out) = skipn (length (gm_vertices m)) (gm_normals m))).
  { unfold out. destruct old as [o|]; [|auto]. destruct (length (gm_vertices o) =? length (gm_vertices m))%nat; [|auto].
    destruct (K o eq_refl) as (m' & Em' & K'). rewrite Em in Em'. injection Em' as <-. exact K'. }
  clearbody out. destruct O as (O1 & O2 & O3). unfold keeps.
  destruct (fc_pose (cc_char c)) as [ps|].
  - destruct (pose_compute _ _) as [vs| | | |]; try discriminate E. cbn [obind] in E. destruct (apply_ssd _ _ _ _ _) as [vs'| | | |]; try discriminate E. cbn [obind] in E.
    destruct (normals_of _ _) as [ns| | | |]; try discriminate E. cbn [obind] in E. injection E as <-. intros o Eo. injection Eo as <-. exists m. cbn. repeat split; auto; discriminate.
  - destruct (fc_blend (cc_char c)) as [b|].
    + destruct (extract_weights _ _) as [w| | | |]; try discriminate E. cbn [obind] in E. destruct (skin_with_blend _ _ _ _ _ _ _) as [vs'| | | |]; try discriminate E. cbn [obind] in E.
      destruct (normals_of _ _) as [ns| | | |]; try discriminate E. cbn [obind] in E. injection E as <-. intros o Eo. injection Eo as <-. exists m. cbn. repeat split; auto; discriminate.
    + destruct (ssd_mesh _ _ _ _ _ _) as [r| | | |] eqn:Er; try discriminate E. cbn [obind] in E. injection E as <-. intros o Eo. injection Eo as <-.
      destruct (O3 eq_refl eq_refl) as [Q1 Q2]. destruct (ssd_mesh_keeps _ _ _ _ _ _ _ Er Q1 Q2) as (P1 & P2 & P3 & P4).
      exists m. split; [exact Em|]. split; [congruence|]. split; [congruence|]. intros _ _. auto.
Qed.

Lemma reached_keeps {A} (c : cchar A) st : reached c st -> keeps c (st_mesh st) /\ (forall s, st_collision st = Some s -> fc_caps (cc_char c) <> None).
Proof.
  intros H. induction H as [|a st st' H IH Ea E]; [split; [intros o Eo; discriminate Eo|intros s Es; discriminate Es]|].
  destruct IH as [IH1 IH2]. unfold st_set in E. rewrite Ea in E. destruct (negb _); [discriminate E|]. destruct (negb _); [discriminate E|].
  destruct (posed _ _ _ _) as [sts| | | |]; try discriminate E. cbn [obind] in E. destruct (locators_update _ _) as [ls| | | |]; try discriminate E. cbn [obind] in E.
  destruct (if ca_mesh a then _ else _) as [mesh| | | |] eqn:Em; try discriminate E. cbn [obind] in E.
  destruct (if ca_collision a then _ else _) as [coll| | | |] eqn:Ec; try discriminate E. cbn [obind] in E. injection E as <-. cbn [st_mesh st_collision]. split.
  - destruct (ca_mesh a); [eapply set_mesh_keeps; eassumption|injection Em as <-; exact IH1].
  - destruct (ca_collision a); [|injection Ec as <-; exact IH2]. unfold set_collision in Ec.
    destruct (fc_caps (cc_char c)) as [g|] eqn:Eg; [intros s _ Hn; discriminate Hn|]. injection Ec as <-. exact IH2.
Qed.

Lemma ssd_mesh_start {A} order inv skin (m o : gmesh A) worlds : Permutation order (seq 0 (length skin)) ->
  gm_faces o = gm_faces m -> gm_rest o = gm_rest m -> length (gm_vertices o) = length (gm_vertices m) ->
  length (gm_normals o) = length (gm_normals m) -> skipn (length (gm_vertices m)) (gm_normals o) = skipn (length (gm_vertices m)) (gm_normals m) ->
  ssd_mesh order inv skin m worlds o = ssd_mesh order inv skin m worlds m.
Proof.
  intros P Hf Hr Lv Ln T. unfold ssd_mesh. rewrite Hf, Hr, Lv, Ln, !Nat.eqb_refl. cbn [negb].
  destruct (length inv <=? length worlds)%nat; [|reflexivity]. cbn [negb]. destruct (Nat.eqb_spec (length skin) (length (gm_vertices m))) as [Ls|]; [|reflexivity]. cbn [negb].
  match goal with |- context [for_vertices order skin ?p ?f (combine (gm_vertices o) (gm_normals o))] =>
    pose proof (fv_start skin p f order (combine (gm_vertices o) (gm_normals o)) (combine (gm_vertices m) (gm_normals m)) (fun _ => False) ltac:(rewrite !combine_length; lia) (fun i (F : False) => match F with end)) as H;
    destruct (for_vertices order skin p f (combine (gm_vertices o) (gm_normals o))) as [x| | | |]; destruct (for_vertices order skin p f (combine (gm_vertices m) (gm_normals m))) as [x'| | | |] end;
    try discriminate H; try reflexivity.
  destruct H as (L1 & L2 & H). rewrite combine_length in L1, L2. cbn [obind].
  assert (x = x') as ->.
  { apply nth_error_ext_len; [congruence|]. intros i Hi. apply H. right. apply (Permutation_in _ (Permutation_sym P)), in_seq. lia. }
  apply (f_equal (@Ok _)). apply (f_equal (fun n => GM (map fst x') n (gm_faces m) (gm_rest m))). apply (f_equal2 (@app _)); [reflexivity|].
  destruct (Nat.le_gt_cases (length (gm_vertices m)) (length (gm_normals m))) as [C|C].
  - replace (length x') with (length (gm_vertices m)) by lia. exact T.
  - rewrite !skipn_all2 by lia. reflexivity.
Qed.

(** Whatever calls with the same character came before, a call that updates mesh and collision geometry gives what it gives from a new state. *)
Theorem character_state_history_partial {A} (c : cchar A) st a : reached c st -> ca_char a = c -> any_order a ->
  ca_mesh a = true -> ca_collision a = true -> st_set a st = st_set a st_new.
Proof.
  intros H Ea P Hm Hc. destruct (reached_keeps c st H) as [K1 K2]. unfold st_set. unfold any_order in P. rewrite Ea, Hm, Hc in *.
  destruct (negb _); [reflexivity|]. destruct (negb _); [reflexivity|]. destruct (posed _ _ _ _) as [sts| | | |]; try reflexivity. cbn [obind].
  destruct (locators_update _ _) as [ls| | | |]; try reflexivity. cbn [obind st_mesh st_collision st_new].
  assert (M : set_mesh (ca_order a) c (ca_pose a) sts (st_mesh st) = set_mesh (ca_order a) c (ca_pose a) sts None).
  { unfold set_mesh. destruct (cc_mesh c) as [m|] eqn:Em.
    2: { destruct (st_mesh st) as [o|]; [|reflexivity]. destruct (K1 o eq_refl) as (m & Em' & _). congruence. }
    destruct (fc_skin (cc_char c)) as [skin|] eqn:Es.
    2: { destruct (st_mesh st) as [o|] eqn:Eo; [|reflexivity]. exfalso. clear - H Es Eo. revert o Eo. induction H as [|a st st' H IH Ea E]; intros o Eo; [discriminate Eo|].
         unfold st_set in E. rewrite Ea in E. destruct (negb _); [discriminate E|]. destruct (negb _); [discriminate E|].
         destruct (posed _ _ _ _) as [sts| | | |]; try discriminate E. cbn [obind] in E. destruct (locators_update _ _) as [ls| | | |]; try discriminate E. cbn [obind] in E.
         destruct (if ca_mesh a then _ else _) as [mesh| | | |] eqn:Em; try discriminate E. cbn [obind] in E.
         destruct (if ca_collision a then _ else _) as [coll| | | |] eqn:Ec; try discriminate E. cbn [obind] in E. injection E as <-. cbn [st_mesh] in Eo. subst mesh.
         assert (Em' : st_mesh st = Some o). { destruct (ca_mesh a); [|congruence]. unfold set_mesh in Em. rewrite Es in Em. destruct (cc_mesh c); congruence. }
         exact (IH o Em'). }
    destruct (st_mesh st) as [o|] eqn:Eo; [|reflexivity]. destruct (Nat.eqb_spec (length (gm_vertices o)) (length (gm_vertices m))) as [Lv|]; [|reflexivity].
    destruct (K1 o eq_refl) as (m' & Em' & F1 & F2 & F3). rewrite Em in Em'. injection Em' as <-. rewrite F1, F2.
    destruct (fc_pose (cc_char c)) as [ps|]; [reflexivity|]. destruct (fc_blend (cc_char c)) as [b|]; [reflexivity|].
    destruct (F3 eq_refl eq_refl) as [F4 F5]. rewrite (ssd_mesh_start (ca_order a) (fc_inv (cc_char c)) skin m o (world_affines sts) (P skin eq_refl) F1 F2 Lv F4 F5). reflexivity. }
  rewrite M. assert (C : set_collision c sts (st_collision st) = set_collision c sts None).
  { unfold set_collision. destruct (fc_caps (cc_char c)) as [g|] eqn:Eg; [reflexivity|]. destruct (st_collision st) as [s|] eqn:Es; [|reflexivity]. exfalso. exact (K2 s eq_refl eq_refl). }
  rewrite C. reflexivity.
Qed.
Print Assumptions character_state_history_partial.

(** ** Parts *)

Lemma apply_char_parameters pt pose offsets : (forall e, In e (pt_entries pt) -> (ecol e < pt_cols pt)%nat) -> length pose = pt_cols pt -> length offsets = pt_rows pt ->
  exists jp, pt_apply_char pt pose offsets = Ok jp /\ joint_parameters pt pose offsets jp.
Proof.
  intros W Lp Lo. unfold pt_apply_char. rewrite Lp, Nat.eqb_refl, Lo, Nat.eqb_refl. cbn [negb]. destruct (Nat.ltb_spec 0 (pt_rows pt)) as [C|C].
  - eexists. split; [reflexivity|]. split; [rewrite vadd_list_length, mat_vec_length; lia|]. intros r Hr.
    rewrite vadd_list_nth by (rewrite mat_vec_length; lia). rewrite mat_vec_nth by exact Hr. rewrite row_dot_coeff by exact W. reflexivity.
  - eexists. split; [reflexivity|]. split; [apply mat_vec_length|]. intros r Hr. lia.
Qed.

Definition the_offsets {A} (a : call A) : list R :=
  match ca_offsets a with [] => repeat 0 (pt_rows (fc_pt (cc_char (ca_char a)))) | _ => ca_offsets a end.
Lemma the_offsets_ok {A} (a : call A) : (ca_offsets a = [] \/ length (ca_offsets a) = pt_rows (fc_pt (cc_char (ca_char a)))) ->
  length (the_offsets a) = pt_rows (fc_pt (cc_char (ca_char a))) /\ forall r, nth r (the_offsets a) 0 = nth r (ca_offsets a) 0.
Proof.
  intros H. unfold the_offsets. destruct (ca_offsets a) as [|x l] eqn:E.
  - split; [apply repeat_length|]. intros r. rewrite nth_repeat. destruct r; reflexivity.
  - split; [destruct H as [H|H]; [discriminate H|exact H]|reflexivity].
Qed.

Lemma posed_ok {A} (c : cchar A) pose offsets lim : well_made c -> length pose = pt_cols (fc_pt (cc_char c)) -> length offsets = pt_rows (fc_pt (cc_char c)) ->
  exists jp jp' sts, posed c pose offsets lim = Ok sts /\ joint_parameters (fc_pt (cc_char c)) pose offsets jp /\
    (if lim then within_limits (map fl_limit (fc_limits (cc_char c))) jp jp' else jp' = jp) /\
    fk (fc_joints (cc_char c)) jp' = Ok sts /\ length sts = length (fc_joints (cc_char c)).
Proof.
  intros W Lp Lo. destruct (apply_char_parameters (fc_pt (cc_char c)) pose offsets (wm_cols c W) Lp Lo) as (jp & E & J). unfold posed. rewrite E. cbn [obind].
  assert (Ljp : length jp = (7 * length (fc_joints (cc_char c)))%nat) by (destruct J as [L _]; rewrite L; apply (wm_rows c W)).
  destruct lim.
  - destruct (apply_passive_clamps (map fl_limit (fc_limits (cc_char c))) jp) as (jp' & E' & L' & C1 & _ & C3 & _).
    { intros l i lo hi Hl Hi. destruct J as [L _]. rewrite L. exact (wm_limits c W l i lo hi Hl Hi). } { exact (wm_once c W). }
    destruct (fk_ok (fc_joints (cc_char c)) jp' (wm_joints c W)) as (sts & Es & Ls); [lia|].
    exists jp, jp', sts. rewrite E'. cbn [obind]. split; [exact Es|]. split; [exact J|]. split; [repeat split; try assumption; apply (C1 _ _ _ _ H H0)|]. split; [exact Es|]. apply Ls.
  - destruct (fk_ok (fc_joints (cc_char c)) jp (wm_joints c W)) as (sts & Es & Ls); [lia|].
    exists jp, jp, sts. cbn [obind]. split; [exact Es|]. split; [exact J|]. split; [reflexivity|]. split; [exact Es|]. apply Ls.
Qed.

Lemma locators_ok sts ls : (forall l, In l ls -> exists j, lo_parent l = Some j /\ (j < length sts)%nat) ->
  exists ps, locators_update sts ls = Ok ps /\ Forall2 (attached sts) ls ps.
Proof.
  induction ls as [|l ls IH]; intros H; [exists []; split; [reflexivity|constructor]|].
  destruct (H l (or_introl eq_refl)) as (j & Ej & Hj). destruct (nth_error_lt sts j Hj) as [s Es]. destruct IH as (ps & E & F); [intros x Hx; apply H; right; exact Hx|].
  eexists. cbn [locators_update]. unfold locator_position. rewrite Ej, (rd_some _ _ _ Es). cbn [obind]. rewrite E. cbn [obind]. split; [reflexivity|].
  constructor; [|exact F]. exists j, s. auto.
Qed.
Lemma caps_ok sts g : (forall k, In k g -> exists j, cap_parent k = Some j /\ (j < length sts)%nat) ->
  exists cs, caps_update sts g = Ok cs /\ Forall2 (capsule_at sts) g cs.
Proof.
  induction g as [|k g IH]; intros H; [exists []; split; [reflexivity|constructor]|].
  destruct (H k (or_introl eq_refl)) as (j & Ej & Hj). destruct (nth_error_lt sts j Hj) as [s Es]. destruct IH as (cs & E & F); [intros x Hx; apply H; right; exact Hx|].
  eexists. cbn [caps_update]. unfold capsule_state. rewrite Ej, (rd_some _ _ _ Es). cbn [obind]. rewrite E. cbn [obind]. split; [reflexivity|].
  constructor; [|exact F]. exists j, s. split; [exact Ej|]. split; [exact Es|]. reflexivity.
Qed.

Lemma map_fst_combine {X Y} (l : list X) (l' : list Y) : length l = length l' -> map fst (combine l l') = l.
Proof. revert l'. induction l as [|x l IH]; intros [|y l'] L; try discriminate L; [reflexivity|]. cbn. rewrite IH by (cbn in L; lia). reflexivity. Qed.
Lemma map_snd_combine {X Y} (l : list X) (l' : list Y) : length l = length l' -> map snd (combine l l') = l'.
Proof. revert l'. induction l as [|x l IH]; intros [|y l'] L; try discriminate L; [reflexivity|]. cbn. rewrite IH by (cbn in L; lia). reflexivity. Qed.
Lemma nth_error_combine {X Y} (l : list X) (l' : list Y) i x y : nth_error l i = Some x -> nth_error l' i = Some y -> nth_error (combine l l') i = Some (x, y).
Proof. revert l' i. induction l as [|a l IH]; intros [|b l'] [|i] H1 H2; try discriminate; cbn in *; [congruence|]. apply IH; assumption. Qed.

Lemma ssd_mesh_old {A} order inv skin (m : gmesh A) worlds : length (gm_normals m) = length (gm_vertices m) ->
  ssd_mesh order inv skin m worlds m =
  let* r := apply_ssd_mesh order inv skin (combine (gm_vertices m) (gm_normals m)) worlds (combine (gm_vertices m) (gm_normals m)) in
  Ok (GM (map fst r) (map snd r) (gm_faces m) (gm_rest m)).
Proof.
  intros L. unfold ssd_mesh, apply_ssd_mesh. rewrite !Nat.eqb_refl. cbn [negb]. rewrite !combine_length, L, Nat.min_id.
  destruct (length inv <=? length worlds)%nat; [|reflexivity]. cbn [negb]. destruct (length skin =? length (gm_vertices m))%nat; [|reflexivity]. cbn [negb].
  match goal with |- context [for_vertices order skin ?p ?f ?z] => pose proof (fv_start skin p f order z z (fun _ => False) eq_refl ltac:(tauto)) as H;
    destruct (for_vertices order skin p f z) as [x| | | |]; try reflexivity end.
  destruct H as (Lx & _). rewrite combine_length in Lx. cbn [obind]. rewrite skipn_all2 by lia. rewrite app_nil_r. reflexivity.
Qed.

(** After a call, with any history of calls with the same character: the parameters are those given, the joints are posed by them, within their limits if
    asked, locators and capsules are with their joints, and the mesh is the character's with every vertex and normal where the weighted joints take it. *)
Theorem character_state_parts {A} (c : cchar A) m skin st a : reached c st -> ca_char a = c -> any_order a -> ca_mesh a = true -> ca_collision a = true ->
  well_made c -> skinned_mesh c m skin -> length (ca_pose a) = pt_cols (fc_pt (cc_char c)) ->
  (ca_offsets a = [] \/ length (ca_offsets a) = pt_rows (fc_pt (cc_char c))) ->
  exists r jp jp' m', st_set a st = Ok r /\ st_pose r = ca_pose a /\
    joint_parameters (fc_pt (cc_char c)) (ca_pose a) (ca_offsets a) jp /\
    (if ca_limits a then within_limits (map fl_limit (fc_limits (cc_char c))) jp jp' else jp' = jp) /\
    fk (fc_joints (cc_char c)) jp' = Ok (st_joints r) /\
    Forall2 (attached (st_joints r)) (fc_locs (cc_char c)) (st_locators r) /\
    (forall g, fc_caps (cc_char c) = Some g -> exists s, st_collision r = Some s /\ Forall2 (capsule_at (st_joints r)) g s) /\
    (fc_caps (cc_char c) = None -> st_collision r = None) /\
    st_mesh r = Some m' /\ gm_faces m' = gm_faces m /\ gm_rest m' = gm_rest m /\
    length (gm_vertices m') = length (gm_vertices m) /\ length (gm_normals m') = length (gm_vertices m) /\
    let worlds := map (fun s => tf_affine (js_world s)) (st_joints r) in
    forall i row p n, nth_error skin i = Some row -> nth_error (gm_vertices m) i = Some p -> nth_error (gm_normals m) i = Some n ->
      exists p' n' d, nth_error (gm_vertices m') i = Some p' /\ nth_error (gm_normals m') i = Some n' /\
        skinned worlds (fc_inv (cc_char c)) row p p' /\ skinned_dir worlds (fc_inv (cc_char c)) row n d /\ direction_of d n'.
Proof.
  intros H Ea P Hm Hc W S Lp Lo. rewrite (character_state_history_partial c st a H Ea P Hm Hc). unfold any_order in P. subst c. set (c := ca_char a) in *.
  destruct (the_offsets_ok a Lo) as [Lo' No]. fold c in Lo'.
  destruct (posed_ok c (ca_pose a) (the_offsets a) (ca_limits a) W Lp Lo') as (jp & jp' & sts & E1 & J & Lim & F & Ls).
  unfold st_set. change (ca_char a) with c. fold (the_offsets a). change (match ca_offsets a with [] => repeat 0 (pt_rows (fc_pt (cc_char c))) | _ :: _ => ca_offsets a end) with (the_offsets a).
  rewrite Lp, Lo', !Nat.eqb_refl. cbn [negb]. rewrite E1. cbn [obind].
  destruct (locators_ok sts (fc_locs (cc_char c))) as (ps & E2 & F2). { intros l Hl. rewrite Ls. exact (wm_locators c W l Hl). }
  rewrite E2. cbn [obind]. rewrite Hm, Hc. cbn [st_mesh st_collision st_new].
  unfold set_mesh. rewrite (sm_mesh c m skin S), (sm_skin c m skin S), (sm_pose c m skin S), (sm_blend c m skin S). rewrite (ssd_mesh_old _ _ _ m _ (sm_normals c m skin S)).
  set (inv := fc_inv (cc_char c)) in *. set (worlds := world_affines sts).
  destruct (ssd_mesh_partial (ca_order a) inv skin (combine (gm_vertices m) (gm_normals m)) worlds (combine (gm_vertices m) (gm_normals m))) as (x & E3 & Lx & V).
  { exact (P skin (sm_skin c m skin S)). }
  { unfold worlds, world_affines. rewrite map_length, Ls. unfold inv. rewrite (sm_inv c m skin S). lia. }
  { rewrite combine_length, (sm_normals c m skin S), (sm_vertices c m skin S). lia. } { reflexivity. } { exact (sm_rows c m skin S). }
  rewrite E3. cbn [obind]. rewrite combine_length, (sm_normals c m skin S), Nat.min_id in Lx.
  assert (Co : exists co, set_collision c sts None = Ok co /\ (forall g, fc_caps (cc_char c) = Some g -> exists s, co = Some s /\ Forall2 (capsule_at sts) g s) /\ (fc_caps (cc_char c) = None -> co = None)).
  { unfold set_collision. destruct (fc_caps (cc_char c)) as [g|] eqn:Eg.
    - destruct (caps_ok sts g) as (cs & E4 & F4). { intros k Hk. rewrite Ls. exact (wm_capsules c W g k Eg Hk). }
      rewrite E4. cbn [obind]. exists (Some cs). split; [reflexivity|]. split; [|discriminate]. intros g' Eg'. injection Eg' as <-. exists cs. auto.
    - exists None. split; [reflexivity|]. split; [discriminate|reflexivity]. }
  destruct Co as (co & E4 & F4 & F5). rewrite E4. cbn [obind].
  eexists. exists jp, jp'. eexists. split; [reflexivity|]. cbn [st_pose st_joints st_locators st_collision st_mesh]. split; [reflexivity|].
  split. { destruct J as [J1 J2]. split; [exact J1|]. intros r Hr. rewrite J2, No by exact Hr. reflexivity. }
  split; [exact Lim|]. split; [exact F|]. split; [exact F2|]. split; [exact F4|]. split; [exact F5|]. split; [reflexivity|]. cbn [gm_faces gm_rest gm_vertices gm_normals].
  split; [reflexivity|]. split; [reflexivity|]. rewrite !map_length. split; [exact Lx|]. split; [exact Lx|]. intros i row p n Hr Hp Hn.
  destruct (V i row p n Hr (nth_error_combine _ _ _ _ _ Hp Hn)) as (p' & n' & d & Ex & V1 & V2 & V3). exists p', n', d.
  rewrite !nth_error_map, Ex. split; [reflexivity|]. split; [reflexivity|]. auto.
Qed.
Print Assumptions character_state_parts.

(** ** Meshes that change their shape *)

Lemma id_point p : aff_point (tf_affine tf_id) p = p.
Proof. destruct p. apply vec_ext; cbn; field. Qed.
Lemma id_dir d : mvec (tf_linear tf_id) d = d.
Proof. destruct d. apply vec_ext; cbn; field. Qed.

Lemma normals_of_ok vs faces : exists ns, normals_of vs faces = Ok ns /\ length ns = length vs /\
  forall i n, nth_error ns i = Some n -> direction (vsum (around (map real vs) faces i)) n.
Proof.
  destruct (mesh_normals_numbers vs faces) as (ms & E & L & H). exists ms. unfold normals_of. change vpoint with real. rewrite E. cbn [obind].
  split; [|split; assumption]. apply (f_equal (@Ok _)). rewrite map_map. rewrite <- (map_id ms) at 2. apply map_ext. intros [x y z]. reflexivity.
Qed.

(** With blend shapes the vertices are skinned from the blended shape, with the weights that the pose gives, and the normals are those of the new mesh. *)
Theorem character_state_blend {A} (c : cchar A) m skin b st a : reached c st -> ca_char a = c -> any_order a -> ca_mesh a = true -> ca_collision a = true ->
  well_made c -> cc_mesh c = Some m -> fc_skin (cc_char c) = Some skin -> fc_pose (cc_char c) = None -> fc_blend (cc_char c) = Some b ->
  length skin = length (gm_vertices m) -> length (fc_inv (cc_char c)) = length (fc_joints (cc_char c)) ->
  (forall row, In row skin -> row_ok (length (fc_inv (cc_char c))) row /\ zeros_last row) ->
  bs_base b <> [] -> bm_rows (bs_vectors b) = (3 * length (bs_base b))%nat -> length (bs_base b) = length (gm_vertices m) ->
  (length (pt_blend (fc_pt (cc_char c))) <= bm_cols (bs_vectors b))%nat -> (forall z, In z (pt_blend (fc_pt (cc_char c))) -> (z < Z.of_nat (pt_cols (fc_pt (cc_char c))))%Z) ->
  length (ca_pose a) = pt_cols (fc_pt (cc_char c)) -> (ca_offsets a = [] \/ length (ca_offsets a) = pt_rows (fc_pt (cc_char c))) ->
  exists r m' w, st_set a st = Ok r /\ st_mesh r = Some m' /\ gm_faces m' = gm_faces m /\ gm_rest m' = gm_rest m /\
    length w = length (pt_blend (fc_pt (cc_char c))) /\
    (forall k z, nth_error (pt_blend (fc_pt (cc_char c))) k = Some z -> nth_error w k = Some (if (z <? 0)%Z then 0 else nth (Z.to_nat z) (ca_pose a) 0)) /\
    length (gm_vertices m') = length (gm_vertices m) /\ length (gm_normals m') = length (gm_vertices m) /\
    (forall i row p v, nth_error skin i = Some row -> nth_error (bs_base b) i = Some p -> nth_error (gm_vertices m') i = Some v ->
      skinned (map (fun s => tf_affine (js_world s)) (st_joints r)) (fc_inv (cc_char c)) row (vadd p (moved (bm_at (bs_vectors b)) w i)) v) /\
    (forall i n, nth_error (gm_normals m') i = Some n -> direction (vsum (around (map real (gm_vertices m')) (gm_faces m) i)) n).
Proof.
  intros H Ea P Hm Hc W Em Es Ep Eb Ls Li Hr B1 B2 B3 B4 B5 Lp Lo. rewrite (character_state_history_partial c st a H Ea P Hm Hc). unfold any_order in P. subst c. set (c := ca_char a) in *.
  destruct (the_offsets_ok a Lo) as [Lo' No]. fold c in Lo'.
  destruct (posed_ok c (ca_pose a) (the_offsets a) (ca_limits a) W Lp Lo') as (jp & jp' & sts & E1 & J & Lim & F & Lst).
  unfold st_set. change (ca_char a) with c. change (match ca_offsets a with [] => repeat 0 (pt_rows (fc_pt (cc_char c))) | _ :: _ => ca_offsets a end) with (the_offsets a).
  rewrite Lp, Lo', !Nat.eqb_refl. cbn [negb]. rewrite E1. cbn [obind].
  destruct (locators_ok sts (fc_locs (cc_char c))) as (ps & E2 & F2). { intros l Hl. rewrite Lst. exact (wm_locators c W l Hl). }
  rewrite E2. cbn [obind]. rewrite Hm, Hc. cbn [st_mesh st_collision st_new]. unfold set_mesh. rewrite Em, Es, Ep, Eb.
  destruct (extract_weights_correct (basis_params (pt_blend (fc_pt (cc_char c)))) (ca_pose a)) as (w & Ew & Lw & Hw).
  { intros k Hk. unfold basis_params in Hk. apply in_map_iff in Hk. destruct Hk as (z & Ez & Hz). destruct (Z.ltb_spec z 0); [discriminate Ez|]. injection Ez as <-. specialize (B5 z Hz). lia. }
  unfold basis_params in Lw. rewrite map_length in Lw. rewrite Ew. cbn [obind].
  destruct (skin_blend_partial (ca_order a) (fc_inv (cc_char c)) skin (gm_vertices m) b (world_affines sts) w) as (vs & Ev & Lv & V); try assumption.
  { exact (P skin Es). } { lia. } { unfold world_affines. rewrite map_length. lia. } { intros row Hx. apply Hr, Hx. } { intros row Hx. apply Hr, Hx. }
  rewrite Ev. cbn [obind]. destruct (normals_of_ok vs (gm_faces m)) as (ns & En & Ln & N). rewrite En. cbn [obind].
  assert (Co : exists co, set_collision c sts None = Ok co).
  { unfold set_collision. destruct (fc_caps (cc_char c)) as [g|] eqn:Eg; [|eauto]. destruct (caps_ok sts g) as (cs & E4 & F4). { intros k Hk. rewrite Lst. exact (wm_capsules c W g k Eg Hk). }
    rewrite E4. cbn [obind]. eauto. }
  destruct Co as (co & E4). rewrite E4. cbn [obind]. eexists. eexists. exists w. split; [reflexivity|]. cbn [st_mesh st_joints]. split; [reflexivity|].
  cbn [gm_faces gm_rest gm_vertices gm_normals]. split; [reflexivity|]. split; [reflexivity|]. split; [exact Lw|]. split.
  { intros k z Hz. assert (Hb : nth_error (basis_params (pt_blend (fc_pt (cc_char c)))) k = Some (if (z <? 0)%Z then None else Some (Z.to_nat z))) by (unfold basis_params; rewrite nth_error_map, Hz; reflexivity).
    rewrite Hw, Hb. destruct (Z.ltb_spec z 0) as [C|C]; [reflexivity|]. apply nth_error_nth'. specialize (B5 z (nth_error_In _ _ Hz)). lia. }
  split; [exact Lv|]. split; [congruence|]. split; [exact V|exact N].
Qed.
Print Assumptions character_state_blend.

(** With pose shapes, which come before blend shapes, the vertices are skinned from the shape of the pose. *)
Theorem character_state_pose_shape {A} (c : cchar A) m skin p st a : reached c st -> ca_char a = c -> any_order a -> ca_mesh a = true -> ca_collision a = true ->
  well_made c -> cc_mesh c = Some m -> fc_skin (cc_char c) = Some skin -> fc_pose (cc_char c) = Some p ->
  length (fc_inv (cc_char c)) = length (fc_joints (cc_char c)) ->
  (forall row, In row skin -> row_ok (length (fc_inv (cc_char c))) row /\ zeros_last row) ->
  (ps_joint p < length (fc_joints (cc_char c)))%nat -> (forall j, In j (ps_map p) -> (j < length (fc_joints (cc_char c)))%nat) ->
  bm_rows (ps_vectors p) = length (ps_base p) -> bm_cols (ps_vectors p) = (4 * length (ps_map p))%nat -> length (ps_base p) = (3 * length skin)%nat -> skin <> [] ->
  length (ca_pose a) = pt_cols (fc_pt (cc_char c)) -> (ca_offsets a = [] \/ length (ca_offsets a) = pt_rows (fc_pt (cc_char c))) ->
  exists r m' base qs rest, st_set a st = Ok r /\ st_mesh r = Some m' /\ gm_faces m' = gm_faces m /\ gm_rest m' = gm_rest m /\
    nth_error (map (fun s => rot (js_world s)) (st_joints r)) (ps_joint p) = Some base /\
    Forall2 (fun j q => exists w, nth_error (map (fun s => rot (js_world s)) (st_joints r)) j = Some w /\ q = qmul (qmul (ps_rot p) (qinv base)) w) (ps_map p) qs /\
    blended (points (ps_base p)) (bm_at (ps_vectors p)) (coordinates qs) rest /\
    length (gm_vertices m') = length skin /\ length (gm_normals m') = length skin /\
    (forall i row u, nth_error skin i = Some row -> nth_error rest i = Some u ->
      exists v, nth_error (gm_vertices m') i = Some v /\ skinned (map (fun s => tf_affine (js_world s)) (st_joints r)) (fc_inv (cc_char c)) row u v) /\
    (forall i n, nth_error (gm_normals m') i = Some n -> direction (vsum (around (map real (gm_vertices m')) (gm_faces m) i)) n).
Proof.
  intros H Ea P Hm Hc W Em Es Ep Li Hr Pj Pm B1 B2 B3 Ns Lp Lo. rewrite (character_state_history_partial c st a H Ea P Hm Hc). unfold any_order in P. subst c. set (c := ca_char a) in *.
  destruct (the_offsets_ok a Lo) as [Lo' No]. fold c in Lo'.
  destruct (posed_ok c (ca_pose a) (the_offsets a) (ca_limits a) W Lp Lo') as (jp & jp' & sts & E1 & J & Lim & F & Lst).
  unfold st_set. change (ca_char a) with c. change (match ca_offsets a with [] => repeat 0 (pt_rows (fc_pt (cc_char c))) | _ :: _ => ca_offsets a end) with (the_offsets a).
  rewrite Lp, Lo', !Nat.eqb_refl. cbn [negb]. rewrite E1. cbn [obind].
  destruct (locators_ok sts (fc_locs (cc_char c))) as (ps & E2 & F2). { intros l Hl. rewrite Lst. exact (wm_locators c W l Hl). }
  rewrite E2. cbn [obind]. rewrite Hm, Hc. cbn [st_mesh st_collision st_new]. unfold set_mesh. rewrite Em, Es, Ep.
  set (rots := map (fun s => rot (js_world s)) sts). assert (Lr : length rots = length (fc_joints (cc_char c))) by (unfold rots; rewrite map_length; exact Lst).
  destruct (nth_error_lt rots (ps_joint p)) as [base Eb]; [lia|].
  assert (Q : exists qs, Forall2 (fun j q => exists w, nth_error rots j = Some w /\ q = qmul (qmul (ps_rot p) (qinv base)) w) (ps_map p) qs).
  { clear B2. revert Pm. induction (ps_map p) as [|j l IH]; intros Pm; [exists []; constructor|]. destruct IH as (qs & Fq); [intros k Hk; apply Pm; right; exact Hk|].
    destruct (nth_error_lt rots j) as [w Ew]; [rewrite Lr; apply Pm; left; reflexivity|]. exists (qmul (qmul (ps_rot p) (qinv base)) w :: qs). constructor; [exists w; auto|exact Fq]. }
  destruct Q as (qs & Fq).
  destruct (pose_shape_correct p rots base qs Eb Fq B1 B2) as (rest & Erest & Bl).
  { destruct skin as [|row skin']; [contradiction|]. exists (length skin'). rewrite B3. reflexivity. }
  rewrite Erest. cbn [obind].
  assert (Lrest : length rest = length skin).
  { destruct Bl as [Lb _]. rewrite Lb. unfold points. rewrite map_length, seq_length, B3, Nat.mul_comm, Nat.div_mul by lia. reflexivity. }
  destruct (ssd_partial (ca_order a) (fc_inv (cc_char c)) skin rest (world_affines sts) (P skin Es)) as (vs & Ev & Lv & V); [unfold world_affines; rewrite map_length; lia|lia|exact Hr|].
  rewrite Ev. cbn [obind]. destruct (normals_of_ok vs (gm_faces m)) as (ns & En & Ln & N). rewrite En. cbn [obind].
  assert (Co : exists co, set_collision c sts None = Ok co).
  { unfold set_collision. destruct (fc_caps (cc_char c)) as [g|] eqn:Eg; [|eauto]. destruct (caps_ok sts g) as (cs & E4 & F4). { intros k Hk. rewrite Lst. exact (wm_capsules c W g k Eg Hk). }
    rewrite E4. cbn [obind]. eauto. }
  destruct Co as (co & E4). rewrite E4. cbn [obind]. eexists. eexists. exists base, qs, rest. split; [reflexivity|]. cbn [st_mesh st_joints]. split; [reflexivity|].
  cbn [gm_faces gm_rest gm_vertices gm_normals]. split; [reflexivity|]. split; [reflexivity|]. split; [exact Eb|]. split; [exact Fq|]. split; [exact Bl|].
  split; [lia|]. split; [lia|]. split; [exact V|exact N].
Qed.
Print Assumptions character_state_pose_shape.

(** ** The bind pose *)

Lemma apply_passive_inside ls : forall jp, (forall l i lo hi, In l ls -> passive_index l = Some (i, lo, hi) -> (i < length jp)%nat /\ lo <= nth i jp 0 <= hi) ->
  apply_passive ls jp = Ok jp.
Proof.
  induction ls as [|l ls IH]; intros jp H; [reflexivity|]. cbn [apply_passive]. pose proof (H l) as Hl. unfold passive_index in Hl.
  destruct (ldata l) as [| |jt k lo hi| | |]; try (apply IH; intros l' i lo' hi' Hi; apply H; right; exact Hi).
  destruct (Hl (jt * 7 + k)%nat lo hi (or_introl eq_refl) eq_refl) as [Hi [H1 H2]]. unfold check. assert (Hb : (jt * 7 + k <=? length jp)%nat = true) by (apply Nat.leb_le; lia). rewrite Hb. cbn [obind].
  rewrite (rd_some _ _ _ (nth_error_nth' jp 0 Hi)). cbn [obind].
  destruct (Rltb_spec (nth (jt * 7 + k) jp 0) lo) as [C|C]; [lra|]. cbn [obind]. rewrite (rd_some _ _ _ (nth_error_nth' jp 0 Hi)). cbn [obind].
  destruct (Rltb_spec hi (nth (jt * 7 + k) jp 0)) as [C'|C']; [lra|]. cbn [obind]. apply IH. intros l' i lo' hi' Hi'; apply H; right; exact Hi'.
Qed.
(** If zero is within the passive limits, setBindPose poses all joints by zeros. *)
Theorem character_state_bind_pose_partial {A} (c : cchar A) order st mesh collision r : well_made c ->
  (forall l i lo hi, In l (map fl_limit (fc_limits (cc_char c))) -> passive_index l = Some (i, lo, hi) -> lo <= 0 <= hi) ->
  st_set (bind_call order c mesh collision) st = Ok r ->
  fk (fc_joints (cc_char c)) (repeat 0 (7 * length (fc_joints (cc_char c)))) = Ok (st_joints r).
Proof.
  intros W Z E. set (n := (7 * length (fc_joints (cc_char c)))%nat).
  assert (Of : the_offsets (bind_call order c mesh collision) = repeat 0 n).
  { unfold the_offsets, bind_call. cbn [ca_offsets ca_char]. fold n. rewrite (Nat.mul_comm (length _) 7). fold n. rewrite (wm_rows c W). fold n. destruct n; reflexivity. }
  unfold st_set in E. change (match ca_offsets (bind_call order c mesh collision) with [] => _ | _ :: _ => _ end) with (the_offsets (bind_call order c mesh collision)) in E.
  rewrite Of in E. cbn [bind_call ca_char ca_pose ca_limits] in E. rewrite !repeat_length, (wm_rows c W), !Nat.eqb_refl in E. cbn [negb] in E.
  assert (Po : posed c (repeat 0 (pt_cols (fc_pt (cc_char c)))) (repeat 0 n) true = fk (fc_joints (cc_char c)) (repeat 0 n)).
  { unfold posed. destruct (apply_char_parameters (fc_pt (cc_char c)) (repeat 0 (pt_cols (fc_pt (cc_char c)))) (repeat 0 n) (wm_cols c W)) as (jp & Ej & Lj & J).
    { apply repeat_length. } { rewrite repeat_length, (wm_rows c W). reflexivity. }
    rewrite Ej. cbn [obind]. assert (jp = repeat 0 n) as ->.
    { apply nth_ext with (d := 0) (d' := 0); [rewrite repeat_length, Lj; apply (wm_rows c W)|]. intros k Hk. rewrite J by lia. rewrite !nth_repeat. rewrite sumn_zero; [ring|].
      intros i _. rewrite nth_repeat. ring. }
    rewrite apply_passive_inside; [reflexivity|]. intros l i lo hi Hl Hi. destruct (wm_limits c W l i lo hi Hl Hi) as [H1 _]. rewrite (wm_rows c W) in H1. rewrite repeat_length, nth_repeat. split; [exact H1|].
    exact (Z l i lo hi Hl Hi). }
  rewrite Po in E. destruct (fk _ _) as [sts| | | |]; try discriminate E. cbn [obind] in E. destruct (locators_update _ _) as [ls| | | |]; try discriminate E. cbn [obind] in E.
  destruct (if mesh then _ else _) as [m| | | |]; try discriminate E. cbn [obind] in E. destruct (if collision then _ else _) as [co| | | |]; try discriminate E. cbn [obind] in E.
  injection E as <-. reflexivity.
Qed.
Print Assumptions character_state_bind_pose_partial.

(** In a pose that the inverse bind poses undo, such as the bind pose, the mesh is the character's own. *)
Theorem character_state_rest_mesh {A} (c : cchar A) m skin st a r : reached c st -> ca_char a = c -> any_order a -> ca_mesh a = true -> ca_collision a = true ->
  well_made c -> skinned_mesh c m skin -> (forall row, In row skin -> total row = 1) -> (forall n, In n (gm_normals m) -> vdot n n = 1) ->
  st_set a st = Ok r ->
  (forall j s b p, nth_error (st_joints r) j = Some s -> nth_error (fc_inv (cc_char c)) j = Some b -> aff_point (tf_affine (js_world s)) (aff_point b p) = p) ->
  st_mesh r = Some m.
Proof.
  intros H Ea P Hm Hc W S T U E I. rewrite (character_state_history_partial c st a H Ea P Hm Hc) in E. unfold any_order in P. subst c. set (c := ca_char a) in *.
  unfold st_set in E. change (ca_char a) with c in E. destruct (negb _) in E; [discriminate E|]. destruct (negb _) in E; [discriminate E|].
  destruct (posed _ _ _ _) as [sts| | | |] eqn:Ep; try discriminate E. cbn [obind] in E. destruct (locators_update _ _) as [ls| | | |]; try discriminate E. cbn [obind] in E.
  rewrite Hm in E. unfold set_mesh in E. rewrite (sm_mesh c m skin S), (sm_skin c m skin S), (sm_pose c m skin S), (sm_blend c m skin S) in E. cbn [st_mesh st_new] in E.
  rewrite (ssd_mesh_old _ _ _ m _ (sm_normals c m skin S)) in E.
  assert (Ls : length sts = length (fc_joints (cc_char c))).
  { unfold posed in Ep. destruct (pt_apply_char _ _ _) as [jp| | | |]; try discriminate Ep. cbn [obind] in Ep. destruct (if ca_limits a then _ else _) as [jp'| | | |]; try discriminate Ep. cbn [obind] in Ep.
    apply (fk_inv _ _ _ (wm_joints c W)) in Ep. apply Ep. }
  assert (Lw : length (world_affines sts) = length (fc_inv (cc_char c))) by (unfold world_affines; rewrite map_length, Ls, (sm_inv c m skin S); reflexivity).
  assert (Lm : length (combine (gm_vertices m) (gm_normals m)) = length (gm_vertices m)) by (rewrite combine_length, (sm_normals c m skin S); lia).
  assert (J : st_joints r = sts).
  { destruct (apply_ssd_mesh _ _ _ _ _ _) as [x| | | |]; try discriminate E. cbn [obind] in E. destruct (if ca_collision a then _ else _) as [co| | | |]; try discriminate E. cbn [obind] in E. injection E as <-. reflexivity. }
  rewrite J in I.
  rewrite (ssd_mesh_common_motion (ca_order a) (fc_inv (cc_char c)) skin (combine (gm_vertices m) (gm_normals m)) (world_affines sts) (combine (gm_vertices m) (gm_normals m)) (world_affines sts) (tf_affine tf_id)) in E.
  - cbn [obind] in E. destruct (if ca_collision a then _ else _) as [co| | | |]; try discriminate E. cbn [obind] in E. injection E as <-. cbn [st_mesh]. apply (f_equal Some).
    assert (Id : map (fun x : vec3 * vec3 => (aff_point (tf_affine tf_id) (fst x), mvec (tf_linear tf_id) (snd x))) (combine (gm_vertices m) (gm_normals m)) = combine (gm_vertices m) (gm_normals m)).
    { rewrite <- (map_id (combine _ _)) at 2. apply map_ext. intros [u v]. cbn [fst snd]. rewrite id_point, id_dir. reflexivity. }
    rewrite Id, map_fst_combine, map_snd_combine by (symmetry; exact (sm_normals c m skin S)). destruct m; reflexivity.
  - exact (P skin (sm_skin c m skin S)).
  - exact Lw.
  - exact Lw.
  - rewrite Lm. exact (sm_vertices c m skin S).
  - reflexivity.
  - intros row Hr. destruct (sm_rows c m skin S row Hr). auto.
  - intros j b i p Hb Hi. unfold world_affines in Hb. rewrite nth_error_map in Hb. destruct (nth_error sts j) as [s|] eqn:Es; [|discriminate Hb]. injection Hb as <-. exact (I j s i p Es Hi).
  - intros j b w p Hb Hw. rewrite Hb in Hw. injection Hw as <-. rewrite id_point. reflexivity.
  - intros d. cbn [alin tf_affine]. rewrite id_dir. reflexivity.
  - intros p n Hn. apply U. exact (in_combine_r _ _ _ _ Hn).
Qed.
Print Assumptions character_state_rest_mesh.

(** ** A character *)

Lemma reached_first {A} (c : cchar A) a s : st_set a st_new = Ok s -> ca_char a = c -> reached c s.
Proof. intros E H. exact (reached_set c a st_new s (reached_new c) H E). Qed.

(** One joint, moved along x by one parameter; a triangle with its normal, a locator and a capsule. *)
Definition ex_id : affine := tf_affine tf_id.
Definition ex_skin : list (list (nat * R)) := [[(0%nat, 1)]; [(0%nat, 1)]; [(0%nat, 1)]].
Definition ex_char (limits : list flimit) (blend : option bshape) : fchar :=
  FC [] [Joint None vzero qid] (PT [] 7 1 [Entry 0 0 1] (repeat 0 7) (repeat true 7) [] [] [0%Z] []) limits
     [Locator String.EmptyString (Some 0%nat) (V3 1 2 3) (false, false, false) 1 vzero vzero] None (Some ex_skin) (Some [Cap ex_id 1 2 (Some 0%nat) 3]) None blend [ex_id].
Definition ex_mesh (faces : list (Z * Z * Z)) : gmesh unit := GM [V3 0 0 0; V3 1 0 0; V3 0 1 0] [V3 0 0 1; V3 0 0 1; V3 0 0 1] faces tt.
Definition ex_cc : cchar unit := CC (ex_char [] None) (Some (ex_mesh [(0, 1, 2)%Z])).

Lemma ex_well_made blend mesh : well_made (A := unit) (CC (ex_char [] blend) mesh).
Proof.
  constructor; cbn [cc_char ex_char fc_joints fc_pt fc_limits fc_locs fc_caps pt_rows pt_entries pt_cols map length].
  - intros j p H. destruct j as [|[|]]; discriminate H.
  - reflexivity.
  - intros e [<-|[]]. cbn. lia.
  - intros l i lo hi [].
  - intros l1 l2 a b c i lo hi lo' hi' E. destruct a; discriminate E.
  - intros l [<-|[]]. exists 0%nat. split; [reflexivity|lia].
  - intros g k E H. injection E as <-. destruct H as [<-|[]]. exists 0%nat. split; [reflexivity|lia].
Qed.
Lemma ex_rows blend row : In row ex_skin -> row_ok (length (fc_inv (ex_char [] blend))) row /\ zeros_last row.
Proof.
  intros H. assert (E : row = [(0%nat, 1)]) by (cbn in H; destruct H as [<-|[<-|[<-|[]]]]; reflexivity). subst row. split.
  - intros j w [E|[]] _. injection E as <- <-. cbn. lia.
  - intros i k x y L Hx Hy. destruct i, k as [|[|]]; try discriminate; lia.
Qed.
Lemma ex_skinned : skinned_mesh ex_cc (ex_mesh [(0, 1, 2)%Z]) ex_skin.
Proof. constructor; try reflexivity. intros row. exact (ex_rows None row). Qed.
Lemma ex_order {A} blend mesh pose b1 b2 b3 : any_order (Call (A := A) [2; 0; 1]%nat (CC (ex_char [] blend) mesh) pose [] b1 b2 b3).
Proof.
  intros skin E. injection E as <-. cbn [ca_order length ex_skin seq].
  apply (Permutation_trans (perm_swap 0 2 [1])%nat). apply perm_skip. exact (perm_swap 1 2 [])%nat.
Qed.
(** The state that set leads to, first at 5 and then at 7, is the one that 7 alone leads to. *)
Example character_state_nonvacuous : exists s r, reached ex_cc s /\ s <> st_new /\
  st_set (Call [2; 0; 1]%nat ex_cc [7] [] true true true) s = Ok r /\ st_set (Call [2; 0; 1]%nat ex_cc [7] [] true true true) st_new = Ok r.
Proof.
  destruct (character_state_parts ex_cc (ex_mesh [(0, 1, 2)%Z]) ex_skin st_new (Call [2; 0; 1]%nat ex_cc [5] [] true true true)) as (s & _ & _ & _ & E & _); try reflexivity.
  - constructor.
  - exact (ex_order None (Some (ex_mesh [(0, 1, 2)%Z])) [5] true true true).
  - apply ex_well_made.
  - exact ex_skinned.
  - left. reflexivity.
  - assert (H : reached ex_cc s) by (exact (reached_first ex_cc _ _ E eq_refl)).
    destruct (character_state_parts ex_cc (ex_mesh [(0, 1, 2)%Z]) ex_skin s (Call [2; 0; 1]%nat ex_cc [7] [] true true true) H) as (r & _ & _ & _ & E' & _); try reflexivity.
    + exact (ex_order None (Some (ex_mesh [(0, 1, 2)%Z])) [7] true true true).
    + apply ex_well_made.
    + exact ex_skinned.
    + left. reflexivity.
    + exists s, r. split; [exact H|]. split.
      * intros ->. unfold st_set in E. cbn [ca_pose ca_char ca_offsets] in E. repeat (destruct (negb _) in E; [discriminate E|]).
        destruct (posed _ _ _ _) in E; try discriminate E. cbn [obind] in E. destruct (locators_update _ _) in E; try discriminate E. cbn [obind] in E.
        destruct (if ca_mesh _ then _ else _) in E; try discriminate E. cbn [obind] in E. destruct (if ca_collision _ then _ else _) in E; discriminate E.
      * split; [exact E'|]. rewrite <- (character_state_history_partial ex_cc s (Call [2; 0; 1]%nat ex_cc [7] [] true true true) H eq_refl (ex_order None (Some (ex_mesh [(0, 1, 2)%Z])) [7] true true true) eq_refl eq_refl). exact E'.
Qed.

(** ** What fails *)

Lemma posed_zero {A} (c : cchar A) : well_made c ->
  pt_apply_char (fc_pt (cc_char c)) (repeat 0 (pt_cols (fc_pt (cc_char c)))) (repeat 0 (7 * length (fc_joints (cc_char c)))) = Ok (repeat 0 (7 * length (fc_joints (cc_char c)))).
Proof.
  intros W. set (n := (7 * length (fc_joints (cc_char c)))%nat). destruct (apply_char_parameters (fc_pt (cc_char c)) (repeat 0 (pt_cols (fc_pt (cc_char c)))) (repeat 0 n) (wm_cols c W)) as (jp & Ej & Lj & J).
  { apply repeat_length. } { rewrite repeat_length, (wm_rows c W). reflexivity. }
  rewrite Ej. apply (f_equal (@Ok _)). apply nth_ext with (d := 0) (d' := 0); [rewrite repeat_length, Lj; apply (wm_rows c W)|]. intros k Hk. rewrite J by lia. rewrite !nth_repeat. rewrite sumn_zero; [ring|].
  intros i _. rewrite nth_repeat. ring.
Qed.

(** A state that was set by a character with a mesh keeps that mesh when it is set by a character that has none. *)
Theorem character_state_stale_mesh_refuted : exists (c c' : cchar unit) m s r, reached c s /\ well_made c /\ well_made c' /\ cc_mesh c' = None /\
  st_set (Call [] c' [7] [] true true true) s = Ok r /\ st_mesh s = Some m /\ st_mesh r = Some m.
Proof.
  destruct (character_state_parts ex_cc (ex_mesh [(0, 1, 2)%Z]) ex_skin st_new (Call [2; 0; 1]%nat ex_cc [5] [] true true true)) as (s & jp & jp' & m & E & Q); try reflexivity.
  - constructor.
  - exact (ex_order None (Some (ex_mesh [(0, 1, 2)%Z])) [5] true true true).
  - apply ex_well_made.
  - exact ex_skinned.
  - left. reflexivity.
  - assert (Em : st_mesh s = Some m) by (repeat match goal with X : _ /\ _ |- _ => destruct X end; assumption).
    set (c' := CC (ex_char [] None) None : cchar unit). pose proof (ex_well_made None None : well_made c') as W.
    destruct (posed_ok c' [7] (repeat 0 7) true W eq_refl eq_refl) as (j1 & j2 & sts & E1 & _ & _ & _ & Ls).
    destruct (locators_ok sts (fc_locs (cc_char c'))) as (ps & E2 & _). { intros l Hl. rewrite Ls. exact (wm_locators c' W l Hl). }
    destruct (caps_ok sts [Cap ex_id 1 2 (Some 0%nat) 3]) as (cs & E4 & _). { intros k [<-|[]]. exists 0%nat. rewrite Ls. split; [reflexivity|cbn; lia]. }
    exists ex_cc, c', m, s. eexists. split; [exact (reached_first ex_cc _ _ E eq_refl)|]. split; [apply ex_well_made|]. split; [exact W|]. split; [reflexivity|].
    split; [|split; [exact Em|]].
    + unfold st_set. cbn [ca_char ca_pose ca_offsets ca_limits ca_mesh ca_collision ca_order]. change (pt_rows (fc_pt (cc_char c'))) with 7%nat. change (pt_cols (fc_pt (cc_char c'))) with 1%nat.
      rewrite repeat_length. cbn [length Nat.eqb negb]. rewrite E1. cbn [obind]. rewrite E2. cbn [obind]. unfold set_mesh. change (cc_mesh c') with (@None (gmesh unit)). cbv iota. cbn [obind].
      unfold set_collision. change (fc_caps (cc_char c')) with (Some [Cap ex_id 1 2 (Some 0%nat) 3]). cbv iota. rewrite E4. cbn [obind]. reflexivity.
    + cbn [st_mesh]. exact Em.
Qed.
Print Assumptions character_state_stale_mesh_refuted.

Definition ex_blend : bshape := BS (BM 9 1 (fun i _ => INR i)) [V3 0 0 0; V3 1 0 0; V3 0 1 0] None false.
(** Setting a state by another character whose mesh has as many vertices keeps the faces of the first one: with blend shapes the normals are then those of the
    wrong faces, and the faces of the state are not those of its character. *)
Theorem character_state_stale_faces_refuted : exists (c c' : cchar unit) m s r r' n, well_made c /\ well_made c' /\ reached c s /\ cc_mesh c' = Some m /\
  st_set (Call [2; 0; 1]%nat c' [7] [] true true true) st_new = Ok r /\ st_set (Call [2; 0; 1]%nat c' [7] [] true true true) s = Ok r' /\
  st_mesh r' = Some n /\ st_mesh r <> st_mesh r' /\ gm_faces n <> gm_faces m /\ st_joints r' = st_joints r.
Proof.
  set (cf := fun f => CC (ex_char [] (Some ex_blend)) (Some (ex_mesh f)) : cchar unit).
  assert (G : forall f p, exists r m' (w : list R), st_set (Call [2; 0; 1]%nat (cf f) [p] [] true true true) st_new = Ok r /\ st_mesh r = Some m' /\ gm_faces m' = f /\ length w = 1%nat /\ length (gm_vertices m') = 3%nat).
  { intros f p. destruct (character_state_blend (cf f) (ex_mesh f) ex_skin ex_blend st_new (Call [2; 0; 1]%nat (cf f) [p] [] true true true)) as (r & m' & w & E & E1 & E2 & _ & E3 & _ & E4 & _); try reflexivity.
    - constructor.
    - exact (ex_order (Some ex_blend) (Some (ex_mesh f)) [p] true true true).
    - apply ex_well_made.
    - intros row. exact (ex_rows (Some ex_blend) row).
    - discriminate.
    - intros z [<-|[]]. cbn. lia.
    - left. reflexivity.
    - exists r, m', w. auto. }
  destruct (G [(0, 1, 2)%Z] 5) as (s & o & w1 & Es & Eo & Fo & _ & Lo). destruct (G [(0, 2, 1)%Z] 7) as (r & m' & w2 & Er & Em & Fm & _ & Lm).
  set (c' := cf [(0, 2, 1)%Z]) in *. set (a := Call [2; 0; 1]%nat c' [7] [] true true true) in *.
  assert (D : forall st, st_set a st =
    let* sts := posed (ca_char a) (ca_pose a) (repeat 0 7) (ca_limits a) in
    let* locs := locators_update sts (fc_locs (cc_char (ca_char a))) in
    let* mesh := set_mesh (ca_order a) (ca_char a) (ca_pose a) sts (st_mesh st) in
    let* coll := set_collision (ca_char a) sts (st_collision st) in
    Ok (ST (ca_pose a) (repeat 0 7) sts locs mesh coll)) by (intros; reflexivity).
  pose proof Er as Er0. rewrite D in Er.
  destruct (posed _ _ _ _) as [sts| | | |] eqn:E1 in Er; try discriminate Er. cbn [obind] in Er. destruct (locators_update _ _) as [ls| | | |] eqn:E2 in Er; try discriminate Er. cbn [obind] in Er.
  unfold set_mesh in Er at 1.
  change (cc_mesh (ca_char a)) with (Some (ex_mesh [(0, 2, 1)%Z])) in Er. change (fc_skin (cc_char (ca_char a))) with (Some ex_skin) in Er. change (fc_pose (cc_char (ca_char a))) with (@None pose_shape) in Er.
  change (fc_blend (cc_char (ca_char a))) with (Some ex_blend) in Er. cbn [st_mesh st_new] in Er.
  destruct (extract_weights _ _) as [w| | | |] eqn:E3 in Er; try discriminate Er. cbn [obind] in Er. destruct (skin_with_blend _ _ _ _ _ _ _) as [vs| | | |] eqn:E4 in Er; try discriminate Er. cbn [obind] in Er.
  destruct (normals_of vs _) as [ns| | | |] eqn:E5 in Er; try discriminate Er. cbn [obind] in Er. destruct (set_collision _ _ _) as [co| | | |] eqn:E6 in Er; try discriminate Er. cbn [obind] in Er.
  destruct (normals_of_ok vs (gm_faces o)) as (ns' & E7 & _).
  assert (C : exists co', set_collision c' sts (st_collision s) = Ok co').
  { unfold set_collision in *. change (fc_caps (cc_char (ca_char a))) with (Some [Cap ex_id 1 2 (Some 0%nat) 3]) in E6. change (fc_caps (cc_char c')) with (Some [Cap ex_id 1 2 (Some 0%nat) 3]). cbv iota in E6 |- *. destruct (caps_update sts _); try discriminate E6. cbn. eauto. }
  destruct C as (co' & E8).
  exists (cf [(0, 1, 2)%Z]), c', (ex_mesh [(0, 2, 1)%Z]), s, r, (ST (ca_pose a) (repeat 0 7) sts ls (Some (GM vs ns' (gm_faces o) (gm_rest o))) co'), (GM vs ns' (gm_faces o) (gm_rest o)).
  split; [apply ex_well_made|]. split; [apply ex_well_made|]. split; [exact (reached_first (cf [(0, 1, 2)%Z]) _ _ Es eq_refl)|]. split; [reflexivity|].
  split; [exact Er0|]. split; [|split; [reflexivity|]].
  - fold a. rewrite D, E1. cbn [obind]. rewrite E2. cbn [obind]. unfold set_mesh at 1.
    change (cc_mesh (ca_char a)) with (Some (ex_mesh [(0, 2, 1)%Z])). change (fc_skin (cc_char (ca_char a))) with (Some ex_skin). change (fc_pose (cc_char (ca_char a))) with (@None pose_shape).
    change (fc_blend (cc_char (ca_char a))) with (Some ex_blend). rewrite Eo. cbn [gm_vertices ex_mesh length] in *. rewrite Lo. cbn [Nat.eqb]. rewrite E3. cbn [obind]. rewrite E4. cbn [obind]. rewrite E7. cbn [obind].
    change (ca_char a) with c'. rewrite E8. cbn [obind]. reflexivity.
  - cbn [st_mesh gm_faces st_joints]. match type of Er with Ok ?x = _ => assert (Er1 : r = x) by congruence end. split; [|split].
    + rewrite Em. intros X. assert (Y : m' = GM vs ns' (gm_faces o) (gm_rest o)) by congruence. rewrite Fo in Y. rewrite Y in Fm. discriminate Fm.
    + rewrite Fo. discriminate.
    + rewrite Er1. reflexivity.
Qed.
Print Assumptions character_state_stale_faces_refuted.

(** A mesh without normals, which the reader of meshes can return, is read out of bounds. *)
Theorem character_state_no_normals_refuted : exists c : cchar unit, exists m, well_made c /\ cc_mesh c = Some m /\ fc_skin (cc_char c) = Some ex_skin /\
  length (gm_vertices m) = length ex_skin /\ gm_normals m = [] /\ st_set (Call [2; 0; 1]%nat c [7] [] true true true) st_new = UB.
Proof.
  set (m := GM [V3 0 0 0; V3 1 0 0; V3 0 1 0] [] [(0, 1, 2)%Z] tt). set (c := CC (ex_char [] None) (Some m) : cchar unit). exists c, m.
  pose proof (ex_well_made None (Some m) : well_made c) as W. split; [exact W|]. split; [reflexivity|]. split; [reflexivity|]. split; [reflexivity|]. split; [reflexivity|].
  destruct (posed_ok c [7] (repeat 0 7) true W eq_refl eq_refl) as (j1 & j2 & sts & E1 & _ & _ & _ & Ls).
  destruct (locators_ok sts (fc_locs (cc_char c))) as (ps & E2 & _). { intros l Hl. rewrite Ls. exact (wm_locators c W l Hl). }
  unfold st_set. cbn [ca_char ca_pose ca_offsets ca_limits ca_mesh ca_collision ca_order]. change (pt_rows (fc_pt (cc_char c))) with 7%nat. change (pt_cols (fc_pt (cc_char c))) with 1%nat.
  rewrite repeat_length. cbn [length Nat.eqb negb]. rewrite E1. cbn [obind]. rewrite E2. cbn [obind]. unfold set_mesh. change (cc_mesh c) with (Some m). change (fc_skin (cc_char c)) with (Some ex_skin).
  change (fc_pose (cc_char c)) with (@None pose_shape). change (fc_blend (cc_char c)) with (@None bshape). cbn [st_mesh st_new]. unfold ssd_mesh.
  unfold world_affines. rewrite map_length, Ls. reflexivity.
Qed.
Print Assumptions character_state_no_normals_refuted.

(** setBindPose applies the limits: a passive limit that excludes zero moves the character off its bind pose. *)
Theorem character_state_bind_pose_refuted : exists (c : cchar unit) r, well_made c /\ st_set (bind_call [2; 0; 1]%nat c true true) st_new = Ok r /\
  fk (fc_joints (cc_char c)) (repeat 0 (7 * length (fc_joints (cc_char c)))) <> Ok (st_joints r).
Proof.
  set (lim := FL (PLimit (LMinMaxJointPassive 0 0 1 2) 1) ex_id ex_id vzero).
  set (c := CC (ex_char [lim] None) (Some (ex_mesh [(0, 1, 2)%Z])) : cchar unit).
  assert (W : well_made c).
  { pose proof (ex_well_made None (Some (ex_mesh [(0, 1, 2)%Z]))) as [W1 W2 W3 W4 W5 W6 W7]. constructor; try assumption.
    - intros l i lo hi [<-|[]] E. injection E as <- <- <-. split; [cbn; lia|lra].
    - intros l1 l2 a b d i lo hi lo' hi' E. destruct a as [|? [|]]; [|discriminate E..]. destruct b; discriminate E. }
  assert (S : skinned_mesh c (ex_mesh [(0, 1, 2)%Z]) ex_skin) by (constructor; try reflexivity; intros row; exact (ex_rows None row)).
  destruct (character_state_parts c (ex_mesh [(0, 1, 2)%Z]) ex_skin st_new (bind_call [2; 0; 1]%nat c true true)) as (r & _ & _ & _ & E & _); try reflexivity; try assumption.
  - constructor.
  - intros skin Es. injection Es as <-. exact (ex_order (A := unit) None None [] true true true ex_skin eq_refl).
  - right. reflexivity.
  - exists c, r. split; [exact W|]. split; [exact E|]. intros F. unfold st_set in E. cbn [bind_call ca_char ca_pose ca_offsets ca_limits ca_mesh ca_collision ca_order] in E.
    repeat (destruct (negb _) in E; [discriminate E|]). unfold posed in E.
    pose proof (posed_zero c W) as Z. change (7 * length (fc_joints (cc_char c)))%nat with 7%nat in *. change (length (fc_joints (cc_char c)) * 7)%nat with 7%nat in E.
    change (match repeat 0 7 with [] => _ | _ :: _ => repeat 0 7 end) with (repeat 0 7) in E. rewrite Z in E. cbn [obind] in E.
    assert (L : apply_passive (map fl_limit (fc_limits (cc_char c))) (repeat 0 7) = Ok (1 :: repeat 0 6)).
    { cbn. destruct (Rltb_spec 0 1) as [C|C]; [|lra]. cbn. destruct (Rltb_spec 2 1) as [C'|C']; [lra|]. reflexivity. }
    rewrite L in E. cbn [obind] in E.
    destruct (fk (fc_joints (cc_char c)) (1 :: repeat 0 6)) as [sts| | | |] eqn:K; try discriminate E. cbn [obind] in E.
    assert (J : st_joints r = sts).
    { destruct (locators_update _ _) in E; try discriminate E. cbn [obind] in E. destruct (set_mesh _ _ _ _ _) in E; try discriminate E. cbn [obind] in E. destruct (set_collision _ _ _) in E; try discriminate E.
      cbn [obind] in E. injection E as <-. reflexivity. }
    rewrite J in F. clear E J.
    assert (F0 : fk (fc_joints (cc_char c)) (repeat 0 7) = Ok [joint_state_set (Joint None vzero qid) (JP 0 0 0 0 0 0 0) None]) by reflexivity.
    assert (F1 : fk (fc_joints (cc_char c)) (1 :: repeat 0 6) = Ok [joint_state_set (Joint None vzero qid) (JP 1 0 0 0 0 0 0) None]) by reflexivity.
    rewrite F0 in F. rewrite F1 in K. assert (X : joint_state_set (Joint None vzero qid) (JP 0 0 0 0 0 0 0) None = joint_state_set (Joint None vzero qid) (JP 1 0 0 0 0 0 0) None) by congruence.
    apply (f_equal js_world) in X. rewrite root_world, joint_world in X. apply (f_equal (fun t => vx (trans t))) in X. cbn in X. lra.
Qed.
Print Assumptions character_state_bind_pose_refuted.
