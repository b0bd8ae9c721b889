(** Property C97: replacing a part of a skeleton. *)

From Coq Require Import Bool Reals List Arith Lia Lra String Sorted.
From Verif Require Import Prelude Loops Rbool R3 LinAlg Transform_model Transform_proofs Skeleton_model Skeleton_spec Skeleton_proofs FK_model FK_spec FK_proofs
  ParamTransform_model ParamTransform_spec ParamTransform_proofs ParamTransform_map_proofs Locator_model Skin_model Skin_spec Skin_props Blend_model PoseShape_model
  Simplify_model Simplify_spec Simplify_proofs CharUtil_model CharUtil_spec CharScale_props CharMotion_spec CharMotion_props CharRemove_spec CharRemove_proofs CharRemove_props
  CharSplice_spec CharSplice_proofs.
Import ListNotations.
Local Open Scope nat_scope.

Lemma named_root c nm r : attached c -> first_named (fc_names c) nm r -> joint_id_by_name String.eqb (fc_names c) nm = Some r /\ r < List.length (fc_joints c).
Proof.
  intros A F. split.
  - pose proof (joint_id_spec (fc_names c) nm) as H. destruct (joint_id_by_name String.eqb (fc_names c) nm) as [k|].
    + f_equal. apply (first_unique _ _ _ _ H F).
    + destruct H. eapply nth_error_In. apply F.
  - rewrite <- (fo_names c (at_ok c A)). apply (nth_error_len _ _ _ (proj1 F)).
Qed.

(** What is known after the joints were joined. *)
Lemma joined src tgt root sroot troot order : attached src -> attached tgt -> first_named (fc_names src) root sroot -> first_named (fc_names tgt) root troot ->
  spliced (sk_parents (fc_joints tgt)) (sk_parents (fc_joints src)) troot sroot order ->
  outt src tgt troot sroot order (combine_joints (fc_names src) (fc_joints src) (fc_names tgt) (fc_joints tgt) sroot troot).
Proof.
  intros As At Fs Ft Sp. pose proof (fo_parents src (at_ok src As)) as Vs. pose proof (fo_parents tgt (at_ok tgt At)) as Vt.
  pose proof (fo_names src (at_ok src As)) as Ls. pose proof (fo_names tgt (at_ok tgt At)) as Lt.
  destruct (named_root src root sroot As Fs) as [_ Hs]. destruct (named_root tgt root troot At Ft) as [_ Ht].
  assert (Same : nth_error (fc_names src) sroot = nth_error (fc_names tgt) troot) by (destruct Fs, Ft; congruence).
  rewrite (spliced_unique _ _ _ _ _ _ Sp (order_spliced src tgt troot sroot Vs Vt Ls Lt Hs Ht)). apply combine_result; assumption.
Qed.

Record sparts (src tgt : fchar) (sroot troot : nat) (order : list from) (tk sk : list bool) (c' : fchar) : Prop := {
  sq_built : exists b, built src tgt troot sroot order b /\ fc_joints c' = cb_joints b /\ fc_names c' = cb_names b;
  sq_tlen : List.length tk = pt_cols (fc_pt tgt);
  sq_slen : List.length sk = pt_cols (fc_pt src);
  sq_tk : forall i, is_kept tk i <-> drives_placed (fc_pt tgt) inl order i;
  sq_sk : forall i, is_kept sk i <-> drives_placed (fc_pt src) inr order i;
  sq_names : pt_name (fc_pt c') = kept_names (pt_name (fc_pt tgt)) tk ++ kept_names (pt_name (fc_pt src)) sk;
  sq_rows : pt_rows (fc_pt c') = 7 * List.length order;
  sq_cols : pt_cols (fc_pt c') = new_index tk (List.length tk) + new_index sk (List.length sk);
  sq_offsets : pt_offsets (fc_pt c') = repeat 0%R (7 * List.length order);
  sq_active : pt_active (fc_pt c') = compute_active (fc_pt c') (fun _ => true);
  sq_sets : forall nm k, in_set (pt_sets (fc_pt c')) nm k <->
    (exists i, in_set (pt_sets (fc_pt tgt)) nm i /\ is_kept tk i /\ k = new_index tk i) \/
    (exists i, in_set (pt_sets (fc_pt src)) nm i /\ is_kept sk i /\ k = new_index tk (List.length tk) + new_index sk i);
  sq_rest : pt_pose (fc_pt c') = [] /\ pt_blend (fc_pt c') = [] /\ pt_face (fc_pt c') = [];
  sq_maps : exists smap tmap, maps order inr (List.length (fc_joints src)) smap /\ maps order inl (List.length (fc_joints tgt)) tmap /\
    pt_entries (fc_pt c') = flat_map (row_new (fc_pt tgt) tmap tk 0) (seq 0 (pt_rows (fc_pt tgt))) ++
      flat_map (row_new (fc_pt src) smap sk (new_index tk (List.length tk))) (seq 0 (pt_rows (fc_pt src))) /\
    (exists sl tl, fc_locs c' = remove_duplicates tl sl ++ sl /\
      Forall2 (fun x x' => exists p k, lo_parent x = Some p /\ nth_error smap p = Some (Some k) /\ x' = loc_with x k) (filter (parent_mapped lo_parent smap) (fc_locs src)) sl /\
      Forall2 (fun x x' => exists p k, lo_parent x = Some p /\ nth_error tmap p = Some (Some k) /\ x' = loc_with x k) (filter (parent_mapped lo_parent tmap) (fc_locs tgt)) tl) /\
    (exists sl tl, fc_caps c' = (match tl ++ sl with [] => None | _ => Some (tl ++ sl) end) /\
      Forall2 (fun x x' => exists p k, cap_parent x = Some p /\ nth_error smap p = Some (Some k) /\ x' = cap_with x k) (filter (parent_mapped cap_parent smap) (caps_of src)) sl /\
      Forall2 (fun x x' => exists p k, cap_parent x = Some p /\ nth_error tmap p = Some (Some k) /\ x' = cap_with x k) (filter (parent_mapped cap_parent tmap) (caps_of tgt)) tl) /\
    (exists sl tl, fc_limits c' = tl ++ sl /\
      Forall2 (limit_to smap (nmap (new_index tk (List.length tk)) sk (pt_cols (fc_pt src)))) (filter (limit_mapped smap (nmap (new_index tk (List.length tk)) sk (pt_cols (fc_pt src)))) (fc_limits src)) sl /\
      Forall2 (limit_to tmap (nmap 0 tk (pt_cols (fc_pt tgt)))) (filter (limit_mapped tmap (nmap 0 tk (pt_cols (fc_pt tgt)))) (fc_limits tgt)) tl);
  sq_up : exists up skin, (forall i, i < List.length (fc_joints tgt) -> exists q, nth_error up i = Some (Some q) /\ stands_for src tgt order i q) /\
    List.length up = List.length (fc_joints tgt) /\
    match fc_skin tgt with Some s => exists s', skin = Some s' /\ Forall2 (Forall2 (weight_to up)) s s' | None => skin = None end /\
    fc_mesh c' = (match fc_mesh tgt, skin with Some m, Some _ => Some m | _, _ => None end) /\
    fc_skin c' = (match fc_mesh tgt, skin with Some _, Some s => Some s | _, _ => None end);
  sq_inv : exists sts, fk (fc_joints c') (repeat 0%R (7 * List.length (fc_joints c'))) = Ok sts /\ fc_inv c' = inverse_bind sts;
  sq_shapes : fc_pose c' = fc_pose tgt /\ fc_blend c' = fc_blend tgt
}.

Lemma built_valid src tgt troot sroot order b : built src tgt troot sroot order b -> valid_sk (cb_joints b).
Proof.
  intros B i p E. unfold sk_parents in E. rewrite nth_error_map in E. destruct (nth_error (cb_joints b) i) as [jt|] eqn:Ej; [|discriminate]. cbn in E.
  destruct (nth_error_lt order i) as [o P]; [rewrite <- (bu_joints _ _ _ _ _ _ B); apply (nth_error_len _ _ _ Ej)|].
  destruct (bu_joint _ _ _ _ _ _ B i o P) as (j0 & par & _ & E2 & E3). rewrite Ej in E2. injection E2 as ->. cbn in E. injection E as ->.
  destruct (from_parent src tgt troot sroot o); [|discriminate]. destruct E3 as (q & Hq & _ & X). congruence.
Qed.

(** The transform of the target, mapped. *)
Lemma tgt_mapped tgt order n tmap : attached tgt -> maps order inl (List.length (fc_joints tgt)) tmap -> n = List.length order ->
  exists tk tsets, List.length tk = pt_cols (fc_pt tgt) /\ (forall i, is_kept tk i <-> drives_placed (fc_pt tgt) inl order i) /\
    add_mapped (fc_pt tgt) tmap (pt_empty (n * 7)) = Ok (PT (kept_names (pt_name (fc_pt tgt)) tk) (n * 7) (new_index tk (List.length tk))
      (flat_map (row_new (fc_pt tgt) tmap tk 0) (seq 0 (pt_rows (fc_pt tgt)))) (repeat 0%R (n * 7)) (repeat false (n * 7)) tsets [] [] [], nmap 0 tk (pt_cols (fc_pt tgt))) /\
    (forall nm k, in_set tsets nm k <-> exists i, in_set (pt_sets (fc_pt tgt)) nm i /\ is_kept tk i /\ k = new_index tk i).
Proof.
  intros A M ->. pose proof (at_pt tgt A) as W. pose proof M as [Lm Mm].
  destruct (add_mapped_ok (fc_pt tgt) tmap (List.length order) (pt_empty (List.length order * 7))) as (tk & sets & Lp & Mp & Ea & As).
  - exact W.
  - rewrite Lm. apply (at_rows tgt A).
  - intros a j E. apply Mm in E. apply (placed_len _ _ _ E).
  - reflexivity.
  - cbn [pt_empty pt_name List.length Nat.add]. apply (wf_max _ W).
  - intros c0 nm _ _ [].
  - cbn [pt_empty pt_name pt_entries pt_offsets pt_active pt_sets pt_pose pt_blend pt_face pt_rows List.length Nat.add List.app] in Ea, As.
    exists tk, sets. split; [exact Lp|]. split; [intros i; rewrite Mp; apply (drives_maps _ _ _ _ _ _ M)|]. rewrite Ea, Lp. split; [reflexivity|].
    intros nm k. rewrite As. split; [intros [(s & [] & _)|H]; exact H|auto].
Qed.

Lemma replace_parts src tgt root sroot troot order fuel : spliceable src tgt root sroot troot order -> replaceable src tgt order ->
  exists c' tk sk, replace_hierarchy (S (S fuel)) src tgt root root = Ok c' /\ sparts src tgt sroot troot order tk sk c'.
Proof.
  intros SP RP. pose proof (sp_src _ _ _ _ _ _ SP) as As. pose proof (sp_tgt _ _ _ _ _ _ SP) as At.
  pose proof (fo_parents tgt (at_ok tgt At)) as Vt.
  destruct (named_root src root sroot As (sp_sroot _ _ _ _ _ _ SP)) as [Is Hs]. destruct (named_root tgt root troot At (sp_troot _ _ _ _ _ _ SP)) as [It Ht].
  destruct (joined src tgt root sroot troot order As At (sp_sroot _ _ _ _ _ _ SP) (sp_troot _ _ _ _ _ _ SP) (sp_order _ _ _ _ _ _ SP)) as [(_ & b & smap & tmap & Ec & B & Ms & Mt)|[D _]].
  2:{ destruct (D (sp_names _ _ _ _ _ _ SP)). }
  pose proof (built_valid _ _ _ _ _ _ B) as Vb. pose proof (bu_joints _ _ _ _ _ _ B) as Lb.
  destruct (tgt_mapped tgt order (List.length (cb_joints b)) tmap At Mt Lb) as (tk & tsets & Ltk & Mtk & Ea1 & As1).
  match type of Ea1 with _ = Ok (?p, _) => set (pt1 := p) in Ea1 end. pose proof (at_pt tgt At) as Wt. pose proof (at_pt src As) as Ws.
  assert (Lkn : List.length (kept_names (pt_name (fc_pt tgt)) tk) = new_index tk (List.length tk)) by (apply (kept_names_length (fc_pt tgt) tmap); rewrite (proj1 Mt); apply (at_rows tgt At)).
  destruct (add_mapped_ok (fc_pt src) smap (List.length (cb_joints b)) pt1) as (sk & sets & Lsk & Msk & Ea2 & As2).
  { exact Ws. } { rewrite (proj1 Ms). apply (at_rows src As). } { intros a j E. apply (proj2 Ms) in E. rewrite Lb. apply (placed_len _ _ _ E). } { reflexivity. }
  { unfold pt1. cbn [pt_name]. rewrite Lkn. pose proof (new_index_le tk (List.length tk)). pose proof (sp_max _ _ _ _ _ _ SP). lia. }
  { intros c nm Dc En I. unfold pt1 in I. cbn [pt_name] in I. apply kept_names_in in I as (i & Ki & Ei); [|rewrite Ltk; symmetry; apply (wf_names _ Wt)].
    apply (sp_params _ _ _ _ _ _ SP i c nm); auto; [apply Mtk, Ki|apply (drives_maps _ _ _ _ _ _ Ms), Dc]. }
  unfold pt1 in Ea2, As2. cbn [pt_empty pt_name pt_entries pt_offsets pt_active pt_sets pt_pose pt_blend pt_face pt_rows] in Ea2, As2. rewrite Lkn in Ea2, As2. fold pt1 in Ea2.
  destruct (map_parents_ok lo_parent loc_with smap (fc_locs src)) as (slocs & Esl & Fsl). { intros l Hl. rewrite (proj1 Ms). apply (at_locs src As l Hl). }
  destruct (map_parents_ok lo_parent loc_with tmap (fc_locs tgt)) as (tlocs & Etl & Ftl). { intros l Hl. rewrite (proj1 Mt). apply (at_locs tgt At l Hl). }
  assert (Ecap : forall c jmap, attached c -> List.length jmap = List.length (fc_joints c) -> exists caps, match fc_caps c with None => Ok [] | Some l => map_parents cap_parent cap_with jmap l end = Ok caps /\
      Forall2 (fun x x' => exists p k, cap_parent x = Some p /\ nth_error jmap p = Some (Some k) /\ x' = cap_with x k) (filter (parent_mapped cap_parent jmap) (caps_of c)) caps).
  { intros c jmap Ac L. unfold caps_of. destruct (fc_caps c) as [l|] eqn:Eq; [|exists []; split; [reflexivity|constructor]]. apply map_parents_ok. intros x Hx. rewrite L. apply (at_caps c Ac l x Eq Hx). }
  destruct (Ecap tgt tmap At (proj1 Mt)) as (tcaps & Etc & Ftc). destruct (Ecap src smap As (proj1 Ms)) as (scaps & Esc & Fsc).
  destruct (map_limits_ok tmap (nmap 0 tk (pt_cols (fc_pt tgt))) (fc_limits tgt)) as (tlims & Etm & Ftm).
  { intros l j Hl Hj. rewrite (proj1 Mt). apply (at_limit_joints tgt At l j Hl Hj). } { intros l j Hl Hj. rewrite nmap_length, Ltk. apply (at_limit_params tgt At l j Hl Hj). }
  destruct (map_limits_ok smap (nmap (new_index tk (List.length tk)) sk (pt_cols (fc_pt src))) (fc_limits src)) as (slims & Esm & Fsm).
  { intros l j Hl Hj. rewrite (proj1 Ms). apply (at_limit_joints src As l j Hl Hj). } { intros l j Hl Hj. rewrite nmap_length, Lsk. apply (at_limit_params src As l j Hl Hj). }
  destruct (climb_all_found src tgt troot sroot order b B (fo_names tgt (at_ok tgt At)) fuel Vt RP) as (up & Eup & Lup & Nup).
  assert (Esk : exists skin, match fc_skin tgt with None => Ok None | Some s => obind (map_weights up s) (fun s' => Ok (Some s')) end = Ok skin /\
     match fc_skin tgt with Some s => exists s', skin = Some s' /\ Forall2 (Forall2 (weight_to up)) s s' | None => skin = None end).
  { destruct (fc_skin tgt) as [s|] eqn:Es; [|exists None; auto].
    destruct (map_weights_ok up s) as (s' & E & F). { intros row j w Hr Hj Hw. destruct (Nup j (at_skin tgt At s row j w Es Hr Hj Hw)) as (q & E & _). eauto. }
    rewrite E. cbn [obind]. exists (Some s'). split; [reflexivity|]. exists s'. auto. }
  destruct Esk as (skin & Esk & Hsk).
  match type of Ea2 with _ = Ok (?p, _) => set (pt2 := p) in Ea2 end.
  set (pt := PT (pt_name pt2) (pt_rows pt2) (pt_cols pt2) (pt_entries pt2) (pt_offsets pt2) (compute_active pt2 (fun _ => true)) (pt_sets pt2) (pt_pose pt2) (pt_blend pt2) (pt_face pt2)).
  destruct (make_zero (cb_names b) (cb_joints b) pt (tlims ++ slims) (remove_duplicates tlocs slocs ++ slocs) (fc_mesh tgt) skin (match tcaps ++ scaps with [] => None | _ => Some (tcaps ++ scaps) end) (fc_pose tgt) (fc_blend tgt) Vb) as (sts & Fz & Em).
  { unfold pt, pt2. cbn [pt_rows]. lia. }
  eexists _, tk, sk. split.
  { unfold replace_hierarchy. destruct (fc_joints src) as [|j0 js] eqn:Ej; [destruct (fo_some src (at_ok src As) Ej)|]. rewrite <- Ej in *. rewrite It, Is, Ec. cbn [obind].
    rewrite Esl. cbn [obind]. rewrite Etl. cbn [obind]. rewrite Etc. cbn [obind]. rewrite Esc. cbn [obind]. rewrite Ea1. cbn [obind]. rewrite Ea2. cbn [obind].
    rewrite Etm. cbn [obind]. rewrite Esm. cbn [obind]. rewrite Eup. cbn [obind]. rewrite Esk. cbn [obind]. exact Em. }
  unfold pt, pt2. constructor; cbn [fc_joints fc_names fc_pt fc_limits fc_locs fc_mesh fc_skin fc_caps fc_pose fc_blend fc_inv pt_name pt_rows pt_cols pt_entries pt_offsets pt_active pt_sets pt_pose pt_blend pt_face].
  - exists b. auto.
  - exact Ltk.
  - exact Lsk.
  - exact Mtk.
  - intros i. rewrite Msk. apply (drives_maps _ _ _ _ _ _ Ms).
  - reflexivity.
  - lia.
  - rewrite Lsk. reflexivity.
  - rewrite Lb, (Nat.mul_comm 7). reflexivity.
  - reflexivity.
  - intros nm k. rewrite As2, As1. reflexivity.
  - auto.
  - exists smap, tmap. split; [exact Ms|]. split; [exact Mt|]. split; [reflexivity|]. split; [exists slocs, tlocs; auto|]. split; [exists scaps, tcaps; auto|]. exists slims, tlims. auto.
  - exists up, skin. auto.
  - exists sts. auto.
  - auto.
Qed.

Lemma sparts_of src tgt root sroot troot order fuel c' : spliceable src tgt root sroot troot order -> replaceable src tgt order -> 2 <= fuel ->
  replace_hierarchy fuel src tgt root root = Ok c' -> exists tk sk, sparts src tgt sroot troot order tk sk c'.
Proof.
  intros SP RP Hf E. destruct fuel as [|[|fuel]]; try lia. destruct (replace_parts src tgt root sroot troot order fuel SP RP) as (c2 & tk & sk & E2 & H). rewrite E in E2. injection E2 as <-. eauto.
Qed.

(** ** What is refused *)

(** An empty skeleton or a root joint that does not exist. *)
Theorem replace_unknown fuel src tgt sname tname : fc_joints src = [] \/ ~ In sname (fc_names src) \/ ~ In tname (fc_names tgt) -> replace_hierarchy fuel src tgt sname tname = Throw.
Proof.
  intros H. unfold replace_hierarchy. destruct (fc_joints src); [reflexivity|].
  pose proof (joint_id_spec (fc_names tgt) tname) as T. destruct (joint_id_by_name String.eqb (fc_names tgt) tname) as [tr|]; [|reflexivity].
  pose proof (joint_id_spec (fc_names src) sname) as S0. destruct (joint_id_by_name String.eqb (fc_names src) sname) as [sr|]; [|reflexivity].
  destruct T as [T _], S0 as [S0 _]. apply nth_error_In in T, S0. destruct H as [H|[H|H]]; [discriminate|contradiction|contradiction].
Qed.
Print Assumptions replace_unknown.

(** Two joints of the same name in the result. *)
Theorem replace_duplicates fuel src tgt root sroot troot order : attached src -> attached tgt -> first_named (fc_names src) root sroot -> first_named (fc_names tgt) root troot ->
  spliced (sk_parents (fc_joints tgt)) (sk_parents (fc_joints src)) troot sroot order -> ~ NoDup (map (from_name src tgt) order) ->
  replace_hierarchy fuel src tgt root root = Throw.
Proof.
  intros As At Fs Ft Sp D. destruct (joined src tgt root sroot troot order As At Fs Ft Sp) as [[N _]|[_ E]]; [contradiction|].
  unfold replace_hierarchy. destruct (fc_joints src) eqn:Ej; [reflexivity|]. rewrite <- Ej in *. rewrite (proj1 (named_root tgt root troot At Ft)), (proj1 (named_root src root sroot As Fs)), E. reflexivity.
Qed.
Print Assumptions replace_duplicates.

(** ** Joints *)

(** The joints of the target that are not below its root joint and, after the root joint, those below the
    root joint of the source: with their names, offsets and prerotations, in the same hierarchy. *)
Theorem replace_structure src tgt root sroot troot order fuel : spliceable src tgt root sroot troot order -> replaceable src tgt order -> 2 <= fuel ->
  exists c', replace_hierarchy fuel src tgt root root = Ok c' /\ List.length (fc_joints c') = List.length order /\ List.length (fc_names c') = List.length order /\
    parents_first (map jparent (fc_joints c')) /\
    forall o q, placed order o q -> nth_error (fc_names c') q = from_name src tgt o /\
      exists jt jt', from_joint src tgt o = Some jt /\ nth_error (fc_joints c') q = Some jt' /\ joffset jt' = joffset jt /\ jprerot jt' = jprerot jt /\
        match from_parent src tgt troot sroot o with None => jparent jt' = None | Some o' => exists q', placed order o' q' /\ jparent jt' = Some q' end.
Proof.
  intros SP RP Hf. destruct fuel as [|[|fuel]]; try lia. destruct (replace_parts src tgt root sroot troot order fuel SP RP) as (c' & tk & sk & E & P).
  exists c'. split; [exact E|]. destruct (sq_built _ _ _ _ _ _ _ _ P) as (b & B & -> & ->). split; [apply (bu_joints _ _ _ _ _ _ B)|]. split; [apply (names_len _ _ _ _ _ _ B)|].
  split; [apply (built_valid _ _ _ _ _ _ B)|]. intros o q Po. split; [apply (names_at _ _ _ _ _ _ _ _ B Po)|].
  destruct (bu_joint _ _ _ _ _ _ B q o Po) as (jt & par & E1 & E2 & E3). exists jt. eexists. split; [exact E1|]. split; [exact E2|]. cbn [joffset jprerot jparent]. split; [reflexivity|]. split; [reflexivity|].
  destruct (from_parent src tgt troot sroot o); [|exact E3]. destruct E3 as (q' & _ & P' & ->). eauto.
Qed.
Print Assumptions replace_structure.

Lemma worlds_of_sparts src tgt root sroot troot order tk sk c' tp sp p tsts ssts : spliceable src tgt root sroot troot order -> sparts src tgt sroot troot order tk sk c' ->
  unit_prerotations (fc_joints tgt) -> unit_prerotations (fc_joints src) -> fk (fc_joints tgt) tp = Ok tsts -> fk (fc_joints src) sp = Ok ssts -> joined_params order tp sp p ->
  exists sts, fk (fc_joints c') p = Ok sts /\ grafted order troot sroot tsts ssts sts.
Proof.
  intros SP P Ut Us Ft Fs (Lp & Jt & Js). destruct (sq_built _ _ _ _ _ _ _ _ P) as (b & B & Ej & _). rewrite Ej.
  pose proof (fo_parents tgt (at_ok _ (sp_tgt _ _ _ _ _ _ SP))) as Vt. pose proof (fo_parents src (at_ok _ (sp_src _ _ _ _ _ _ SP))) as Vs.
  destruct (fk_inv _ tp tsts Vt Ft) as [_ FSt]. destruct (fk_inv _ sp ssts Vs Fs) as [_ FSs].
  pose proof (built_valid _ _ _ _ _ _ B) as Vb. destruct (fk_ok (cb_joints b) p Vb) as (sts & F & FS); [rewrite Lp, (bu_joints _ _ _ _ _ _ B); reflexivity|].
  exists sts. split; [exact F|]. pose proof (fk_good _ _ _ Vt Ut FSt) as Gt. pose proof (fk_good _ _ _ Vs Us FSs) as Gs.
  destruct (named_root src root sroot (sp_src _ _ _ _ _ _ SP) (sp_sroot _ _ _ _ _ _ SP)) as [_ Hs]. destruct (named_root tgt root troot (sp_tgt _ _ _ _ _ _ SP) (sp_troot _ _ _ _ _ _ SP)) as [_ Ht].
  destruct (nth_error_lt tsts troot) as [rt Ert]; [rewrite (proj1 FSt); exact Ht|]. destruct (nth_error_lt ssts sroot) as [rs Ers]; [rewrite (proj1 FSs); exact Hs|].
  assert (G : forall q,
    (forall i s, placed order (inl i) q -> nth_error tsts i = Some s -> exists s', nth_error sts q = Some s' /\ js_world s' = js_world s) /\
    (forall k s, placed order (inr k) q -> nth_error ssts k = Some s -> exists s' x, nth_error sts q = Some s' /\ tf_good x /\ js_world s = tf_mul (js_world rs) x /\ js_world s' = tf_mul (js_world rt) x)).
  { intros q. induction (lt_wf q) as [q _ IH]. split.
    - intros i s Po Es. destruct (bu_joint _ _ _ _ _ _ B q _ Po) as (jt & par & E1 & E2 & E3). cbn [from_joint from_parent] in E1, E3. rewrite E1 in E3.
      destruct (proj2 FSt i jt E1) as (ps & H2 & H3). destruct (proj2 FS q _ E2) as (ps' & H2' & H3'). eexists. split; [exact H3'|].
      assert (s = joint_state_set jt (jparam_at tp i) ps) as -> by congruence. rewrite !js_world_set.
      assert (EJ : jparam_at p q = jparam_at tp i) by (apply jparam_ext; intros d Hd; apply Jt; assumption). rewrite EJ.
      assert (Hl : forall pr, local_tf (Joint pr (joffset jt) (jprerot jt)) (jparam_at tp i) = local_tf jt (jparam_at tp i)) by reflexivity. rewrite Hl. f_equal.
      cbn [jparent] in H2'. destruct (jparent jt) as [a|]; cbn [option_map] in E3.
      + destruct E3 as (q' & Hq & Pq & ->). destruct H2 as (t & Et & ->), H2' as (t' & Et' & ->). destruct (proj1 (IH q' Hq) a t Pq Et) as (t2 & Et2 & W). cbn [parent_tf]. congruence.
      + subst par. cbn in H2, H2'. subst. reflexivity.
    - intros k s Po Es. destruct (bu_joint _ _ _ _ _ _ B q _ Po) as (jt & par & E1 & E2 & E3). cbn [from_joint from_parent] in E1, E3. rewrite E1 in E3.
      destruct (proj2 FSs k jt E1) as (ps & H2 & H3). destruct (proj2 FS q _ E2) as (ps' & H2' & H3').
      assert (s = joint_state_set jt (jparam_at sp k) ps) as -> by congruence. rewrite js_world_set.
      assert (EJ : jparam_at p q = jparam_at sp k) by (apply jparam_ext; intros d Hd; apply Js; assumption).
      assert (Hl : forall pr, local_tf (Joint pr (joffset jt) (jprerot jt)) (jparam_at sp k) = local_tf jt (jparam_at sp k)) by reflexivity.
      assert (Gl : tf_good (local_tf jt (jparam_at sp k))) by (apply local_tf_good, (Us k jt E1)).
      cbn [jparent] in H2'. destruct (jparent jt) as [a|] eqn:Ja; cbn [option_map] in E3.
      + destruct E3 as (q' & Hq & Pq & ->). destruct H2 as (t & Et & ->), H2' as (t' & Et' & ->). cbn [parent_tf].
        destruct (Nat.eqb_spec a sroot) as [E0|N].
        * rewrite E0 in Et. exists (joint_state_set (Joint (Some q') (joffset jt) (jprerot jt)) (jparam_at p q) (Some t')), (local_tf jt (jparam_at sp k)). split; [exact H3'|]. split; [exact Gl|]. split; [congruence|].
          rewrite js_world_set, EJ, Hl. cbn [parent_tf]. destruct (proj1 (IH q' Hq) troot rt Pq Ert) as (t2 & Et2 & W). congruence.
        * destruct (proj2 (IH q' Hq) a t Pq Et) as (t2 & x & Et2 & Gx & W1 & W2). assert (t2 = t') as -> by congruence.
          exists (joint_state_set (Joint (Some q') (joffset jt) (jprerot jt)) (jparam_at p q) (Some t')), (tf_mul x (local_tf jt (jparam_at sp k))). split; [exact H3'|].
          split; [apply tf_good_mul; assumption|]. rewrite js_world_set, EJ, Hl. cbn [parent_tf]. rewrite W1, W2.
          split; symmetry; apply tf_mul_assoc; try (apply tf_good_ok; assumption); apply tf_good_ok; [apply (Gs sroot rs Ers)|apply (Gt troot rt Ert)].
      + exfalso. destruct (sp_order _ _ _ _ _ _ SP) as (bf & mid & af & -> & _ & _ & _ & Im).
        assert (In k mid).
        { pose proof (nth_error_In _ _ Po) as I. apply in_app_or in I as [I|[I|I]]; [apply in_map_iff in I as (z & X & _); discriminate|discriminate|].
          apply in_app_or in I as [I|I]; apply in_map_iff in I as (z & X & I'); [congruence|discriminate]. }
        apply Im in H as [A N]. apply ancestor_inv in A as [X|(p' & X & _)]; [contradiction|]. unfold sk_parents in X. rewrite nth_error_map, E1 in X. cbn in X. congruence. }
  split.
  - intros q i s Po Es. apply (proj1 (G q) i s Po Es).
  - intros q k s Po Es. destruct (proj2 (G q) k s Po Es) as (s' & x & H1 & _ & H2 & H3). exists s', rt, rs, x. auto.
Qed.

(** With the joint parameters that they had, the joints of the target are where they were, and those of
    the source are to the root joint as they were to theirs. *)
Theorem replace_worlds src tgt root sroot troot order fuel c' tp sp p tsts ssts : spliceable src tgt root sroot troot order -> replaceable src tgt order -> 2 <= fuel ->
  replace_hierarchy fuel src tgt root root = Ok c' -> unit_prerotations (fc_joints tgt) -> unit_prerotations (fc_joints src) ->
  fk (fc_joints tgt) tp = Ok tsts -> fk (fc_joints src) sp = Ok ssts -> joined_params order tp sp p ->
  exists sts, fk (fc_joints c') p = Ok sts /\ grafted order troot sroot tsts ssts sts.
Proof. intros SP RP Hf E. destruct (sparts_of _ _ _ _ _ _ _ _ SP RP Hf E) as (tk & sk & P). apply (worlds_of_sparts src tgt root sroot troot order tk sk c'); assumption. Qed.
Print Assumptions replace_worlds.

(** ** Parameters *)

Lemma maps_none order (side side' : nat -> from) n jmap a q : (forall i k, side i <> side' k) -> maps order side n jmap -> placed order (side' a) q -> forall i, nth_error jmap i <> Some (Some q).
Proof. intros D [_ M] P i E. apply M in E. unfold placed in *. apply (D i a). congruence. Qed.
Lemma row_new_in pt jmap valid base e' : In e' (flat_map (row_new pt jmap valid base) (seq 0 (pt_rows pt))) ->
  exists e j, In e (pt_entries pt) /\ nth_error jmap (erow e / 7) = Some (Some j) /\ erow e' = 7 * j + erow e mod 7.
Proof.
  intros H. apply in_flat_map in H as (k & _ & H). unfold row_new in H. destruct (nth_error jmap (k / 7)) as [[j|]|] eqn:E; try destruct H.
  apply in_map_iff in H as (e & <- & H). apply row_entries_in in H as [H Hr]. exists e, j. rewrite Hr. auto.
Qed.
Lemma row_new_has pt jmap valid base e j : In e (pt_entries pt) -> erow e < pt_rows pt -> nth_error jmap (erow e / 7) = Some (Some j) ->
  exists e', In e' (flat_map (row_new pt jmap valid base) (seq 0 (pt_rows pt))) /\ erow e' = 7 * j + erow e mod 7.
Proof.
  intros H Hr E. eexists (Entry (7 * j + erow e mod 7) _ _). split; [|reflexivity]. apply in_flat_map. exists (erow e). split; [apply in_seq; lia|].
  unfold row_new. rewrite E. apply in_map_iff. exists e. split; [reflexivity|]. apply row_entries_in. auto.
Qed.

(** The parameters that have an effect on a joint of the result are kept with their names, those of the
    target first. Each has the effect that it had, but the constant offsets are gone. *)
Theorem replace_parameters src tgt root sroot troot order fuel c' : spliceable src tgt root sroot troot order -> replaceable src tgt order -> 2 <= fuel ->
  replace_hierarchy fuel src tgt root root = Ok c' ->
  exists tk sk, List.length tk = pt_cols (fc_pt tgt) /\ List.length sk = pt_cols (fc_pt src) /\
    (forall i, is_kept tk i <-> drives_placed (fc_pt tgt) inl order i) /\ (forall i, is_kept sk i <-> drives_placed (fc_pt src) inr order i) /\
    List.length (pt_name (fc_pt c')) = new_index tk (List.length tk) + new_index sk (List.length sk) /\
    (forall i, is_kept tk i -> nth_error (pt_name (fc_pt c')) (new_index tk i) = nth_error (pt_name (fc_pt tgt)) i) /\
    (forall i, is_kept sk i -> nth_error (pt_name (fc_pt c')) (new_index tk (List.length tk) + new_index sk i) = nth_error (pt_name (fc_pt src)) i) /\
    pt_wf (fc_pt c') /\ pt_rows (fc_pt c') = 7 * List.length (fc_joints c') /\
    (forall nm k, in_set (pt_sets (fc_pt c')) nm k <->
      (exists i, in_set (pt_sets (fc_pt tgt)) nm i /\ is_kept tk i /\ k = new_index tk i) \/
      (exists i, in_set (pt_sets (fc_pt src)) nm i /\ is_kept sk i /\ k = new_index tk (List.length tk) + new_index sk i)) /\
    (forall q i d, placed order (inl i) q -> d < 7 -> nth_error (pt_active (fc_pt c')) (7 * q + d) = Some true <-> exists e, In e (pt_entries (fc_pt tgt)) /\ erow e = 7 * i + d) /\
    (forall q i d, placed order (inr i) q -> d < 7 -> nth_error (pt_active (fc_pt c')) (7 * q + d) = Some true <-> exists e, In e (pt_entries (fc_pt src)) /\ erow e = 7 * i + d) /\
    forall tq sq q tp sp, joined_values tk sk tq sq q -> pt_apply (fc_pt tgt) tq = Ok tp -> pt_apply (fc_pt src) sq = Ok sp ->
      exists p, pt_apply (fc_pt c') q = Ok p /\ List.length p = 7 * List.length order /\
        (forall a i d, placed order (inl i) a -> d < 7 -> nth (7 * a + d) p 0%R = (nth (7 * i + d) tp 0 - nth (7 * i + d) (pt_offsets (fc_pt tgt)) 0)%R) /\
        (forall a i d, placed order (inr i) a -> d < 7 -> nth (7 * a + d) p 0%R = (nth (7 * i + d) sp 0 - nth (7 * i + d) (pt_offsets (fc_pt src)) 0)%R).
Proof.
  intros SP RP Hf E. destruct (sparts_of _ _ _ _ _ _ _ _ SP RP Hf E) as (tk & sk & P). exists tk, sk.
  pose proof (sp_src _ _ _ _ _ _ SP) as As. pose proof (sp_tgt _ _ _ _ _ _ SP) as At. pose proof (at_pt _ As) as Ws. pose proof (at_pt _ At) as Wt.
  pose proof (sq_tlen _ _ _ _ _ _ _ _ P) as Lt. pose proof (sq_slen _ _ _ _ _ _ _ _ P) as Ls. pose proof (sq_tk _ _ _ _ _ _ _ _ P) as Kt. pose proof (sq_sk _ _ _ _ _ _ _ _ P) as Ks.
  destruct (sq_maps _ _ _ _ _ _ _ _ P) as (smap & tmap & Ms & Mt & Ee & _). set (base := new_index tk (List.length tk)) in *.
  assert (Rt : pt_rows (fc_pt tgt) = 7 * List.length tmap) by (rewrite (proj1 Mt); apply (at_rows tgt At)).
  assert (Rs : pt_rows (fc_pt src) = 7 * List.length smap) by (rewrite (proj1 Ms); apply (at_rows src As)).
  assert (Kt' : forall i, is_kept tk i <-> drives_mapped (fc_pt tgt) tmap i) by (intros i; rewrite Kt; symmetry; apply (drives_maps _ _ _ _ _ _ Mt)).
  assert (Ks' : forall i, is_kept sk i <-> drives_mapped (fc_pt src) smap i) by (intros i; rewrite Ks; symmetry; apply (drives_maps _ _ _ _ _ _ Ms)).
  assert (Nt : List.length (kept_names (pt_name (fc_pt tgt)) tk) = base) by apply (kept_names_length (fc_pt tgt) tmap Rt).
  assert (Ns : List.length (kept_names (pt_name (fc_pt src)) sk) = new_index sk (List.length sk)) by apply (kept_names_length (fc_pt src) smap Rs).
  assert (Ln : List.length (pt_name (fc_pt c')) = base + new_index sk (List.length sk)) by (rewrite (sq_names _ _ _ _ _ _ _ _ P), app_length, Nt, Ns; reflexivity).
  pose proof (sq_rows _ _ _ _ _ _ _ _ P) as Rw. destruct (sq_built _ _ _ _ _ _ _ _ P) as (b & B & Ej & _).
  split; [exact Lt|]. split; [exact Ls|]. split; [exact Kt|]. split; [exact Ks|]. split; [exact Ln|]. split.
  { intros i K. rewrite (sq_names _ _ _ _ _ _ _ _ P), nth_error_app1.
    - apply (kept_names_at (fc_pt tgt) tmap Rt); [exact K|]. rewrite (wf_names _ Wt), <- Lt. apply (nth_error_len _ _ _ K).
    - rewrite Nt. apply new_index_bound, K. }
  split.
  { intros i K. rewrite (sq_names _ _ _ _ _ _ _ _ P), nth_error_app2; rewrite Nt; [|lia]. replace (base + new_index sk i - base) with (new_index sk i) by lia.
    apply (kept_names_at (fc_pt src) smap Rs); [exact K|]. rewrite (wf_names _ Ws), <- Ls. apply (nth_error_len _ _ _ K). }
  assert (Er : forall e, In e (pt_entries (fc_pt c')) -> erow e < 7 * List.length order /\ ecol e < base + new_index sk (List.length sk)).
  { intros e He. rewrite Ee in He. apply in_app_or in He as [He|He]; split.
    - apply row_new_in in He as (e0 & j & _ & H2 & ->). apply (proj2 Mt) in H2. pose proof (placed_len _ _ _ H2). pose proof (Nat.mod_upper_bound (erow e0) 7 ltac:(lia)). lia.
    - destruct (new_cols (fc_pt tgt) tmap tk 0 Kt' e He) as (i & K & ->). pose proof (new_index_bound tk i K). unfold base. lia.
    - apply row_new_in in He as (e0 & j & _ & H2 & ->). apply (proj2 Ms) in H2. pose proof (placed_len _ _ _ H2). pose proof (Nat.mod_upper_bound (erow e0) 7 ltac:(lia)). lia.
    - destruct (new_cols (fc_pt src) smap sk base Ks' e He) as (i & K & ->). pose proof (new_index_bound sk i K). lia. }
  assert (W' : pt_wf (fc_pt c')).
  { destruct (sq_rest _ _ _ _ _ _ _ _ P) as (R1 & R2 & R3). constructor.
    - rewrite Ln, (sq_cols _ _ _ _ _ _ _ _ P). reflexivity.
    - rewrite (sq_offsets _ _ _ _ _ _ _ _ P), Rw. apply repeat_length.
    - rewrite (sq_cols _ _ _ _ _ _ _ _ P). pose proof (new_index_le tk (List.length tk)). pose proof (new_index_le sk (List.length sk)). pose proof (sp_max _ _ _ _ _ _ SP). lia.
    - intros e He. rewrite Rw, (sq_cols _ _ _ _ _ _ _ _ P). apply (Er e He).
    - rewrite R1. intros nm l i v [].
    - rewrite R2. intros z [].
    - rewrite R3. intros z []. }
  split; [exact W'|]. split; [rewrite Rw, Ej, (bu_joints _ _ _ _ _ _ B); reflexivity|]. split; [apply (sq_sets _ _ _ _ _ _ _ _ P)|].
  assert (Act : forall r, r < 7 * List.length order -> nth_error (pt_active (fc_pt c')) r = Some true <-> exists e, In e (pt_entries (fc_pt c')) /\ erow e = r).
  { intros r Hr. rewrite (sq_active _ _ _ _ _ _ _ _ P). unfold compute_active, active_rows. rewrite nth_error_map, Rw, (nth_error_nth' _ 0) by (rewrite seq_length; exact Hr).
    rewrite seq_nth by exact Hr. cbn [option_map Nat.add]. split.
    - intros X. injection X as X. apply existsb_exists in X as (e & I & Y). rewrite andb_true_r in Y. apply Nat.eqb_eq in Y. eauto.
    - intros (e & I & Y). f_equal. apply existsb_exists. exists e. split; [exact I|]. rewrite andb_true_r. apply Nat.eqb_eq, Y. }
  split; [|split].
  - intros q i d Pq Hd. pose proof (placed_len _ _ _ Pq). rewrite Act by lia. rewrite Ee. split.
    + intros (e & I & X). apply in_app_or in I as [I|I]; apply row_new_in in I as (e0 & j & H1 & H2 & H3); pose proof (Nat.mod_upper_bound (erow e0) 7 ltac:(lia)); assert (j = q) by lia; subst j.
      * exists e0. split; [exact H1|]. apply (proj2 Mt) in H2. assert (erow e0 / 7 = i) by (unfold placed in *; congruence). pose proof (Nat.div_mod (erow e0) 7 ltac:(lia)). lia.
      * destruct (maps_none order inr inl _ _ _ _ ltac:(discriminate) Ms Pq _ H2).
    + intros (e & I & X). destruct (div7 i d Hd) as [D1 D2].
      destruct (row_new_has (fc_pt tgt) tmap tk 0 e q I (proj1 (wf_entries _ Wt e I))) as (e' & I' & X'); [rewrite X, D1; apply (proj2 Mt), Pq|].
      exists e'. split; [apply in_or_app; left; exact I'|]. rewrite X', X, D2. reflexivity.
  - intros q i d Pq Hd. pose proof (placed_len _ _ _ Pq). rewrite Act by lia. rewrite Ee. split.
    + intros (e & I & X). apply in_app_or in I as [I|I]; apply row_new_in in I as (e0 & j & H1 & H2 & H3); pose proof (Nat.mod_upper_bound (erow e0) 7 ltac:(lia)); assert (j = q) by lia; subst j.
      * destruct (maps_none order inl inr _ _ _ _ ltac:(discriminate) Mt Pq _ H2).
      * exists e0. split; [exact H1|]. apply (proj2 Ms) in H2. assert (erow e0 / 7 = i) by (unfold placed in *; congruence). pose proof (Nat.div_mod (erow e0) 7 ltac:(lia)). lia.
    + intros (e & I & X). destruct (div7 i d Hd) as [D1 D2].
      destruct (row_new_has (fc_pt src) smap sk base e q I (proj1 (wf_entries _ Ws e I))) as (e' & I' & X'); [rewrite X, D1; apply (proj2 Ms), Pq|].
      exists e'. split; [apply in_or_app; right; exact I'|]. rewrite X', X, D2. reflexivity.
  - intros tq sq q tp sp (Lq & Qt & Qs) A1 A2. fold base in Lq, Qs.
    destruct (apply_affine_lemma (fc_pt c') q W') as (p & A & Lp & _); [rewrite (sq_cols _ _ _ _ _ _ _ _ P); exact Lq|]. exists p. split; [exact A|]. split; [rewrite Lp, Rw; reflexivity|].
    assert (Len : forall c v r, pt_wf (fc_pt c) -> pt_apply (fc_pt c) v = Ok r -> r = vadd_list (mat_vec (fc_pt c) v) (pt_offsets (fc_pt c))).
    { intros c v r W X. assert (L0 : List.length v = pt_cols (fc_pt c)).
      { destruct (Nat.eq_dec (List.length v) (pt_cols (fc_pt c))) as [|N]; [assumption|]. rewrite (apply_rejects_lemma _ v N) in X. discriminate. }
      unfold pt_apply in X. rewrite L0, Nat.eqb_refl, (wf_offsets _ W), Nat.eqb_refl in X. cbn [negb] in X. congruence. }
    apply Len in A; [|exact W']. apply Len in A1; [|exact Wt]. apply Len in A2; [|exact Ws]. rewrite A, A1, A2. clear A A1 A2 Len.
    split; intros a i d Pa Hd; pose proof (placed_len _ _ _ Pa) as La; assert (Hr : 7 * a + d < pt_rows (fc_pt c')) by lia.
    + pose proof (proj2 (proj2 Mt i a) Pa) as Em. pose proof (nth_error_len _ _ _ Em) as Hi. assert (Hr0 : 7 * i + d < pt_rows (fc_pt tgt)) by lia.
      rewrite !vadd_list_nth by (rewrite mat_vec_length, ?(wf_offsets _ Wt), ?(wf_offsets _ W'); first [reflexivity|assumption]).
      rewrite (mat_vec_nth _ q _ Hr), (mat_vec_nth _ tq _ Hr0), Ee, row_dot_app, (sq_offsets _ _ _ _ _ _ _ _ P), nth_repeat.
      rewrite (new_row_dot (fc_pt tgt) tmap Rt tk 0 Lt Kt' (maps_injective order inl _ _ ltac:(intros u v X; congruence) Mt) tq q i a d Qt Em Hd).
      rewrite (new_row_none (fc_pt src) smap Rs sk base Ls q a d (maps_none order inr inl _ _ _ _ ltac:(discriminate) Ms Pa) Hd). ring.
    + pose proof (proj2 (proj2 Ms i a) Pa) as Em. pose proof (nth_error_len _ _ _ Em) as Hi. assert (Hr0 : 7 * i + d < pt_rows (fc_pt src)) by lia.
      rewrite !vadd_list_nth by (rewrite mat_vec_length, ?(wf_offsets _ Ws), ?(wf_offsets _ W'); first [reflexivity|assumption]).
      rewrite (mat_vec_nth _ q _ Hr), (mat_vec_nth _ sq _ Hr0), Ee, row_dot_app, (sq_offsets _ _ _ _ _ _ _ _ P), nth_repeat.
      rewrite (new_row_dot (fc_pt src) smap Rs sk base Ls Ks' (maps_injective order inr _ _ ltac:(intros u v X; congruence) Ms) sq q i a d Qs Em Hd).
      rewrite (new_row_none (fc_pt tgt) tmap Rt tk 0 Lt q a d (maps_none order inl inr _ _ _ _ ltac:(discriminate) Mt Pa) Hd). ring.
Qed.
Print Assumptions replace_parameters.

(** So the pose is that of the same model parameters, if the joints have no offsets. *)
Theorem replace_pose_partial src tgt root sroot troot order fuel c' : spliceable src tgt root sroot troot order -> replaceable src tgt order -> 2 <= fuel ->
  replace_hierarchy fuel src tgt root root = Ok c' -> unit_prerotations (fc_joints tgt) -> unit_prerotations (fc_joints src) ->
  (forall i d, In (inl i) order -> d < 7 -> nth (7 * i + d) (pt_offsets (fc_pt tgt)) 0%R = 0%R) ->
  (forall i d, In (inr i) order -> d < 7 -> nth (7 * i + d) (pt_offsets (fc_pt src)) 0%R = 0%R) ->
  exists tk sk, List.length tk = pt_cols (fc_pt tgt) /\ List.length sk = pt_cols (fc_pt src) /\
    (forall i, is_kept tk i <-> drives_placed (fc_pt tgt) inl order i) /\ (forall i, is_kept sk i <-> drives_placed (fc_pt src) inr order i) /\
    forall tq sq q tp sp tsts ssts, joined_values tk sk tq sq q -> pt_apply (fc_pt tgt) tq = Ok tp -> pt_apply (fc_pt src) sq = Ok sp ->
      fk (fc_joints tgt) tp = Ok tsts -> fk (fc_joints src) sp = Ok ssts ->
      exists p sts, pt_apply (fc_pt c') q = Ok p /\ fk (fc_joints c') p = Ok sts /\ grafted order troot sroot tsts ssts sts.
Proof.
  intros SP RP Hf E Ut Us Ot Os. destruct (replace_parameters _ _ _ _ _ _ _ _ SP RP Hf E) as (tk & sk & H1 & H2 & H3 & H4 & _ & _ & _ & _ & _ & _ & _ & _ & H).
  exists tk, sk. split; [exact H1|]. split; [exact H2|]. split; [exact H3|]. split; [exact H4|]. intros tq sq q tp sp tsts ssts J A1 A2 F1 F2.
  destruct (H tq sq q tp sp J A1 A2) as (p & A & Lp & Nt & Ns). exists p.
  destruct (replace_worlds src tgt root sroot troot order fuel c' tp sp p tsts ssts SP RP Hf E Ut Us F1 F2) as (sts & F & G); [|eauto]. split; [exact Lp|]. split.
  - intros a i d Pa Hd. rewrite (Nt a i d Pa Hd), Ot; [ring|apply placed_in; eauto|exact Hd].
  - intros a i d Pa Hd. rewrite (Ns a i d Pa Hd), Os; [ring|apply placed_in; eauto|exact Hd].
Qed.
Print Assumptions replace_pose_partial.

(** Offsets, pose constraints, blend shape and face parameters are lost; blend and pose shapes are those
    of the target. *)
Theorem replace_forgets src tgt root sroot troot order fuel c' : spliceable src tgt root sroot troot order -> replaceable src tgt order -> 2 <= fuel ->
  replace_hierarchy fuel src tgt root root = Ok c' ->
  pt_offsets (fc_pt c') = repeat 0%R (7 * List.length order) /\ pt_pose (fc_pt c') = [] /\ pt_blend (fc_pt c') = [] /\ pt_face (fc_pt c') = [] /\
  fc_pose c' = fc_pose tgt /\ fc_blend c' = fc_blend tgt.
Proof.
  intros SP RP Hf E. destruct (sparts_of _ _ _ _ _ _ _ _ SP RP Hf E) as (tk & sk & P). destruct (sq_rest _ _ _ _ _ _ _ _ P) as (R1 & R2 & R3).
  destruct (sq_shapes _ _ _ _ _ _ _ _ P). pose proof (sq_offsets _ _ _ _ _ _ _ _ P). auto 7.
Qed.
Print Assumptions replace_forgets.

(** ** Skin *)

Lemma order_nodup src tgt root sroot troot order : spliceable src tgt root sroot troot order -> NoDup order.
Proof. intros SP. apply (NoDup_map_inv (from_name src tgt)), (sp_names _ _ _ _ _ _ SP). Qed.
Lemma same_name_place src tgt root sroot troot order o o' q q' : spliceable src tgt root sroot troot order -> placed order o q -> placed order o' q' -> from_name src tgt o = from_name src tgt o' -> q = q'.
Proof.
  intros SP P P' E. apply (proj1 (NoDup_nth_error (map (from_name src tgt) order)) (sp_names _ _ _ _ _ _ SP)); [rewrite map_length; apply (placed_len _ _ _ P)|].
  rewrite !nth_error_map. unfold placed in *. rewrite P, P'. cbn [option_map]. congruence.
Qed.

(** The mesh is that of the target; weights stay on the joints that stay, and go to the joints that
    replace the others. *)
Theorem replace_skin src tgt root sroot troot order fuel c' m s : spliceable src tgt root sroot troot order -> replaceable src tgt order -> 2 <= fuel ->
  replace_hierarchy fuel src tgt root root = Ok c' -> fc_mesh tgt = Some m -> fc_skin tgt = Some s ->
  fc_mesh c' = Some m /\ exists s', fc_skin c' = Some s' /\ Forall2 (Forall2 (influence_placed src tgt order)) s s'.
Proof.
  intros SP RP Hf E Em Es. destruct (sparts_of _ _ _ _ _ _ _ _ SP RP Hf E) as (tk & sk & P). destruct (sq_up _ _ _ _ _ _ _ _ P) as (up & skin & U & Lu & S1 & S2 & S3).
  rewrite Em, Es in *. destruct S1 as (s' & -> & F). split; [exact S2|]. exists s'. split; [exact S3|].
  refine (forall2_impl _ _ _ _ _ F). intros row row'. apply forall2_impl. intros x x' [W1 W2]. split; [exact W1|]. intros N. pose proof (W2 N) as X.
  assert (Hx : fst x < List.length (fc_joints tgt)) by (rewrite <- Lu; apply (nth_error_len _ _ _ X)). destruct (U (fst x) Hx) as (q & Eq & Sf). assert (q = fst x') as -> by congruence.
  split; [exact Sf|]. intros q Pq. destruct Sf as (o & Po & [Eo|[K _]]); [|destruct K; exists (inl (fst x)); split; [apply placed_in; eauto|reflexivity]].
  apply (same_name_place src tgt root sroot troot order o (inl (fst x))); auto.
Qed.
Print Assumptions replace_skin.

(** The inverse bind pose is that of zero parameters; if that of the target is too, its joints keep theirs. *)
Theorem replace_bind_partial src tgt root sroot troot order fuel c' : spliceable src tgt root sroot troot order -> replaceable src tgt order -> 2 <= fuel ->
  replace_hierarchy fuel src tgt root root = Ok c' -> unit_prerotations (fc_joints tgt) -> unit_prerotations (fc_joints src) -> zero_bind tgt ->
  zero_bind c' /\ forall i q, placed order (inl i) q -> nth_error (fc_inv c') q = nth_error (fc_inv tgt) i.
Proof.
  intros SP RP Hf E Ut Us (sts & F & Ei). destruct (sparts_of _ _ _ _ _ _ _ _ SP RP Hf E) as (tk & sk & P). destruct (sq_inv _ _ _ _ _ _ _ _ P) as (z & Fz & Ez).
  split; [exists z; auto|]. intros i q Pq. pose proof (fo_parents tgt (at_ok _ (sp_tgt _ _ _ _ _ _ SP))) as Vt. pose proof (fo_parents src (at_ok _ (sp_src _ _ _ _ _ _ SP))) as Vs.
  destruct (fk_ok (fc_joints src) (repeat 0%R (7 * List.length (fc_joints src))) Vs (repeat_length _ _)) as (ss & Fs & _).
  destruct (sq_built _ _ _ _ _ _ _ _ P) as (b & B & Ej & _).
  destruct (worlds_of_sparts src tgt root sroot troot order tk sk c' _ _ (repeat 0%R (7 * List.length (fc_joints c'))) sts ss SP P Ut Us F Fs) as (sts' & F' & [G _]).
  { split; [rewrite repeat_length, Ej, (bu_joints _ _ _ _ _ _ B); reflexivity|]. split; intros; rewrite !nth_repeat; reflexivity. }
  assert (sts' = z) as -> by congruence. rewrite Ei, Ez. unfold inverse_bind. rewrite !nth_error_map.
  destruct (fk_inv _ _ sts Vt F) as [_ FS]. destruct (nth_error_lt sts i) as [s Es].
  { rewrite (proj1 FS). destruct (bu_joint _ _ _ _ _ _ B q _ Pq) as (jt & _ & E1 & _). apply (nth_error_len _ _ _ E1). }
  destruct (G q i s Pq Es) as (s' & Es' & Ew). rewrite Es, Es'. cbn [option_map]. rewrite Ew. reflexivity.
Qed.
Print Assumptions replace_bind_partial.

(** Vertices that hang on joints of the target that stay are skinned as before. *)
Theorem replace_mesh_partial src tgt root sroot troot order fuel c' tp sp p tsts ssts sts row row' pos v : spliceable src tgt root sroot troot order -> replaceable src tgt order -> 2 <= fuel ->
  replace_hierarchy fuel src tgt root root = Ok c' -> unit_prerotations (fc_joints tgt) -> unit_prerotations (fc_joints src) -> zero_bind tgt ->
  fk (fc_joints tgt) tp = Ok tsts -> fk (fc_joints src) sp = Ok ssts -> joined_params order tp sp p -> fk (fc_joints c') p = Ok sts ->
  Forall2 (influence_placed src tgt order) row row' -> (forall j w, In (j, w) row -> w <> 0%R -> In (inl j) order) ->
  skinned (map (fun s => tf_affine (js_world s)) tsts) (fc_inv tgt) row pos v ->
  skinned (map (fun s => tf_affine (js_world s)) sts) (fc_inv c') row' pos v.
Proof.
  intros SP RP Hf E Ut Us Z F1 F2 J F FM K (vs & FA & ->). destruct (replace_worlds src tgt root sroot troot order fuel c' tp sp p tsts ssts SP RP Hf E Ut Us F1 F2 J) as (t & Ft & [G _]).
  assert (t = sts) as -> by congruence. destruct (replace_bind_partial src tgt root sroot troot order fuel c' SP RP Hf E Ut Us Z) as [_ NB]. exists vs. split; [|reflexivity]. revert vs FA K.
  induction FM as [|[j w] [j' w'] row row' [W1 W2] FM IH]; intros vs FA K; inversion FA as [|x v0 l vs0 A0 FA0]; subst; constructor; [|apply IH; [exact FA0|intros; eapply K; [right|]; eassumption]].
  cbn [fst snd] in *. subst w'. destruct (Req_EM_T w 0) as [->|D].
  - destruct A0 as [[_ ->]|(x & y & _ & _ & ->)]; left; cbn [fst snd]; (split; [reflexivity|]); [reflexivity|]. apply vscale_0_l.
  - destruct (W2 D) as [_ Wq]. pose proof (K j w (or_introl eq_refl) D) as I. apply placed_in in I as (q & Pq). rewrite (Wq q Pq) in *.
    destruct A0 as [[X _]|(x & y & X & Y & ->)]; [contradiction|]. cbn [fst snd] in *. right. cbn [fst snd]. exists x, y. split; [|split; [rewrite (NB j q Pq); exact Y|reflexivity]].
    rewrite nth_error_map in X |- *. destruct (nth_error tsts j) as [s|] eqn:Es; [|discriminate]. destruct (G q j s Pq Es) as (s' & Es' & W). rewrite Es'. cbn [option_map] in *. rewrite W. exact X.
Qed.
Print Assumptions replace_mesh_partial.

(** ** What is fixed to the joints *)

Lemma locators_side order (side : nat -> from) n jmap l l' : maps order side n jmap ->
  Forall2 (fun x x' => exists p k, lo_parent x = Some p /\ nth_error jmap p = Some (Some k) /\ x' = loc_with x k) (filter (parent_mapped lo_parent jmap) l) l' ->
  passed (locator_in order side) (locator_placed order side) l l'.
Proof.
  intros M F. exists (parent_mapped lo_parent jmap). split.
  - intros x _. unfold parent_mapped, locator_in. destruct (lo_parent x) as [p|]; [|split; [discriminate|intros (p & X & _); discriminate]].
    rewrite (mapped_to_placed _ _ _ _ _ M). split; [eauto|]. intros (q & X & I). congruence.
  - refine (forall2_impl _ _ _ _ _ F). intros x x' (p & k & Ep & Ek & ->). apply (proj2 M) in Ek. unfold locator_placed, loc_with. cbn. do 6 (split; [reflexivity|]). eauto.
Qed.
Lemma capsules_side order (side : nat -> from) n jmap l l' : maps order side n jmap ->
  Forall2 (fun x x' => exists p k, cap_parent x = Some p /\ nth_error jmap p = Some (Some k) /\ x' = cap_with x k) (filter (parent_mapped cap_parent jmap) l) l' ->
  passed (capsule_in order side) (capsule_placed order side) l l'.
Proof.
  intros M F. exists (parent_mapped cap_parent jmap). split.
  - intros x _. unfold parent_mapped, capsule_in. destruct (cap_parent x) as [p|]; [|split; [discriminate|intros (p & X & _); discriminate]].
    rewrite (mapped_to_placed _ _ _ _ _ M). split; [eauto|]. intros (q & X & I). congruence.
  - refine (forall2_impl _ _ _ _ _ F). intros x x' (p & k & Ep & Ek & ->). apply (proj2 M) in Ek. unfold capsule_placed, cap_with. cbn. do 4 (split; [reflexivity|]). eauto.
Qed.

Lemma tf_factor a x : tf_ok a -> tf_ok (tf_mul a x) -> tf_ok x.
Proof.
  intros [A1 A2] [B1 B2]. unfold tf_ok, tf_mul in *. cbn [rot scl trans] in *. unfold qunit in *. rewrite qnorm2_mul, A1, Rmult_1_l in B1. split; [exact B1|].
  intros X. apply B2. rewrite X. ring.
Qed.

(** The locators: those of the target, without the ones that a locator of the source replaces by name,
    then those of the source. The first are where they were, the others are to the root joint as they were. *)
Theorem replace_locators src tgt root sroot troot order fuel c' : spliceable src tgt root sroot troot order -> replaceable src tgt order -> 2 <= fuel ->
  replace_hierarchy fuel src tgt root root = Ok c' ->
  exists tl sl, fc_locs c' = tl ++ sl /\ passed (locator_in order inr) (locator_placed order inr) (fc_locs src) sl /\
    passed (fun l => locator_in order inl l /\ forall d, In d (fc_locs src) -> locator_in order inr d -> lo_name d <> lo_name l) (locator_placed order inl) (fc_locs tgt) tl /\
    forall tsts ssts sts, grafted order troot sroot tsts ssts sts ->
      (forall l l' v, locator_placed order inl l l' -> locator_position tsts l = Ok v -> locator_position sts l' = Ok v) /\
      (forall l l' v, locator_placed order inr l l' -> locator_position ssts l = Ok v ->
        unit_prerotations (fc_joints tgt) -> unit_prerotations (fc_joints src) -> (exists tp, fk (fc_joints tgt) tp = Ok tsts) -> (exists sp, fk (fc_joints src) sp = Ok ssts) ->
        exists rt rs u, nth_error tsts troot = Some rt /\ nth_error ssts sroot = Some rs /\ v = tf_point (js_world rs) u /\ locator_position sts l' = Ok (tf_point (js_world rt) u)).
Proof.
  intros SP RP Hf E. destruct (sparts_of _ _ _ _ _ _ _ _ SP RP Hf E) as (tk & sk & P).
  destruct (sq_maps _ _ _ _ _ _ _ _ P) as (smap & tmap & Ms & Mt & _ & (sl & tl & El & Fs & Ft) & _).
  exists (remove_duplicates tl sl), sl. split; [exact El|]. pose proof (locators_side order inr _ smap _ _ Ms Fs) as Ps. split; [exact Ps|]. split.
  { set (dup := fun l => existsb (fun d => parent_mapped lo_parent smap d && String.eqb (lo_name d) (lo_name l)) (fc_locs src)).
    exists (fun l => parent_mapped lo_parent tmap l && negb (dup l)). split.
    - intros l Hl. rewrite andb_true_iff, negb_true_iff. destruct (locators_side order inl _ tmap _ _ Mt Ft) as (_ & _ & _). split.
      + intros [H1 H2]. split.
        * unfold parent_mapped in H1. destruct (lo_parent l) as [p|] eqn:Ep; [|discriminate]. exists p. split; [exact Ep|]. apply (mapped_to_placed _ _ _ _ _ Mt), H1.
        * intros d Hd (p & Ep & I) En. assert (X : dup l = true); [|congruence]. apply existsb_exists. exists d. split; [exact Hd|]. rewrite En, String.eqb_refl, andb_true_r.
          unfold parent_mapped. rewrite Ep. apply (mapped_to_placed _ _ _ _ _ Ms), I.
      + intros [(p & Ep & I) H2]. split; [unfold parent_mapped; rewrite Ep; apply (mapped_to_placed _ _ _ _ _ Mt), I|]. destruct (dup l) eqn:D; [|reflexivity]. exfalso.
        apply existsb_exists in D as (d & Hd & X). apply andb_true_iff in X as [X1 X2]. apply String.eqb_eq in X2. apply (H2 d Hd); [|exact X2].
        unfold parent_mapped in X1. destruct (lo_parent d) as [p'|] eqn:Ep'; [|discriminate]. exists p'. split; [exact Ep'|]. apply (mapped_to_placed _ _ _ _ _ Ms), X1.
    - assert (Nm : forall nm, existsb (fun d => String.eqb (lo_name d) nm) sl = existsb (fun d => parent_mapped lo_parent smap d && String.eqb (lo_name d) nm) (fc_locs src)).
      { intros nm. clear - Fs. revert sl Fs. induction (fc_locs src) as [|x l IH]; intros sl F; cbn [filter] in F.
        - inversion F. reflexivity.
        - cbn [existsb]. destruct (parent_mapped lo_parent smap x); [|apply IH, F]. inversion F as [|a b la lb (p & k & _ & _ & ->) F']; subst. cbn [existsb]. rewrite (IH _ F'). reflexivity. }
      unfold remove_duplicates. clear - Ft Mt Nm. revert tl Ft. induction (fc_locs tgt) as [|x l IH]; intros tl F; cbn [filter] in F |- *.
      + inversion F. constructor.
      + destruct (parent_mapped lo_parent tmap x) eqn:Px; cbn [andb]; [|apply IH, F]. inversion F as [|a b la lb (p & k & Ep & Ek & ->) F']; subst. cbn [filter]. rewrite Nm.
        change (lo_name (loc_with x k)) with (lo_name x). fold (dup x). destruct (dup x); cbn [negb]; [apply IH, F'|]. constructor; [|apply IH, F'].
        apply (proj2 Mt) in Ek. unfold locator_placed, loc_with. cbn. do 6 (split; [reflexivity|]). eauto. }
  intros tsts ssts sts [G1 G2]. split.
  - intros l l' v (_ & Eo & _ & _ & _ & _ & p & q & Ep & Eq & Pq) H. unfold locator_position in *. rewrite Ep in H. rewrite Eq, Eo. unfold rd in *.
    destruct (nth_error tsts p) as [s|] eqn:Es; [|discriminate]. destruct (G1 q p s Pq Es) as (s' & Es' & W). rewrite Es'. cbn [obind] in *. rewrite W. exact H.
  - intros l l' v (_ & Eo & _ & _ & _ & _ & p & q & Ep & Eq & Pq) H Ut Us (tp & F1) (sp & F2). unfold locator_position in *. rewrite Ep in H. rewrite Eq, Eo. unfold rd in *.
    destruct (nth_error ssts p) as [s|] eqn:Es; [|discriminate]. destruct (G2 q p s Pq Es) as (s' & rt & rs & x & Es' & Ert & Ers & W1 & W2). rewrite Es'. cbn [obind] in *. injection H as <-.
    exists rt, rs. rewrite !tf_affine_point, W1, W2.
    pose proof (fo_parents tgt (at_ok _ (sp_tgt _ _ _ _ _ _ SP))) as Vt. pose proof (fo_parents src (at_ok _ (sp_src _ _ _ _ _ _ SP))) as Vs.
    destruct (fk_inv _ tp tsts Vt F1) as [_ FSt]. destruct (fk_inv _ sp ssts Vs F2) as [_ FSs].
    pose proof (fk_good _ _ _ Vt Ut FSt troot rt Ert) as [_ Gt]. pose proof (fk_good _ _ _ Vs Us FSs sroot rs Ers) as [_ Gs]. pose proof (fk_good _ _ _ Vs Us FSs p s Es) as [_ Gp].
    exists (tf_point x (lo_offset l)). split; [exact Ert|]. split; [exact Ers|]. rewrite W1 in Gp. apply tf_good_ok in Gt, Gs, Gp. pose proof (tf_factor _ _ Gs Gp) as Gx.
    rewrite !tf_point_mul by assumption. auto.
Qed.
Print Assumptions replace_locators.

(** The capsules: those of the target, then those of the source. *)
Theorem replace_capsules src tgt root sroot troot order fuel c' : spliceable src tgt root sroot troot order -> replaceable src tgt order -> 2 <= fuel ->
  replace_hierarchy fuel src tgt root root = Ok c' ->
  exists tl sl, caps_of c' = tl ++ sl /\ passed (capsule_in order inl) (capsule_placed order inl) (caps_of tgt) tl /\
    passed (capsule_in order inr) (capsule_placed order inr) (caps_of src) sl /\
    forall tsts ssts sts x x' v, grafted order troot sroot tsts ssts sts -> capsule_placed order inl x x' -> capsule_state tsts x = Ok v -> capsule_state sts x' = Ok v.
Proof.
  intros SP RP Hf E. destruct (sparts_of _ _ _ _ _ _ _ _ SP RP Hf E) as (tk & sk & P).
  destruct (sq_maps _ _ _ _ _ _ _ _ P) as (smap & tmap & Ms & Mt & _ & _ & (sl & tl & El & Fs & Ft) & _). exists tl, sl.
  split; [unfold caps_of; rewrite El; destruct (tl ++ sl); reflexivity|]. split; [apply (capsules_side _ _ _ _ _ _ Mt Ft)|]. split; [apply (capsules_side _ _ _ _ _ _ Ms Fs)|].
  intros tsts ssts sts x x' v [G _] (E1 & E2 & E3 & E4 & p & q & Ep & Eq & Pq) H. unfold capsule_state in *. rewrite Ep in H. rewrite Eq, E1, E2, E3, E4. unfold rd in *.
  destruct (nth_error tsts p) as [s|] eqn:Es; [|discriminate]. destruct (G q p s Pq Es) as (s' & Es' & W). rewrite Es'. cbn [obind] in *. rewrite W. exact H.
Qed.
Print Assumptions replace_capsules.

Lemma limits_side order (side : nat -> from) n jmap base kept l l' : maps order side n jmap ->
  Forall2 (limit_to jmap (nmap base kept (List.length kept))) (filter (limit_mapped jmap (nmap base kept (List.length kept))) l) l' ->
  passed (limit_in order side kept) (limit_placed order side kept base) l l'.
Proof.
  intros M F. assert (K : forall i, mapped_to (nmap base kept (List.length kept)) i = true <-> is_kept kept i).
  { intros i. unfold mapped_to. destruct (kept_dec kept i) as [X|X].
    - rewrite nmap_kept; [tauto|exact X|apply (nth_error_len _ _ _ X)].
    - split; [|contradiction]. destruct (nth_error (nmap base kept (List.length kept)) i) as [[k|]|] eqn:Y; try discriminate. apply nmap_inv in Y. tauto. }
  exists (limit_mapped jmap (nmap base kept (List.length kept))). split.
  - intros x _. unfold limit_mapped, limit_in. rewrite andb_true_iff, !forallb_forall. split; intros [H1 H2]; split; intros j Hj.
    + apply (mapped_to_placed _ _ _ _ _ M), H1, Hj.
    + apply K, H2, Hj.
    + apply (mapped_to_placed _ _ _ _ _ M), H1, Hj.
    + apply K, H2, Hj.
  - refine (forall2_impl _ _ _ _ _ F). intros x x' [(d & D1 & D2) H]. split; [|exact H]. exists d. split.
    + refine (limit_moved_impl _ _ _ _ _ D1). intros j k X. apply (proj2 M), X.
    + refine (limit_renamed_impl _ _ _ _ _ D2). intros j k X. apply nmap_inv in X. exact X.
Qed.

(** The limits whose joints and parameters are in the result: those of the target, then those of the source. *)
Theorem replace_limits src tgt root sroot troot order fuel c' : spliceable src tgt root sroot troot order -> replaceable src tgt order -> 2 <= fuel ->
  replace_hierarchy fuel src tgt root root = Ok c' ->
  exists tk sk tl sl, List.length tk = pt_cols (fc_pt tgt) /\ List.length sk = pt_cols (fc_pt src) /\
    (forall i, is_kept tk i <-> drives_placed (fc_pt tgt) inl order i) /\ (forall i, is_kept sk i <-> drives_placed (fc_pt src) inr order i) /\
    fc_limits c' = tl ++ sl /\ passed (limit_in order inl tk) (limit_placed order inl tk 0) (fc_limits tgt) tl /\
    passed (limit_in order inr sk) (limit_placed order inr sk (new_index tk (List.length tk))) (fc_limits src) sl.
Proof.
  intros SP RP Hf E. destruct (sparts_of _ _ _ _ _ _ _ _ SP RP Hf E) as (tk & sk & P). pose proof (sq_tlen _ _ _ _ _ _ _ _ P) as Lt. pose proof (sq_slen _ _ _ _ _ _ _ _ P) as Ls.
  destruct (sq_maps _ _ _ _ _ _ _ _ P) as (smap & tmap & Ms & Mt & _ & _ & _ & (sl & tl & El & Fs & Ft)). exists tk, sk, tl, sl.
  split; [exact Lt|]. split; [exact Ls|]. split; [apply (sq_tk _ _ _ _ _ _ _ _ P)|]. split; [apply (sq_sk _ _ _ _ _ _ _ _ P)|]. split; [exact El|].
  rewrite <- Lt in Ft. rewrite <- Ls in Fs. split; [apply (limits_side _ _ _ _ _ _ _ _ Mt Ft)|apply (limits_side _ _ _ _ _ _ _ _ Ms Fs)].
Qed.
Print Assumptions replace_limits.

(** ** Failures *)

(** Everything before the search for the joints that take the weights. *)
Lemma until_climb src tgt root sroot troot order : spliceable src tgt root sroot troot order ->
  exists b rest, built src tgt troot sroot order b /\
    forall fuel, replace_hierarchy fuel src tgt root root = obind (climb_all_names fuel (fc_names tgt) (fc_joints tgt) (cb_assoc b)) rest.
Proof.
  intros SP. pose proof (sp_src _ _ _ _ _ _ SP) as As. pose proof (sp_tgt _ _ _ _ _ _ SP) as At.
  destruct (named_root src root sroot As (sp_sroot _ _ _ _ _ _ SP)) as [Is Hs]. destruct (named_root tgt root troot At (sp_troot _ _ _ _ _ _ SP)) as [It Ht].
  destruct (joined src tgt root sroot troot order As At (sp_sroot _ _ _ _ _ _ SP) (sp_troot _ _ _ _ _ _ SP) (sp_order _ _ _ _ _ _ SP)) as [(_ & b & smap & tmap & Ec & B & Ms & Mt)|[D _]].
  2:{ destruct (D (sp_names _ _ _ _ _ _ SP)). }
  pose proof (bu_joints _ _ _ _ _ _ B) as Lb.
  destruct (tgt_mapped tgt order (List.length (cb_joints b)) tmap At Mt Lb) as (tk & tsets & Ltk & Mtk & Ea1 & As1).
  match type of Ea1 with _ = Ok (?p, _) => set (pt1 := p) in Ea1 end. pose proof (at_pt tgt At) as Wt. pose proof (at_pt src As) as Ws.
  assert (Lkn : List.length (kept_names (pt_name (fc_pt tgt)) tk) = new_index tk (List.length tk)) by (apply (kept_names_length (fc_pt tgt) tmap); rewrite (proj1 Mt); apply (at_rows tgt At)).
  destruct (add_mapped_ok (fc_pt src) smap (List.length (cb_joints b)) pt1) as (sk & sets & Lsk & Msk & Ea2 & As2).
  { exact Ws. } { rewrite (proj1 Ms). apply (at_rows src As). } { intros a j E. apply (proj2 Ms) in E. rewrite Lb. apply (placed_len _ _ _ E). } { reflexivity. }
  { unfold pt1. cbn [pt_name]. rewrite Lkn. pose proof (new_index_le tk (List.length tk)). pose proof (sp_max _ _ _ _ _ _ SP). lia. }
  { intros c nm Dc En I. unfold pt1 in I. cbn [pt_name] in I. apply kept_names_in in I as (i & Ki & Ei); [|rewrite Ltk; symmetry; apply (wf_names _ Wt)].
    apply (sp_params _ _ _ _ _ _ SP i c nm); auto; [apply Mtk, Ki|apply (drives_maps _ _ _ _ _ _ Ms), Dc]. }
  destruct (map_parents_ok lo_parent loc_with smap (fc_locs src)) as (slocs & Esl & Fsl). { intros l Hl. rewrite (proj1 Ms). apply (at_locs src As l Hl). }
  destruct (map_parents_ok lo_parent loc_with tmap (fc_locs tgt)) as (tlocs & Etl & Ftl). { intros l Hl. rewrite (proj1 Mt). apply (at_locs tgt At l Hl). }
  assert (Ecap : forall c jmap, attached c -> List.length jmap = List.length (fc_joints c) -> exists caps, match fc_caps c with None => Ok [] | Some l => map_parents cap_parent cap_with jmap l end = Ok caps).
  { intros c jmap Ac L. destruct (fc_caps c) as [l|] eqn:Eq; [|exists []; reflexivity]. destruct (map_parents_ok cap_parent cap_with jmap l) as (l' & X & _); [|eauto]. intros x Hx. rewrite L. apply (at_caps c Ac l x Eq Hx). }
  destruct (Ecap tgt tmap At (proj1 Mt)) as (tcaps & Etc). destruct (Ecap src smap As (proj1 Ms)) as (scaps & Esc).
  destruct (map_limits_ok tmap (nmap 0 tk (pt_cols (fc_pt tgt))) (fc_limits tgt)) as (tlims & Etm & Ftm).
  { intros l j Hl Hj. rewrite (proj1 Mt). apply (at_limit_joints tgt At l j Hl Hj). } { intros l j Hl Hj. rewrite nmap_length, Ltk. apply (at_limit_params tgt At l j Hl Hj). }
  destruct (map_limits_ok smap (nmap (List.length (pt_name pt1)) sk (pt_cols (fc_pt src))) (fc_limits src)) as (slims & Esm & Fsm).
  { intros l j Hl Hj. rewrite (proj1 Ms). apply (at_limit_joints src As l j Hl Hj). } { intros l j Hl Hj. rewrite nmap_length, Lsk. apply (at_limit_params src As l j Hl Hj). }
  exists b. eexists. split; [exact B|]. intros fuel.
  unfold replace_hierarchy. destruct (fc_joints src) as [|j0 js] eqn:Ej; [destruct (fo_some src (at_ok src As) Ej)|]. rewrite <- Ej in *. rewrite It, Is, Ec. cbn [obind].
  rewrite Esl. cbn [obind]. rewrite Etl. cbn [obind]. rewrite Etc. cbn [obind]. rewrite Esc. cbn [obind]. rewrite Ea1. cbn [obind]. rewrite Ea2. cbn [obind].
  rewrite Etm. cbn [obind]. rewrite Esm. cbn [obind]. reflexivity.
Qed.

(** If neither a joint nor its parent has a joint of its name in the result, the call never returns. *)
Theorem replace_loops src tgt root sroot troot order i p : spliceable src tgt root sroot troot order ->
  nth_error (sk_parents (fc_joints tgt)) i = Some (Some p) -> ~ known src tgt order i -> ~ known src tgt order p ->
  forall fuel, replace_hierarchy fuel src tgt root root = OutOfFuel.
Proof.
  intros SP Ep Ki Kp fuel. destruct (until_climb _ _ _ _ _ _ SP) as (b & rest & B & E). pose proof (at_ok _ (sp_tgt _ _ _ _ _ _ SP)) as Ok0. rewrite E.
  rewrite (climb_all_stuck src tgt troot sroot order b B (fo_names tgt Ok0) fuel i p (fo_parents tgt Ok0)); auto.
  intros r Er. destruct (sp_order _ _ _ _ _ _ SP) as (l1 & mid & l2 & -> & _ & _ & H & _). exists (inl r). split; [|reflexivity].
  assert (I : In r (l1 ++ troot :: l2)).
  { apply H. split; [apply (nth_error_len _ _ _ Er)|]. intros [A D]. apply ancestor_inv in A as [A|(x & Ex & _)]; congruence. }
  apply in_app_or in I as [I|[->|I]]; apply in_or_app; [left; apply in_map, I|right; left; reflexivity|right; right; apply in_or_app; right; apply in_map, I].
Qed.
Print Assumptions replace_loops.

(** A parameter name of the source that the target has too is refused. *)
Theorem replace_clash src tgt root sroot troot order fuel i k nm : attached src -> attached tgt -> first_named (fc_names src) root sroot -> first_named (fc_names tgt) root troot ->
  spliced (sk_parents (fc_joints tgt)) (sk_parents (fc_joints src)) troot sroot order ->
  drives_placed (fc_pt tgt) inl order i -> drives_placed (fc_pt src) inr order k -> nth_error (pt_name (fc_pt tgt)) i = Some nm -> nth_error (pt_name (fc_pt src)) k = Some nm ->
  replace_hierarchy fuel src tgt root root = Throw.
Proof.
  intros As At Fs Ft Sp Di Dk Ei Ek. destruct (joined src tgt root sroot troot order As At Fs Ft Sp) as [(_ & b & smap & tmap & Ec & B & Ms & Mt)|[_ E]].
  2:{ unfold replace_hierarchy. destruct (fc_joints src) eqn:Ej; [reflexivity|]. rewrite <- Ej in *. rewrite (proj1 (named_root tgt root troot At Ft)), (proj1 (named_root src root sroot As Fs)), E. reflexivity. }
  pose proof (bu_joints _ _ _ _ _ _ B) as Lb. destruct (tgt_mapped tgt order (List.length (cb_joints b)) tmap At Mt Lb) as (tk & tsets & Ltk & Mtk & Ea1 & As1).
  match type of Ea1 with _ = Ok (?p, _) => set (pt1 := p) in Ea1 end. pose proof (at_pt tgt At) as Wt. pose proof (at_pt src As) as Ws.
  destruct (map_parents_ok lo_parent loc_with smap (fc_locs src)) as (slocs & Esl & _). { intros l Hl. rewrite (proj1 Ms). apply (at_locs src As l Hl). }
  destruct (map_parents_ok lo_parent loc_with tmap (fc_locs tgt)) as (tlocs & Etl & _). { intros l Hl. rewrite (proj1 Mt). apply (at_locs tgt At l Hl). }
  assert (Ecap : forall c jmap, attached c -> List.length jmap = List.length (fc_joints c) -> exists caps, match fc_caps c with None => Ok [] | Some l => map_parents cap_parent cap_with jmap l end = Ok caps).
  { intros c jmap Ac L. destruct (fc_caps c) as [l|] eqn:Eq; [|exists []; reflexivity]. destruct (map_parents_ok cap_parent cap_with jmap l) as (l' & X & _); [|eauto]. intros x Hx. rewrite L. apply (at_caps c Ac l x Eq Hx). }
  destruct (Ecap tgt tmap At (proj1 Mt)) as (tcaps & Etc). destruct (Ecap src smap As (proj1 Ms)) as (scaps & Esc).
  unfold replace_hierarchy. destruct (fc_joints src) as [|j0 js] eqn:Ej; [destruct (fo_some src (at_ok src As) Ej)|]. rewrite <- Ej in *.
  rewrite (proj1 (named_root tgt root troot At Ft)), (proj1 (named_root src root sroot As Fs)), Ec. cbn [obind].
  rewrite Esl. cbn [obind]. rewrite Etl. cbn [obind]. rewrite Etc. cbn [obind]. rewrite Esc. cbn [obind]. rewrite Ea1. cbn [obind].
  unfold add_mapped. assert (Rs : pt_rows (fc_pt src) = 7 * List.length smap) by (rewrite (proj1 Ms); apply (at_rows src As)).
  destruct (used_params_ok (fc_pt src) smap Ws Rs) as (valid & Eu & Lv & Mv). rewrite Eu. cbn [obind].
  rewrite (number_params_throw (fc_pt src) smap Ws Rs valid (pt_name pt1) k nm); [reflexivity|exact Lv|apply Mv, (drives_maps _ _ _ _ _ _ Ms), Dk|exact Ek|].
  unfold pt1. cbn [pt_name]. apply (nth_error_In _ (new_index tk i)). rewrite (kept_names_at (fc_pt tgt) tmap); [exact Ei| |apply Mtk, Di|apply (nth_error_len _ _ _ Ei)].
  rewrite (proj1 Mt). apply (at_rows tgt At).
Qed.
Print Assumptions replace_clash.

(** ** Cases *)

Local Open Scope R_scope.
(** A character that is only a skeleton. *)
Definition bare (names : list string) (sk : skeleton) : fchar :=
  FC names sk (pt_empty (7 * List.length sk)) [] [] None None None None None (repeat id_aff (List.length sk)).
Lemma bare_attached names sk : valid_sk sk -> sk <> [] -> List.length names = List.length sk -> attached (bare names sk).
Proof.
  intros V N L. constructor; try (intros; contradiction); try (intros; discriminate); try reflexivity.
  - constructor; [exact V|exact N|exact L|apply repeat_length].
  - constructor; try reflexivity; try (intros; contradiction); [apply repeat_length|apply Nat.le_0_l].
Qed.
Definition jt (p : option nat) : joint := Joint p vzero qid.

(** The root joints need the same name: the joints below that of the source look for it by name. *)
Theorem replace_names_refuted : exists src tgt sname tname, attached src /\ attached tgt /\ In sname (fc_names src) /\ In tname (fc_names tgt) /\
  NoDup (fc_names src ++ fc_names tgt) /\ forall fuel, replace_hierarchy fuel src tgt sname tname = CheckFail.
Proof.
  exists (bare ["arm"%string; "hand"%string] [jt None; jt (Some 0%nat)]), (bare ["shoulder"%string] [jt None]), "arm"%string, "shoulder"%string.
  split. { apply bare_attached; [|discriminate|reflexivity]. intros [|[|[|i]]] p H; try discriminate. injection H as <-. lia. }
  split. { apply bare_attached; [|discriminate|reflexivity]. intros [|[|i]] p H; discriminate. }
  split; [left; reflexivity|]. split; [left; reflexivity|]. split; [|intros fuel; reflexivity].
  repeat constructor; cbn; intuition discriminate.
Qed.
Print Assumptions replace_names_refuted.

(** Or, if another joint of the target has that name, they are attached to it. *)
Theorem replace_wrong_parent_refuted : exists src tgt sname tname c' troot q, attached src /\ attached tgt /\ first_named (fc_names tgt) tname troot /\
  first_named (fc_names src) sname 0 /\ jparent (nth 1 (fc_joints src) (jt None)) = Some 0%nat /\ nth_error (fc_names src) 1 = Some "hand"%string /\
  (forall fuel, (2 <= fuel)%nat -> replace_hierarchy fuel src tgt sname tname = Ok c') /\
  nth_error (fc_names c') q = Some "hand"%string /\ nth_error (fc_names c') troot = Some tname /\ jparent (nth q (fc_joints c') (jt None)) <> Some troot.
Proof.
  set (src := bare ["arm"%string; "hand"%string] [jt None; jt (Some 0%nat)]). set (tgt := bare ["arm"%string; "shoulder"%string; "elbow"%string] [jt None; jt (Some 0%nat); jt (Some 1%nat)]).
  destruct (make_zero ["arm"%string; "shoulder"%string; "hand"%string] [jt None; jt (Some 0%nat); jt (Some 0%nat)]
    (PT [] 21 0 [] (repeat 0 21) (compute_active (pt_empty 21) (fun _ => true)) [] [] [] []) [] [] None None None None None) as (sts & _ & E).
  { intros [|[|[|[|i]]]] p H; try discriminate; injection H as <-; lia. } { reflexivity. }
  exists src, tgt, "arm"%string, "shoulder"%string. eexists. exists 1%nat, 2%nat.
  split. { apply bare_attached; [|discriminate|reflexivity]. intros [|[|[|i]]] p H; try discriminate. injection H as <-. lia. }
  split. { apply bare_attached; [|discriminate|reflexivity]. intros [|[|[|[|i]]]] p H; try discriminate; injection H as <-; lia. }
  split. { split; [reflexivity|]. intros [|k] Hk; [discriminate|lia]. }
  split. { split; [reflexivity|]. intros k Hk. lia. }
  split; [reflexivity|]. split; [reflexivity|]. split. { intros [|[|fuel]] Hf; try lia. etransitivity; [|exact E]. reflexivity. }
  split; [reflexivity|]. split; [reflexivity|]. discriminate.
Qed.
Print Assumptions replace_wrong_parent_refuted.

(** Fingers that go, while the hand goes too: the call never returns. *)
Theorem replace_loops_refuted : exists src tgt root sroot troot order, spliceable src tgt root sroot troot order /\
  forall fuel, replace_hierarchy fuel src tgt root root = OutOfFuel.
Proof.
  set (src := bare ["arm"%string; "hook"%string] [jt None; jt (Some 0%nat)]). set (tgt := bare ["arm"%string; "hand"%string; "finger"%string] [jt None; jt (Some 0%nat); jt (Some 1%nat)]).
  assert (As : attached src). { apply bare_attached; [|discriminate|reflexivity]. intros [|[|[|i]]] p H; try discriminate. injection H as <-. lia. }
  assert (At : attached tgt). { apply bare_attached; [|discriminate|reflexivity]. intros [|[|[|[|i]]]] p H; try discriminate; injection H as <-; lia. }
  set (order := [inl 0%nat; inr 1%nat] : list from). assert (SP : spliceable src tgt "arm" 0 0 order).
  { constructor; [exact As|exact At|split; [reflexivity|intros; lia]|split; [reflexivity|intros; lia]| | |intros i k nm (e & [] & _)|apply Nat.le_0_l].
    - refine (order_spliced src tgt 0 0 _ _ eq_refl eq_refl _ _); [apply (fo_parents _ (at_ok _ As))|apply (fo_parents _ (at_ok _ At))|cbn; lia|cbn; lia].
    - repeat constructor; cbn; intuition discriminate. }
  exists src, tgt, "arm"%string, 0%nat, 0%nat, order. split; [exact SP|].
  apply (replace_loops src tgt "arm" 0 0 order 2 1 SP eq_refl); intros (o & [<-|[<-|[]]] & X); discriminate.
Qed.
Print Assumptions replace_loops_refuted.

(** A body whose arm is replaced by another; the finger's weights go to the new hand. *)
Definition body_char (inv : list affine) : fchar :=
  FC ["root"%string; "arm"%string; "hand"%string; "finger"%string; "head"%string] [jt None; jt (Some 0%nat); jt (Some 1%nat); jt (Some 2%nat); jt (Some 0%nat)]
    (PT ["root_tx"%string; "hand_tx"%string; "head_tx"%string] 35 3 [Entry 0 0 1; Entry 14 1 1; Entry 28 2 1] (repeat 0 35) (repeat true 35) [("all"%string, fun i => (i <? 3)%nat)] [] [] [])
    [FL (PLimit (LMinMax 1 (-1) 1) 1) id_aff id_aff vzero; FL (PLimit (LMinMax 2 (-1) 1) 1) id_aff id_aff vzero; FL (PLimit (LEllipsoid 4 0) 1) id_aff id_aff vzero]
    [Locator "nose" (Some 4%nat) vzero (false, false, false) 1 vzero vzero; Locator "palm" (Some 2%nat) vzero (false, false, false) 1 vzero vzero; Locator "elbow" (Some 1%nat) vzero (false, false, false) 1 vzero vzero]
    (Some (FM [vzero; vzero] [])) (Some [[(3%nat, 1)]; [(4%nat, / 2); (0%nat, / 2)]]) (Some [Cap id_aff 1 1 (Some 2%nat) 1; Cap id_aff 1 1 (Some 4%nat) 1]) None None inv.
Definition arm_char : fchar :=
  FC ["base"%string; "arm"%string; "hand"%string; "wrist"%string] [jt None; jt (Some 0%nat); jt (Some 1%nat); jt (Some 1%nat)]
    (PT ["base_tx"%string; "hand_ty"%string] 28 2 [Entry 0 0 1; Entry 15 1 1] (repeat 0 28) (repeat true 28) [("all"%string, fun i => (i <? 2)%nat)] [] [] [])
    [FL (PLimit (LMinMax 0 (-1) 1) 1) id_aff id_aff vzero; FL (PLimit (LMinMax 1 (-1) 1) 1) id_aff id_aff vzero]
    [Locator "elbow" (Some 3%nat) vzero (false, false, false) 1 vzero vzero; Locator "palm" (Some 2%nat) (V3 1 0 0) (false, false, false) 1 vzero vzero]
    None None (Some [Cap id_aff 1 2 (Some 2%nat) 1]) None None (repeat id_aff 4).
Definition body_order : list from := [inl 0%nat; inl 1%nat; inr 2%nat; inr 3%nat; inl 4%nat].

Lemma body_spliceable inv : List.length inv = 5%nat -> spliceable arm_char (body_char inv) "arm" 1 1 body_order.
Proof.
  intros Li. assert (As : attached arm_char).
  { constructor.
    - constructor; [|discriminate|reflexivity|reflexivity]. intros [|[|[|[|[|i]]]]] p H; try discriminate; injection H as <-; lia.
    - constructor; try reflexivity; try (intros; contradiction); [apply Nat.leb_le; reflexivity|intros e [<-|[<-|[]]]; cbn; lia].
    - reflexivity.
    - intros l [<-|[<-|[]]]; eexists; (split; [reflexivity|cbn; lia]).
    - intros l x X Y. injection X as <-. destruct Y as [<-|[]]. eexists. split; [reflexivity|cbn; lia].
    - intros l j [<-|[<-|[]]] H; cbn in H; contradiction.
    - intros l j [<-|[<-|[]]] H; cbn in H; destruct H as [<-|[]]; cbn; lia.
    - intros s row j w X. discriminate. }
  assert (At : attached (body_char inv)).
  { constructor.
    - constructor; [|discriminate|reflexivity|exact Li]. intros [|[|[|[|[|[|i]]]]]] p H; try discriminate; injection H as <-; lia.
    - constructor; try reflexivity; try (intros; contradiction); [apply Nat.leb_le; reflexivity|intros e [<-|[<-|[<-|[]]]]; cbn; lia].
    - reflexivity.
    - intros l [<-|[<-|[<-|[]]]]; eexists; (split; [reflexivity|cbn; lia]).
    - intros l x X Y. injection X as <-. destruct Y as [<-|[<-|[]]]; eexists; (split; [reflexivity|cbn; lia]).
    - intros l j [<-|[<-|[<-|[]]]] H; cbn in H; try contradiction. destruct H as [<-|[<-|[]]]; cbn; lia.
    - intros l j [<-|[<-|[<-|[]]]] H; cbn in H; try contradiction; destruct H as [<-|[]]; cbn; lia.
    - intros s row j w X Hr Hj _. injection X as <-. destruct Hr as [<-|[<-|[]]]; [destruct Hj as [Y|[]]|destruct Hj as [Y|[Y|[]]]]; injection Y as <- _; cbn; lia. }
  constructor; [exact As|exact At| | | | | |].
  - split; [reflexivity|]. intros [|k] Hk; [discriminate|lia].
  - split; [reflexivity|]. intros [|k] Hk; [discriminate|lia].
  - refine (order_spliced arm_char (body_char inv) 1 1 _ _ eq_refl eq_refl _ _); [apply (fo_parents _ (at_ok _ As))|apply (fo_parents _ (at_ok _ At))|cbn; lia|cbn; lia].
  - repeat constructor; cbn; intuition discriminate.
  - intros i k nm _ _ E1 E2. destruct i as [|[|[|[|i]]]]; try discriminate; destruct k as [|[|[|k]]]; cbn in E1, E2; congruence.
  - apply Nat.leb_le. reflexivity.
Qed.

Example replace_case : exists inv, let c := body_char inv in spliceable arm_char c "arm" 1 1 body_order /\ replaceable arm_char c body_order /\ zero_bind c /\
  unit_prerotations (fc_joints c) /\ unit_prerotations (fc_joints arm_char) /\ ~ known arm_char c body_order 3 /\ known arm_char c body_order 2 /\
  (forall fuel, (2 <= fuel)%nat -> exists c', replace_hierarchy fuel arm_char c "arm" "arm" = Ok c') /\
  drives_placed (fc_pt c) inl body_order 0 /\ ~ drives_placed (fc_pt c) inl body_order 1 /\ drives_placed (fc_pt arm_char) inr body_order 1 /\
  joined_params body_order (map INR (seq 0 35)) (map INR (seq 100 28)) (map INR (seq 0 14 ++ seq 114 14 ++ seq 28 7)).
Proof.
  destruct (fk_ok (fc_joints (body_char [])) (repeat 0 35)) as (sts & F & Ls).
  { intros [|[|[|[|[|[|i]]]]]] p H; try discriminate; injection H as <-; lia. } { reflexivity. }
  exists (inverse_bind sts). cbv zeta. assert (Li : List.length (inverse_bind sts) = 5%nat) by (unfold inverse_bind; rewrite map_length; exact (proj1 Ls)).
  pose proof (body_spliceable _ Li) as SP.
  assert (RP : replaceable arm_char (body_char (inverse_bind sts)) body_order).
  { assert (K : forall i o, In o body_order -> from_name arm_char (body_char (inverse_bind sts)) o = nth_error (fc_names (body_char (inverse_bind sts))) i -> known arm_char (body_char (inverse_bind sts)) body_order i) by (intros i o I E; exists o; auto).
    intros [|[|[|[|[|i]]]]] Hi.
    - left. apply (K 0%nat (inl 0%nat)); [left; reflexivity|reflexivity].
    - left. apply (K 1%nat (inl 1%nat)); [right; left; reflexivity|reflexivity].
    - left. apply (K 2%nat (inr 2%nat)); [do 2 right; left; reflexivity|reflexivity].
    - right. exists 2%nat. split; [reflexivity|]. apply (K 2%nat (inr 2%nat)); [do 2 right; left; reflexivity|reflexivity].
    - left. apply (K 4%nat (inl 4%nat)); [do 4 right; left; reflexivity|reflexivity].
    - cbn in Hi. lia. }
  split; [exact SP|]. split; [exact RP|]. split; [exists sts; split; [exact F|reflexivity]|].
  split. { intros [|[|[|[|[|i]]]]] j H; try (injection H as <-; apply qunit_id); destruct i; discriminate. }
  split. { intros [|[|[|[|i]]]] j H; try (injection H as <-; apply qunit_id); destruct i; discriminate. }
  split. { intros (o & I & E). repeat (destruct I as [<-|I]; [discriminate|]). contradiction. }
  split. { exists (inr 2%nat). split; [do 2 right; left; reflexivity|reflexivity]. }
  split. { intros [|[|fuel]] Hf; try lia. destruct (replace_parts _ _ _ _ _ _ fuel SP RP) as (c' & _ & _ & E & _). eauto. }
  split. { exists (Entry 0 0 1). split; [left; reflexivity|]. split; [reflexivity|left; reflexivity]. }
  split. { intros (e & I & Ec & In0). destruct I as [<-|[<-|[<-|[]]]]; try discriminate. change (In (inl 2%nat : from) body_order) in In0. repeat (destruct In0 as [X|In0]; [discriminate|]). contradiction. }
  split. { exists (Entry 15 1 1). split; [right; left; reflexivity|]. split; [reflexivity|do 2 right; left; reflexivity]. }
  split; [reflexivity|]. split; intros q i d P Hd.
  - destruct q as [|[|[|[|[|q]]]]]; try discriminate; [| | |destruct q; discriminate]; injection P as <-; do 7 (destruct d as [|d]; [reflexivity|]); lia.
  - destruct q as [|[|[|[|[|q]]]]]; try discriminate; [| |destruct q; discriminate]; injection P as <-; do 7 (destruct d as [|d]; [reflexivity|]); lia.
Qed.
