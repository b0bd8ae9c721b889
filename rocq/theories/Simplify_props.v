(** Properties C46 (simplified skeletons) and C85 (active joints and parameters). *)

From Coq Require Import Bool Reals List Arith Lia Lra String.
From Verif Require Import Prelude Loops R3 LinAlg Transform_model Transform_proofs Skeleton_spec Skeleton_proofs FK_model FK_spec FK_proofs
  ParamTransform_model ParamTransform_spec ParamTransform_proofs ParamTransform_map_proofs Locator_model Locator_spec
  Simplify_model Simplify_spec Simplify_proofs.
Import ListNotations.
Local Open Scope nat_scope.

(** ** What simplifySkeleton computes *)

Lemma remap_limits_ok jmap n (m : nat -> nat -> Prop) : (forall j, j < n -> exists k, m j k /\ nth_error jmap j = Some (Some k)) ->
  forall ls, (forall l j, In l ls -> In j (limit_joints (ldata l)) -> j < n) ->
  exists ls', remap_limits jmap ls = Ok ls' /\ Forall2 (fun l l' => lweight l' = lweight l /\ limit_moved m (ldata l) (ldata l')) ls ls'.
Proof.
  intros H. induction ls as [|l ls IH]; intros Hl; cbn [remap_limits]; [exists []; split; [reflexivity|constructor]|].
  destruct IH as (ls' & E & F). { intros l' j Hin. apply Hl. right. exact Hin. }
  assert (X : exists l', remap_limit jmap l = Ok l' /\ lweight l' = lweight l /\ limit_moved m (ldata l) (ldata l')).
  { unfold remap_limit. assert (Hd : forall j, In j (limit_joints (ldata l)) -> j < n) by (intros j; apply Hl; left; reflexivity). destruct l as [d w]. cbn [ldata lweight] in *. destruct d as [p lo hi|j p lo hi|j p lo hi|a b s o r1 r2|e j|a b n1 n2 o]; cbn [limit_joints] in Hd.
    - eexists. split; [reflexivity|]. split; [reflexivity|constructor].
    - destruct (H j) as (k & Mk & Ek); [apply Hd; left; reflexivity|]. rewrite (rd_some _ _ _ Ek). cbn [obind]. eexists. split; [reflexivity|]. split; [reflexivity|constructor; exact Mk].
    - destruct (H j) as (k & Mk & Ek); [apply Hd; left; reflexivity|]. rewrite (rd_some _ _ _ Ek). cbn [obind]. eexists. split; [reflexivity|]. split; [reflexivity|constructor; exact Mk].
    - eexists. split; [reflexivity|]. split; [reflexivity|constructor].
    - destruct (H j) as (k & Mk & Ek); [apply Hd; right; left; reflexivity|]. destruct (H e) as (k' & Mk' & Ek'); [apply Hd; left; reflexivity|].
      rewrite (rd_some _ _ _ Ek). cbn [obind]. rewrite (rd_some _ _ _ Ek'). cbn [obind]. eexists. split; [reflexivity|]. split; [reflexivity|constructor; assumption].
    - eexists. split; [reflexivity|]. split; [reflexivity|constructor]. }
  destruct X as (l' & El & W & M). rewrite El; cbn [obind]; rewrite E; cbn [obind]; exists (l' :: ls'). split; [reflexivity|]. constructor; auto.
Qed.

Definition bind_of (c : character) : list R := pt_bind_pose (ch_pt c).

Lemma remap_locators_ok src tgt jmap (m : nat -> nat -> Prop) n : List.length src = n ->
  (forall j, j < n -> exists k, m j k /\ nth_error jmap j = Some (Some k) /\ k < List.length tgt) ->
  (forall k t, nth_error tgt k = Some t -> tf_ok (js_world t)) -> (forall k s, nth_error src k = Some s -> tf_ok (js_world s)) ->
  forall ls, (forall l, In l ls -> exists p, lo_parent l = Some p /\ p < n) ->
  exists ls', remap_locators src tgt jmap ls = Ok ls' /\
    Forall2 (fun l l' => (exists p k, lo_parent l = Some p /\ lo_parent l' = Some k /\ m p k) /\
      l' = Locator (lo_name l) (lo_parent l') (lo_offset l') (lo_locked l) (lo_weight l) (lo_origin l) (lo_lweight l) /\
      forall pos, locator_at src l pos -> locator_at tgt l' pos) ls ls'.
Proof.
  intros L H Gt Gs. induction ls as [|l ls IH]; intros Hl; cbn [remap_locators]; [exists []; split; [reflexivity|constructor]|].
  destruct IH as (ls' & E & F). { intros l' Hin. apply Hl. right. exact Hin. }
  destruct (Hl l (or_introl eq_refl)) as (p & Ep & Hp). rewrite Ep. destruct (H p Hp) as (k & Mk & Ek & Hk). rewrite (rd_some _ _ _ Ek). cbn [obind].
  destruct (nth_error_lt tgt k Hk) as [t Et]. destruct (nth_error_lt src p) as [s Es]; [lia|]. rewrite (rd_some _ _ _ Et), (rd_some _ _ _ Es). cbn [obind].
  rewrite E. cbn [obind]. eexists. split; [reflexivity|]. constructor; [|exact F]. cbn [lo_parent lo_offset]. split; [exists p, k; auto|]. split; [reflexivity|].
  intros pos (p0 & s0 & E0 & E1 & ->). assert (p0 = p) as -> by congruence. assert (s0 = s) as -> by congruence. exists k, t.
  cbn [lo_parent lo_offset]. split; [reflexivity|]. split; [exact Et|].
  assert (A : aff_point (aff_mul (tf_affine (tf_inv (js_world t))) (tf_affine (js_world s))) (lo_offset l) = tf_point (tf_inv (js_world t)) (tf_point (js_world s) (lo_offset l))).
  { rewrite <- !tf_affine_point. generalize (tf_affine (tf_inv (js_world t))) (tf_affine (js_world s)) (lo_offset l). intros [m1 t1] [m2 t2] o. unfold aff_point, aff_mul. cbn [alin atrans]. vec_ring. }
  rewrite A, <- tf_point_mul by (try apply tf_inv_ok; eauto). rewrite tf_mul_inv_r by eauto.
  unfold tf_point at 2. cbn [tf_id rot trans scl]. rewrite vscale_1, qrot_id, vadd_0_l. reflexivity.
Qed.

Definition param_0 : jparam := JP 0 0 0 0 0 0 0.
Definition to_kept (c : character) (enabled : list bool) (j k : nat) : Prop :=
  exists a, nearest_kept (sk_parents (ch_skel c)) enabled j a /\ k = new_index enabled a.

Lemma simplify_start c enabled : ch_wf c -> List.length enabled = List.length (ch_skel c) ->
  exists ref jref, List.length ref = List.length (ch_skel c) /\ fk_states (ch_skel c) jref ref /\
    (forall a, is_kept enabled a -> jparam_at jref a = param_0) /\
    (forall r, nth_error enabled r = Some false -> jparam_at jref r = jparam_at (pt_offsets (ch_pt c)) r) /\
    exists off, zero_offsets enabled (pt_offsets (ch_pt c)) = Ok off /\
      pt_apply (PT (pt_name (ch_pt c)) (pt_rows (ch_pt c)) (pt_cols (ch_pt c)) (pt_entries (ch_pt c)) off (pt_active (ch_pt c)) (pt_sets (ch_pt c))
                 (pt_pose (ch_pt c)) (pt_blend (ch_pt c)) (pt_face (ch_pt c))) (repeat 0%R (pt_cols (ch_pt c))) = Ok jref /\
      fk (ch_skel c) jref = Ok ref.
Proof.
  intros W Le. destruct (zero_offsets_ok enabled (pt_offsets (ch_pt c))) as (off & Eo & Lo & No).
  { rewrite (wf_offsets _ (cw_pt _ W)), (cw_rows _ W). lia. }
  set (pt0 := PT (pt_name (ch_pt c)) (pt_rows (ch_pt c)) (pt_cols (ch_pt c)) (pt_entries (ch_pt c)) off (pt_active (ch_pt c)) (pt_sets (ch_pt c))
                 (pt_pose (ch_pt c)) (pt_blend (ch_pt c)) (pt_face (ch_pt c))).
  assert (W0 : pt_wf pt0). { destruct (cw_pt _ W) as [a1 a2 a3 a4 a5 a6 a7]. constructor; cbn; try assumption. lia. }
  destruct (apply_zero pt0 W0) as (jref & Ej & Lj & Nj). change (pt_cols pt0) with (pt_cols (ch_pt c)) in Ej. change (pt_rows pt0) with (pt_rows (ch_pt c)) in Lj, Nj.
  change (pt_offsets pt0) with off in Nj. rewrite (cw_rows _ W) in Lj, Nj.
  destruct (fk_ok (ch_skel c) jref (cw_parents _ W) Lj) as (ref & Ef & Fs).
  exists ref, jref. split; [apply Fs|]. split; [exact Fs|].
  assert (D : forall a d, a < List.length enabled -> d < 7 -> nth (7 * a + d) jref 0%R = if nth a enabled false then 0%R else nth (7 * a + d) (pt_offsets (ch_pt c)) 0%R).
  { intros a d Ha Hd. rewrite Nj by lia. apply No; assumption. }
  split; [|split].
  - intros a Ka. assert (Ha : a < List.length enabled) by (apply (nth_error_len _ _ _ Ka)). pose proof (nth_error_nth _ _ false Ka) as Na.
    unfold jparam_at, param_0. cbv zeta. rewrite !D by lia. rewrite Na. reflexivity.
  - intros r Or. pose proof (nth_error_len _ _ _ Or) as Hr. pose proof (nth_error_nth _ _ false Or) as Nr.
    apply jparam_ext. intros d Hd. rewrite D by assumption. rewrite Nr. reflexivity.
  - exists off. auto.
Qed.

Lemma lmap_facts sk (ref : list jstate) enabled : List.length enabled = List.length sk -> List.length ref = List.length sk ->
  (forall a j, nth_error (lmap sk enabled (List.length sk)) a = Some (Some j) -> is_kept enabled a /\ j = new_index enabled a) /\
  (forall a, is_kept enabled a -> nth_error (lmap sk enabled (List.length sk)) a = Some (Some (new_index enabled a))).
Proof.
  intros L Lr. split.
  - intros a j E. pose proof (nth_error_len _ _ _ E) as Ha. rewrite lmap_length in Ha. rewrite lmap_nth in E by exact Ha. unfold lentry in E.
    destruct (nth a enabled false) eqn:N; [|rewrite andb_false_r in E; discriminate]. split; [apply (kept_nth sk ref enabled L Lr); auto|].
    rewrite andb_true_r in E. destruct (a <? List.length sk); congruence.
  - intros a K. pose proof (proj1 (proj1 (kept_nth sk ref enabled L Lr a) K)) as Ha. rewrite lmap_nth by exact Ha. rewrite (lentry_kept sk ref enabled L Lr) by (auto; lia). reflexivity.
Qed.

Lemma simplify_inv c enabled : simplifiable c enabled ->
  exists c' b ref jref src tgt, simplify_skeleton c enabled = Ok (c', sb_map b) /\ sb_joints b = ch_skel c' /\
    built (ch_skel c) ref enabled (List.length (ch_skel c)) b /\ List.length ref = List.length (ch_skel c) /\ fk_states (ch_skel c) jref ref /\
    (forall a, is_kept enabled a -> jparam_at jref a = param_0) /\
    (forall r, nth_error enabled r = Some false -> jparam_at jref r = jparam_at (pt_offsets (ch_pt c)) r) /\
    map_transform_joints (ch_pt c) (List.length (ch_skel c')) (sb_imap b) = Ok (ch_pt c') /\
    Forall2 (fun l l' => lweight l' = lweight l /\ limit_moved (to_kept c enabled) (ldata l) (ldata l')) (ch_limits c) (ch_limits c') /\
    fk (ch_skel c) (bind_of c) = Ok src /\ fk (ch_skel c') (bind_of c') = Ok tgt /\ ch_inv c' = inverse_bind tgt /\
    Forall2 (fun l l' => (exists p k, lo_parent l = Some p /\ lo_parent l' = Some k /\ to_kept c enabled p k) /\
      l' = Locator (lo_name l) (lo_parent l') (lo_offset l') (lo_locked l) (lo_weight l) (lo_origin l) (lo_lweight l) /\
      forall pos, locator_at src l pos -> locator_at tgt l' pos) (ch_locators c) (ch_locators c').
Proof.
  intros H. pose proof (sf_wf _ _ H) as W. pose proof (sf_len _ _ H) as Le.
  destruct (simplify_start c enabled W Le) as (ref & jref & Lr & Fs & K0 & R0 & off & Eo & Ej & Ef).
  destruct (loop_ok (ch_skel c) ref enabled (cw_parents _ W) Le Lr (List.length (ch_skel c)) (le_n _)) as [(Rt & b & Eb & B)|((i & Ei & Oi) & _)].
  2:{ pose proof (sf_roots _ _ H i Ei) as Ki. unfold is_kept in Ki. congruence. }
  destruct (built_parents (ch_skel c) ref enabled (cw_parents _ W) Le Lr (cw_unit _ W) b B) as [Pf Up].
  destruct (sf_any _ _ H) as [a0 Ka0]. assert (Ha0 : a0 < List.length enabled) by (apply (nth_error_len _ _ _ Ka0)).
  assert (Nz : 0 < List.length (sb_joints b)).
  { rewrite (bu_len _ _ _ _ _ B). pose proof (new_index_lt enabled a0 (List.length (ch_skel c)) ltac:(lia) ltac:(lia) Ka0). lia. }
  destruct (lmap_facts (ch_skel c) ref enabled Le Lr) as [F1 F2].
  destruct (map_joints_lemma (ch_pt c) (List.length (sb_joints b)) (sb_imap b)) as (pt' & Em & _).
  { apply (cw_pt _ W). } { rewrite (bu_imap _ _ _ _ _ B), lmap_length. apply (cw_rows _ W). }
  { intros x y j Ex Ey. rewrite (bu_imap _ _ _ _ _ B) in Ex, Ey. apply F1 in Ex as [Kx ->], Ey as [Ky Exy]. eapply new_index_inj; eauto. }
  { intros x j Ex. rewrite (bu_imap _ _ _ _ _ B) in Ex. apply F1 in Ex as [Kx ->]. rewrite (bu_len _ _ _ _ _ B).
    apply new_index_lt; [rewrite <- Le; apply (nth_error_len _ _ _ Kx)|lia|exact Kx]. }
  assert (Rw : pt_rows pt' = (7 * List.length (sb_joints b))%nat).
  { unfold map_transform_joints in Em. destruct (map_offsets _ _ _ _) as [o| | | |]; cbn [obind] in Em; try discriminate.
    destruct (map_entries _ _ _) as [es| | | |]; cbn [obind] in Em; try discriminate.
    apply (f_equal (fun o => match o with Ok x => pt_rows x | _ => 0 end)) in Em. cbn [pt_rows] in Em. lia. }
  destruct (fk_ok (ch_skel c) (bind_of c) (cw_parents _ W)) as (src & Es & Fsrc).
  { unfold bind_of, pt_bind_pose. rewrite repeat_length. apply (cw_rows _ W). }
  destruct (fk_ok (sb_joints b) (pt_bind_pose pt') Pf) as (tgt & Et & Ftgt).
  { unfold pt_bind_pose. rewrite repeat_length. exact Rw. }
  assert (Jm : forall j, j < List.length (ch_skel c) -> exists k, to_kept c enabled j k /\ nth_error (sb_map b) j = Some (Some k) /\ k < List.length tgt).
  { intros j Hj. destruct (bu_map _ _ _ _ _ B j Hj) as (a & Na & Ea). exists (new_index enabled a). split; [exists a; auto|]. split; [exact Ea|].
    destruct Ftgt as [-> _]. rewrite (bu_len _ _ _ _ _ B). destruct Na as (_ & Ka & _). apply new_index_lt; [rewrite <- Le; apply (nth_error_len _ _ _ Ka)|lia|exact Ka]. }
  destruct (remap_limits_ok (sb_map b) (List.length (ch_skel c)) (to_kept c enabled)) with (ls := ch_limits c) as (lims & El & Fl).
  { intros j Hj. destruct (Jm j Hj) as (k & A1 & A2 & _). exists k. auto. } { apply (sf_limits _ _ H). }
  destruct (remap_locators_ok src tgt (sb_map b) (to_kept c enabled) (List.length (ch_skel c))) with (ls := ch_locators c) as (locs & Ec & Fc).
  { apply Fsrc. } { exact Jm. }
  { intros k t Ek. apply tf_good_ok. eapply (fk_good _ _ _ Pf Up Ftgt); eauto. }
  { intros k t Ek. apply tf_good_ok. eapply (fk_good _ _ _ (cw_parents _ W) (cw_unit _ W) Fsrc); eauto. }
  { apply (cw_locs _ W). }
  exists (Ch (sb_joints b) pt' locs lims (inverse_bind tgt)), b, ref, jref, src, tgt. cbn [ch_skel ch_pt ch_limits ch_locators ch_inv].
  split; [|auto 15].
  unfold simplify_skeleton. cbv zeta. rewrite Le, Nat.eqb_refl. cbn [negb].
  assert (Ex : existsb (fun b0 => b0) enabled = true) by (apply existsb_exists; exists true; split; [eapply nth_error_In; exact Ka0|reflexivity]).
  rewrite Ex. cbn [negb]. rewrite Eo. cbn [obind]. rewrite Ej. cbn [obind]. rewrite Ef. cbn [obind]. rewrite Eb. cbn [obind].
  destruct (Nat.eqb_spec (List.length (sb_joints b)) 0); [lia|]. rewrite Em. cbn [obind]. unfold bind_states.
  change (pt_bind_pose (ch_pt c)) with (bind_of c). rewrite Es. cbn [obind]. rewrite Et. cbn [obind]. rewrite El. cbn [obind]. rewrite Ec. reflexivity.
Qed.

(** The joint map sends every joint to its nearest kept ancestor, the new parents are the nearest kept
    ones and still come first. *)
Theorem simplify_structure c enabled : simplifiable c enabled ->
  exists c' m, simplify_skeleton c enabled = Ok (c', m) /\
    List.length (ch_skel c') = new_index enabled (List.length (ch_skel c)) /\
    parents_first (sk_parents (ch_skel c')) /\ unit_prerotations (ch_skel c') /\ List.length m = List.length (ch_skel c) /\
    (forall j, j < List.length (ch_skel c) -> exists a, nearest_kept (sk_parents (ch_skel c)) enabled j a /\ nth_error m j = Some (Some (new_index enabled a))) /\
    (forall a, is_kept enabled a -> nth_error (sk_parents (ch_skel c)) a = Some None -> nth_error (sk_parents (ch_skel c')) (new_index enabled a) = Some None) /\
    (forall a p, is_kept enabled a -> nth_error (sk_parents (ch_skel c)) a = Some (Some p) ->
       exists s, nearest_kept (sk_parents (ch_skel c)) enabled p s /\ nth_error (sk_parents (ch_skel c')) (new_index enabled a) = Some (Some (new_index enabled s))).
Proof.
  intros H. destruct (simplify_inv c enabled H) as (c' & b & ref & jref & src & tgt & E & Ej & B & Lr & _). exists c', (sb_map b). split; [exact E|].
  pose proof (sf_wf _ _ H) as W. pose proof (sf_len _ _ H) as Le.
  destruct (built_parents (ch_skel c) ref enabled (cw_parents _ W) Le Lr (cw_unit _ W) b B) as [Pf Up]. rewrite <- Ej.
  split; [apply (bu_len _ _ _ _ _ B)|]. split; [exact Pf|]. split; [exact Up|]. split; [apply (bu_map_len _ _ _ _ _ B)|].
  split; [intros j Hj; apply (bu_map _ _ _ _ _ B j Hj)|].
  assert (J : forall a o, is_kept enabled a -> nth_error (sk_parents (ch_skel c)) a = Some o -> exists jt jt', jparent jt = o /\
    nth_error (sk_parents (sb_joints b)) (new_index enabled a) = Some (jparent jt') /\ joint_for (ch_skel c) ref enabled a jt jt').
  { intros a o Ka Ea. destruct (ps_inv _ _ _ Ea) as (jt & Ejt & Ep). destruct (bu_joint _ _ _ _ _ B a jt) as (jt' & Ejt' & Jf).
    { apply (nth_error_len _ _ _ Ejt). } { exact Ka. } { exact Ejt. }
    exists jt, jt'. split; [exact Ep|]. split; [|exact Jf]. unfold sk_parents. rewrite nth_error_map, Ejt'. reflexivity. }
  split.
  - intros a Ka Ea. destruct (J a None Ka Ea) as (jt & jt' & Ep & -> & [(_ & ->)|(s & rs & ss & sa & Hu & _)]); [reflexivity|].
    inversion Hu; subst; congruence.
  - intros a p Ka Ea. destruct (J a (Some p) Ka Ea) as (jt & jt' & Ep & -> & [(Ep' & _)|(s & rs & ss & sa & Hu & _ & _ & ->)]); [congruence|].
    exists s. split; [|reflexivity]. eapply up_to_nearest; eauto.
Qed.
Print Assumptions simplify_structure.

(** It throws if no joint is kept or a root is removed. *)
Theorem simplify_throws c enabled : ch_wf c -> List.length enabled = List.length (ch_skel c) ->
  (forall a, ~ is_kept enabled a) \/ (exists i, nth_error (sk_parents (ch_skel c)) i = Some None /\ nth_error enabled i = Some false) ->
  simplify_skeleton c enabled = Throw.
Proof.
  intros W Le H. unfold simplify_skeleton. cbv zeta. rewrite Le, Nat.eqb_refl. cbn [negb].
  destruct (existsb (fun b => b) enabled) eqn:Ex; cbn [negb]; [|reflexivity].
  destruct H as [H|(i & Ei & Oi)].
  { apply existsb_exists in Ex as (x & Hx & ->). apply In_nth_error in Hx as [k Hk]. destruct (H k Hk). }
  destruct (simplify_start c enabled W Le) as (ref & jref & Lr & Fs & _ & _ & off & Eo & Ej & Ef).
  rewrite Eo. cbn [obind]. rewrite Ej. cbn [obind]. rewrite Ef. cbn [obind].
  destruct (loop_ok (ch_skel c) ref enabled (cw_parents _ W) Le Lr (List.length (ch_skel c)) (le_n _)) as [(Rt & _)|(_ & Et)].
  - assert (Hi : i < List.length (ch_skel c)) by (rewrite <- Le; apply (nth_error_len _ _ _ Oi)). pose proof (Rt i Hi Ei) as K. unfold is_kept in K. congruence.
  - rewrite Et. reflexivity.
Qed.
Print Assumptions simplify_throws.

(** The worlds of the kept joints are kept in every pose in which the removed joints have their
    constant offsets, these only translate, and a kept joint below a removed one is not translated
    itself, or the removed joints above it are not rotated. *)
Theorem simplify_worlds_partial c enabled jp jp' sts : simplifiable c enabled ->
  fk (ch_skel c) jp = Ok sts -> List.length jp' = 7 * new_index enabled (List.length (ch_skel c)) ->
  (forall a, is_kept enabled a -> jparam_at jp' (new_index enabled a) = jparam_at jp a) ->
  (forall r, nth_error enabled r = Some false -> jparam_at jp r = jparam_at (pt_offsets (ch_pt c)) r /\ only_translates (jparam_at jp r)) ->
  (forall a, is_kept enabled a -> no_translation (jparam_at jp a) \/
     forall r j, between (sk_parents (ch_skel c)) enabled a r -> nth_error (ch_skel c) r = Some j -> jprerot j = qid) ->
  exists c' m sts', simplify_skeleton c enabled = Ok (c', m) /\ fk (ch_skel c') jp' = Ok sts' /\ same_worlds enabled sts sts'.
Proof.
  intros H Ef Lj Hk Hr Ht. destruct (simplify_inv c enabled H) as (c' & b & ref & jref & src & tgt & E & Ej & B & Lr & Fs & K0 & R0 & _).
  pose proof (sf_wf _ _ H) as W. pose proof (sf_len _ _ H) as Le.
  destruct (built_parents (ch_skel c) ref enabled (cw_parents _ W) Le Lr (cw_unit _ W) b B) as [Pf Up].
  destruct (fk_ok (sb_joints b) jp' Pf) as (sts' & Ef' & Fs'). { rewrite (bu_len _ _ _ _ _ B). exact Lj. }
  exists c', (sb_map b), sts'. split; [exact E|]. split; [rewrite <- Ej; exact Ef'|].
  destruct (fk_inv _ _ _ (cw_parents _ W) Ef) as [_ F].
  apply (worlds_kept (ch_skel c) ref enabled (cw_parents _ W) Le Lr (cw_unit _ W) b jref jp jp' sts sts' B Fs); auto.
  - intros a Ka. rewrite (K0 a Ka). repeat split.
  - intros r Or. destruct (Hr r Or) as [A1 A2]. rewrite (R0 r Or), <- A1. auto.
Qed.
Print Assumptions simplify_worlds_partial.

(** With zero joint parameters, if the offsets of the removed joints are zero. *)
Lemma jparam_zero k a : jparam_at (repeat 0%R k) a = param_0.
Proof. unfold jparam_at, param_0. cbv zeta. rewrite !nth_repeat. reflexivity. Qed.
Theorem simplify_zero_partial c enabled : simplifiable c enabled ->
  (forall r d, nth_error enabled r = Some false -> d < 7 -> nth (7 * r + d) (pt_offsets (ch_pt c)) 0%R = 0%R) ->
  exists c' m sts sts', simplify_skeleton c enabled = Ok (c', m) /\
    fk (ch_skel c) (repeat 0%R (7 * List.length (ch_skel c))) = Ok sts /\ fk (ch_skel c') (repeat 0%R (7 * List.length (ch_skel c'))) = Ok sts' /\
    same_worlds enabled sts sts'.
Proof.
  intros H Ho. destruct (fk_ok (ch_skel c) (repeat 0%R (7 * List.length (ch_skel c))) (cw_parents _ (sf_wf _ _ H))) as (sts & Ef & _); [apply repeat_length|].
  destruct (simplify_structure c enabled H) as (c' & m & E & L & _).
  destruct (simplify_worlds_partial c enabled _ (repeat 0%R (7 * List.length (ch_skel c'))) sts H Ef) as (c'' & m' & sts' & E' & Ef' & S).
  - rewrite repeat_length, L. reflexivity.
  - intros a _. rewrite !jparam_zero. reflexivity.
  - intros r Or. rewrite jparam_zero. split; [|repeat split]. unfold jparam_at, param_0. cbv zeta. rewrite !Ho by (auto; lia). reflexivity.
  - intros a _. left. rewrite jparam_zero. repeat split.
  - assert (c'' = c') as -> by congruence. exists c', m, sts, sts'. auto.
Qed.
Print Assumptions simplify_zero_partial.

(** The same for model parameters: those that drive removed joints are zero. *)
Lemma apply_row pt q jp r : pt_wf pt -> pt_apply pt q = Ok jp -> r < pt_rows pt ->
  (forall e, In e (pt_entries pt) -> erow e = r -> nth (ecol e) q 0%R = 0%R) -> nth r jp 0%R = nth r (pt_offsets pt) 0%R.
Proof.
  intros W E Hr Hz. assert (L : List.length q = pt_cols pt).
  { destruct (Nat.eq_dec (List.length q) (pt_cols pt)) as [|N]; [assumption|]. rewrite (apply_rejects_lemma pt q N) in E. discriminate. }
  unfold pt_apply in E. rewrite L, Nat.eqb_refl, (wf_offsets pt W), Nat.eqb_refl in E. cbn [negb] in E.
  apply (f_equal (fun o => match o with Ok x => x | _ => [] end)) in E. subst jp.
  rewrite vadd_list_nth; [|rewrite mat_vec_length; exact Hr|rewrite mat_vec_length, (wf_offsets pt W); reflexivity].
  rewrite mat_vec_nth by exact Hr. unfold row_dot. rewrite rsum_map_zero; [ring|]. intros e He.
  destruct (Nat.eqb_spec (erow e) r) as [Er|]; [|reflexivity]. rewrite (Hz e He Er). ring.
Qed.
Theorem simplify_poses_partial c enabled q sts : simplifiable c enabled -> List.length q = pt_cols (ch_pt c) -> posed c q sts ->
  (forall e, In e (pt_entries (ch_pt c)) -> nth_error enabled (erow e / 7) = Some false -> nth (ecol e) q 0%R = 0%R) ->
  (forall r, nth_error enabled r = Some false -> only_translates (jparam_at (pt_offsets (ch_pt c)) r)) ->
  (forall jp a, pt_apply (ch_pt c) q = Ok jp -> is_kept enabled a -> no_translation (jparam_at jp a) \/
     forall r j, between (sk_parents (ch_skel c)) enabled a r -> nth_error (ch_skel c) r = Some j -> jprerot j = qid) ->
  exists c' m sts', simplify_skeleton c enabled = Ok (c', m) /\ posed c' q sts' /\ same_worlds enabled sts sts'.
Proof.
  intros H Lq (jp & Ea & Ef) Hq Ho Ht. pose proof (sf_wf _ _ H) as W. pose proof (sf_len _ _ H) as Le.
  destruct (simplify_inv c enabled H) as (c' & b & ref & jref & src & tgt & E & Ej & B & Lr & Fs & K0 & R0 & Em & _).
  destruct (lmap_facts (ch_skel c) ref enabled Le Lr) as [F1 F2].
  destruct (map_joints_lemma (ch_pt c) (List.length (ch_skel c')) (sb_imap b)) as (pt' & Em' & _ & _ & _ & _ & A).
  { apply (cw_pt _ W). } { rewrite (bu_imap _ _ _ _ _ B), lmap_length. apply (cw_rows _ W). }
  { intros x y j Ex Ey. rewrite (bu_imap _ _ _ _ _ B) in Ex, Ey. apply F1 in Ex as [Kx ->], Ey as [Ky Exy]. eapply new_index_inj; eauto. }
  { intros x j Ex. rewrite (bu_imap _ _ _ _ _ B) in Ex. apply F1 in Ex as [Kx ->]. rewrite <- Ej, (bu_len _ _ _ _ _ B).
    apply new_index_lt; [rewrite <- Le; apply (nth_error_len _ _ _ Kx)|lia|exact Kx]. }
  assert (pt' = ch_pt c') as -> by congruence. destruct (A q Lq) as (jp0 & jp' & Ea0 & Ea' & Lj' & Aj & _). assert (jp0 = jp) as -> by congruence.
  destruct (simplify_worlds_partial c enabled jp jp' sts H Ef) as (c'' & m' & sts' & E' & Ef' & S).
  - rewrite Lj', <- Ej, (bu_len _ _ _ _ _ B). reflexivity.
  - intros a Ka. apply jparam_ext. intros d Hd. apply Aj; [|exact Hd]. rewrite (bu_imap _ _ _ _ _ B). apply F2, Ka.
  - intros r Or. pose proof (nth_error_len _ _ _ Or) as Hr.
    assert (Ejr : jparam_at jp r = jparam_at (pt_offsets (ch_pt c)) r).
    { apply jparam_ext. intros d Hd. apply (apply_row (ch_pt c) q); [apply (cw_pt _ W)|exact Ea|rewrite (cw_rows _ W); lia|].
      intros e He Er. apply Hq; [exact He|]. rewrite Er. destruct (div7 r d Hd) as [-> _]. exact Or. }
    rewrite Ejr. split; [reflexivity|apply Ho, Or].
  - intros a Ka. apply Ht; assumption.
  - assert (c'' = c') as -> by congruence. exists c', (sb_map b), sts'. split; [exact E|]. split; [exists jp'; auto|exact S].
Qed.
Print Assumptions simplify_poses_partial.

(** In the bind pose every locator stays where it is. *)
Theorem simplify_locators c enabled : simplifiable c enabled ->
  exists c' m src tgt, simplify_skeleton c enabled = Ok (c', m) /\
    fk (ch_skel c) (repeat 0%R (pt_rows (ch_pt c))) = Ok src /\ fk (ch_skel c') (repeat 0%R (pt_rows (ch_pt c'))) = Ok tgt /\
    Forall2 (fun l l' => l' = Locator (lo_name l) (lo_parent l') (lo_offset l') (lo_locked l) (lo_weight l) (lo_origin l) (lo_lweight l) /\
      (exists p a, lo_parent l = Some p /\ nearest_kept (sk_parents (ch_skel c)) enabled p a /\ lo_parent l' = Some (new_index enabled a)) /\
      exists pos, locator_at src l pos /\ locator_at tgt l' pos) (ch_locators c) (ch_locators c').
Proof.
  intros H. destruct (simplify_inv c enabled H) as (c' & b & ref & jref & src & tgt & E & Ej & B & Lr & Fs & K0 & R0 & Em & _ & Es & Et & _ & Fl).
  exists c', (sb_map b), src, tgt. split; [exact E|]. split; [exact Es|]. split; [exact Et|].
  pose proof (cw_locs _ (sf_wf _ _ H)) as Hl. destruct (fk_inv _ _ _ (cw_parents _ (sf_wf _ _ H)) Es) as [_ [Ls _]].
  induction Fl as [|l l' ls ls' ((p & k & E1 & E2 & a & Na & ->) & E3 & E4) F IH]; constructor.
  - split; [exact E3|]. split; [exists p, a; auto|]. destruct (Hl l (or_introl eq_refl)) as (p0 & Ep & Hp). assert (p0 = p) as -> by congruence.
    destruct (nth_error_lt src p) as [s Ess]; [lia|]. exists (tf_point (js_world s) (lo_offset l)).
    assert (LA : locator_at src l (tf_point (js_world s) (lo_offset l))) by (exists p, s; auto). split; [exact LA|apply E4, LA].
  - apply IH. intros x Hx. apply Hl. right. exact Hx.
Qed.
Print Assumptions simplify_locators.

(** The limits refer to the joints' nearest kept ancestors. *)
Theorem simplify_limits c enabled : simplifiable c enabled ->
  exists c' m, simplify_skeleton c enabled = Ok (c', m) /\
    Forall2 (fun l l' => lweight l' = lweight l /\
      limit_moved (fun j k => exists a, nearest_kept (sk_parents (ch_skel c)) enabled j a /\ k = new_index enabled a) (ldata l) (ldata l'))
      (ch_limits c) (ch_limits c').
Proof.
  intros H. destruct (simplify_inv c enabled H) as (c' & b & ref & jref & src & tgt & E & Ej & B & Lr & Fs & K0 & R0 & Em & Fl & _).
  exists c', (sb_map b). split; [exact E|exact Fl].
Qed.
Print Assumptions simplify_limits.

(** ** Where the worlds are not kept *)

(** Three joints in a chain; the one in the middle is removed. *)
Definition chain_char (off : list R) (q : quat) (o : vec3) : character :=
  Ch [Joint None vzero qid; Joint (Some 0) vzero q; Joint (Some 1) o qid]
    (PT [] 21 0 [] off [] [] [] [] []) [Locator "l" (Some 1) (V3 1 2 3) (true, true, true) 1 vzero vzero]
    [PLimit (LMinMaxJoint 1 5 0 1) 1] [].
Definition outer : list bool := [true; false; true].

Lemma chain_simplifiable off q o : List.length off = 21 -> qunit q -> simplifiable (chain_char off q o) outer.
Proof.
  intros L U. constructor.
  - constructor.
    + intros [|[|[|[|i]]]] p H; cbn in H; try discriminate; injection H as <-; lia.
    + intros [|[|[|[|i]]]] jt H; cbn in H; try discriminate; injection H as <-; [apply qunit_id|exact U|apply qunit_id].
    + constructor; cbn; try reflexivity; try contradiction; try assumption. unfold kMaxModelParams. lia.
    + reflexivity.
    + intros l [<-|[]]. exists 1. cbn. split; [reflexivity|lia].
  - reflexivity.
  - exists 0. reflexivity.
  - intros [|[|[|[|i]]]] H; cbn in H; try discriminate; reflexivity.
  - intros l j [<-|[]] [<-|[]]. cbn. lia.
Qed.

Lemma local_0 jt : local_tf jt param_0 = TF (jprerot jt) (joffset jt) 1.
Proof.
  unfold local_tf, param_0. cbn [jtx jty jtz jrx jry jrz jsc]. rewrite !qaxis_0, !qmul_id_r, exp2_0. f_equal.
  change (V3 0 0 0) with vzero. apply vadd_0_r.
Qed.

Lemma chain_states off q o jp sts : fk_states (ch_skel (chain_char off q o)) jp sts -> jparam_at jp 0 = param_0 ->
  exists s0 s2, nth_error sts 0 = Some s0 /\ js_world s0 = tf_id /\ nth_error sts 2 = Some s2 /\
    js_world s2 = tf_mul (local_tf (Joint (Some 0) vzero q) (jparam_at jp 1)) (local_tf (Joint (Some 1) o qid) (jparam_at jp 2)).
Proof.
  intros [_ F] Z. destruct (F 0 _ eq_refl) as (p0 & P0 & E0). cbn in P0. subst p0. rewrite Z in E0.
  destruct (F 1 _ eq_refl) as (p1 & (s0 & E0' & ->) & E1). destruct (F 2 _ eq_refl) as (p2 & (s1 & E1' & ->) & E2).
  assert (Ws : js_world s0 = tf_id).
  { rewrite E0 in E0'. apply (f_equal (fun o => match o with Some x => js_world x | None => tf_id end)) in E0'. rewrite <- E0', js_world_set.
    cbn [parent_tf]. rewrite tf_mul_id_l, local_0. reflexivity. }
  eexists s0, _. split; [exact E0'|]. split; [exact Ws|]. split; [exact E2|]. rewrite js_world_set. cbn [parent_tf]. f_equal.
  rewrite E1 in E1'. apply (f_equal (fun o => match o with Some x => js_world x | None => tf_id end)) in E1'. rewrite <- E1', js_world_set.
  cbn [parent_tf]. rewrite Ws. apply tf_mul_id_l.
Qed.

(** The new joint of the last one. *)
Lemma chain_new off q o : List.length off = 21 -> qunit q -> exists c' m, simplify_skeleton (chain_char off q o) outer = Ok (c', m) /\
  ch_skel c' = [Joint None vzero qid; Joint (Some 0) (trans (tf_mul (local_tf (Joint (Some 0) vzero q) (jparam_at off 1)) (TF qid o 1))) q].
Proof.
  intros L U. pose proof (chain_simplifiable off q o L U) as H. pose proof (sf_wf _ _ H) as W.
  destruct (simplify_inv _ _ H) as (c' & b & ref & jref & src & tgt & E & Ej & B & Lr & Fs & K0 & R0 & Em & _).
  exists c', (sb_map b). split; [exact E|]. rewrite <- Ej. pose proof (bu_len _ _ _ _ _ B) as Lb. change (new_index outer (List.length (ch_skel (chain_char off q o)))) with 2 in Lb.
  destruct (chain_states off q o jref ref Fs (K0 0 eq_refl)) as (s0 & s2 & E0 & W0 & E2 & W2).
  rewrite (K0 2 eq_refl), local_0 in W2. cbn [joffset jprerot] in W2. rewrite (R0 1 eq_refl) in W2. change (pt_offsets (ch_pt (chain_char off q o))) with off in W2.
  destruct (bu_joint _ _ _ _ _ B 0 (Joint None vzero qid)) as (j0 & N0 & J0); [cbn; lia|reflexivity|reflexivity|].
  destruct (bu_joint _ _ _ _ _ B 2 (Joint (Some 1) o qid)) as (j2 & N2 & J2); [cbn; lia|reflexivity|reflexivity|].
  change (new_index outer 0) with 0 in N0. change (new_index outer 2) with 1 in N2.
  destruct (sb_joints b) as [|x [|y [|z r]]]; try discriminate Lb. cbn in N0, N2.
  assert (x = j0) as -> by congruence. assert (y = j2) as -> by congruence.
  f_equal; [|f_equal].
  - destruct J0 as [(_ & ->)|(s & rs & ss & sa & Hu & _)]; [reflexivity|]. inversion Hu; discriminate.
  - destruct J2 as [(X & _)|(s & rs & ss & sa & Hu & Es & Ea & ->)]; [discriminate X|].
    assert (Q : s = 0 /\ rs = [1]).
    { inversion Hu as [? ? X1 X2|? p ? rs' X1 X2 X3]; subst.
      - cbn in X1. injection X1 as <-. discriminate X2.
      - cbn in X1. injection X1 as <-. inversion X3 as [? ? Y1 Y2|? p ? rs2 Y1 Y2 Y3]; subst; cbn in Y1; injection Y1 as <-; [auto|discriminate Y2]. }
    destruct Q as [-> ->]. assert (sa = s2) as -> by congruence. assert (ss = s0) as -> by congruence.
    rewrite W0, tf_affine_point, W2. f_equal.
    + match goal with |- tf_point _ ?v = _ => generalize v end.
      intros v. unfold tf_point, tf_inv, tf_id. cbn [rot trans scl]. assert (Qi : qinv qid = qid). { unfold qinv, qid, qnorm2. cbn [qw qx qy qz]. cbv zeta. f_equal; field. }
      rewrite Qi, !qrot_id. destruct v as [v1 v2 v3]. vec_unfold. f_equal; field.
    + cbn. apply qmul_id_r.
Qed.

Lemma chain_new_world x q jp : List.length jp = 14 -> jparam_at jp 0 = param_0 ->
  exists s0 s1, fk [Joint None vzero qid; Joint (Some 0) x q] jp = Ok [s0; s1] /\ js_world s1 = local_tf (Joint (Some 0) x q) (jparam_at jp 1).
Proof.
  intros L Z. unfold fk. rewrite L. do 2 eexists. split; [reflexivity|]. cbn [app nth_error List.length]. rewrite !js_world_set. cbn [parent_tf].
  rewrite js_world_set. cbn [parent_tf]. change (List.length (@nil jstate)) with 0. rewrite Z, local_0, !tf_mul_id_l. reflexivity.
Qed.

(** A constant translation of a removed joint in the parameter transform becomes part of the new
    skeleton, so that zero joint parameters give a different world. *)
Theorem simplify_zero_refuted : exists c enabled c' m sts sts' s s', simplifiable c enabled /\ simplify_skeleton c enabled = Ok (c', m) /\
  fk (ch_skel c) (repeat 0%R 21) = Ok sts /\ fk (ch_skel c') (repeat 0%R 14) = Ok sts' /\
  is_kept enabled 2 /\ nth_error sts 2 = Some s /\ nth_error sts' (new_index enabled 2) = Some s' /\
  trans (js_world s) = vzero /\ trans (js_world s') = V3 1 0 0.
Proof.
  set (off := (repeat 0%R 7 ++ [1%R] ++ repeat 0%R 13)).
  pose proof (chain_simplifiable off qid vzero eq_refl qunit_id) as H.
  destruct (chain_new off qid vzero eq_refl qunit_id) as (c' & m & E & Ec).
  destruct (fk_ok (ch_skel (chain_char off qid vzero)) (repeat 0%R 21) (cw_parents _ (sf_wf _ _ H)) eq_refl) as (sts & Ef & Fs).
  destruct (chain_states off qid vzero _ _ Fs (jparam_zero 21 0)) as (s0 & s2 & _ & _ & E2 & W2).
  match type of Ec with _ = [_; Joint _ ?x _] => destruct (chain_new_world x qid (repeat 0%R 14) eq_refl (jparam_zero 14 0)) as (t0 & t1 & Et & Wt) end.
  exists (chain_char off qid vzero), outer, c', m, sts, [t0; t1], s2, t1. rewrite Ec.
  split; [exact H|]. split; [exact E|]. split; [exact Ef|]. split; [exact Et|]. split; [reflexivity|]. split; [exact E2|]. split; [reflexivity|].
  rewrite !jparam_zero, !local_0 in W2. rewrite jparam_zero, local_0 in Wt. rewrite W2, Wt. cbn [tf_mul trans rot scl joffset jprerot].
  split; [vec_ring|]. unfold local_tf, off. cbn [jprerot joffset rot trans scl jparam_at jtx jty jtz jrx jry jrz jsc nth app repeat Nat.add Nat.mul].
  rewrite !qaxis_0, !qmul_id_r, exp2_0, qrot_id. vec_ring.
Qed.
Print Assumptions simplify_zero_refuted.

(** The joint parameters of the kept joints. *)
Lemma simplify_params c enabled c' m q : simplifiable c enabled -> simplify_skeleton c enabled = Ok (c', m) -> List.length q = pt_cols (ch_pt c) ->
  exists jp jp', pt_apply (ch_pt c) q = Ok jp /\ pt_apply (ch_pt c') q = Ok jp' /\ List.length jp' = 7 * new_index enabled (List.length (ch_skel c)) /\
    forall a, is_kept enabled a -> jparam_at jp' (new_index enabled a) = jparam_at jp a.
Proof.
  intros H Es Lq. pose proof (sf_wf _ _ H) as W. pose proof (sf_len _ _ H) as Le.
  destruct (simplify_inv c enabled H) as (c2 & b & ref & jref & src & tgt & E & Ej & B & Lr & Fs & K0 & R0 & Em & _).
  assert (c2 = c') as -> by congruence. destruct (lmap_facts (ch_skel c) ref enabled Le Lr) as [F1 F2].
  destruct (map_joints_lemma (ch_pt c) (List.length (ch_skel c')) (sb_imap b)) as (pt' & Em' & _ & _ & _ & _ & A).
  { apply (cw_pt _ W). } { rewrite (bu_imap _ _ _ _ _ B), lmap_length. apply (cw_rows _ W). }
  { intros x y j Ex Ey. rewrite (bu_imap _ _ _ _ _ B) in Ex, Ey. apply F1 in Ex as [Kx ->], Ey as [Ky Exy]. eapply new_index_inj; eauto. }
  { intros x j Ex. rewrite (bu_imap _ _ _ _ _ B) in Ex. apply F1 in Ex as [Kx ->]. rewrite <- Ej, (bu_len _ _ _ _ _ B).
    apply new_index_lt; [rewrite <- Le; apply (nth_error_len _ _ _ Kx)|lia|exact Kx]. }
  assert (pt' = ch_pt c') as -> by congruence. destruct (A q Lq) as (jp & jp' & Ea & Ea' & Lj' & Aj & _).
  exists jp, jp'. split; [exact Ea|]. split; [exact Ea'|]. split; [rewrite Lj', <- Ej, (bu_len _ _ _ _ _ B); reflexivity|].
  intros a Ka. apply jparam_ext. intros d Hd. apply Aj; [|exact Hd]. rewrite (bu_imap _ _ _ _ _ B). apply F2, Ka.
Qed.

Lemma chain_apply off q o : List.length off = 21 -> pt_apply (ch_pt (chain_char off q o)) [] = Ok off.
Proof.
  intros L. do 21 (destruct off as [|? off]; [discriminate L|]). destruct off; [|discriminate L].
  unfold pt_apply, chain_char. cbn. do 2 f_equal; [|repeat (f_equal; [])]; try ring. all: repeat (f_equal; try ring).
Qed.

(** A constant rotation of a removed joint is lost, also in the pose of zero model parameters. *)
Theorem simplify_rotation_refuted : exists c enabled c' m sts sts' s s', simplifiable c enabled /\ simplify_skeleton c enabled = Ok (c', m) /\
  posed c [] sts /\ posed c' [] sts' /\ is_kept enabled 2 /\ nth_error sts 2 = Some s /\ nth_error sts' (new_index enabled 2) = Some s' /\
  tf_point (js_world s) ex = V3 (-2) 0 0 /\ tf_point (js_world s') ex = vzero.
Proof.
  set (off := (repeat 0%R 12 ++ [PI] ++ repeat 0%R 8)).
  pose proof (chain_simplifiable off qid ex eq_refl qunit_id) as H.
  destruct (chain_new off qid ex eq_refl qunit_id) as (c' & m & E & Ec).
  destruct (simplify_params _ _ _ _ [] H E eq_refl) as (jp & jp' & Ea & Ea' & L' & A).
  assert (jp = off) as -> by (rewrite (chain_apply off qid ex eq_refl) in Ea; congruence).
  destruct (fk_ok (ch_skel (chain_char off qid ex)) off (cw_parents _ (sf_wf _ _ H)) eq_refl) as (sts & Ef & Fs).
  destruct (chain_states off qid ex _ _ Fs eq_refl) as (s0 & s2 & _ & _ & E2 & W2).
  match type of Ec with _ = [_; Joint _ ?x _] => destruct (chain_new_world x qid jp' L') as (t0 & t1 & Et & Wt) end.
  { apply (A 0 eq_refl). }
  exists (chain_char off qid ex), outer, c', m, sts, [t0; t1], s2, t1.
  split; [exact H|]. split; [exact E|]. split; [exists off; split; [exact Ea|exact Ef]|]. split; [exists jp'; split; [exact Ea'|rewrite Ec; exact Et]|].
  split; [reflexivity|]. split; [exact E2|]. split; [reflexivity|].
  rewrite (A 2 eq_refl : jparam_at jp' 1 = jparam_at off 2) in Wt. change (jparam_at off 2) with param_0 in Wt, W2. rewrite local_0 in Wt, W2.
  assert (Ez : local_tf (Joint (Some 0) vzero qid) (jparam_at off 1) = TF (qaxis PI ez) vzero 1).
  { unfold local_tf, off. cbn [jprerot joffset jparam_at jtx jty jtz jrx jry jrz jsc nth app repeat Nat.add Nat.mul].
    rewrite !qaxis_0, !qmul_id_r, qmul_id_l, exp2_0. f_equal. vec_ring. }
  rewrite Ez in Wt, W2. rewrite W2, Wt. unfold tf_point, tf_mul. cbn [rot trans scl joffset jprerot]. rewrite qmul_id_r, !qrot_id, !qrot_axis_z. vec_unfold.
  rewrite cos_PI, sin_PI. split; f_equal; ring.
Qed.
Print Assumptions simplify_rotation_refuted.

(** A translation parameter of a kept joint below a removed one with a pre-rotation acts along other axes. *)
Theorem simplify_axes_refuted : exists c enabled c' m jp jp' sts sts' s s', simplifiable c enabled /\ simplify_skeleton c enabled = Ok (c', m) /\
  pt_offsets (ch_pt c) = repeat 0%R 21 /\
  fk (ch_skel c) jp = Ok sts /\ fk (ch_skel c') jp' = Ok sts' /\ (forall r, nth_error enabled r = Some false -> jparam_at jp r = param_0) /\
  (forall a, is_kept enabled a -> jparam_at jp' (new_index enabled a) = jparam_at jp a) /\
  is_kept enabled 2 /\ nth_error sts 2 = Some s /\ nth_error sts' (new_index enabled 2) = Some s' /\
  trans (js_world s) = V3 (-1) 0 0 /\ trans (js_world s') = V3 1 0 0.
Proof.
  set (off := repeat 0%R 21). set (q := qaxis PI ez). assert (U : qunit q) by (apply qaxis_unit; vec_unfold; unfold vnorm2; cbn; ring).
  pose proof (chain_simplifiable off q vzero eq_refl U) as H.
  destruct (chain_new off q vzero eq_refl U) as (c' & m & E & Ec).
  set (jp := (repeat 0%R 14 ++ [1%R] ++ repeat 0%R 6)). set (jp' := (repeat 0%R 7 ++ [1%R] ++ repeat 0%R 6)).
  destruct (fk_ok (ch_skel (chain_char off q vzero)) jp (cw_parents _ (sf_wf _ _ H)) eq_refl) as (sts & Ef & Fs).
  destruct (chain_states off q vzero _ _ Fs eq_refl) as (s0 & s2 & _ & _ & E2 & W2).
  match type of Ec with _ = [_; Joint _ ?x _] => destruct (chain_new_world x q jp' eq_refl eq_refl) as (t0 & t1 & Et & Wt) end.
  exists (chain_char off q vzero), outer, c', m, jp, jp', sts, [t0; t1], s2, t1.
  split; [exact H|]. split; [exact E|]. split; [reflexivity|].
  split; [exact Ef|]. split; [rewrite Ec; exact Et|]. split; [intros [|[|[|[|r]]]] Hr; try discriminate Hr; reflexivity|].
  split; [intros [|[|[|[|r]]]] Hr; try discriminate Hr; reflexivity|]. split; [reflexivity|]. split; [exact E2|]. split; [reflexivity|].
  change (jparam_at off 1) with param_0 in Wt. change (jparam_at jp 1) with param_0 in W2. rewrite local_0 in Wt, W2.
  rewrite W2, Wt. unfold local_tf, jp, jp', tf_mul. cbn [jprerot joffset jparam_at jtx jty jtz jrx jry jrz jsc nth app repeat Nat.add Nat.mul rot trans scl].
  unfold q. rewrite !qrot_axis_z. vec_unfold. rewrite cos_PI, sin_PI. split; f_equal; ring.
Qed.
Print Assumptions simplify_axes_refuted.

(** ** Active joints and parameters *)

Lemma p2j_loop n (S : pset) : forall (es : list entry) act, List.length act = n -> (forall e, In e es -> erow e / 7 < n /\ ecol e < kMaxModelParams) ->
  exists act', ofold (fun e res => if ecol e <? kMaxModelParams then if S (ecol e) then wr res (erow e / 7) true else Ok res else Throw) es act = Ok act' /\
    List.length act' = n /\ forall j, nth_error act' j = Some true <-> nth_error act j = Some true \/ exists e, In e es /\ erow e / 7 = j /\ S (ecol e) = true.
Proof.
  induction es as [|e es IH]; intros act L H.
  - exists act. split; [reflexivity|]. split; [exact L|]. intros j. split; [auto|]. intros [X|(e & [] & _)]. exact X.
  - cbn [ofold]. destruct (H e (or_introl eq_refl)) as [Hr Hc]. destruct (Nat.ltb_spec (ecol e) kMaxModelParams) as [_|]; [|lia].
    assert (Hes : forall e0, In e0 es -> erow e0 / 7 < n /\ ecol e0 < kMaxModelParams) by (intros; apply H; right; assumption).
    destruct (S (ecol e)) eqn:Se.
    + destruct (Loops.wr_ok act (erow e / 7) true) as (act1 & E1 & L1 & N1 & O1); [lia|]. rewrite E1. cbn [obind]. destruct (IH act1) as (act' & E & L' & A); [lia|exact Hes|].
      exists act'. split; [exact E|]. split; [exact L'|]. intros j. rewrite A. destruct (Nat.eq_dec j (erow e / 7)) as [->|Nj].
      * rewrite N1. split; [intros _; right; exists e; repeat split; auto; left; reflexivity|auto].
      * rewrite O1 by auto. split; [intros [X|(e0 & Y1 & Y2)]; [auto|right; exists e0; split; [right|]; assumption]|].
        intros [X|(e0 & [<-|Y1] & Y2 & Y3)]; [auto|congruence|right; exists e0; auto].
    + cbn [obind]. destruct (IH act L Hes) as (act' & E & L' & A). exists act'. split; [exact E|]. split; [exact L'|]. intros j. rewrite A.
      split; [intros [X|(e0 & Y1 & Y2)]; [auto|right; exists e0; split; [right|]; assumption]|].
      intros [X|(e0 & [<-|Y1] & Y2 & Y3)]; [auto|congruence|right; exists e0; auto].
Qed.

Lemma div_bound r n : r < 7 * n -> r / 7 < n.
Proof. intros H. apply Nat.div_lt_upper_bound; lia. Qed.

Theorem active_joints_correct c S : ch_wf c ->
  exists act, parameters_to_joints (List.length (ch_skel c)) (ch_pt c) S = Ok act /\ List.length act = List.length (ch_skel c) /\
    forall j, nth_error act j = Some true <-> driven_by (ch_pt c) S j.
Proof.
  intros W. destruct (p2j_loop (List.length (ch_skel c)) S (pt_entries (ch_pt c)) (repeat false (List.length (ch_skel c)))) as (act & E & L & A).
  - apply repeat_length.
  - intros e He. destruct (wf_entries _ (cw_pt _ W) e He) as [H1 H2]. rewrite (cw_rows _ W) in H1. split; [apply div_bound, H1|].
    pose proof (wf_max _ (cw_pt _ W)). lia.
  - exists act. split; [exact E|]. split; [exact L|]. intros j. rewrite A. split; [|auto]. intros [X|X]; [|exact X].
    apply nth_error_In, repeat_spec in X. discriminate X.
Qed.
Print Assumptions active_joints_correct.

Lemma j2p_loop (pt : ptransform) n (act : list bool) : List.length act = n -> forall (es : list entry) (res : pset), (forall e, In e es -> erow e / 7 < n /\ ecol e < pt_cols pt) -> pt_cols pt <= kMaxModelParams ->
  exists S : pset, ofold (fun (e : entry) (res : pset) => if negb (ecol e <? pt_cols pt) then CheckFail else
      obind (rd act (erow e / 7)) (fun b => if b then if ecol e <? kMaxModelParams then Ok (fun i => (i =? ecol e) || res i) else Throw else Ok res)) es res = Ok S /\
    forall p, S p = true <-> res p = true \/ exists e, In e es /\ ecol e = p /\ nth_error act (erow e / 7) = Some true.
Proof.
  intros L. induction es as [|e es IH]; intros res H M.
  - exists res. split; [reflexivity|]. intros p. split; [auto|]. intros [X|(e & [] & _)]. exact X.
  - cbn [ofold]. destruct (H e (or_introl eq_refl)) as [Hr Hc]. destruct (Nat.ltb_spec (ecol e) (pt_cols pt)) as [_|]; [|lia]. cbn [negb].
    destruct (nth_error_lt act (erow e / 7)) as [b Eb]; [lia|]. rewrite (rd_some _ _ _ Eb). cbn [obind].
    assert (Hes : forall e0, In e0 es -> erow e0 / 7 < n /\ ecol e0 < pt_cols pt) by (intros; apply H; right; assumption).
    destruct b.
    + destruct (Nat.ltb_spec (ecol e) kMaxModelParams) as [_|]; [|lia]. cbn [obind].
      destruct (IH (fun i => (i =? ecol e) || res i) Hes M) as (S & E & A). exists S. split; [exact E|]. intros p. rewrite A, orb_true_iff, Nat.eqb_eq.
      split; [intros [[->|X]|(e0 & Y1 & Y2)]; [right; exists e; repeat split; auto; left; reflexivity|auto|right; exists e0; split; [right|]; assumption]|].
      intros [X|(e0 & [<-|Y1] & Y2 & Y3)]; [auto|auto|right; exists e0; auto].
    + cbn [obind]. destruct (IH res Hes M) as (S & E & A). exists S. split; [exact E|]. intros p. rewrite A.
      split; [intros [X|(e0 & Y1 & Y2)]; [auto|right; exists e0; split; [right|]; assumption]|].
      intros [X|(e0 & [<-|Y1] & Y2 & Y3)]; [auto|congruence|right; exists e0; auto].
Qed.

Theorem active_parameters_correct c act : ch_wf c -> List.length act = List.length (ch_skel c) ->
  exists S, joints_to_parameters (List.length (ch_skel c)) (ch_pt c) act = Ok S /\ forall p, S p = true <-> drives_active (ch_pt c) act p.
Proof.
  intros W L. unfold joints_to_parameters. rewrite L, Nat.eqb_refl. cbn [negb].
  destruct (j2p_loop (ch_pt c) _ act L (pt_entries (ch_pt c)) (fun _ => false)) as (S & E & A).
  - intros e He. destruct (wf_entries _ (cw_pt _ W) e He) as [H1 H2]. rewrite (cw_rows _ W) in H1. split; [apply div_bound, H1|exact H2].
  - apply (wf_max _ (cw_pt _ W)).
  - exists S. split; [exact E|]. intros p. rewrite A. split; [intros [X|X]; [discriminate X|exact X]|auto].
Qed.
Print Assumptions active_parameters_correct.

(** Joints and back: the parameters that drive something come back, with all others that drive the same joints. *)
Theorem active_round_trip c S : ch_wf c ->
  exists act S', parameters_to_joints (List.length (ch_skel c)) (ch_pt c) S = Ok act /\ joints_to_parameters (List.length (ch_skel c)) (ch_pt c) act = Ok S' /\
    (forall p, S p = true -> (exists e, In e (pt_entries (ch_pt c)) /\ ecol e = p) -> S' p = true) /\
    (forall p, S' p = true -> exists e e', In e (pt_entries (ch_pt c)) /\ In e' (pt_entries (ch_pt c)) /\ ecol e = p /\ S (ecol e') = true /\ erow e / 7 = erow e' / 7).
Proof.
  intros W. destruct (active_joints_correct c S W) as (act & E & L & A). destruct (active_parameters_correct c act W L) as (S' & E' & A').
  exists act, S'. split; [exact E|]. split; [exact E'|]. split.
  - intros p Hp (e & He & Ec). apply A'. exists e. split; [exact He|]. split; [exact Ec|]. apply A. exists e. rewrite Ec. auto.
  - intros p Hp. apply A' in Hp as (e & He & Ec & X). apply A in X as (e' & He' & Er & Sc). exists e, e'. auto.
Qed.
Print Assumptions active_round_trip.

Lemma between_off ps enabled a r : between ps enabled a r -> nth_error enabled r = Some false.
Proof. induction 1; assumption. Qed.

(** Simplifying for active parameters: the poses with the other parameters at zero are kept. *)
Theorem simplify_active_partial c S q sts : ch_wf c -> List.length q = pt_cols (ch_pt c) -> posed c q sts ->
  (forall i, nth_error (sk_parents (ch_skel c)) i = Some None -> driven_by (ch_pt c) S i) -> (exists j, driven_by (ch_pt c) S j) ->
  (forall l j, In l (ch_limits c) -> In j (limit_joints (ldata l)) -> j < List.length (ch_skel c)) ->
  (forall i, S i = false -> nth i q 0%R = 0%R) ->
  (forall r, r < List.length (ch_skel c) -> ~ driven_by (ch_pt c) S r -> only_translates (jparam_at (pt_offsets (ch_pt c)) r)) ->
  (forall r j, nth_error (ch_skel c) r = Some j -> ~ driven_by (ch_pt c) S r -> jprerot j = qid) ->
  exists act c' m sts', parameters_to_joints (List.length (ch_skel c)) (ch_pt c) S = Ok act /\
    simplify c S = Ok (c', m) /\ posed c' q sts' /\ same_worlds act sts sts'.
Proof.
  intros W Lq P Hr [j0 Hj0] Hl Hq Ho Hp. destruct (active_joints_correct c S W) as (act & E & L & A). exists act.
  assert (N : forall r, nth_error act r = Some false -> r < List.length (ch_skel c) /\ ~ driven_by (ch_pt c) S r).
  { intros r Er. split; [rewrite <- L; apply (nth_error_len _ _ _ Er)|]. intros D. apply A in D. congruence. }
  destruct (simplify_poses_partial c act q sts) as (c' & m & sts' & E' & P' & Sw); auto.
  - constructor; auto. exists j0. apply A, Hj0. intros i Hi. apply A, Hr, Hi.
  - intros e He Er. apply N in Er as [_ Er]. apply Hq. destruct (S (ecol e)) eqn:Se; [|reflexivity]. destruct Er. exists e. auto.
  - intros r Er. apply N in Er as [H1 H2]. auto.
  - intros jp a _ _. right. intros r j B Ej. apply (Hp r j Ej). apply between_off in B. apply N, B.
  - exists c', m, sts'. split; [exact E|]. split; [|auto]. unfold simplify. rewrite E. exact E'.
Qed.
Print Assumptions simplify_active_partial.

(** ** A concrete case *)

(** A chain of four joints: the third has a constant translation and no parameter, the second is moved
    and the fourth rotated by a parameter; a third parameter drives the third joint. *)
Example simplify_case_char : character :=
  Ch [Joint None (V3 0 1 0) qid; Joint (Some 0) (V3 0 2 0) (qaxis 1 ex); Joint (Some 1) (V3 1 0 0) qid; Joint (Some 2) (V3 0 0 1) (qaxis 2 ey)]
    (PT ["a"; "b"; "c"]%string 28 3 [Entry 3 0 1; Entry 7 1 2; Entry 24 0 1; Entry 20 2 1] (repeat 0%R 14 ++ [5%R] ++ repeat 0%R 13) (repeat true 28) [] [] [] [])
    [Locator "l" (Some 2) (V3 1 2 3) (false, false, false) 1 (V3 1 2 3) vzero]
    [PLimit (LMinMaxJoint 2 5 0 1) 1; PLimit (LEllipsoid 3 2) 2] [].
Example simplify_case_set (i : nat) : bool := i <? 2.
Example simplify_case : simplifiable simplify_case_char [true; true; false; true] /\
  (exists act, parameters_to_joints 4 (ch_pt simplify_case_char) simplify_case_set = Ok act /\ act = [true; true; false; true]) /\
  nearest_kept (sk_parents (ch_skel simplify_case_char)) [true; true; false; true] 2 1 /\ new_index [true; true; false; true] 3 = 2 /\
  (exists sts c' m sts', posed simplify_case_char [1%R; 2%R; 0%R] sts /\ simplify simplify_case_char simplify_case_set = Ok (c', m) /\
     List.length (ch_skel c') = 3 /\ posed c' [1%R; 2%R; 0%R] sts' /\ same_worlds [true; true; false; true] sts sts').
Proof.
  assert (W : ch_wf simplify_case_char).
  { constructor.
    - intros [|[|[|[|[|i]]]]] p H; cbn in H; try discriminate; injection H as <-; lia.
    - assert (X : forall a, qunit (qaxis a ex) /\ qunit (qaxis a ey)) by (intros a; split; apply qaxis_unit; unfold vnorm2; vec_unfold; ring).
      intros [|[|[|[|[|i]]]]] jt H; cbn in H; try discriminate; apply (f_equal (fun o => match o with Some x => x | None => jt end)) in H; subst jt; cbn [jprerot]; first [apply qunit_id | apply X].
    - constructor; cbn [simplify_case_char ch_pt pt_name pt_cols pt_rows pt_offsets pt_entries pt_pose pt_blend pt_face]; try reflexivity; try contradiction.
      + unfold kMaxModelParams. lia.
      + intros e [<-|[<-|[<-|[<-|[]]]]]; cbn; lia.
    - reflexivity.
    - intros l [<-|[]]. exists 2. cbn. split; [reflexivity|lia]. }
  assert (S : simplifiable simplify_case_char [true; true; false; true]).
  { constructor; [exact W|reflexivity|exists 0; reflexivity| |].
    - intros [|[|[|[|[|i]]]]] H; cbn in H; try discriminate; reflexivity.
    - intros l j [<-|[<-|[]]] Hj; cbn in Hj |- *; lia. }
  assert (Pa : parameters_to_joints 4 (ch_pt simplify_case_char) simplify_case_set = Ok [true; true; false; true]).
  { destruct (active_joints_correct simplify_case_char simplify_case_set W) as (act & E & L & A). change (List.length (ch_skel simplify_case_char)) with 4 in E, L.
    rewrite E. f_equal. destruct act as [|a0 [|a1 [|a2 [|a3 [|]]]]]; try discriminate L.
    assert (D : forall j, driven_by (ch_pt simplify_case_char) simplify_case_set j <-> j = 0 \/ j = 1 \/ j = 3).
    { intros j. split.
      - intros (e & [<-|[<-|[<-|[<-|[]]]]] & <- & X); cbn in X |- *; try discriminate X; auto.
      - intros [-> | [-> | ->]]; [exists (Entry 3 0 1)|exists (Entry 7 1 2)|exists (Entry 24 0 1)]; cbn; auto 10. }
    assert (B : forall j b, nth_error [a0; a1; a2; a3] j = Some b -> b = true <-> j = 0 \/ j = 1 \/ j = 3) by (intros j b Eb; rewrite <- D, <- A, Eb; split; congruence).
    pose proof (B 0 a0 eq_refl). pose proof (B 1 a1 eq_refl). pose proof (B 2 a2 eq_refl). pose proof (B 3 a3 eq_refl).
    assert (a0 = true) as -> by tauto. assert (a1 = true) as -> by tauto. assert (a3 = true) as -> by tauto. destruct a2; [|reflexivity]. exfalso. assert (2 = 0 \/ 2 = 1 \/ 2 = 3) by tauto. lia. }
  split; [exact S|]. split; [eexists; split; [exact Pa|reflexivity]|]. split; [|split; [reflexivity|]].
  - unfold nearest_kept. split; [apply (ancestor_up _ 2 1 1); [reflexivity|apply ancestor_self; cbn; lia]|]. split; [reflexivity|].
    intros b Hb Kb. inversion Hb as [? X|? ? ? H1 H2]; subst; [discriminate Kb|]. cbn in H1. injection H1 as <-. exact H2.
  - destruct (apply_affine_lemma (ch_pt simplify_case_char) [1%R; 2%R; 0%R] (cw_pt _ W) eq_refl) as (jp & Ea & La & _).
    destruct (fk_ok (ch_skel simplify_case_char) jp (cw_parents _ W)) as (sts & Ef & _); [exact La|].
    assert (P : posed simplify_case_char [1%R; 2%R; 0%R] sts) by (exists jp; auto).
    destruct (simplify_poses_partial simplify_case_char [true; true; false; true] [1%R; 2%R; 0%R] sts S eq_refl P) as (c' & m & sts' & E & P' & Sw).
    + intros e [<-|[<-|[<-|[<-|[]]]]] X; cbn in X; try discriminate X. reflexivity.
    + intros [|[|[|[|[|r]]]]] X; try discriminate X. repeat split.
    + intros jp1 a _ _. right. intros r j B Ej. apply between_off in B.
      destruct r as [|[|[|[|[|r]]]]]; try discriminate B. injection Ej as <-. reflexivity.
    + exists sts, c', m, sts'. split; [exact P|]. split; [unfold simplify; change (List.length (ch_skel simplify_case_char)) with 4; rewrite Pa; exact E|]. split; [|auto].
      destruct (simplify_structure _ _ S) as (c2 & m2 & E2 & L2 & _). assert (c2 = c') as -> by congruence. rewrite L2. reflexivity.
Qed.
