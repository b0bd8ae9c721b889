(** Proofs about mapParameterTransformJoints and addBlendShapeParameters. *)

From Coq Require Import Bool Reals List Arith ZArith String Lia Lra.
From Verif Require Import Prelude LinAlg ParamTransform_model ParamTransform_spec ParamTransform_proofs.
Import ListNotations.
Local Open Scope R_scope.

Lemma wr_ok {A} (l : list A) i a d : (i < List.length l)%nat ->
  exists l', wr l i a = Ok l' /\ List.length l' = List.length l /\
    forall k, nth k l' d = if Nat.eqb k i then a else nth k l d.
Proof.
  intros H. destruct (upd_some l i a H) as [l' E]. exists l'. unfold wr. rewrite E.
  split; [reflexivity|]. split; [exact (upd_length _ _ _ _ E)|].
  intros k. pose proof (upd_nth _ _ _ _ E k) as N.
  destruct (Nat.eqb k i).
  - exact (nth_error_nth _ _ d N).
  - destruct (nth_error l k) as [x|] eqn:Ek.
    + rewrite (nth_error_nth _ _ d N), (nth_error_nth _ _ d Ek). reflexivity.
    + rewrite !nth_overflow; auto; apply nth_error_None; congruence.
Qed.

Lemma set_block_ok vals : forall off base, (base + List.length vals <= List.length off)%nat ->
  exists off', set_block off base vals = Ok off' /\ List.length off' = List.length off /\
    forall k, nth k off' 0 =
      if (Nat.leb base k && Nat.ltb k (base + List.length vals))%bool
      then nth (k - base) vals 0 else nth k off 0.
Proof.
  induction vals as [|v r IH]; intros off base H; cbn [List.length set_block] in *.
  - exists off. split; [reflexivity|]. split; [reflexivity|]. intros k.
    destruct (Nat.leb_spec base k), (Nat.ltb_spec k (base + 0)); cbn [andb]; auto; lia.
  - destruct (wr_ok off base v 0) as [o1 [E1 [L1 N1]]]; [lia|].
    destruct (IH o1 (S base)) as [o2 [E2 [L2 N2]]]; [lia|].
    rewrite E1. cbn [obind]. exists o2. split; [exact E2|]. split; [congruence|].
    intros k. rewrite N2, N1.
    destruct (Nat.leb_spec (S base) k), (Nat.leb_spec base k), (Nat.ltb_spec k (S base + List.length r)),
      (Nat.ltb_spec k (base + S (List.length r))), (Nat.eqb_spec k base); cbn [andb]; try lia; auto.
    + replace (k - base)%nat with (S (k - S base)) by lia. reflexivity.
    + subst k. rewrite Nat.sub_diag. reflexivity.
Qed.

(** No two joints are mapped to the same target. *)
Definition jmap_injective (jmap : list (option nat)) : Prop :=
  forall a b j, nth_error jmap a = Some (Some j) -> nth_error jmap b = Some (Some j) -> a = b.

Lemma div7 j d : (d < 7 -> (7 * j + d) / 7 = j /\ (7 * j + d) mod 7 = d)%nat.
Proof.
  intros H. split.
  - symmetry. apply (Nat.div_unique _ 7 j d); lia.
  - symmetry. apply (Nat.mod_unique _ 7 j d); lia.
Qed.

Lemma map_offsets_ok jmap : forall i old new nT,
  jmap_injective jmap ->
  (forall a j, nth_error jmap a = Some (Some j) -> (j < nT)%nat) ->
  List.length new = (7 * nT)%nat -> (7 * (i + List.length jmap) <= List.length old)%nat ->
  exists new', map_offsets jmap i old new = Ok new' /\ List.length new' = (7 * nT)%nat /\
    (forall a j d, nth_error jmap a = Some (Some j) -> (d < 7)%nat ->
       nth (7 * j + d) new' 0 = nth (7 * (i + a) + d) old 0) /\
    (forall j d, (d < 7)%nat -> (forall a, nth_error jmap a <> Some (Some j)) ->
       nth (7 * j + d) new' 0 = nth (7 * j + d) new 0).
Proof.
  induction jmap as [|m r IH]; intros i old new nT INJ RNG LN LO; cbn [List.length] in *.
  - exists new. cbn. split; [reflexivity|]. split; [exact LN|]. split.
    + intros [|a] j d H; discriminate.
    + auto.
  - assert (INJ' : jmap_injective r).
    { intros a b j H1 H2. assert (S a = S b) by (apply (INJ (S a) (S b) j); assumption). lia. }
    assert (RNG' : forall a j, nth_error r a = Some (Some j) -> (j < nT)%nat).
    { intros a j H. apply (RNG (S a) j H). }
    destruct m as [j0|].
    + cbn [map_offsets].
      rewrite (rd_all_map old 0) by (intros x Hx; apply in_seq in Hx; lia).
      cbn [obind].
      destruct (set_block_ok (map (fun i0 => nth i0 old 0) (seq (7 * i) 7)) new (7 * j0)) as [n1 [E1 [L1 N1]]].
      { rewrite map_length, seq_length, LN. specialize (RNG 0%nat j0 eq_refl). lia. }
      rewrite E1. cbn [obind].
      destruct (IH (S i) old n1 nT INJ' RNG') as [n2 [E2 [L2 [P1 P2]]]]; [congruence|lia|].
      exists n2. split; [exact E2|]. split; [exact L2|]. split.
      * intros [|a] j d H Hd.
        -- cbn in H. injection H as ->. rewrite P2; [|exact Hd|].
           ++ rewrite N1, map_length, seq_length.
              destruct (Nat.leb_spec (7 * j) (7 * j + d)); [|lia].
              destruct (Nat.ltb_spec (7 * j + d) (7 * j + 7)); [|lia]. cbn [andb].
              replace (7 * j + d - 7 * j)%nat with d by lia.
              rewrite (nth_indep _ 0 (nth 0 old 0)) by (rewrite map_length, seq_length; lia).
              rewrite (map_nth (fun i0 => nth i0 old 0)), seq_nth by lia. f_equal. lia.
           ++ intros a Ha. assert (0 = S a)%nat by (apply (INJ 0%nat (S a) j); [reflexivity|exact Ha]). lia.
        -- cbn in H. rewrite (P1 a j d H Hd). f_equal. lia.
      * intros j d Hd H. rewrite P2; [|exact Hd|intros a; apply (H (S a))].
        rewrite N1, map_length, seq_length.
        assert (j <> j0) by (intros ->; apply (H 0%nat); reflexivity).
        destruct (Nat.leb_spec (7 * j0) (7 * j + d)), (Nat.ltb_spec (7 * j + d) (7 * j0 + 7)); cbn [andb]; auto; lia.
    + cbn [map_offsets obind].
      destruct (IH (S i) old new nT INJ' RNG') as [n2 [E2 [L2 [P1 P2]]]]; [exact LN|lia|].
      exists n2. split; [exact E2|]. split; [exact L2|]. split.
      * intros [|a] j d H Hd; [discriminate|]. cbn in H. rewrite (P1 a j d H Hd). f_equal. lia.
      * intros j d Hd H. apply P2; [exact Hd|]. intros a. apply (H (S a)).
Qed.

Definition entry_mapped (jmap : list (option nat)) (e e' : entry) : Prop :=
  ecol e' = ecol e /\ eval e' = eval e /\
  exists j, nth_error jmap (erow e / 7) = Some (Some j) /\ erow e' = (7 * j + erow e mod 7)%nat.

Definition row_mapped (jmap : list (option nat)) (e : entry) : bool :=
  match nth_error jmap (erow e / 7) with Some (Some _) => true | _ => false end.

Lemma map_entries_ok jmap nT es :
  (forall a j, nth_error jmap a = Some (Some j) -> (j < nT)%nat) ->
  (forall e, In e es -> (erow e < 7 * List.length jmap)%nat) ->
  exists es', map_entries jmap (nT * 7) es = Ok es' /\
    Forall2 (entry_mapped jmap) (filter (row_mapped jmap) es) es'.
Proof.
  intros RNG. induction es as [|e r IH]; intros H.
  - exists []. split; [reflexivity|constructor].
  - destruct IH as [es' [E F]]; [intros; apply H; right; assumption|].
    cbn [map_entries filter]. unfold row_mapped at 1.
    assert (Hr : (erow e / 7 < List.length jmap)%nat).
    { apply Nat.div_lt_upper_bound; [lia|]. apply H. left. reflexivity. }
    destruct (nth_error jmap (erow e / 7)) as [m|] eqn:Em; [|apply nth_error_None in Em; lia].
    rewrite (rd_eq _ _ _ Em). cbn [obind]. rewrite E. cbn [obind].
    destruct m as [j|].
    + pose proof (RNG _ _ Em). pose proof (Nat.mod_upper_bound (erow e) 7 ltac:(lia)).
      destruct (Nat.ltb_spec (j * 7 + erow e mod 7) (nT * 7)); [|lia].
      eexists; split; [reflexivity|]. constructor; [|exact F].
      repeat split; cbn [ecol eval erow]. exists j. split; [exact Em|]. f_equal. lia.
    + eauto.
Qed.

Lemma row_dot_mapped jmap es es' p a j d :
  jmap_injective jmap ->
  Forall2 (entry_mapped jmap) (filter (row_mapped jmap) es) es' ->
  nth_error jmap a = Some (Some j) -> (d < 7)%nat ->
  row_dot es' p (7 * j + d) = row_dot es p (7 * a + d).
Proof.
  intros INJ F Ha Hd. unfold row_dot. revert es' F. induction es as [|e t IH]; intros es' F; cbn [filter] in F.
  - inversion F; subst. reflexivity.
  - unfold row_mapped at 1 in F.
    pose proof (Nat.div_mod (erow e) 7 ltac:(lia)) as DM.
    pose proof (Nat.mod_upper_bound (erow e) 7 ltac:(lia)) as MU.
    destruct (nth_error jmap (erow e / 7)) as [[j'|]|] eqn:Em.
    + inversion F as [|? e' ? es'' [R1 [R2 [j1 [R3 R4]]]] F' ]; subst. cbn [map rsum].
      rewrite (IH es'' F'). rewrite R1, R2. f_equal.
      rewrite Em in R3. injection R3 as <-.
      destruct (Nat.eqb_spec (erow e') (7 * j + d)) as [E1|E1], (Nat.eqb_spec (erow e) (7 * a + d)) as [E2|E2]; auto; exfalso.
      * apply E2. assert (j' = j) by lia. subst j'.
        assert ((erow e / 7)%nat = a) by (apply (INJ _ _ j); assumption). lia.
      * apply E1. destruct (div7 a d Hd) as [D1 D2]. rewrite <- E2 in D1, D2.
        rewrite D1 in Em. rewrite Ha in Em. injection Em as <-. lia.
    + cbn [map rsum]. rewrite (IH es' F).
      destruct (Nat.eqb_spec (erow e) (7 * a + d)) as [E2|E2]; [|ring].
      destruct (div7 a d Hd) as [D1 D2]. rewrite <- E2 in D1. rewrite D1 in Em. congruence.
    + cbn [map rsum]. rewrite (IH es' F).
      destruct (Nat.eqb_spec (erow e) (7 * a + d)) as [E2|E2]; [|ring].
      destruct (div7 a d Hd) as [D1 D2]. rewrite <- E2 in D1. rewrite D1 in Em. congruence.
Qed.

Lemma row_dot_unmapped jmap es es' p j d :
  Forall2 (entry_mapped jmap) (filter (row_mapped jmap) es) es' ->
  (forall a, nth_error jmap a <> Some (Some j)) -> (d < 7)%nat ->
  row_dot es' p (7 * j + d) = 0.
Proof.
  intros F H Hd. apply rsum_map_zero. intros e' He'.
  destruct (Forall2_in_r _ _ _ _ F He') as [e [_ [_ [_ [j' [E1 E2]]]]]].
  pose proof (Nat.mod_upper_bound (erow e) 7 ltac:(lia)) as MU.
  destruct (Nat.eqb_spec (erow e') (7 * j + d)) as [E|E]; [|reflexivity].
  exfalso. assert (j' = j) by lia. subst. exact (H _ E1).
Qed.

Lemma map_joints_lemma pt nT jmap :
  pt_wf pt -> pt_rows pt = (7 * List.length jmap)%nat -> jmap_injective jmap ->
  (forall a j, nth_error jmap a = Some (Some j) -> (j < nT)%nat) ->
  exists pt', map_transform_joints pt nT jmap = Ok pt' /\
    pt_name pt' = pt_name pt /\ pt_cols pt' = pt_cols pt /\ pt_sets pt' = pt_sets pt /\
    pt_pose pt' = pt_pose pt /\
    forall p, List.length p = pt_cols pt ->
      exists q q', pt_apply pt p = Ok q /\ pt_apply pt' p = Ok q' /\ List.length q' = (7 * nT)%nat /\
      (forall a j d, nth_error jmap a = Some (Some j) -> (d < 7)%nat ->
         nth (7 * j + d) q' 0 = nth (7 * a + d) q 0) /\
      (forall j d, (j < nT)%nat -> (d < 7)%nat -> (forall a, nth_error jmap a <> Some (Some j)) ->
         nth (7 * j + d) q' 0 = 0).
Proof.
  intros W RW INJ RNG. unfold map_transform_joints.
  destruct (map_offsets_ok jmap 0 (pt_offsets pt) (repeat 0 (nT * 7)) nT INJ RNG) as [off [E1 [L1 [P1 P2]]]].
  { rewrite repeat_length. lia. }
  { rewrite (wf_offsets pt W). lia. }
  destruct (map_entries_ok jmap nT (pt_entries pt) RNG) as [es [E2 F]].
  { intros e He. rewrite <- RW. apply (wf_entries pt W e He). }
  rewrite E1. cbn [obind]. rewrite E2. cbn [obind].
  eexists; split; [reflexivity|]. cbn [pt_name pt_cols pt_sets pt_pose].
  split; [reflexivity|]. split; [apply (wf_names pt W)|]. split; [reflexivity|]. split; [reflexivity|].
  intros p Lp. unfold pt_apply. cbn [pt_cols pt_offsets pt_rows pt_entries].
  rewrite (wf_names pt W), Lp, Nat.eqb_refl, (wf_offsets pt W), Nat.eqb_refl, L1.
  rewrite (Nat.mul_comm nT 7), Nat.eqb_refl. cbn [negb].
  eexists; eexists; split; [reflexivity|]. split; [reflexivity|].
  set (pt' := PT _ _ _ _ _ _ _ _ _ _).
  assert (RR : pt_rows pt' = (7 * nT)%nat) by reflexivity.
  split; [rewrite vadd_list_length, mat_vec_length, L1, RR; lia|].
  assert (A : forall j d, (j < nT)%nat -> (d < 7)%nat ->
    nth (7 * j + d) (vadd_list (mat_vec pt' p) off) 0 = row_dot es p (7 * j + d) + nth (7 * j + d) off 0).
  { intros j d Hj Hd. rewrite vadd_list_nth; rewrite ?mat_vec_length, ?RR, ?L1; try lia.
    rewrite mat_vec_nth by (rewrite RR; lia). reflexivity. }
  split.
  - intros a j d Ha Hd. rewrite A by (eauto || lia).
    assert (La : (a < List.length jmap)%nat) by (apply nth_error_Some; congruence).
    rewrite vadd_list_nth; rewrite ?mat_vec_length, ?RW, ?(wf_offsets pt W); try lia.
    rewrite mat_vec_nth by (rewrite RW; lia).
    rewrite (row_dot_mapped jmap _ _ p a j d INJ F Ha Hd). f_equal. apply (P1 a j d Ha Hd).
  - intros j d Hj Hd H. rewrite A by assumption.
    rewrite (row_dot_unmapped jmap _ _ p j d F H Hd), (P2 j d Hd H), nth_repeat0. ring.
Qed.

(** ** addBlendShapeParameters *)

Lemma kept_all n S : (forall i, (i < n)%nat -> S i = true) -> kept n S = seq 0 n.
Proof.
  intros H. unfold kept. assert (G : forall x, In x (seq 0 n) -> S x = true).
  { intros x Hx. apply in_seq in Hx. apply H. lia. }
  induction (seq 0 n) as [|x l IH]; cbn; [reflexivity|].
  rewrite (G x (or_introl eq_refl)), IH; auto. intros; apply G; right; assumption.
Qed.
Lemma kept_prefix n m S : (forall i, (i < n)%nat -> S i = true) ->
  (forall i, (n <= i < n + m)%nat -> S i = false) -> kept (n + m) S = seq 0 n.
Proof.
  intros H1 H2. unfold kept. rewrite seq_app, filter_app.
  assert (E : filter S (seq (0 + n) m) = []).
  { assert (G : forall x, In x (seq (0 + n) m) -> S x = false) by
      (intros x Hx; apply in_seq in Hx; apply H2; lia).
    induction (seq (0 + n) m) as [|x l IH]; cbn; [reflexivity|].
    rewrite (G x (or_introl eq_refl)). apply IH. intros; apply G; right; assumption. }
  rewrite E, app_nil_r. apply (kept_all n S H1).
Qed.

Lemma index_set_true l i : index_set l i = true <-> In (Z.of_nat i) l.
Proof.
  unfold index_set. rewrite existsb_exists. split.
  - intros [z [Hz E]]. apply andb_true_iff in E as [A B]. apply Z.eqb_eq in B. subst. exact Hz.
  - intros H. exists (Z.of_nat i). split; [exact H|]. apply andb_true_iff.
    split; [apply Z.leb_le; lia|apply Z.eqb_refl].
Qed.

Lemma Forall2_eq_id {A} (R : A -> A -> Prop) l l' : (forall x y, In x l -> R x y -> y = x) -> Forall2 R l l' -> l' = l.
Proof.
  intros H F. induction F; [reflexivity|]. f_equal.
  - apply H; [left; reflexivity|assumption].
  - apply IHF. intros; apply H; [right; assumption|assumption].
Qed.
Lemma filter_all {A} (f : A -> bool) l : (forall x, In x l -> f x = true) -> filter f l = l.
Proof.
  induction l as [|x l IH]; cbn; intros H; [reflexivity|].
  rewrite H by auto. f_equal. auto.
Qed.

Definition blend_strip (pt : ptransform) : pset := fun i => negb (index_set (pt_blend pt) i).

(** Result of adding blend shapes, relative to the stripped transform. *)
Definition with_blend (fresh : nat -> string) (pt1 : ptransform) (n : nat) : ptransform :=
  let base := List.length (pt_name pt1) in
  PT (pt_name pt1 ++ map fresh (seq 0 n)) (pt_rows pt1) (List.length (pt_name pt1 ++ map fresh (seq 0 n)))
     (pt_entries pt1) (pt_offsets pt1) (pt_active pt1)
     (pt_sets pt1) (pt_pose pt1) (map (fun i => Z.of_nat (base + i)) (seq 0 n)) (pt_face pt1).

Lemma add_blend_unfold fresh pt lims n :
  add_blend_shapes fresh pt lims n =
  obind (subset_transform pt lims (blend_strip pt)) (fun x => Ok (with_blend fresh (fst x) n, snd x)).
Proof.
  unfold add_blend_shapes. change (fun i => negb (index_set (pt_blend pt) i)) with (blend_strip pt).
  destruct (subset_transform pt lims (blend_strip pt)) as [[a b]| | | |]; reflexivity.
Qed.

(** Stripping what was just added gives the stripped transform back. *)
Lemma strip_with_blend fresh pt1 lims n :
  pt_wf pt1 -> limits_wf (pt_cols pt1) lims ->
  (pt_cols pt1 + n <= kMaxModelParams)%nat ->
  pt_active pt1 = active_rows (pt_rows pt1) (pt_entries pt1) (fun _ => true) ->
  (forall nm s k, In (nm, s) (pt_sets pt1) -> (pt_cols pt1 <= k)%nat -> s k = false) ->
  (forall z, In z (pt_face pt1) -> (-1 <= z)%Z) ->
  exists pt2 lims2, subset_transform (with_blend fresh pt1 n) lims (blend_strip (with_blend fresh pt1 n)) = Ok (pt2, lims2) /\
    lims2 = lims /\ pt_name pt2 = pt_name pt1 /\ pt_rows pt2 = pt_rows pt1 /\
    pt_cols pt2 = pt_cols pt1 /\ pt_entries pt2 = pt_entries pt1 /\ pt_offsets pt2 = pt_offsets pt1 /\
    pt_active pt2 = pt_active pt1 /\ sets_agree (pt_sets pt2) (pt_sets pt1) /\
    pt_pose pt2 = pt_pose pt1 /\ pt_face pt2 = pt_face pt1.
Proof.
  intros W WL MX ACT SB FB.
  set (q := with_blend fresh pt1 n). set (c := pt_cols pt1) in *.
  assert (LN : List.length (pt_name pt1) = c) by apply (wf_names pt1 W).
  assert (QC : pt_cols q = (c + n)%nat).
  { unfold q, with_blend. cbn [pt_cols]. rewrite app_length, map_length, seq_length, LN. reflexivity. }
  assert (Wq : pt_wf q).
  { constructor; try rewrite QC.
    - unfold q, with_blend. cbn [pt_name]. rewrite app_length, map_length, seq_length, LN. reflexivity.
    - apply (wf_offsets pt1 W).
    - exact MX.
    - intros e He. destruct (wf_entries pt1 W e He). split; [exact H|]. fold c in H0. lia.
    - intros nm l i v H1 H2. pose proof (wf_pose pt1 W nm l i v H1 H2). fold c in H. lia.
    - intros z Hz. unfold q, with_blend in Hz. cbn [pt_blend] in Hz. apply in_map_iff in Hz as [i [<- Hi]].
      apply in_seq in Hi. rewrite LN. lia.
    - intros z Hz. pose proof (wf_face pt1 W z Hz). fold c in H. lia. }
  assert (WLq : limits_wf (pt_cols q) lims).
  { intros l i H1 H2. rewrite QC. pose proof (WL l i H1 H2). lia. }
  set (S := blend_strip q).
  assert (S1 : forall i, (i < c)%nat -> S i = true).
  { intros i Hi. unfold S, blend_strip. apply negb_true_iff. apply not_true_is_false.
    rewrite index_set_true. unfold q, with_blend. cbn [pt_blend]. rewrite in_map_iff.
    intros [x [Hx _]]. rewrite LN in Hx. lia. }
  assert (S2 : forall i, (c <= i < c + n)%nat -> S i = false).
  { intros i Hi. unfold S, blend_strip. apply negb_false_iff. rewrite index_set_true.
    unfold q, with_blend. cbn [pt_blend]. rewrite in_map_iff. exists (i - c)%nat. split; [rewrite LN; f_equal; lia|].
    apply in_seq. lia. }
  assert (K : kept (pt_cols q) S = seq 0 c) by (rewrite QC; apply kept_prefix; assumption).
  assert (SP : forall i k, same_param (pt_cols q) S i k -> k = i).
  { intros i k H. unfold same_param in H. rewrite K in H.
    assert (Hk : (k < c)%nat) by (rewrite <- (seq_length c 0); apply nth_error_Some; congruence).
    pose proof (nth_error_nth _ _ 0%nat H) as E. rewrite seq_nth in E by exact Hk. cbn in E. exact E. }
  destruct (subset_full q lims S Wq WLq)
    as [pt2 [li [E' [N [R [C [O [F1 [A [ST [F2 [F3 [F4 F5]]]]]]]]]]]]].
  exists pt2, li. split; [exact E'|].
  assert (EN : pt_entries pt2 = pt_entries pt1).
  { rewrite filter_all in F1.
    - refine (Forall2_eq_id _ _ _ _ F1). intros x y _ [a [b d]].
      destruct x, y. cbn in *. apply SP in d. subst. reflexivity.
    - intros e He. apply S1. apply (wf_entries pt1 W e He). }
  split.
  { rewrite filter_all in F5.
    - refine (Forall2_eq_id _ _ _ _ F5). intros x y _ [a b]. destruct x, y. cbn in *. subst. f_equal.
      destruct a; repeat match goal with H : same_param _ _ _ _ |- _ => apply SP in H; subst end; reflexivity.
    - intros l Hl. unfold limit_kept. apply forallb_forall. intros i Hi. apply S1. apply (WL l i Hl Hi). }
  split.
  { rewrite N, K. unfold q, with_blend. cbn [pt_name]. rewrite <- LN.
    rewrite (map_ext_in _ (fun i => nth i (pt_name pt1) EmptyString)).
    - apply nth_ext with (d := EmptyString) (d' := EmptyString).
      + rewrite map_length, seq_length. reflexivity.
      + rewrite map_length, seq_length. intros i Hi.
        rewrite (nth_indep _ EmptyString (nth 0 (pt_name pt1) EmptyString)) by (rewrite map_length, seq_length; exact Hi).
        rewrite (map_nth (fun i => nth i (pt_name pt1) EmptyString)), seq_nth by exact Hi. reflexivity.
    - intros i Hi. apply in_seq in Hi. apply app_nth1. lia. }
  split; [rewrite R; reflexivity|]. split; [rewrite C, K, seq_length; reflexivity|].
  split; [exact EN|]. split; [rewrite O; reflexivity|].
  split; [rewrite A, EN, ACT; reflexivity|]. split.
  { rewrite ST, K. change (pt_sets q) with (pt_sets pt1). revert SB. generalize (pt_sets pt1). clear.
    induction l as [|[nm s] r IH]; intros SB; cbn; constructor.
    - cbn. split; [reflexivity|]. intros k. unfold subset_set.
      destruct (nth_error (seq 0 c) k) as [i|] eqn:Ek.
      + assert (Hk : (k < c)%nat) by (rewrite <- (seq_length c 0); apply nth_error_Some; congruence).
        pose proof (nth_error_nth _ _ 0%nat Ek) as E. rewrite seq_nth in E by exact Hk. cbn in E. congruence.
      + apply nth_error_None in Ek. rewrite seq_length in Ek.
        symmetry. apply (SB nm s k); [left; reflexivity|exact Ek].
    - apply IH. intros nm' s' k H. apply (SB nm' s' k). right. exact H. }
  split.
  { change (pt_pose q) with (pt_pose pt1) in F2.
    pose proof (wf_pose pt1 W) as WP. fold c in WP.
    revert F2 WP. generalize (pt_pose pt2). generalize (pt_pose pt1). clear - S1 SP.
    induction l as [|[nm l0] r IH]; intros l' F WP; inversion F as [|? b ? l'' [H1 H2] F']; subst; [reflexivity|].
    f_equal; [|apply IH; [exact F'|intros; eapply WP; [right; eassumption|eassumption]]].
    destruct b as [nm' l1]. cbn in *. subst. f_equal.
    rewrite filter_all in H2.
    - refine (Forall2_eq_id _ _ _ _ H2). intros x y _ [a b]. destruct x, y. cbn in *. apply SP in a. congruence.
    - intros [i v] Hi. apply S1. eapply WP; [left; reflexivity|exact Hi]. }
  { change (pt_face q) with (pt_face pt1) in F4. apply (Forall2_eq_id (index_renamed (pt_cols q) S)); [|exact F4].
    intros x y Hx [[-> [Hn|Hn]]|[H1 [H2 [H3 H4]]]].
    - specialize (FB x Hx). lia.
    - specialize (FB x Hx). destruct (Z.eq_dec x (-1)) as [->|]; [reflexivity|].
      rewrite S1 in Hn; [discriminate|]. pose proof (wf_face pt1 W x Hx). fold c in H. lia.
    - apply SP in H4. lia. }
Qed.

Lemma add_blend_last_wins fresh pt lims n m ptn limsn :
  pt_wf pt -> limits_wf (pt_cols pt) lims ->
  (pt_cols pt + n <= kMaxModelParams)%nat ->
  add_blend_shapes fresh pt lims n = Ok (ptn, limsn) ->
  exists ptm limsm ptm' , add_blend_shapes fresh pt lims m = Ok (ptm, limsm) /\
    add_blend_shapes fresh ptn limsn m = Ok (ptm', limsm) /\ pt_agree ptm' ptm.
Proof.
  intros W WL MX E. rewrite add_blend_unfold in E |- *.
  destruct (subset_full pt lims (blend_strip pt) W WL)
    as [pt1 [lims1 [E' [N [R [C [O [F1 [A [ST [F2 [F3 [F4 F5]]]]]]]]]]]]].
  rewrite E' in E |- *. cbn [obind fst snd] in E |- *. injection E as <- <-.
  destruct (subset_wf _ _ _ _ _ W WL E') as [W1 WL1].
  assert (CL : (pt_cols pt1 <= pt_cols pt)%nat).
  { rewrite C. unfold kept. rewrite <- (seq_length (pt_cols pt) 0) at 2.
    generalize (blend_strip pt). intros f. clear. induction (seq 0 (pt_cols pt)) as [|x l IH]; cbn; [lia|].
    destruct (f x); cbn; lia. }
  destruct (strip_with_blend fresh pt1 lims1 n W1 WL1) as [pt2 [lims2 [E2 [-> H2]]]].
  - lia.
  - rewrite A, R. reflexivity.
  - intros nm s k Hs Hk. rewrite ST in Hs. apply in_map_iff in Hs as [[nm0 s0] [Es _]]. injection Es as _ <-.
    unfold subset_set. rewrite C in Hk. destruct (nth_error _ k) eqn:Ek; [|reflexivity].
    assert (k < List.length (kept (pt_cols pt) (blend_strip pt)))%nat by (apply nth_error_Some; congruence). lia.
  - intros z Hz. destruct (Forall2_in_r _ _ _ _ F4 Hz) as [z0 [_ [[-> _]|[_ [Q _]]]]]; lia.
  - exists (with_blend fresh pt1 m), lims1, (with_blend fresh pt2 m). split; [reflexivity|].
    rewrite add_blend_unfold, E2. cbn. split; [reflexivity|].
    destruct H2 as [B1 [B2 [B3 [B4 [B5 [B6 [B7 [B8 B9]]]]]]]].
    unfold pt_agree, with_blend. cbn. rewrite B1, B2, B4, B5, B6, B8, B9. repeat split. exact B7.
Qed.
