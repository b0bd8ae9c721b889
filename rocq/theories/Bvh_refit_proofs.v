(** Refitting and checking. *)

From Coq Require Import List Arith NArith QArith Bool Lia Lqa Permutation.
From Verif Require Import Prelude Loops Box_model Box_spec Box_proofs Bvh_model Bvh_spec Bvh_build_proofs Bvh_walk_proofs.
Import ListNotations.
Local Open Scope outcome_scope.
Local Open Scope nat_scope.

Lemma segment_of {A} (pre seg post : list A) : firstn (length seg) (skipn (length pre) (pre ++ seg ++ post)) = seg.
Proof.
  rewrite skipn_app, Nat.sub_diag, skipn_all. cbn [skipn app].
  rewrite firstn_app, firstn_all, Nat.sub_diag. cbn [firstn]. apply app_nil_r.
Qed.

Lemma covers_app b s1 s2 : covers b s1 -> covers b s2 -> covers b (s1 ++ s2).
Proof. intros H K c I. apply in_app_or in I. destruct I; auto. Qed.
Lemma covers_inside b b' s : covers b s -> inside b b' -> covers b' s.
Proof. intros H I c J. eapply inside_trans; [apply H; exact J|exact I]. Qed.

(** Nested boxes contain the primitives below them. *)
Lemma nested_over good cap start seg tr : over good cap start seg tr -> forall pre post,
  length pre = start -> nested (pre ++ seg ++ post) tr -> over covers cap start seg tr /\ covers (t_box tr) seg.
Proof.
  induction 1 as [start seg b L1 L2 G|start s1 s2 b l r O1 I1 O2 I2 C G]; intros pre post Lp N.
  - cbn [nested] in N. rewrite <- Lp, segment_of in N. split; [constructor; auto|exact N].
  - cbn [nested] in N. destruct N as (Nl & Nr & N1 & N2).
    rewrite <- app_assoc in N1, N2.
    destruct (I1 pre (s2 ++ post) Lp N1) as (V1 & C1).
    rewrite app_assoc in N2.
    destruct (I2 (pre ++ s1) post) as (V2 & C2); [rewrite app_length; lia|exact N2|].
    assert (Cb : covers b (s1 ++ s2)) by (apply covers_app; eapply covers_inside; eauto).
    split; [|exact Cb]. constructor; auto.
Qed.

(** Smallest boxes are nested. *)
Lemma tight_nested cap start seg tr : over tight cap start seg tr -> forall pre post,
  length pre = start -> nested (pre ++ seg ++ post) tr.
Proof.
  assert (T : forall b b' s s', tight b s -> covers b' s' -> (forall c, In c s -> In c s') -> inside b b').
  { intros b b' s s' (C & T) C' I d. destruct (T d) as ((x & Ix & Ex) & (y & Iy & Ey)).
    pose proof (C' x (I x Ix) d). pose proof (C' y (I y Iy) d). lra. }
  induction 1 as [start seg b L1 L2 G|start s1 s2 b l r O1 I1 O2 I2 C G]; intros pre post Lp.
  - cbn [nested]. rewrite <- Lp, segment_of. apply G.
  - cbn [nested].
    assert (good_l : tight (t_box l) s1) by (destruct O1; assumption).
    assert (good_r : tight (t_box r) s2) by (destruct O2; assumption).
    split; [eapply T; [exact good_l|apply G|intros; apply in_or_app; auto]|].
    split; [eapply T; [exact good_r|apply G|intros; apply in_or_app; auto]|].
    rewrite <- app_assoc. split; [apply I1; exact Lp|].
    rewrite app_assoc. apply I2. rewrite app_length. lia.
Qed.

(** ** checkBoundingBoxes *)

Lemma check_node_exact cap start seg tr : over any_box cap start seg tr -> forall t pre post i f,
  t_prims t = pre ++ seg ++ post -> length pre = start -> stored (t_flat t) i tr -> height tr < f ->
  exists v, check_node f t i = Ok v /\ (v = true <-> nested (t_prims t) tr).
Proof.
  induction 1 as [start seg b L1 L2 G|start s1 s2 b l r O1 I1 O2 I2 C G]; intros t pre post i f EP Lp St Hf;
    (destruct f as [|f]; [lia|]); cbn [check_node]; rewrite (stored_rd _ _ _ St); cbn [obind].
  - rewrite leaf_head. cbn [head_node n_start n_prims n_box]. rewrite EP, <- Lp, read_range_ok. cbn [obind].
    eexists. split; [reflexivity|]. cbn [nested]. rewrite segment_of. rewrite forallb_forall. unfold covers.
    split; intros H c I; apply contains_box_iff; auto.
  - rewrite node_head. rewrite (right_at _ l r b start (length (s1 ++ s2)) i eq_refl). unfold left_index.
    pose proof (stored_left _ _ _ _ _ _ _ St) as Sl. pose proof (stored_right _ _ _ _ _ _ _ St) as Sr.
    rewrite (stored_rd _ _ _ Sl). cbn [obind]. change (i + S (size l)) with (i + (1 + size l)).
    rewrite (stored_rd _ _ _ Sr). cbn [obind]. rewrite !head_box. cbn [t_box nested]. cbn [height] in Hf.
    destruct (contains_box b (t_box l)) eqn:Cl; cbn [negb].
    2:{ eexists. split; [reflexivity|]. split; [discriminate|]. intros (H & _). apply contains_box_iff in H. congruence. }
    destruct (contains_box b (t_box r)) eqn:Cr; cbn [negb].
    2:{ eexists. split; [reflexivity|]. split; [discriminate|]. intros (_ & H & _). apply contains_box_iff in H. congruence. }
    destruct (I1 t pre (s2 ++ post) (i + 1) f) as (v1 & E1 & V1); [rewrite EP, <- !app_assoc; reflexivity|exact Lp|exact Sl|lia|].
    destruct (I2 t (pre ++ s1) post (i + (1 + size l)) f) as (v2 & E2 & V2);
      [rewrite EP, <- !app_assoc; reflexivity|rewrite app_length; lia|exact Sr|lia|].
    rewrite E1. cbn [obind]. rewrite E2. cbn [obind]. eexists. split; [reflexivity|].
    rewrite andb_true_iff, V1, V2. apply contains_box_iff in Cl, Cr. tauto.
Qed.

(** ** refit *)

Definition retight (b b' : box) (seg : list box) : Prop := tight b' (b :: seg).

Lemma fold_extend_tight b0 seg : tight (fold_left extend seg b0) (b0 :: seg).
Proof. change (b0 :: seg) with ([b0] ++ seg). apply tight_fold, tight_one. Qed.

(** Primitives of which each contains the one that stood there before. *)
Definition grown (s s' : list box) : Prop := Forall2 inside s s'.

Lemma grown_in s s' : grown s s' -> forall c, In c s -> exists c', In c' s' /\ inside c c'.
Proof.
  induction 1 as [|x y s s' I G IH]; intros c J; [destruct J|]. destruct J as [<-|J].
  - exists y. split; [left; reflexivity|exact I].
  - destruct (IH c J) as (c' & A & B). exists c'. split; [right; exact A|exact B].
Qed.

Lemma grown_split s1 : forall s2 t1 t2, length t1 = length s1 -> grown (s1 ++ s2) (t1 ++ t2) -> grown s1 t1 /\ grown s2 t2.
Proof.
  induction s1 as [|x s1 IH]; intros s2 [|y t1] t2 L G; try discriminate; cbn [app] in G.
  - split; [constructor|exact G].
  - inversion G as [|? ? ? ? Ixy Gr]; subst. cbn in L. destruct (IH s2 t1 t2) as (A & B); [lia|exact Gr|].
    split; [constructor; assumption|exact B].
Qed.

Lemma refit_node_ok cap start seg tr (good : box -> list box -> Prop) : over good cap start seg tr ->
  forall prims pre seg' post flat a z i f,
  prims = pre ++ seg' ++ post -> length seg' = length seg -> length pre = start ->
  flat = a ++ flatten tr ++ z -> length a = i -> height tr < f ->
  exists tr', refit_node f prims i flat = Ok (a ++ flatten tr' ++ z) /\ size tr' = size tr /\
    over any_box cap start seg' tr' /\ nested prims tr' /\
    ((forall b s, good b s -> tight b s) -> grown seg seg' -> over tight cap start seg' tr').
Proof.
  induction 1 as [start seg b L1 L2 G|start s1 s2 b l r O1 I1 O2 I2 C G];
    intros prims pre seg' post flat a z i f EP L' Lp Ef La Hf; (destruct f as [|f]; [lia|]); cbn [refit_node];
    (assert (St : stored flat i _) by (exists a, z; split; [exact Ef|exact La])); rewrite (stored_rd _ _ _ St); cbn [obind].
  - rewrite leaf_head. cbn [head_node n_start n_prims n_box n_right].
    destruct seg' as [|b0 seg']; [cbn in L'; lia|].
    assert (R0 : rd prims start = Ok b0) by (rewrite EP, <- Lp; cbn [app]; apply rd_mid).
    assert (R1 : read_range prims (start + 1) (length seg - 1) = Ok seg').
    { rewrite EP. replace (pre ++ (b0 :: seg') ++ post) with ((pre ++ [b0]) ++ seg' ++ post) by (rewrite <- app_assoc; reflexivity).
      replace (start + 1) with (length (pre ++ [b0])) by (rewrite app_length; cbn; lia).
      replace (length seg - 1) with (length seg') by (cbn in L'; lia). apply read_range_ok. }
    rewrite R0. cbn [obind]. rewrite R1. cbn [obind]. rewrite Ef, <- La. cbn [flatten app].
    exists (Leaf (fold_left extend seg' b0) start (length (b0 :: seg'))). split.
    { rewrite wr_mid. cbn [flatten app]. rewrite L'. reflexivity. }
    split; [reflexivity|]. split; [constructor; [cbn; lia|rewrite L'; exact L2|exact I]|].
    split.
    { cbn [nested]. rewrite EP, <- Lp, segment_of. apply fold_extend_tight. }
    intros _ _. constructor; [cbn; lia|rewrite L'; exact L2|apply fold_extend_tight].
  - rewrite node_head. rewrite (right_at _ l r b start (length (s1 ++ s2)) i eq_refl). unfold left_index.
    change (i + S (size l)) with (i + (1 + size l)). cbn [height] in Hf.
    set (hd := head_node (Node b start (length (s1 ++ s2)) l r)).
    assert (Ef1 : flat = (a ++ [hd]) ++ flatten l ++ (flatten r ++ z)).
    { rewrite Ef. cbn [flatten]. rewrite <- !app_assoc. cbn [app]. rewrite <- !app_assoc. reflexivity. }
    rewrite app_length in L'.
    set (t1 := firstn (length s1) seg'). set (t2 := skipn (length s1) seg').
    assert (E12 : seg' = t1 ++ t2) by (symmetry; apply firstn_skipn).
    assert (Lt1 : length t1 = length s1) by (unfold t1; rewrite firstn_length; lia).
    assert (Lt2 : length t2 = length s2) by (unfold t2; rewrite skipn_length; lia).
    clearbody t1 t2. subst seg'.
    destruct (I1 prims pre t1 (t2 ++ post) flat (a ++ [hd]) (flatten r ++ z) (i + 1) f) as (l' & El & Sl & Ol & Nl & Tl);
      [rewrite EP, <- !app_assoc; reflexivity|exact Lt1|exact Lp|exact Ef1|rewrite app_length; cbn; lia|lia|].
    rewrite El. cbn [obind].
    destruct (I2 prims (pre ++ t1) t2 post ((a ++ [hd]) ++ flatten l' ++ flatten r ++ z) (a ++ [hd] ++ flatten l') z
        (i + (1 + size l)) f) as (r' & Er & Sr & Or & Nr & Tr);
      [rewrite EP, <- !app_assoc; reflexivity|exact Lt2|rewrite app_length; lia|rewrite <- !app_assoc; reflexivity| |lia|].
    { rewrite !app_length, flatten_length. cbn. lia. }
    rewrite Er. cbn [obind].
    assert (St' : stored ((a ++ [hd] ++ flatten l') ++ flatten r' ++ z) (i + 1) l').
    { exists (a ++ [hd]), (flatten r' ++ z). split; [rewrite <- !app_assoc; reflexivity|rewrite app_length; cbn; lia]. }
    assert (Sr' : stored ((a ++ [hd] ++ flatten l') ++ flatten r' ++ z) (i + (1 + size l)) r').
    { exists (a ++ [hd] ++ flatten l'), z. split; [reflexivity|]. rewrite !app_length, flatten_length. cbn. lia. }
    rewrite (stored_rd _ _ _ St'). cbn [obind]. rewrite (stored_rd _ _ _ Sr'). cbn [obind]. rewrite !head_box.
    set (b' := extend (extend b (t_box l')) (t_box r')).
    exists (Node b' start (length (t1 ++ t2)) l' r').
    assert (Il : inside (t_box l') b') by (eapply inside_trans; [apply inside_extend_r|apply inside_extend_l]).
    assert (Ir : inside (t_box r') b') by apply inside_extend_r.
    split.
    { rewrite <- !app_assoc. cbn [app]. rewrite <- La, wr_mid. f_equal. f_equal. cbn [flatten app]. f_equal.
      - unfold hd. cbn [head_node n_start n_prims n_right]. unfold b'. f_equal; [rewrite !app_length; lia|rewrite Sl; reflexivity].
      - rewrite <- app_assoc. reflexivity. }
    split; [cbn [size]; lia|].
    split.
    { constructor; [exact Ol|rewrite Lt1; exact Or| |exact I]. rewrite app_length in C |- *. lia. }
    split; [cbn [nested]; auto|].
    intros Gt Gr. assert (Gr1 : grown s1 t1 /\ grown s2 t2).
    { apply grown_split; [exact Lt1|exact Gr]. }
    destruct Gr1 as (Gr1 & Gr2). specialize (Tl Gt Gr1). specialize (Tr Gt Gr2).
    assert (good_l : tight (t_box l') t1) by (destruct Tl; assumption).
    assert (good_r : tight (t_box r') t2) by (destruct Tr; assumption).
    constructor; [exact Tl|rewrite Lt1; exact Tr|rewrite app_length in C |- *; lia|].
    assert (Cb : covers b' (t1 ++ t2)).
    { apply covers_app; [eapply covers_inside; [apply good_l|exact Il]|eapply covers_inside; [apply good_r|exact Ir]]. }
    split; [exact Cb|]. intros d.
    destruct (proj2 (Gt _ _ G) d) as ((x & Ix & Ex) & (y & Iy & Ey)).
    destruct (grown_in _ _ Gr x Ix) as (x' & Ix' & Jx). destruct (grown_in _ _ Gr y Iy) as (y' & Iy' & Jy).
    destruct (proj2 good_l d) as ((xl & Ixl & Exl) & (yl & Iyl & Eyl)).
    destruct (proj2 good_r d) as ((xr & Ixr & Exr) & (yr & Iyr & Eyr)).
    assert (Hl : forall c, In c t1 -> In c (t1 ++ t2)) by (intros c H; apply in_or_app; auto).
    assert (Hr : forall c, In c t2 -> In c (t1 ++ t2)) by (intros c H; apply in_or_app; auto).
    pose proof (Cb x' Ix' d) as Cx. pose proof (Cb y' Iy' d) as Cy. specialize (Jx d). specialize (Jy d).
    unfold b' in Cx, Cy |- *. cbn [extend lo hi] in *. rewrite !at_make in *.
    split.
    + destruct (qmin_cases (at3 (lo b) d) (at3 (lo (t_box l')) d)) as [(E & ?)|(E & ?)]; rewrite E in *;
      [destruct (qmin_cases (at3 (lo b) d) (at3 (lo (t_box r')) d)) as [(E' & ?)|(E' & ?)]
      |destruct (qmin_cases (at3 (lo (t_box l')) d) (at3 (lo (t_box r')) d)) as [(E' & ?)|(E' & ?)]]; rewrite E' in *.
      * exists x'. split; [exact Ix'|lra].
      * exists xr. split; [auto|lra].
      * exists xl. split; [auto|lra].
      * exists xr. split; [auto|lra].
    + destruct (qmax_cases (at3 (hi b) d) (at3 (hi (t_box l')) d)) as [(E & ?)|(E & ?)]; rewrite E in *;
      [destruct (qmax_cases (at3 (hi b) d) (at3 (hi (t_box r')) d)) as [(E' & ?)|(E' & ?)]
      |destruct (qmax_cases (at3 (hi (t_box l')) d) (at3 (hi (t_box r')) d)) as [(E' & ?)|(E' & ?)]]; rewrite E' in *.
      * exists y'. split; [exact Iy'|lra].
      * exists yr. split; [auto|lra].
      * exists yl. split; [auto|lra].
      * exists yr. split; [auto|lra].
Qed.
