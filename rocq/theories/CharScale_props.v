(** Property C93: scaled characters. *)

From Coq Require Import Bool Reals List Arith Lia Lra Permutation String.
From Verif Require Import Prelude Loops Rbool R3 LinAlg Transform_model Transform_proofs Skeleton_model Skeleton_spec FK_model FK_spec FK_proofs
  ParamTransform_model ParamTransform_proofs Skin_model Skin_spec Skin_props Blend_model Locator_model Simplify_model CharUtil_model CharUtil_spec.
Import ListNotations.
Local Open Scope nat_scope.
Local Open Scope R_scope.

Lemma make_ok names joints pt limits locs mesh skin caps pose blend inv : inv <> [] -> List.length inv = List.length joints ->
  make_character names joints pt limits locs mesh skin caps pose blend inv =
  Ok (FC names joints pt limits locs (match mesh, skin with Some m, Some _ => Some m | _, _ => None end)
        (match mesh, skin with Some _, Some s => Some s | _, _ => None end) caps pose blend inv).
Proof.
  intros N L. unfold make_character. destruct inv as [|a inv]; [contradiction|]. cbn [obind]. rewrite L, Nat.eqb_refl. cbn [negb].
  destruct mesh, skin; reflexivity.
Qed.

Lemma jparam_scaled k p p' j : scaled_params k p p' ->
  jparam_at p' j = let q := jparam_at p j in JP (k * jtx q) (k * jty q) (k * jtz q) (jrx q) (jry q) (jrz q) (jsc q).
Proof.
  intros [_ H]. assert (M : forall d, (d < 7)%nat -> ((7 * j + d) mod 7 = d)%nat).
  { intros d Hd. rewrite Nat.add_comm, Nat.mul_comm, Nat.mod_add by lia. apply Nat.mod_small, Hd. }
  unfold jparam_at. cbn [jtx jty jtz jrx jry jrz jsc]. rewrite !H, !M by lia. reflexivity.
Qed.

Lemma scaled_sk_parents k sk : map jparent (map (scale_joint k) sk) = map jparent sk.
Proof. rewrite map_map. reflexivity. Qed.

Lemma scaled_states k sk p p' sts : valid_sk sk -> scaled_params k p p' -> fk sk p = Ok sts ->
  exists sts', fk (map (scale_joint k) sk) p' = Ok sts' /\ Forall2 (scaled_state k) sts sts'.
Proof.
  intros V S F. destruct (fk_inv sk p sts V F) as [L FS].
  assert (V' : valid_sk (map (scale_joint k) sk)) by (unfold valid_sk, sk_parents; rewrite scaled_sk_parents; exact V).
  destruct (fk_ok (map (scale_joint k) sk) p' V') as (sts' & F' & FS'). { rewrite map_length, (proj1 S). exact L. }
  exists sts'. split; [exact F'|].
  assert (L1 := proj1 FS). assert (L2 := proj1 FS'). rewrite map_length in L2.
  assert (G : forall i s s', nth_error sts i = Some s -> nth_error sts' i = Some s' -> scaled_state k s s').
  { intros i. induction (lt_wf i) as [i _ IH]. intros s s' E E'.
    assert (Hi : (i < List.length sk)%nat) by (rewrite <- L1; apply nth_error_Some; congruence).
    destruct (fk_states_get _ _ _ _ FS Hi) as (jt & ps & E1 & E2 & E3).
    destruct (fk_states_get _ _ _ i FS') as (jt' & ps' & E1' & E2' & E3'). { rewrite map_length. exact Hi. }
    rewrite nth_error_map, E1 in E1'. injection E1' as <-.
    assert (s = joint_state_set jt (jparam_at p i) ps) as -> by congruence.
    assert (s' = joint_state_set (scale_joint k jt) (jparam_at p' i) ps') as -> by congruence.
    assert (P : rot (parent_tf ps') = rot (parent_tf ps) /\ scl (parent_tf ps') = scl (parent_tf ps) /\ trans (parent_tf ps') = vscale k (trans (parent_tf ps))).
    { cbn [scale_joint jparent] in E2'. destruct (jparent jt) as [q|] eqn:Eq.
      - destruct E2 as (s & Es & ->), E2' as (s' & Es' & ->). apply (IH q); [apply (valid_sk_parent sk i jt q V E1 Eq)|exact Es|exact Es'].
      - cbn in E2, E2'. subst ps ps'. cbn. rewrite vscale_0_r. auto. }
    destruct P as (P1 & P2 & P3). unfold scaled_state. rewrite !js_world_set. unfold tf_mul. cbn [rot scl trans].
    rewrite P1, P2, P3, (jparam_scaled k p p' i S). cbv zeta. unfold local_tf. cbn [rot scl trans scale_joint joffset jprerot jtx jty jtz jrx jry jrz jsc].
    split; [reflexivity|]. split; [reflexivity|].
    clear. generalize (rot (parent_tf ps)) (scl (parent_tf ps)) (trans (parent_tf ps)) (joffset jt) (jparam_at p i). intros q c t o [a b d ? ? ? ?].
    cbn [jtx jty jtz]. vec_ring. }
  clear - G L1 L2. rewrite <- L1 in L2. clear L1. revert sts' L2 G. induction sts as [|s sts IH]; intros [|s' sts'] L G; try discriminate; constructor.
  - apply (G 0%nat); reflexivity.
  - apply IH; [cbn in L; lia|]. intros i. apply (G (S i)).
Qed.

(** The parts of the scaled character. *)
Lemma scale_inv c k c' : fc_ok c -> scale_character c k = Ok c' -> 0 < k /\ fc_joints c' = map (scale_joint k) (fc_joints c) /\
  fc_names c' = fc_names c /\ fc_pt c' = fc_pt c /\
  fc_locs c' = map (scale_locator k) (fc_locs c) /\ fc_limits c' = map (scale_limit k) (fc_limits c) /\
  fc_caps c' = option_map (map (scale_capsule k)) (fc_caps c) /\ fc_inv c' = map (scale_affine k) (fc_inv c) /\
  fc_blend c' = fc_blend c /\ fc_pose c' = fc_pose c /\
  (forall m s, fc_mesh c = Some m -> fc_skin c = Some s -> fc_mesh c' = Some (scale_mesh k m) /\ fc_skin c' = Some s).
Proof.
  intros O E. unfold scale_character in E. destruct (Rltb_spec 0 k) as [K|K]; cbn [negb] in E; [|discriminate].
  rewrite make_ok in E.
  - injection E as <-. cbn [fc_joints fc_names fc_pt fc_locs fc_limits fc_caps fc_inv fc_mesh fc_skin fc_blend fc_pose]. repeat split; auto.
    + intros. rewrite H. cbn. rewrite H0. reflexivity.
    + intros. rewrite H, H0. reflexivity.
  - intros Z. apply map_eq_nil in Z. pose proof (fo_inv c O) as L. rewrite Z in L. cbn in L. destruct (fo_some c O). destruct (fc_joints c); [reflexivity|discriminate].
  - rewrite !map_length. apply (fo_inv c O).
Qed.

(** ** Poses *)

(** A character can be scaled by any positive factor, and by no other. *)
Theorem scale_domain c k : fc_ok c -> (0 < k -> exists c', scale_character c k = Ok c' /\ fc_ok c') /\ (k <= 0 -> scale_character c k = CheckFail).
Proof.
  intros O. unfold scale_character. split; intros K.
  - destruct (Rltb_spec 0 k) as [K'|K']; [|contradiction]. cbn [negb].
    assert (N : map (scale_affine k) (fc_inv c) <> []).
    { intros Z. apply map_eq_nil in Z. pose proof (fo_inv c O) as L. rewrite Z in L. cbn in L. destruct (fo_some c O). destruct (fc_joints c); [reflexivity|discriminate]. }
    rewrite make_ok; [|exact N|rewrite !map_length; apply (fo_inv c O)]. eexists. split; [reflexivity|].
    constructor; cbn [fc_joints fc_names fc_inv].
    + rewrite scaled_sk_parents. apply (fo_parents c O).
    + intros Z. apply map_eq_nil in Z. apply (fo_some c O), Z.
    + rewrite map_length. apply (fo_names c O).
    + rewrite !map_length. apply (fo_inv c O).
  - destruct (Rltb_spec 0 k) as [K'|K']; [lra|reflexivity].
Qed.
Print Assumptions scale_domain.

(** The pose of the scaled character with [k] times the translations is the pose of the original,
    [k] times as large. Names, parameters and skin weights stay. *)
Theorem scale_pose c k c' p p' sts : fc_ok c -> scale_character c k = Ok c' -> scaled_params k p p' -> fk (fc_joints c) p = Ok sts ->
  fc_names c' = fc_names c /\ fc_pt c' = fc_pt c /\ map jparent (fc_joints c') = map jparent (fc_joints c) /\
  exists sts', fk (fc_joints c') p' = Ok sts' /\ Forall2 (scaled_state k) sts sts'.
Proof.
  intros O E S F. destruct (scale_inv c k c' O E) as (K & J & N & P & _). rewrite J. split; [exact N|]. split; [exact P|].
  split; [apply scaled_sk_parents|]. apply (scaled_states k _ p p' sts (fo_parents c O) S F).
Qed.
Print Assumptions scale_pose.

Lemma scaled_same k p : untranslated p -> scaled_params k p p.
Proof.
  intros H. split; [reflexivity|]. intros i. destruct (Nat.ltb_spec (i mod 7) 3) as [L|L]; [|reflexivity]. rewrite (H i L). ring.
Qed.

(** So with the same model parameters the pose is scaled, if they translate no joint. *)
Theorem scale_parameters_partial c k c' q p sts : fc_ok c -> scale_character c k = Ok c' ->
  pt_apply (fc_pt c) q = Ok p -> untranslated p -> fk (fc_joints c) p = Ok sts ->
  pt_apply (fc_pt c') q = Ok p /\ exists sts', fk (fc_joints c') p = Ok sts' /\ Forall2 (scaled_state k) sts sts'.
Proof.
  intros O E A U F. destruct (scale_pose c k c' p p sts O E (scaled_same k p U) F) as (_ & P & _ & H). rewrite P. split; assumption.
Qed.
Print Assumptions scale_parameters_partial.

(** ** What is fixed to the joints *)

Lemma scaled_point k s s' v : scaled_state k s s' -> aff_point (tf_affine (js_world s')) (vscale k v) = vscale k (aff_point (tf_affine (js_world s)) v).
Proof.
  intros (A & B & C). rewrite !tf_affine_point. unfold tf_point. rewrite A, B, C, vscale_add. f_equal.
  rewrite <- qrot_scale. f_equal. rewrite !vscale_scale. f_equal. ring.
Qed.
Lemma scaled_linear k s s' : scaled_state k s s' -> alin (tf_affine (js_world s')) = alin (tf_affine (js_world s)).
Proof. intros (A & B & C). unfold tf_affine, tf_linear. cbn [alin]. rewrite A, B. reflexivity. Qed.

Lemma forall2_nth {A B} (P : A -> B -> Prop) l l' i a : Forall2 P l l' -> nth_error l i = Some a -> exists b, nth_error l' i = Some b /\ P a b.
Proof. intros F. revert i. induction F as [|x y l l' H F IH]; intros [|i] E; try discriminate; cbn in *; [injection E as <-; eauto|apply IH, E]. Qed.
Lemma forall2_len {A B} (P : A -> B -> Prop) l l' : Forall2 P l l' -> List.length l = List.length l'.
Proof. induction 1; cbn; congruence. Qed.

Theorem scale_locators c k c' sts sts' : fc_ok c -> scale_character c k = Ok c' -> Forall2 (scaled_state k) sts sts' ->
  List.length (fc_locs c') = List.length (fc_locs c) /\
  forall i l x, nth_error (fc_locs c) i = Some l -> locator_position sts l = Ok x ->
    exists l', nth_error (fc_locs c') i = Some l' /\ lo_name l' = lo_name l /\ locator_position sts' l' = Ok (vscale k x) /\
      lo_origin l' = vscale k (lo_origin l).
Proof.
  intros O E F. destruct (scale_inv c k c' O E) as (K & _ & _ & _ & L & _). rewrite L. split; [apply map_length|].
  intros i l x Hi Hx. rewrite nth_error_map, Hi. eexists. split; [reflexivity|]. split; [reflexivity|]. split; [|reflexivity].
  unfold locator_position in *. cbn [scale_locator lo_parent lo_offset]. destruct (lo_parent l) as [p|]; [|discriminate].
  destruct (nth_error sts p) as [s|] eqn:Es; [|unfold rd in Hx; rewrite Es in Hx; discriminate].
  rewrite (rd_some _ _ _ Es) in Hx. cbn [obind] in Hx. injection Hx as <-.
  destruct (forall2_nth _ _ _ _ _ F Es) as (s' & Es' & S). rewrite (rd_some _ _ _ Es'). cbn [obind]. f_equal. apply scaled_point, S.
Qed.
Print Assumptions scale_locators.

Theorem scale_capsules c k c' caps sts sts' : fc_ok c -> scale_character c k = Ok c' -> fc_caps c = Some caps -> Forall2 (scaled_state k) sts sts' ->
  exists caps', fc_caps c' = Some caps' /\ List.length caps' = List.length caps /\
  forall i x o d r0 r1, nth_error caps i = Some x -> capsule_state sts x = Ok (o, d, r0, r1) ->
    exists x', nth_error caps' i = Some x' /\ capsule_state sts' x' = Ok (vscale k o, vscale k d, k * r0, k * r1).
Proof.
  intros O E C F. destruct (scale_inv c k c' O E) as (K & _ & _ & _ & _ & _ & L & _). rewrite L, C. cbn [option_map]. eexists. split; [reflexivity|].
  split; [apply map_length|]. intros i x o d r0 r1 Hi Hx. rewrite nth_error_map, Hi. eexists. split; [reflexivity|].
  unfold capsule_state in *. cbn [scale_capsule cap_parent cap_tf cap_r0 cap_r1 cap_length]. destruct (cap_parent x) as [p|]; [|discriminate].
  destruct (nth_error sts p) as [s|] eqn:Es; [|unfold rd in Hx; rewrite Es in Hx; discriminate].
  rewrite (rd_some _ _ _ Es) in Hx. cbn [obind] in Hx. injection Hx as <- <- <- <-.
  destruct (forall2_nth _ _ _ _ _ F Es) as (s' & Es' & S). rewrite (rd_some _ _ _ Es'). cbn [obind].
  pose proof (scaled_point k s s' (atrans (cap_tf x)) S) as G. unfold aff_mul. cbn [alin atrans scale_affine].
  rewrite (scaled_linear k s s' S). unfold aff_point in G. rewrite (scaled_linear k s s' S) in G. destruct S as (S1 & S2 & S3).
  assert (forall a b c d a' b' c' d' : _, a = a' -> b = b' -> c = c' -> d = d' -> Ok (a, b, c, d) = Ok (a', b', c', d') :> outcome (vec3 * vec3 * R * R)) as Q
    by (intros; congruence).
  apply Q; [exact G|symmetry; apply vscale_scale|rewrite S2; ring|rewrite S2; ring].
Qed.
Print Assumptions scale_capsules.

(** ** The mesh *)

Lemma scaled_ts k inv : forall sts sts', Forall2 (scaled_state k) sts sts' ->
  Forall2 (fun t t' => alin t' = alin t /\ atrans t' = vscale k (atrans t))
    (skin_transforms (world_affines sts) inv) (skin_transforms (world_affines sts') (map (scale_affine k) inv)).
Proof.
  intros sts sts' F. revert inv. induction F as [|s s' sts sts' S F IH]; intros inv; [constructor|].
  destruct inv as [|b inv]; [constructor|]. unfold skin_transforms, world_affines in *. cbn [map combine]. constructor; [|apply IH].
  cbn [fst snd]. unfold aff_mul. cbn [alin atrans scale_affine]. pose proof (scaled_point k s s' (atrans b) S) as G. unfold aff_point in G.
  rewrite (scaled_linear k s s' S) in *. split; [reflexivity|exact G].
Qed.

Lemma scaled_rd k ts ts' j t : Forall2 (fun t t' : affine => alin t' = alin t /\ atrans t' = vscale k (atrans t)) ts ts' -> rd ts j = Ok t ->
  exists t', rd ts' j = Ok t' /\ alin t' = alin t /\ atrans t' = vscale k (atrans t).
Proof.
  intros F H. apply rd_inv in H. destruct (forall2_nth _ _ _ _ _ F H) as (t' & E & A & B). exists t'. split; [apply rd_some, E|auto].
Qed.
Lemma scaled_term k (t t' : affine) w p : alin t' = alin t -> atrans t' = vscale k (atrans t) ->
  vscale w (vadd (atrans t') (mvec (alin t') (vscale k p))) = vscale k (vscale w (vadd (atrans t) (mvec (alin t) p))).
Proof. intros -> ->. destruct t as [m o]. cbn [alin atrans]. vec_ring. Qed.

Lemma scaled_row k ts ts' p : Forall2 (fun t t' : affine => alin t' = alin t /\ atrans t' = vscale k (atrans t)) ts ts' ->
  forall row out x, ssd_row ts row p out = Ok x -> ssd_row ts' row (vscale k p) (vscale k out) = Ok (vscale k x).
Proof.
  intros F. induction row as [|[j w] row IH]; intros out x H; cbn [ssd_row] in *; [congruence|].
  destruct (Reqb w 0); [congruence|]. destruct (rd ts j) as [t| | | |] eqn:E; try discriminate. cbn [obind] in H.
  destruct (scaled_rd k ts ts' j t F E) as (t' & E' & A & B). rewrite E'. cbn [obind]. rewrite (scaled_term k t t' w p A B), <- vscale_add. apply IH, H.
Qed.
Lemma scaled_normal_row k ts ts' p n : Forall2 (fun t t' : affine => alin t' = alin t /\ atrans t' = vscale k (atrans t)) ts ts' ->
  forall row out x, ssd_normal_row ts row p n out = Ok x -> ssd_normal_row ts' row (vscale k p) n (vscale k (fst out), snd out) = Ok (vscale k (fst x), snd x).
Proof.
  intros F. induction row as [|[j w] row IH]; intros out x H; cbn [ssd_normal_row] in *; [congruence|].
  destruct (Reqb w 0); [congruence|]. destruct (rd ts j) as [t| | | |] eqn:E; try discriminate. cbn [obind] in H.
  destruct (scaled_rd k ts ts' j t F E) as (t' & E' & A & B). rewrite E'. cbn [obind fst snd]. rewrite (scaled_term k t t' w p A B), A, <- vscale_add.
  apply (IH _ _ H).
Qed.

Lemma upd_map {A B} (g : A -> B) : forall l i a, upd (map g l) i (g a) = option_map (map g) (upd l i a).
Proof. induction l as [|x l IH]; intros [|i] a; cbn; try reflexivity. rewrite IH. destruct (upd l i a); reflexivity. Qed.
Lemma for_vertices_map {A A' B B'} (g : A -> A') (h : B -> B') (f : list influence -> A -> outcome B) f' skin points :
  (forall row p x, f row p = Ok x -> f' row (g p) = Ok (h x)) ->
  forall order r x, for_vertices order skin points f r = Ok x -> for_vertices order skin (map g points) f' (map h r) = Ok (map h x).
Proof.
  intros H. unfold for_vertices. induction order as [|i order IH]; intros r x E; cbn [ofold] in *; [congruence|].
  destruct (rd skin i) as [row| | | |]; try discriminate. cbn [obind] in *.
  destruct (nth_error points i) as [p|] eqn:Ep; [|unfold rd in E; rewrite Ep in E; discriminate].
  rewrite (rd_some _ _ _ Ep) in E. rewrite (rd_some (map g points) i (g p)) by (rewrite nth_error_map, Ep; reflexivity). cbn [obind] in *.
  destruct (f row p) as [v| | | |] eqn:Ev; try discriminate. rewrite (H _ _ _ Ev). cbn [obind] in *.
  unfold wr in *. rewrite upd_map. destruct (upd r i v) as [r'|] eqn:Er; [|discriminate]. cbn [option_map obind] in *. apply IH, E.
Qed.

(** The skinned mesh is scaled, whatever the order in which the vertices are treated. *)
Theorem scale_mesh_skinned c k c' m skin sts sts' order vs : fc_ok c -> scale_character c k = Ok c' ->
  fc_mesh c = Some m -> fc_skin c = Some skin -> Forall2 (scaled_state k) sts sts' ->
  apply_ssd order (fc_inv c) skin (fm_vertices m) (world_affines sts) = Ok vs ->
  exists m', fc_mesh c' = Some m' /\ fc_skin c' = Some skin /\ fm_normals m' = fm_normals m /\
    apply_ssd order (fc_inv c') skin (fm_vertices m') (world_affines sts') = Ok (map (vscale k) vs).
Proof.
  intros O E M S F H. destruct (scale_inv c k c' O E) as (K & _ & _ & _ & _ & _ & _ & I & _ & _ & B). destruct (B m skin M S) as [B1 B2].
  exists (scale_mesh k m). split; [exact B1|]. split; [exact B2|]. split; [reflexivity|].
  unfold apply_ssd in *. rewrite I. cbn [scale_mesh fm_vertices]. unfold world_affines in *. rewrite !map_length in *. rewrite <- (forall2_len _ _ _ F).
  destruct (negb (List.length sts =? List.length (fc_inv c))%nat); [discriminate|].
  destruct (negb (List.length skin =? List.length (fm_vertices m))%nat); [discriminate|].
  replace (repeat vzero (List.length (fm_vertices m))) with (map (vscale k) (repeat vzero (List.length (fm_vertices m))))
    by (generalize (List.length (fm_vertices m)); intros z; induction z as [|z IH]; [reflexivity|]; cbn [repeat map]; rewrite IH, vscale_0_r; reflexivity).
  eapply for_vertices_map; [|exact H]. intros row p x Hx.
  rewrite <- (vscale_0_r k). apply (scaled_row k _ _ p (scaled_ts k (fc_inv c) sts sts' F) row vzero x Hx).
Qed.
Print Assumptions scale_mesh_skinned.

(** With normals: the vertices are scaled, the normals stay. *)
Theorem scale_mesh_normals c k c' skin mesh sts sts' order out res : fc_ok c -> scale_character c k = Ok c' -> Forall2 (scaled_state k) sts sts' ->
  apply_ssd_mesh order (fc_inv c) skin mesh (world_affines sts) out = Ok res ->
  let resize := map (fun x : vec3 * vec3 => (vscale k (fst x), snd x)) in
  apply_ssd_mesh order (fc_inv c') skin (resize mesh) (world_affines sts') (resize out) = Ok (resize res).
Proof.
  intros O E F H. destruct (scale_inv c k c' O E) as (K & _ & _ & _ & _ & _ & _ & I & _). cbv zeta.
  unfold apply_ssd_mesh in *. rewrite I. unfold world_affines in *. rewrite !map_length in *. rewrite <- (forall2_len _ _ _ F).
  destruct (negb (List.length (fc_inv c) <=? List.length sts)%nat); [discriminate|].
  destruct (negb (List.length skin =? List.length mesh)%nat); [discriminate|].
  destruct (negb (List.length out =? List.length mesh)%nat); [discriminate|].
  eapply for_vertices_map; [|exact H]. intros row [p n] x Hx. cbn [fst snd] in *.
  destruct (ssd_normal_row _ row p n (vzero, vzero)) as [y| | | |] eqn:Ey; try discriminate. cbn [obind] in Hx. injection Hx as <-.
  pose proof (scaled_normal_row k _ _ p n (scaled_ts k (fc_inv c) sts sts' F) row (vzero, vzero) y Ey) as G. cbn [fst snd] in G.
  rewrite vscale_0_r in G. fold (world_affines sts') in G. unfold world_affines in G. rewrite G. reflexivity.
Qed.
Print Assumptions scale_mesh_normals.

(** ** What is not scaled *)

Lemma tf_plain o : tf_mul tf_id (local_tf (Joint None o qid) (JP 0 0 0 0 0 0 0)) = TF qid o 1.
Proof.
  unfold local_tf. cbn [jprerot joffset jtx jty jtz jrx jry jrz jsc]. unfold exp2. rewrite Rmult_0_l, exp_0.
  unfold qaxis. replace (0 / 2) with 0 by field. rewrite cos_0, sin_0. destruct o. unfold tf_mul, tf_id. cbn [rot trans scl]. f_equal; [vec_ring|vec_ring|ring].
Qed.
Lemma one_joint_fk o p : List.length p = 7%nat -> fk [Joint None o qid] p = Ok [joint_state_set (Joint None o qid) (jparam_at p 0) None].
Proof. intros L. unfold fk. rewrite L. reflexivity. Qed.
Lemma zero_params : jparam_at (repeat 0 7) 0 = JP 0 0 0 0 0 0 0.
Proof. reflexivity. Qed.

(** A character with one joint at [o], moved along x by its only parameter, with a unit sphere around
    the joint and one vertex. *)
Definition id_aff : affine := Aff mid vzero.
Definition point_blend : bshape := BS (BM 3 0 (fun _ _ => 0)) [V3 1 0 0] None false.
Definition point_char (o : vec3) : fchar :=
  FC ["root"%string] [Joint None o qid] (PT ["tx"%string] 7 1 [Entry 0 0 1] (repeat 0 7) (true :: repeat false 6) [] [] [] [])
    [FL (PLimit (LEllipsoid 0 0) 1) id_aff id_aff (V3 2 0 0)]
    [Locator "mark" (Some 0%nat) (V3 0 1 0) (false, false, false) 1 (V3 0 1 0) vzero]
    (Some (FM [V3 1 0 0] [V3 1 0 0])) (Some [[(0%nat, 1)]]) (Some [Cap id_aff 1 2 (Some 0%nat) 3]) None (Some point_blend)
    [Aff mid (vscale (-1) o)].
Lemma point_ok o : fc_ok (point_char o).
Proof. constructor; try reflexivity; [|discriminate]. intros [|[|i]] q H; discriminate. Qed.
Lemma point_scaled o k : 0 < k -> exists c', scale_character (point_char o) k = Ok c' /\ fc_joints c' = [Joint None (vscale k o) qid] /\
  fc_pt c' = fc_pt (point_char o) /\ fc_inv c' = [Aff mid (vscale k (vscale (-1) o))] /\ fc_blend c' = Some point_blend /\
  fc_skin c' = Some [[(0%nat, 1)]] /\ fc_mesh c' = Some (FM [vscale k (V3 1 0 0)] [V3 1 0 0]) /\
  fc_limits c' = [FL (PLimit (LEllipsoid 0 0) 1) (Aff mid (vscale k vzero)) (Aff mid (vscale k vzero)) (vscale k (V3 2 0 0))].
Proof.
  intros K. unfold scale_character. destruct (Rltb_spec 0 k) as [_|]; [|contradiction]. cbn [negb].
  eexists. split; [reflexivity|]. repeat split; reflexivity.
Qed.
Lemma point_fk o : exists s, fk [Joint None o qid] (repeat 0 7) = Ok [s] /\ js_world s = TF qid o 1.
Proof. rewrite one_joint_fk by reflexivity. eexists. split; [reflexivity|]. rewrite js_world_set, zero_params. apply tf_plain. Qed.

(** The same parameters do not give the scaled pose if they move a joint: the parameter transform is
    not scaled. *)
Theorem scale_parameters_refuted : exists c k c' q p sts sts', fc_ok c /\ 0 < k /\ scale_character c k = Ok c' /\
  pt_apply (fc_pt c) q = Ok p /\ fk (fc_joints c) p = Ok sts /\ pt_apply (fc_pt c') q = Ok p /\ fk (fc_joints c') p = Ok sts' /\
  ~ Forall2 (scaled_state k) sts sts'.
Proof.
  destruct (point_scaled (V3 1 0 0) 2 ltac:(lra)) as (c' & E & J & P & _).
  assert (A : pt_apply (fc_pt (point_char (V3 1 0 0))) [1] = Ok (1 :: repeat 0 6)).
  { unfold pt_apply. cbn. do 2 f_equal; [ring|]. repeat (f_equal; try ring). }
  exists (point_char (V3 1 0 0)), 2, c', [1], (1 :: repeat 0 6).
  eexists _, _. split; [apply point_ok|]. split; [lra|]. split; [exact E|]. split; [exact A|]. rewrite P, J.
  split; [apply one_joint_fk; reflexivity|]. split; [exact A|]. split; [apply one_joint_fk; reflexivity|].
  intros F. inversion F as [|? ? ? ? (_ & _ & T) _]; subst. clear - T. rewrite !js_world_set in T. unfold tf_mul, local_tf in T.
  cbn [parent_tf rot trans scl tf_id joffset jprerot] in T. apply (f_equal vx) in T. unfold jparam_at in T. cbn in T. lra.
Qed.
Print Assumptions scale_parameters_refuted.

(** An ellipsoid limit keeps the size of its ellipsoid: only the linear part of the map holds it, and
    that is not scaled. *)
Theorem scale_ellipsoid_refuted : exists c k c' p sts sts' l l' d d', fc_ok c /\ 0 < k /\ scale_character c k = Ok c' /\
  untranslated p /\ fk (fc_joints c) p = Ok sts /\ fk (fc_joints c') p = Ok sts' /\
  fc_limits c = [l] /\ fc_limits c' = [l'] /\ ellipsoid_diff sts l = Ok d /\ ellipsoid_diff sts' l' = Ok d' /\ d' <> vscale k d.
Proof.
  destruct (point_scaled vzero 2 ltac:(lra)) as (c' & E & J & _ & _ & _ & _ & _ & L).
  destruct (point_fk vzero) as (s & F & W). destruct (point_fk (vscale 2 vzero)) as (s' & F' & W').
  assert (N : forall x, 0 < x -> normalized (V3 x 0 0) = V3 1 0 0).
  { intros x Hx. unfold normalized. assert (Q : vnorm2 (V3 x 0 0) = x * x) by (unfold vnorm2, vdot; cbn; ring).
    rewrite Q. destruct (Rltb_spec 0 (x * x)) as [_|C]; [|exfalso; nra]. rewrite sqrt_square by lra. unfold vscale. cbn. f_equal; field; lra. }
  assert (I : forall v, aff_point (tf_affine (TF qid vzero 1)) v = v) by (intros; unfold aff_point, tf_affine, tf_linear; cbn [alin atrans rot trans scl]; vec_ring).
  assert (I' : forall v, aff_point (tf_affine (tf_inv (TF qid vzero 1))) v = v).
  { intros v. unfold aff_point, tf_affine, tf_linear, tf_inv. cbn [alin atrans rot trans scl]. rewrite (qinv_unit _ qunit_id). unfold Rdiv. rewrite Rinv_1. vec_ring. }
  rewrite vscale_0_r in W', F', L. rewrite vscale_0_r in J.
  eexists _, 2, c', (repeat 0 7), [s], [s'], _, _, (V3 1 0 0), (V3 3 0 0). split; [apply (point_ok vzero)|]. split; [lra|]. split; [exact E|].
  split. { intros i _. destruct (Nat.lt_ge_cases i 7) as [H|H]; [|apply nth_overflow; exact H]. apply nth_repeat. }
  rewrite J. split; [exact F|]. split; [exact F'|]. split; [reflexivity|]. split; [exact L|].
  assert (R : forall v, aff_point (Aff mid vzero) v = v) by (intros; unfold aff_point; cbn [alin atrans]; vec_ring).
  split; [|split].
  - unfold ellipsoid_diff, id_aff. cbn [fl_limit ldata fl_offset fl_map fl_inv]. unfold rd. cbn [nth_error obind]. rewrite W, !I, I', !R, N by lra.
    f_equal. vec_unfold. f_equal; ring.
  - unfold ellipsoid_diff. cbn [fl_limit ldata fl_offset fl_map fl_inv]. unfold rd. cbn [nth_error obind]. rewrite W', !I, I', !R.
    replace (vscale 2 (V3 2 0 0)) with (V3 4 0 0) by (vec_unfold; f_equal; ring). rewrite N by lra. f_equal. vec_unfold. f_equal; ring.
  - intros C. apply (f_equal vx) in C. cbn in C. lra.
Qed.
Print Assumptions scale_ellipsoid_refuted.

(** Blend shapes are not scaled: a mesh that is skinned from its blend shape keeps its size. *)
Theorem scale_blend_refuted : exists c k c' p sts sts' skin m m' vs vs', fc_ok c /\ 0 < k /\ scale_character c k = Ok c' /\
  untranslated p /\ fk (fc_joints c) p = Ok sts /\ fk (fc_joints c') p = Ok sts' /\ Forall2 (scaled_state k) sts sts' /\
  fc_skin c = Some skin /\ fc_skin c' = Some skin /\ fc_mesh c = Some m /\ fc_mesh c' = Some m' /\
  skin_with_blend [0%nat] (fc_inv c) skin (fm_vertices m) (fc_blend c) (world_affines sts) [] = Ok vs /\
  skin_with_blend [0%nat] (fc_inv c') skin (fm_vertices m') (fc_blend c') (world_affines sts') [] = Ok vs' /\
  vs' <> map (vscale k) vs.
Proof.
  destruct (point_scaled vzero 2 ltac:(lra)) as (c' & E & J & _ & I & B & S & M & _).
  destruct (point_fk vzero) as (s & F & W). destruct (point_fk (vscale 2 vzero)) as (s' & F' & W').
  rewrite vscale_0_r in W', F', J. rewrite !vscale_0_r in I.
  assert (U : untranslated (repeat 0 7)).
  { intros i _. destruct (Nat.lt_ge_cases i 7) as [H|H]; [|apply nth_overflow; exact H]. apply nth_repeat. }
  assert (G : forall st, js_world st = TF qid vzero 1 -> forall m, List.length m = 1%nat ->
    skin_with_blend [0%nat] [Aff mid vzero] [[(0%nat, 1)]] m (Some point_blend) (world_affines [st]) [] = Ok [V3 1 0 0]).
  { intros st Hs m Lm. unfold skin_with_blend. unfold world_affines. cbn [map List.length]. rewrite Lm, Hs. cbn [Nat.eqb negb point_blend bs_vectors bm_cols Nat.leb].
    assert (Rp : rest_position (Some point_blend) [] 0 = Ok (V3 1 0 0)).
    { unfold rest_position. cbn. unfold vadd. cbn. do 2 f_equal; ring. }
    unfold for_vertices. cbn [ofold seq]. unfold rd at 1 2. cbn [nth_error obind]. rewrite Rp. cbn [obind].
    unfold skin_transforms. cbn [map combine fst snd ssd_row]. unfold Reqb. destruct (Req_EM_T 1 0) as [C|_]; [lra|]. unfold rd. cbn [nth_error obind].
    unfold wr. cbn [upd repeat obind]. do 2 f_equal. unfold aff_mul, tf_affine, tf_linear. cbn [alin atrans rot trans scl]. vec_unfold. f_equal; ring. }
  exists (point_char vzero), 2, c', (repeat 0 7), [s], [s'], [[(0%nat, 1)]], (FM [V3 1 0 0] [V3 1 0 0]), (FM [vscale 2 (V3 1 0 0)] [V3 1 0 0]), [V3 1 0 0], [V3 1 0 0].
  split; [apply point_ok|]. split; [lra|]. split; [exact E|]. split; [exact U|]. rewrite J. split; [exact F|]. split; [exact F'|].
  split. { constructor; [|constructor]. unfold scaled_state. rewrite W, W'. cbn [rot scl trans]. rewrite vscale_0_r. auto. }
  split; [reflexivity|]. split; [exact S|]. split; [reflexivity|]. split; [exact M|]. rewrite I, B.
  split. { cbn [point_char fc_inv fc_blend fm_vertices]. rewrite vscale_0_r. apply (G s W). reflexivity. }
  split; [apply (G s' W'); reflexivity|]. intros C. injection C. intros. lra.
Qed.
Print Assumptions scale_blend_refuted.

(** A case for the theorems: all parts present, twice the size. *)
Example scale_case : fc_ok (point_char (V3 1 2 3)) /\ (exists c', scale_character (point_char (V3 1 2 3)) 2 = Ok c') /\
  scaled_params 2 (5 :: repeat 0 6) (10 :: repeat 0 6) /\ (exists sts, fk (fc_joints (point_char (V3 1 2 3))) (5 :: repeat 0 6) = Ok sts) /\
  (exists l, fc_locs (point_char (V3 1 2 3)) = [l] /\ lo_parent l = Some 0%nat) /\ untranslated (repeat 0 3 ++ [1; 0; 0; 0]) /\
  exists caps, fc_caps (point_char (V3 1 2 3)) = Some caps.
Proof.
  split; [apply point_ok|]. split. { destruct (point_scaled (V3 1 2 3) 2 ltac:(lra)) as (c' & E & _). eauto. }
  split. { split; [reflexivity|]. intros [|i]; [cbn; ring|]. destruct (Nat.ltb_spec (S i mod 7) 3).
    - cbn [nth]. rewrite nth_repeat0. ring. - reflexivity. }
  split; [eexists; apply one_joint_fk; reflexivity|]. split; [eexists; split; reflexivity|]. split; [|eexists; reflexivity].
  intros i Hi. do 7 (destruct i as [|i]; [try reflexivity; cbn in Hi; lia|]). destruct i; reflexivity.
Qed.
