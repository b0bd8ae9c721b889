(** Capsules in a pose and their overlap (C103). *)

From Coq Require Import Bool Reals List Arith Lia Lra Psatz.
From Verif Require Import Prelude Loops LinAlg Rbool R3 Transform_model Transform_proofs Skeleton_model Skeleton_spec FK_model FK_spec FK_proofs
  ParamTransform_model Limits_model Limits_spec Limits_proofs Constraint_model Constraint_proofs Skin_model Skin_props CharUtil_model
  Ellipsoid_model Ellipsoid_spec Ellipsoid_proofs Seg_model Seg_spec Seg_proofs Seg_props Coll_model Coll_spec.
Import ListNotations.
Local Open Scope R_scope.

(** ** One capsule *)

Definition cap_st (sts : list jstate) (c : capsule) : cstate :=
  (cap_point sts c 0, cap_axis sts c, cap_radius sts c 0, cap_radius sts c 1).
Definition placed (sts : list jstate) (c : capsule) : Prop :=
  exists j st, cap_parent c = Some j /\ nth_error sts j = Some st.

Lemma cap_state_ok sts c : placed sts c -> capsule_state sts c = Ok (cap_st sts c).
Proof.
  intros (j & st & P & E). unfold capsule_state, cap_st, cap_axis, cap_radius, cap_scale, cap_point. rewrite P. unfold rd.
  unfold world_point. rewrite E. cbn [obind]. cbv zeta. rewrite <- !tf_affine_point. apply (f_equal (@Ok (vec3 * vec3 * R * R))).
  apply (f_equal2 pair); [apply (f_equal2 pair); [apply (f_equal2 pair)|]|].
  - unfold aff_mul; cbn [atrans alin]. rewrite Rmult_0_l. change (V3 0 0 0) with vzero.
    replace (aff_point (cap_tf c) vzero) with (atrans (cap_tf c)); [reflexivity|].
    unfold aff_point. destruct (cap_tf c) as [[[] [] []] []]. unfold mvec, vadd, vscale, vzero; cbn. f_equal; ring.
  - rewrite aff_lin_sub, aff_lin_sub. unfold aff_mul, mmul; cbn [alin col0].
    replace (mvec (alin (cap_tf c)) (vsub (V3 (1 * cap_length c) 0 0) (V3 (0 * cap_length c) 0 0))) with (vscale (cap_length c) (col0 (alin (cap_tf c)))).
    + generalize (col0 (alin (cap_tf c))), (alin (tf_affine (js_world st))). intros [] [[] [] []]. unfold mvec, vadd, vscale; cbn. f_equal; ring.
    + destruct (alin (cap_tf c)) as [[] [] []]. unfold mvec, vadd, vscale, vsub; cbn. f_equal; ring.
  - ring.
  - ring.
Qed.
Lemma aff_line (A : affine) (p d : vec3) (s : R) : aff_point A (seg_point p d s) =
  seg_point (aff_point A p) (vsub (aff_point A (seg_point p d 1)) (aff_point A p)) s.
Proof.
  destruct A as [[[a1 a2 a3] [b1 b2 b3] [c1 c2 c3]] [t1 t2 t3]], p as [p1 p2 p3], d as [d1 d2 d3].
  unfold seg_point, aff_point, mvec, vadd, vscale, vsub; cbn. f_equal; ring.
Qed.
Lemma line_aff (A B : affine) (s l : R) : aff_point A (aff_point B (V3 (s * l) 0 0)) =
  seg_point (aff_point A (aff_point B (V3 (0 * l) 0 0))) (vsub (aff_point A (aff_point B (V3 (1 * l) 0 0))) (aff_point A (aff_point B (V3 (0 * l) 0 0)))) s.
Proof.
  assert (H : forall u, V3 (u * l) 0 0 = seg_point (V3 (0 * l) 0 0) (V3 l 0 0) u) by (intros u; unfold seg_point, vadd, vscale; cbn; f_equal; ring).
  rewrite (H s), (H 1), (aff_line B), (aff_line A). do 2 f_equal. f_equal. symmetry. 
  assert (J : forall p d, seg_point p d 1 = vadd p d) by (intros [] []; unfold seg_point, vadd, vscale; cbn; f_equal; ring).
  rewrite !J. generalize (aff_point B (vadd (V3 (0 * l) 0 0) (V3 l 0 0))), (aff_point B (V3 (0 * l) 0 0)). intros [] []. unfold vadd, vsub; cbn. f_equal; ring.
Qed.
Lemma cap_point_line sts c s : cap_point sts c s = seg_point (cap_point sts c 0) (cap_axis sts c) s.
Proof.
  unfold cap_axis, cap_point. destruct (cap_parent c) as [j|].
  - unfold world_point. destruct (nth_error sts j) as [st|].
    + rewrite <- !tf_affine_point. apply line_aff.
    + unfold seg_point, vadd, vscale, vsub, vzero; cbn. f_equal; ring.
  - unfold seg_point, vadd, vscale, vsub, vzero; cbn. f_equal; ring.
Qed.
Lemma cap_radius_line sts c s : cap_radius sts c s = cap_radius sts c 0 + s * (cap_radius sts c 1 - cap_radius sts c 0).
Proof. unfold cap_radius. ring. Qed.
Lemma radius_girth sts c s : in_unit s -> cap_radius sts c s <= cap_girth sts c.
Proof.
  intros [H1 H2]. rewrite cap_radius_line. unfold cap_girth.
  pose proof (Rmax_l (cap_radius sts c 0) (cap_radius sts c 1)). pose proof (Rmax_r (cap_radius sts c 0) (cap_radius sts c 1)).
  set (m := Rmax _ _) in *. pose proof (Rmult_le_pos (1 - s) (m - cap_radius sts c 0) ltac:(lra) ltac:(lra)).
  pose proof (Rmult_le_pos s (m - cap_radius sts c 1) ltac:(lra) ltac:(lra)). lra.
Qed.

Local Notation sd sts a b := (seg_dist2 (cap_point sts a 0) (cap_axis sts a) (cap_point sts b 0) (cap_axis sts b)).
Lemma axis_dist_seg sts a b s t : axis_dist sts a b s t = sqrt (sd sts a b s t).
Proof. unfold axis_dist, seg_dist2. rewrite (cap_point_line sts a s), (cap_point_line sts b t). reflexivity. Qed.
Lemma sd_pos sts a b s t : 0 <= sd sts a b s t.
Proof. apply vn2_pos. Qed.
Lemma nearest_closest sts a b s t : nearest sts a b s t <->
  closest_pair (cap_point sts a 0) (cap_axis sts a) (cap_point sts b 0) (cap_axis sts b) s t.
Proof.
  unfold nearest, closest_pair. split; intros (I1 & I2 & H); split; [exact I1| |exact I1|]; (split; [exact I2|]); intros s' t' J1 J2; specialize (H s' t' J1 J2).
  - rewrite !axis_dist_seg in H. apply sqrt_le_0; [apply sd_pos|apply sd_pos|exact H].
  - rewrite !axis_dist_seg. apply sqrt_le_1_alt. exact H.
Qed.

(** ** Two capsules *)

Definition ovl (eps : R) (sts : list jstate) (a b : capsule) := overlaps eps (cap_st sts a) (cap_st sts b).

Lemma closest_sound o1 d1 o2 d2 m dist s t : closest_on_segments o1 d1 o2 d2 m = Some (dist, (s, t)) ->
  in_unit s /\ in_unit t /\ dist = sqrt (seg_dist2 o1 d1 o2 d2 s t).
Proof.
  intros H. rewrite closest_unfold in H.
  destruct (seg_lines (vsub o1 o2) d1 d2 (m * m)) as [q|] eqn:L; [|discriminate].
  destruct (seg_edges (vnorm2 d1) (vdot d1 d2) (vdot d1 (vsub o1 o2)) q) as [[[sN sD] tN] tD] eqn:E. cbv zeta in H.
  destruct (Rltb (m * m) _); [discriminate|]. injection H as H1 H2 H3. subst dist s t.
  destruct (edges_unit _ _ _ _ _ _ _ _ (vn2_pos d1) (lines_unit _ _ _ _ _ L) E) as [B1 B2]. auto.
Qed.

Lemma ovl_sound eps sts a b dist s t ov : ovl eps sts a b = Some (dist, (s, t), ov) ->
  in_unit s /\ in_unit t /\ dist = axis_dist sts a b s t /\ ov = depth sts a b s t /\ 0 < ov /\ eps <= dist.
Proof.
  unfold ovl, overlaps, cap_st. destruct (closest_on_segments _ _ _ _ _) as [[ds [s' t']]|] eqn:E; [|discriminate].
  destruct (closest_sound _ _ _ _ _ _ _ _ E) as (I1 & I2 & D). rewrite <- axis_dist_seg in D.
  match goal with |- context [Rltb 0 ?x] => destruct (Rltb_spec 0 x) as [P|P]; [|discriminate] end.
  destruct (Rleb_spec eps ds) as [Q|Q]; [|discriminate]. cbn [andb]. intros H. injection H as H1 H2 H3 H4. rewrite H1, H2, H3 in *. rewrite <- H4.
  split; [exact I1|]. split; [exact I2|]. split; [exact D|]. split; [|split; [rewrite H4; lra|exact Q]].
  unfold depth. rewrite (cap_radius_line sts a s), (cap_radius_line sts b t), <- D. ring.
Qed.
Lemma apart_ovl eps sts a b : apart sts a b -> ovl eps sts a b = None /\ forall s t, in_unit s -> in_unit t -> depth sts a b s t < 0.
Proof.
  intros (gap & G & H).
  assert (K : forall s t, in_unit s -> in_unit t -> depth sts a b s t < 0).
  { intros s t I1 I2. pose proof (H s t I1 I2). pose proof (radius_girth sts a s I1). pose proof (radius_girth sts b t I2). unfold depth. lra. }
  split; [|exact K]. destruct (ovl eps sts a b) as [[[dist [s t]] ov]|] eqn:E; [|reflexivity]. exfalso.
  destruct (ovl_sound _ _ _ _ _ _ _ _ E) as (I1 & I2 & _ & D & P & _). pose proof (K s t I1 I2). lra.
Qed.
Lemma settled_ovl eps sts a b s t : settled eps sts a b s t ->
  ovl eps sts a b = (if Rltb 0 (depth sts a b s t) then Some (axis_dist sts a b s t, (s, t), depth sts a b s t) else None).
Proof.
  intros (I1 & I2 & M & [A|(N & EP & H & K1 & K2)]).
  - destruct (apart_ovl eps sts a b A) as [O D]. rewrite O. destruct (Rltb_spec 0 (depth sts a b s t)) as [P|P]; [|reflexivity].
    pose proof (D s t I1 I2). lra.
  - apply nearest_closest in N.
    destruct (seg_closest_partial _ _ _ _ (cap_girth sts a + cap_girth sts b) s t M H N K1 K2) as [C1 C2].
    rewrite <- axis_dist_seg in C1.
    assert (DP : depth sts a b s t = cap_radius sts a 0 + s * (cap_radius sts a 1 - cap_radius sts a 0) + cap_radius sts b 0 + t * (cap_radius sts b 1 - cap_radius sts b 0) - axis_dist sts a b s t).
    { unfold depth. rewrite (cap_radius_line sts a s), (cap_radius_line sts b t). ring. }
    destruct (Rle_lt_dec (axis_dist sts a b s t) (cap_girth sts a + cap_girth sts b)) as [L|L].
    + assert (W : within (cap_point sts a 0) (cap_axis sts a) (cap_point sts b 0) (cap_axis sts b) (cap_girth sts a + cap_girth sts b)).
      { exists s, t. rewrite <- axis_dist_seg. auto. }
      unfold ovl, overlaps, cap_st. fold (cap_girth sts a) (cap_girth sts b). rewrite (C1 W), <- DP.
      destruct (Rltb_spec 0 (depth sts a b s t)) as [P|P]; [|reflexivity]. destruct (Rleb_spec eps (axis_dist sts a b s t)); [reflexivity|lra].
    + assert (W : ~ within (cap_point sts a 0) (cap_axis sts a) (cap_point sts b 0) (cap_axis sts b) (cap_girth sts a + cap_girth sts b)).
      { intros (s' & t' & J1 & J2 & W). destruct N as (_ & _ & N). pose proof (sqrt_le_1_alt _ _ (N s' t' J1 J2)) as Q. rewrite <- !axis_dist_seg in *. lra. }
      unfold ovl, overlaps, cap_st. fold (cap_girth sts a) (cap_girth sts b). rewrite (C2 W).
      destruct (Rltb_spec 0 (depth sts a b s t)) as [P|P]; [|reflexivity]. exfalso.
      pose proof (radius_girth sts a s I1). pose proof (radius_girth sts b t I2). unfold depth in P. lra.
Qed.
Lemma settled_weaken eps sts a b s t : settled_strictly eps sts a b s t -> settled eps sts a b s t.
Proof.
  intros (I1 & I2 & M & [A|(N & EP & H & K1 & K2)]); (split; [exact I1|split; [exact I2|split; [exact M|]]]); [left; exact A|right].
  split; [exact N|]. split; [lra|]. split; [lra|].
  split; [destruct K1 as [?|[? ?]]; [left; assumption|right; lra]|destruct K2 as [?|[? ?]]; [left; assumption|right; lra]].
Qed.

(** ** All capsules *)

Lemma caps_update_ok sts g : (forall c, In c g -> placed sts c) -> caps_update sts g = Ok (map (cap_st sts) g).
Proof.
  induction g as [|c g IH]; intros H; [reflexivity|]. cbn [caps_update]. rewrite cap_state_ok by (apply H; left; reflexivity). cbn [obind].
  rewrite IH by (intros; apply H; right; assumption). reflexivity.
Qed.

Section At.
Context (E : coll_fn) (W : coll_wf E) (sts : list jstate) (LS : length sts = length (co_sk E)).

Lemma wf_placed c : In c (co_geo E) -> placed sts c.
Proof.
  intros H. destruct (cw_caps E W c H) as (j & P & L). rewrite <- LS in L.
  destruct (nth_error sts j) as [st|] eqn:Q; [exists j, st; auto|apply nth_error_None in Q; lia].
Qed.
Lemma wf_update : caps_update sts (co_geo E) = Ok (map (cap_st sts) (co_geo E)).
Proof. apply caps_update_ok. intros c H. apply wf_placed, H. Qed.
Local Notation cs := (map (cap_st sts) (co_geo E)).

Lemma pair_overlap_ok pr a b : capsules_of E pr a b ->
  pair_overlap E cs pr = Ok (match ovl (co_eps E) sts a b with None => None | Some o => Some (cap_st sts a, cap_st sts b, o) end).
Proof.
  destruct pr as [[i j] k]. intros [H1 H2]. cbn [fst snd] in *. unfold pair_overlap, rd. rewrite !nth_error_map, H1, H2. reflexivity.
Qed.

(** The loop of getError in terms of what is reported. *)
Definition reported (pr : cpair) : option (R * (R * R) * R) :=
  match nth_error (co_geo E) (fst (fst pr)), nth_error (co_geo E) (snd (fst pr)) with
  | Some a, Some b => ovl (co_eps E) sts a b
  | _, _ => None
  end.
Definition rep_depth (pr : cpair) : R := match reported pr with Some (_, _, ov) => ov | None => 0 end.
Lemma reported_at pr a b : capsules_of E pr a b -> reported pr = ovl (co_eps E) sts a b.
Proof. intros [H1 H2]. unfold reported. rewrite H1, H2. reflexivity. Qed.

Lemma err_loop_ok prs : (forall pr, In pr prs -> exists a b, capsules_of E pr a b) ->
  coll_err_loop E cs prs = Ok (5 / 1000 * co_weight E * rsum (map (fun pr => rep_depth pr * rep_depth pr) prs),
                               map (fun pr => match reported pr with Some _ => true | None => false end) prs).
Proof.
  induction prs as [|pr prs IH]; intros H; [cbn; rewrite Rmult_0_r; reflexivity|]. cbn [coll_err_loop map rsum].
  destruct (H pr (or_introl eq_refl)) as (a & b & C). rewrite (pair_overlap_ok pr a b C). cbn [obind].
  rewrite IH by (intros; apply H; right; assumption). cbn [obind]. 
  assert (RD : rep_depth pr = match ovl (co_eps E) sts a b with Some (_, _, ov) => ov | None => 0 end) by (unfold rep_depth; rewrite (reported_at pr a b C); reflexivity).
  rewrite RD, (reported_at pr a b C). clear RD.
  destruct (ovl (co_eps E) sts a b) as [[[dist st] ov]|]; cbn beta iota; apply (f_equal (@Ok (R * list bool))), (f_equal2 pair); try reflexivity; unfold kCollisionWeight; ring.
Qed.
Lemma wf_caps pr : In pr (co_pairs E) -> exists a b, capsules_of E pr a b.
Proof. intros H. destruct (cw_pairs E W pr H) as (a & b & k & ja & jb & C & _). eauto. Qed.

Lemma coll_error_ok jp : length jp = pt_rows (co_pt E) -> sts <> [] ->
  coll_error E jp sts = Ok (5 / 1000 * co_weight E * rsum (map (fun pr => rep_depth pr * rep_depth pr) (co_pairs E)),
                            map (fun pr => match reported pr with Some _ => true | None => false end) (co_pairs E)).
Proof.
  intros L NE. unfold coll_error. destruct sts as [|st0 r] eqn:S; [congruence|]. rewrite <- S in *.
  rewrite L, (cw_pt E W), Nat.mul_comm, Nat.eqb_refl. cbn [check obind]. rewrite wf_update. cbn [obind]. apply err_loop_ok. apply wf_caps.
Qed.
End At.

(** ** The pairs that are tested *)

Lemma chain_last sk j l : chain sk j l -> exists l', l = l' ++ [j].
Proof. intros H. destruct H as [j jt E P|j jt p l E P H]; [exists []|exists l]; reflexivity. Qed.
Lemma chain_le sk j l : valid_sk sk -> chain sk j l -> forall x, In x l -> (x <= j)%nat.
Proof.
  intros V H. induction H as [j jt E P|j jt p l E P H IH]; intros x Hx.
  - destruct Hx as [<-|[]]. lia.
  - pose proof (valid_sk_parent _ _ _ _ V E P). apply in_app_or in Hx as [Hx|[<-|[]]]; [pose proof (IH x Hx); lia|lia].
Qed.
Lemma meets_self sk p : valid_sk sk -> (p < length sk)%nat -> meets_at sk p p p 0.
Proof.
  intros V L. destruct (chain_exists _ V p L) as [l H]. destruct (chain_last _ _ _ H) as [l' ->].
  exists l', [], []. split; [exact H|]. split; [exact H|]. split; [intros; discriminate|reflexivity].
Qed.
Lemma meets_sym sk p q c n : meets_at sk p q c n -> meets_at sk q p c n.
Proof.
  intros (com & ra & rb & H1 & H2 & H3 & ->). exists com, rb, ra. split; [exact H2|]. split; [exact H1|]. split; [|lia].
  intros x y ra' rb' E1 E2 E. apply (H3 y x rb' ra' E2 E1). congruence.
Qed.
Lemma meets_up sk p p' q jt c n : valid_sk sk -> nth_error sk p = Some jt -> jparent jt = Some p' -> (q < p)%nat ->
  meets_at sk p' q c n -> meets_at sk p q c (S n).
Proof.
  intros V E P L (com & ra & rb & H1 & H2 & H3 & ->). exists com, (ra ++ [p]), rb.
  split; [|split; [exact H2|split; [|rewrite app_length; cbn; lia]]].
  - replace (com ++ c :: ra ++ [p]) with ((com ++ c :: ra) ++ [p]) by (rewrite <- app_assoc; reflexivity).
    eapply chain_child; eassumption.
  - intros x y ra' rb' E1 E2. destruct ra as [|z ra]; cbn [app] in E1.
    + injection E1 as E1 _. subst x rb. intros ->. pose proof (chain_le _ _ _ V H2 y ltac:(apply in_or_app; right; right; left; reflexivity)). lia.
    + injection E1 as E1 _. subst z. exact (H3 x y ra rb' eq_refl E2).
Qed.
Lemma meets_unique sk p q c n c' n' : meets_at sk p q c n -> meets_at sk p q c' n' -> c = c' /\ n = n'.
Proof.
  intros (com & ra & rb & H1 & H2 & H3 & ->) (com' & ra' & rb' & G1 & G2 & G3 & ->).
  pose proof (chain_unique _ _ _ H1 _ G1) as E1. pose proof (chain_unique _ _ _ H2 _ G2) as E2. clear H1 H2 G1 G2.
  revert com' E1 E2. induction com as [|x com IH]; intros [|y com'] E1 E2; cbn [app] in *.
  - injection E1 as <- <-. injection E2 as <-. auto.
  - injection E1 as <- ->. injection E2 as ->. exfalso.
    destruct com' as [|z com']; cbn [app] in H3; eapply H3; reflexivity.
  - injection E1 as -> E1. injection E2 as E2. subst. exfalso.
    destruct com as [|z com]; cbn [app] in G3; eapply G3; reflexivity.
  - injection E1 as _ E1. injection E2 as _ E2. exact (IH com' E1 E2).
Qed.
Lemma meets_carries sk p q c n : meets_at sk p q c n -> carries sk c p /\ carries sk c q.
Proof.
  intros (com & ra & rb & H1 & H2 & _). split; eexists; (split; [eassumption|]); apply in_or_app; right; left; reflexivity.
Qed.

Lemma common_ok sk : valid_sk sk -> single_root (sk_parents sk) -> forall fuel p q count,
  (p < length sk)%nat -> (q < length sk)%nat -> (p + q <= fuel)%nat ->
  exists c n, common_ancestor fuel sk (Some p) (Some q) count = Ok (Some c, (count + n)%nat) /\ meets_at sk p q c n.
Proof.
  intros V SR fuel. assert (PAR : forall p q, (q < p)%nat -> (p < length sk)%nat -> exists jt p', nth_error sk p = Some jt /\ jparent jt = Some p' /\ (p' < p)%nat).
  { intros p q L H. destruct (nth_error sk p) as [jt|] eqn:E; [|apply nth_error_None in E; lia].
    destruct (jparent jt) as [p'|] eqn:P; [exists jt, p'; pose proof (valid_sk_parent _ _ _ _ V E P); auto|]. exfalso.
    assert (Z : nth_error (sk_parents sk) p = Some None) by (unfold sk_parents; rewrite nth_error_map, E; cbn; congruence).
    pose proof (SR p Z). lia. }
  assert (EQ : forall f p count, (p < length sk)%nat -> exists c n, common_ancestor f sk (Some p) (Some p) count = Ok (Some c, (count + n)%nat) /\ meets_at sk p p c n).
  { intros f p count H. exists p, 0%nat. split; [destruct f; cbn [common_ancestor idx_eqb]; rewrite Nat.eqb_refl, Nat.add_0_r; reflexivity|]. apply meets_self; assumption. }
  induction fuel as [|f IH]; intros p q count Hp Hq Hf.
  - assert (p = q) as <- by lia. apply EQ, Hp.
  - destruct (Nat.eq_dec p q) as [<-|NE]; [apply EQ, Hp|]. cbn [common_ancestor idx_eqb idx_gtb].
    destruct (Nat.eqb_spec p q) as [|_]; [contradiction|]. destruct (Nat.ltb_spec q p) as [L|L].
    + destruct (PAR p q L Hp) as (jt & p' & E & P & LP). cbn [parent_of]. unfold rd. rewrite E. cbn [obind]. rewrite P.
      destruct (IH p' q (S count) ltac:(lia) Hq ltac:(lia)) as (c & n & H1 & H2). exists c, (S n). rewrite H1.
      split; [do 2 f_equal; lia|]. eapply meets_up; eassumption.
    + assert (L' : (p < q)%nat) by lia. destruct (PAR q p L' Hq) as (jt & p' & E & P & LP). cbn [parent_of]. unfold rd. rewrite E. cbn [obind]. rewrite P.
      destruct (IH p p' (S count) Hp ltac:(lia) ltac:(lia)) as (c & n & H1 & H2). exists c, (S n). rewrite H1.
      split; [do 2 f_equal; lia|]. apply meets_sym. eapply meets_up; try eassumption. apply meets_sym, H2.
Qed.

Lemma oconcat_ok {A B} (f : A -> outcome (list B)) (key : B -> A) l :
  (forall x, In x l -> exists r, f x = Ok r /\ NoDup r /\ forall y, In y r -> key y = x) -> NoDup l ->
  exists rs, oconcat f l = Ok rs /\ NoDup rs /\ forall y, In y rs <-> exists r, In (key y) l /\ f (key y) = Ok r /\ In y r.
Proof.
  induction l as [|x l IH]; intros H ND.
  - exists []. split; [reflexivity|]. split; [constructor|]. intros y. split; [intros []|intros (r & [] & _)].
  - inversion ND as [|? ? N1 N2]; subst. destruct (H x (or_introl eq_refl)) as (r & E & R1 & R2).
    destruct (IH (fun z Hz => H z (or_intror Hz)) N2) as (rs & E2 & S1 & S2).
    exists (r ++ rs). cbn [oconcat]. rewrite E. cbn [obind]. rewrite E2. split; [reflexivity|]. split.
    + clear - R1 S1 R2 S2 N1. induction r as [|y r IH]; [exact S1|]. inversion R1 as [|? ? M1 M2]; subst. cbn [app]. constructor.
      * intros C. apply in_app_or in C as [C|C]; [contradiction|]. apply S2 in C as (r' & C & _).
        rewrite (R2 y (or_introl eq_refl)) in C. contradiction.
      * apply IH; [exact M2|intros z Hz; apply R2; right; exact Hz].
    + intros y. rewrite in_app_iff, S2. split.
      * intros [C|(r' & C1 & C2 & C3)]; [exists r; rewrite (R2 y C); split; [left; reflexivity|auto]|exists r'; split; [right; exact C1|auto]].
      * intros (r' & [C|C] & C2 & C3); [left|right; exists r'; auto]. rewrite <- C, E in C2. injection C2 as <-. exact C3.
Qed.

Section Pairs.
Context (eps : R) (sk : skeleton) (g : list capsule) (sts : list jstate) (V : valid_sk sk) (SR : single_root (sk_parents sk))
  (LS : length sts = length sk) (PC : forall c, In c g -> exists j, cap_parent c = Some j /\ (j < length sk)%nat).
Local Notation cs := (map (cap_st sts) g).

Lemma pair_body_ok i j a b : nth_error g i = Some a -> nth_error g j = Some b ->
  exists ja jb c n, cap_parent a = Some ja /\ cap_parent b = Some jb /\ meets_at sk ja jb c n /\
  pair_body eps sk g cs i j = Ok (match ovl eps sts a b with Some _ => [] | None => if Nat.ltb 1 n then [(i, j, Some c)] else [] end).
Proof.
  intros Ha Hb. destruct (PC a (nth_error_In _ _ Ha)) as (ja & Pa & La). destruct (PC b (nth_error_In _ _ Hb)) as (jb & Pb & Lb).
  destruct (common_ok sk V SR (2 * length sk) ja jb 0 La Lb ltac:(lia)) as (c & n & C1 & C2).
  exists ja, jb, c, n. split; [exact Pa|]. split; [exact Pb|]. split; [exact C2|].
  unfold pair_body, rd. rewrite !nth_error_map, Ha, Hb. cbn [option_map obind]. fold (ovl eps sts a b).
  destruct (ovl eps sts a b); [reflexivity|]. rewrite Pa, Pb, C1. cbn [obind]. reflexivity.
Qed.

Definition pair_in (i j : nat) (o : option nat) : Prop :=
  exists a b ja jb c n, nth_error g i = Some a /\ nth_error g j = Some b /\ cap_parent a = Some ja /\ cap_parent b = Some jb /\
    meets_at sk ja jb c n /\ (2 <= n)%nat /\ o = Some c /\ ovl eps sts a b = None.

Lemma pair_body_in i j : (i < length g)%nat -> (j < length g)%nat ->
  exists r, pair_body eps sk g cs i j = Ok r /\ NoDup r /\ (forall y, In y r -> fst y = (i, j)) /\ forall o, In (i, j, o) r <-> pair_in i j o.
Proof.
  intros Hi Hj. destruct (nth_error g i) as [a|] eqn:Ha; [|apply nth_error_None in Ha; lia].
  destruct (nth_error g j) as [b|] eqn:Hb; [|apply nth_error_None in Hb; lia].
  destruct (pair_body_ok i j a b Ha Hb) as (ja & jb & c & n & Pa & Pb & M & E). rewrite E. eexists; split; [reflexivity|].
  assert (PI : forall o, pair_in i j o <-> ovl eps sts a b = None /\ (2 <= n)%nat /\ o = Some c).
  { intros o. split.
    - intros (a' & b' & ja' & jb' & c' & n' & H1 & H2 & H3 & H4 & H5 & H6 & H7 & H8).
      assert (a' = a) as -> by congruence. assert (b' = b) as -> by congruence. assert (ja' = ja) as -> by congruence. assert (jb' = jb) as -> by congruence.
      destruct (meets_unique _ _ _ _ _ _ _ H5 M) as [-> ->]. auto.
    - intros (H1 & H2 & H3). exists a, b, ja, jb, c, n. auto 9. }
  destruct (ovl eps sts a b) eqn:O.
  - split; [constructor|]. split; [intros y []|]. intros o. rewrite PI. split; [intros []|intros (H & _); discriminate].
  - destruct (Nat.ltb_spec 1 n) as [L|L].
    + split; [constructor; [intros []|constructor]|]. split; [intros y [<-|[]]; reflexivity|]. intros o. rewrite PI. split.
      * intros [H|[]]. injection H as <-. auto.
      * intros (_ & _ & ->). left. reflexivity.
    + split; [constructor|]. split; [intros y []|]. intros o. rewrite PI. split; [intros []|intros (_ & H & _); lia].
Qed.

Lemma pairs_loop_ok : exists prs,
  oconcat (fun i => oconcat (pair_body eps sk g cs i) (seq (S i) (length g - S i))) (seq 0 (length g)) = Ok prs /\ NoDup prs /\
  forall i j o, In (i, j, o) prs <-> (i < j)%nat /\ pair_in i j o.
Proof.
  assert (IN : forall i, (i < length g)%nat -> exists r, oconcat (pair_body eps sk g cs i) (seq (S i) (length g - S i)) = Ok r /\ NoDup r /\
    (forall y, In y r -> fst (fst y) = i) /\ forall j o, In (i, j, o) r <-> (i < j)%nat /\ pair_in i j o).
  { intros i Hi. destruct (oconcat_ok (pair_body eps sk g cs i) (fun y => snd (fst y)) (seq (S i) (length g - S i))) as (r & E & N & H).
    - intros j Hj. apply in_seq in Hj. destruct (pair_body_in i j Hi ltac:(lia)) as (r & E & N & F & _). exists r. split; [exact E|]. split; [exact N|].
      intros y Hy. rewrite (F y Hy). reflexivity.
    - apply seq_NoDup.
    - exists r. split; [exact E|]. split; [exact N|]. split.
      + intros y Hy. apply H in Hy as (r' & I1 & I2 & I3). apply in_seq in I1.
        destruct (pair_body_in i (snd (fst y)) Hi ltac:(lia)) as (r2 & E2 & _ & F & _). rewrite E2 in I2. injection I2 as <-. rewrite (F y I3). reflexivity.
      + intros j o. rewrite H. cbn [fst snd]. split.
        * intros (r' & I1 & I2 & I3). apply in_seq in I1. split; [lia|].
          destruct (pair_body_in i j Hi ltac:(lia)) as (r2 & E2 & _ & _ & F). rewrite E2 in I2. injection I2 as <-. apply F, I3.
        * intros (L & P). assert (Hj : (j < length g)%nat).
          { destruct P as (a & b & ja & jb & c & n & _ & H2 & _). apply nth_error_Some. congruence. }
          destruct (pair_body_in i j Hi Hj) as (r2 & E2 & _ & _ & F). exists r2. split; [apply in_seq; lia|]. split; [exact E2|]. apply F, P. }
  destruct (oconcat_ok (fun i => oconcat (pair_body eps sk g cs i) (seq (S i) (length g - S i))) (fun y => fst (fst y)) (seq 0 (length g))) as (prs & E & N & H).
  - intros i Hi. apply in_seq in Hi. destruct (IN i ltac:(lia)) as (r & E & N & F & _). exists r. auto.
  - apply seq_NoDup.
  - exists prs. split; [exact E|]. split; [exact N|]. intros i j o. rewrite H. cbn [fst snd]. split.
    + intros (r & I1 & I2 & I3). apply in_seq in I1. destruct (IN i ltac:(lia)) as (r2 & E2 & _ & _ & F). rewrite E2 in I2. injection I2 as <-. apply F, I3.
    + intros (L & P). assert (Hi : (i < length g)%nat).
      { destruct P as (a & b & ja & jb & c & n & H2 & _). apply nth_error_Some. congruence. }
      destruct (IN i Hi) as (r2 & E2 & _ & _ & F). exists r2. split; [apply in_seq; lia|]. split; [exact E2|]. apply F. auto.
Qed.
End Pairs.
