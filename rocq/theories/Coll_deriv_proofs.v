(** The gradient and the Jacobian of the collision penalty (C103). *)

From Coq Require Import Bool Reals List Arith Lia Lra Psatz.
From Coquelicot Require Import Coquelicot.
From Verif Require Import Prelude Loops LinAlg Rbool R3 Transform_model Transform_proofs Skeleton_model Skeleton_spec FK_model FK_spec FK_proofs FK_deriv_proofs
  ParamTransform_model ParamTransform_spec ParamTransform_proofs Limits_model Limits_spec Limits_proofs
  Constraint_model Constraint_spec Constraint_eval_proofs Constraint_proofs Constraint_deriv_proofs Skin_model CharUtil_model
  Ellipsoid_model Ellipsoid_spec Ellipsoid_proofs Seg_model Seg_spec Seg_proofs Seg_props Seg_deriv_proofs Coll_model Coll_spec Coll_proofs.
Import ListNotations.
Local Open Scope nat_scope.
Local Open Scope R_scope.

(** ** Skew segments in terms of the exact step *)
Local Notation xq o1 d1 o2 d2 := (exact_q (vnorm2 d1) (vdot d1 d2) (vnorm2 d2) (vdot d1 (vsub o1 o2)) (vdot d2 (vsub o1 o2))).
Lemma skew_exact o1 d1 o2 d2 m : kSegEps <= spread_area2 d1 d2 ->
  let q := xq o1 d1 o2 d2 in let x := seg_dist2 o1 d1 o2 d2 (rep_s q) (rep_t q) in
  closest_on_segments o1 d1 o2 d2 m = (if Rltb (m * m) x then None else Some (sqrt x, (rep_s q, rep_t q))).
Proof.
  intros H. destruct (skew_pos _ _ H) as (PA & PC & PD). rewrite closest_unfold, (lines_skew _ _ _ _ _ H). cbv zeta. unfold exact_q.
  set (w := vsub o1 o2). set (a := vnorm2 d1) in *. set (b := vdot d1 d2) in *. set (c := vnorm2 d2) in *.
  set (d := vdot d1 w). set (e := vdot d2 w).
  destruct (seg_edges a b d (first_step a b c d e)) as [[[sN sD] tN] tD] eqn:E. cbn [rep_s rep_t].
  destruct (Rltb_spec (m * m) (seg_dist2 o1 d1 o2 d2 ((b * e - c * d) / (a * c - b * b)) ((a * e - b * d) / (a * c - b * b)))) as [F|F].
  - assert (Q : seg_dist2 o1 d1 o2 d2 ((b * e - c * d) / (a * c - b * b)) ((a * e - b * d) / (a * c - b * b)) <= seg_dist2 o1 d1 o2 d2 (seg_param sN sD) (seg_param tN tD))
      by (rewrite !dist_quad; apply quad_global; assumption).
    destruct (Rltb_spec (m * m) (seg_dist2 o1 d1 o2 d2 (seg_param sN sD) (seg_param tN tD))); [reflexivity|lra].
  - rewrite E. reflexivity.
Qed.

Lemma axis_point_cap sts c s : axis_point (cap_st sts c) s = cap_point sts c s.
Proof. rewrite cap_point_line. reflexivity. Qed.

Section Path.
Context (E : coll_fn) (W : coll_wf E) (WP : pt_wf (co_pt E)) (V : valid_sk (co_sk E)) (U : unit_prerotations (co_sk E)).
Context (p : list R) (i : nat) (q : R -> list R) (sts : R -> list jstate)
  (Lp : length p = pt_cols (co_pt E)) (Hi : (i < pt_cols (co_pt E))%nat) (EN : co_enabled E i = true)
  (Hq : forall t, pt_apply (co_pt E) (set_nth p i t) = Ok (q t))
  (Hs : forall t, fk (co_sk E) (q t) = Ok (sts t)).
Local Notation x0 := (nth i p 0).
Local Notation C := (fun r => ent_coeff (pt_entries (co_pt E)) r i).
Local Notation X := (XLim [] 0 (co_enabled E) (co_active E) (co_pt E) (co_sk E)).

Lemma X_wf : xlimit_wf X.
Proof. constructor; cbn; try (intros; contradiction); [apply (cw_pt E W)|apply (cw_active_len E W)|apply (cw_active E W)]. Qed.
Lemma path_len x : length (sts x) = length (co_sk E).
Proof. exact (proj1 (path_states X V q sts Hs x)). Qed.
Lemma path_qlen' x : length (q x) = pt_rows (co_pt E).
Proof. exact (path_qlen X WP p i q Hq x). Qed.

Lemma cap_vel c j ch s : cap_parent c = Some j -> chain (co_sk E) j ch ->
  is_vderive (fun x => cap_point (sts x) c s) x0 (chain_vel (sts x0) C ch true (cap_point (sts x0) c s)).
Proof.
  intros P Hc. unfold cap_point. rewrite P.
  assert (L : (j < length (co_sk E))%nat). { destruct Hc as [j jt EJ _|j jt pr l EJ _ _]; apply nth_error_Some; congruence. }
  exact (point_derive_at X WP V U p i q sts Lp Hi Hq Hs j ch _ L Hc).
Qed.
Lemma cap_steady c x : keeps_size E i c -> In c (co_geo E) -> cap_scale (sts x) c = cap_scale (sts x0) c.
Proof.
  intros K Hc. destruct (cw_caps E W c Hc) as (j & P & L). specialize (K j P). unfold cap_scale. rewrite P.
  destruct (chain_exists _ V j L) as [ch Hch].
  destruct (nth_error (sts x) j) as [s1|] eqn:E1; [|apply nth_error_None in E1; rewrite path_len in E1; lia].
  destruct (nth_error (sts x0) j) as [s2|] eqn:E2; [|apply nth_error_None in E2; rewrite path_len in E2; lia].
  pose proof (path_states X V q sts Hs) as PS.
  apply (chain_scale _ _ _ _ _ j ch _ _ (PS x) (PS x0) Hch); [|exact E1|exact E2].
  intros a Ha. unfold jparam_at; cbn [jsc].
  apply (q_same X WP p i q Lp Hi Hq).
  - apply (scale_C X i j ch K Hch a Ha).
  - intros en Hen Er Ec. apply (K ch a en Hch Ha); assumption.
Qed.
Lemma radius_steady c s x : keeps_size E i c -> In c (co_geo E) -> cap_radius (sts x) c s = cap_radius (sts x0) c s.
Proof. intros K Hc. unfold cap_radius. rewrite (cap_steady c x K Hc). reflexivity. Qed.
Lemma girth_steady c x : keeps_size E i c -> In c (co_geo E) -> cap_girth (sts x) c = cap_girth (sts x0) c.
Proof. intros K Hc. unfold cap_girth. rewrite !(radius_steady c _ x K Hc). reflexivity. Qed.

(** ** One pair *)
Lemma pair_motion pr a b s t : In pr (co_pairs E) -> capsules_of E pr a b -> keeps_size E i a -> keeps_size E i b ->
  exists ti tj va vb,
    coll_terms E (sts x0) (fst (fst pr)) (snd pr) (cap_point (sts x0) a s) = Ok ti /\
    coll_terms E (sts x0) (snd (fst pr)) (snd pr) (cap_point (sts x0) b t) = Ok tj /\
    (forall g, linear g -> rsum (map (fun x => g (snd x) * C (fst x)) ti) = g va) /\
    (forall g, linear g -> rsum (map (fun x => g (snd x) * C (fst x)) tj) = g vb) /\
    is_derive (fun x => vnorm2 (vsub (cap_point (sts x) a s) (cap_point (sts x) b t))) x0
      (2 * vdot (vsub (cap_point (sts x0) a s) (cap_point (sts x0) b t)) (vsub va vb)).
Proof.
  intros HP [Ca Cb] Ka Kb. destruct (cw_pairs E W pr HP) as (a' & b' & k & ja & jb & [Ca' Cb'] & Pk & Pa & Pb & (cha & Ha & Ia) & (chb & Hb & Ib)).
  assert (a' = a) as -> by congruence. assert (b' = b) as -> by congruence. clear Ca' Cb'.
  pose proof (chain_length _ _ _ V Ha) as La. pose proof (chain_length _ _ _ V Hb) as Lb.
  assert (Ja : (ja < length (co_sk E))%nat). { destruct Ha as [j jt EJ _|j jt pr' l EJ _ _]; apply nth_error_Some; congruence. }
  assert (Jb : (jb < length (co_sk E))%nat). { destruct Hb as [j jt EJ _|j jt pr' l EJ _ _]; apply nth_error_Some; congruence. }
  assert (AL : (7 * length (co_sk E) <= length (co_active E))%nat) by (rewrite (cw_active_len E W), (cw_pt E W); lia).
  destruct (ell_walk_below (co_sk E) (sts x0) (co_active E) (cap_point (sts x0) a s) k V (path_len x0) AL ja cha Ha Ia (length (co_sk E)) ltac:(lia))
    as (che & ra & C1 & -> & ti & T1 & T2).
  destruct (ell_walk_below (co_sk E) (sts x0) (co_active E) (cap_point (sts x0) b t) k V (path_len x0) AL jb chb Hb Ib (length (co_sk E)) ltac:(lia))
    as (che' & rb & C1' & -> & tj & T1' & T2').
  rewrite <- (chain_unique _ _ _ C1 _ C1') in *. clear C1' che'.
  exists ti, tj, (chain_vel (sts x0) C ra true (cap_point (sts x0) a s)), (chain_vel (sts x0) C rb true (cap_point (sts x0) b t)).
  unfold coll_terms, rd. rewrite Ca, Cb. cbn [obind]. rewrite Pa, Pb, Pk.
  split; [exact T1|]. split; [exact T1'|]. pose proof (C_inactive0 X X_wf i EN) as IN.
  split; [intros g L; apply (T2 g C L IN)|]. split; [intros g L; apply (T2' g C L IN)|].
  pose proof (vd_sub _ _ _ _ _ (cap_vel a ja _ s Pa Ha) (cap_vel b jb _ t Pb Hb)) as D.
  eapply d_eq; [exact (vd_dot _ _ _ _ _ D D)|]. cbv beta. rewrite !chain_vel_app.
  pose proof (rigid_chain (sts x0) C che (cap_point (sts x0) a s) (cap_point (sts x0) b t)) as RG.
  specialize (RG (fun z Hz => scale_C X i ja _ (Ka ja Pa) Ha z (in_or_app _ _ _ (or_introl Hz)))).
  revert RG. generalize (chain_vel (sts x0) C che true (cap_point (sts x0) a s)), (chain_vel (sts x0) C che true (cap_point (sts x0) b t)),
    (chain_vel (sts x0) C ra true (cap_point (sts x0) a s)), (chain_vel (sts x0) C rb true (cap_point (sts x0) b t)),
    (cap_point (sts x0) a s), (cap_point (sts x0) b t).
  intros v1 v2 v3 v4 v5 v6. destruct v1, v2, v3, v4, v5, v6. unfold vdot, vsub, vadd; cbn. lra.
Qed.

(** The squared distance of two axis points that keep their parameters. *)
Lemma depth_derive a b s t v : In a (co_geo E) -> In b (co_geo E) -> keeps_size E i a -> keeps_size E i b -> 0 < axis_dist (sts x0) a b s t ->
  is_derive (fun x => vnorm2 (vsub (cap_point (sts x) a s) (cap_point (sts x) b t))) x0 (2 * v) ->
  is_derive (fun x => depth (sts x) a b s t) x0 (- (v / axis_dist (sts x0) a b s t)).
Proof.
  intros Ga Gb Ka Kb P D. apply (is_derive_ext (fun x => cap_radius (sts x0) a s + cap_radius (sts x0) b t - axis_dist (sts x) a b s t)).
  { intros x. unfold depth. rewrite (radius_steady a s x Ka Ga), (radius_steady b t x Kb Gb). reflexivity. }
  unfold axis_dist in *. set (F := fun x => vnorm2 (vsub (cap_point (sts x) a s) (cap_point (sts x) b t))) in *.
  change (vnorm2 (vsub (cap_point (sts x0) a s) (cap_point (sts x0) b t))) with (F x0) in *.
  assert (FP : 0 < F x0). { destruct (vn2_pos (vsub (cap_point (sts x0) a s) (cap_point (sts x0) b t))) as [H|H]; [exact H|]. unfold F in *. rewrite <- H, sqrt_0 in P. lra. }
  eapply d_eq; [apply d_minus; [apply d_const|apply (is_derive_sqrt F x0 _ D FP)]|]. field. lra.
Qed.

(** Coefficients of the squared distance. *)
Section Coefs.
Context (a b : capsule) (ja jb : nat) (Pa : cap_parent a = Some ja) (Pb : cap_parent b = Some jb)
  (Ga : In a (co_geo E)) (Gb : In b (co_geo E)).
Local Notation o1 x := (cap_point (sts x) a 0).
Local Notation d1 x := (cap_axis (sts x) a).
Local Notation o2 x := (cap_point (sts x) b 0).
Local Notation d2 x := (cap_axis (sts x) b).

Lemma cap_ends c : In c (co_geo E) -> exists vo vd, is_vderive (fun x => cap_point (sts x) c 0) x0 vo /\ is_vderive (fun x => cap_axis (sts x) c) x0 vd.
Proof.
  intros Hc. destruct (cw_caps E W c Hc) as (j & P & L). destruct (chain_exists _ V j L) as [ch Hch].
  eexists; eexists. split; [exact (cap_vel c j ch 0 P Hch)|]. unfold cap_axis.
  exact (vd_sub _ _ _ _ _ (cap_vel c j ch 1 P Hch) (cap_vel c j ch 0 P Hch)).
Qed.
Local Notation ca := (fun x => vnorm2 (d1 x)).
Local Notation cb := (fun x => vdot (d1 x) (d2 x)).
Local Notation cc := (fun x => vnorm2 (d2 x)).
Local Notation cd := (fun x => vdot (d1 x) (vsub (o1 x) (o2 x))).
Local Notation ce := (fun x => vdot (d2 x) (vsub (o1 x) (o2 x))).
Local Notation ck := (fun x => vnorm2 (vsub (o1 x) (o2 x))).

Lemma coefs_derive : exists a' b' c' d' e' k', is_derive ca x0 a' /\ is_derive cb x0 b' /\ is_derive cc x0 c' /\
  is_derive cd x0 d' /\ is_derive ce x0 e' /\ is_derive ck x0 k'.
Proof.
  destruct (cap_ends a Ga) as (vo1 & vd1 & D1 & D2). destruct (cap_ends b Gb) as (vo2 & vd2 & D3 & D4).
  pose proof (vd_sub _ _ _ _ _ D1 D3) as DW. do 6 eexists.
  split; [exact (vd_dot _ _ _ _ _ D2 D2)|]. split; [exact (vd_dot _ _ _ _ _ D2 D4)|]. split; [exact (vd_dot _ _ _ _ _ D4 D4)|].
  split; [exact (vd_dot _ _ _ _ _ D2 DW)|]. split; [exact (vd_dot _ _ _ _ _ D4 DW)|]. exact (vd_dot _ _ _ _ _ DW DW).
Qed.

Lemma sq_dist x s t : vnorm2 (vsub (cap_point (sts x) a s) (cap_point (sts x) b t)) = quad (ca x) (cb x) (cc x) (cd x) (ce x) (ck x) s t.
Proof. cbv beta. rewrite <- dist_quad. unfold seg_dist2. rewrite (cap_point_line (sts x) a s), (cap_point_line (sts x) b t). reflexivity. Qed.

(** Capsules that are apart stay apart for a while. *)
Lemma stays_apart : keeps_size E i a -> keeps_size E i b -> 0 <= cap_girth (sts x0) a + cap_girth (sts x0) b ->
  apart (sts x0) a b -> locally x0 (fun x => apart (sts x) a b).
Proof.
  intros Ka Kb M (gap & G & H). destruct coefs_derive as (a' & b' & c' & d' & e' & k' & Da & Db & Dc & Dd & De & Dk).
  pose proof (drift_derive _ _ _ _ _ _ _ _ _ _ _ _ x0 Da Db Dc Dd De Dk) as DD.
  set (h := gap * gap / 12). assert (HP : 0 < h) by (unfold h; pose proof (Rmult_lt_0_compat _ _ G G); lra).
  pose proof (locally_below _ x0 _ (h * h) DD ltac:(rewrite drift_0; apply Rmult_lt_0_compat; assumption)) as L.
  eapply filter_imp; [|exact L]. intros x Hx. cbv beta in Hx. exists (gap / 2). split; [lra|]. intros s t I1 I2.
  rewrite (girth_steady a x Ka Ga), (girth_steady b x Kb Gb). set (m := cap_girth (sts x0) a + cap_girth (sts x0) b) in *.
  specialize (H s t I1 I2). unfold axis_dist in *. rewrite sq_dist in *.
  assert (SM : forall u, u * u < h * h -> - h <= u <= h).
  { intros u Hu. split.
    - destruct (Rle_lt_dec (- h) u) as [?|L']; [assumption|]. pose proof (Rmult_le_compat h (- u) h (- u) ltac:(lra) ltac:(lra) ltac:(lra) ltac:(lra)). lra.
    - destruct (Rle_lt_dec u h) as [?|L']; [assumption|]. pose proof (Rmult_le_compat h u h u ltac:(lra) ltac:(lra) ltac:(lra) ltac:(lra)). lra. }
  unfold drift in Hx. cbv beta in *.
  set (a1 := ca x) in *. set (b1 := cb x) in *. set (c1 := cc x) in *. set (dd1 := cd x) in *. set (e1 := ce x) in *. set (k1 := ck x) in *.
  set (a0 := ca x0) in *. set (b0 := cb x0) in *. set (c0 := cc x0) in *. set (dd0 := cd x0) in *. set (e0 := ce x0) in *. set (k0 := ck x0) in *.
  cbv beta in *.
  pose proof (sq_pos (a1 - a0)) as Q1. pose proof (sq_pos (b1 - b0)) as Q2. pose proof (sq_pos (c1 - c0)) as Q3.
  pose proof (sq_pos (dd1 - dd0)) as Q4. pose proof (sq_pos (e1 - e0)) as Q5. pose proof (sq_pos (k1 - k0)) as Q6.
  pose proof (SM (a1 - a0) ltac:(lra)) as S1. pose proof (SM (b1 - b0) ltac:(lra)) as S2. pose proof (SM (c1 - c0) ltac:(lra)) as S3.
  pose proof (SM (dd1 - dd0) ltac:(lra)) as S4. pose proof (SM (e1 - e0) ltac:(lra)) as S5. pose proof (SM (k1 - k0) ltac:(lra)) as S6.
  assert (PR : forall u z, - h <= u <= h -> 0 <= z <= 1 -> - h <= u * z <= h).
  { intros u z U1 Z1. pose proof (Rmult_le_pos (h - u) z ltac:(lra) ltac:(lra)). pose proof (Rmult_le_pos (h + u) z ltac:(lra) ltac:(lra)).
    pose proof (Rmult_le_pos h (1 - z) ltac:(lra) ltac:(lra)). lra. }
  destruct I1 as [J1 J2]. destruct I2 as [J3 J4].
  assert (U1 : 0 <= s * s <= 1) by (pose proof (Rmult_le_pos s s J1 J1); pose proof (Rmult_le_compat s 1 s 1 J1 J1 J2 J2); lra).
  assert (U2 : 0 <= t * t <= 1) by (pose proof (Rmult_le_pos t t J3 J3); pose proof (Rmult_le_compat t 1 t 1 J3 J3 J4 J4); lra).
  assert (U3 : 0 <= s * t <= 1) by (pose proof (Rmult_le_pos s t J1 J3); pose proof (Rmult_le_compat s 1 t 1 J1 J3 J2 J4); lra).
  pose proof (PR _ _ S1 U1). pose proof (PR _ _ S3 U2). pose proof (PR _ _ S2 U3). pose proof (PR _ _ S4 (conj J1 J2)). pose proof (PR _ _ S5 (conj J3 J4)).
  assert (FX : quad a0 b0 c0 dd0 e0 k0 s t - 9 * h <= quad a1 b1 c1 dd1 e1 k1 s t).
  { unfold quad.
    replace (a1 * (s * s)) with ((a1 - a0) * (s * s) + a0 * (s * s)) by ring. replace (c1 * (t * t)) with ((c1 - c0) * (t * t) + c0 * (t * t)) by ring.
    replace (2 * b1 * (s * t)) with (2 * ((b1 - b0) * (s * t)) + 2 * b0 * (s * t)) by ring.
    replace (2 * dd1 * s) with (2 * ((dd1 - dd0) * s) + 2 * dd0 * s) by ring. replace (2 * e1 * t) with (2 * ((e1 - e0) * t) + 2 * e0 * t) by ring. lra. }
  set (f0 := quad a0 b0 c0 dd0 e0 k0 s t) in *. set (f1 := quad a1 b1 c1 dd1 e1 k1 s t) in *.
  assert (F0 : (m + gap) * (m + gap) <= f0).
  { assert (N0 : 0 <= f0). { destruct (Rle_lt_dec 0 f0) as [?|L']; [assumption|]. rewrite sqrt_neg_0 in H by lra. lra. }
    pose proof (Rmult_le_compat (m + gap) (sqrt f0) (m + gap) (sqrt f0) ltac:(lra) ltac:(lra) H H) as K. rewrite sqrt_sqrt in K by exact N0. exact K. }
  assert (F1 : (m + gap / 2) * (m + gap / 2) <= f1).
  { pose proof (Rmult_le_pos m gap M (Rlt_le _ _ G)). unfold h in FX. lra. }
  rewrite <- (sqrt_square (m + gap / 2)) by lra. apply sqrt_le_1_alt. exact F1.
Qed.

(** What a pair contributes to the error changes as if the parameters of the closest points were held. *)
Lemma moving_term s t v : 0 < co_eps E -> keeps_size E i a -> keeps_size E i b -> untapered a -> untapered b ->
  settled_strictly (co_eps E) (sts x0) a b s t ->
  is_derive (fun x => vnorm2 (vsub (cap_point (sts x) a s) (cap_point (sts x) b t))) x0 (2 * v) ->
  is_derive (fun x => let d := match ovl (co_eps E) (sts x) a b with Some (_, _, ov) => ov | None => 0 end in d * d) x0
    (- (v / axis_dist (sts x0) a b s t) * (2 * Rmax 0 (depth (sts x0) a b s t))).
Proof.
  intros EP Ka Kb Ta Tb (I1 & I2 & M & [A|(N & ED & H & K1 & K2)]) DV.
  - destruct (apart_ovl (co_eps E) (sts x0) a b A) as [_ DN]. rewrite Rmax_left by (apply Rlt_le, DN; assumption).
    eapply d_eq; [apply (is_derive_ext_loc (fun _ => 0)); [|apply d_const]|ring].
    eapply filter_imp; [|exact (stays_apart Ka Kb M A)]. intros x Hx. destruct (apart_ovl (co_eps E) (sts x) a b Hx) as [-> _]. symmetry. apply Rmult_0_l.
  - destruct coefs_derive as (a' & b' & c' & d' & e' & k' & Da & Db & Dc & Dd & De & Dk).
    pose proof (spread_area2_gram (d1 x0) (d2 x0)) as GR0. pose proof N as N'. apply nearest_closest in N as (_ & _ & NC).
    assert (GD : forall x, 0 <= ca x * cc x - cb x * cb x) by (intros x; rewrite <- spread_area2_gram; apply vn2_pos).
    pose proof (reported_derive ca cb cc cd ce ck a' b' c' d' e' k' x0 s t Da Db Dc Dd De Dk
      (fun x => vn2_pos _) (fun x => vn2_pos _) GD) as RD.
    cbv beta in RD. rewrite <- GR0 in RD. unfold well_clear, kSegEps in RD. specialize (RD H I1 I2).
    assert (MIN : forall s' t', in_unit s' -> in_unit t' -> quad (ca x0) (cb x0) (cc x0) (cd x0) (ce x0) (ck x0) s t <= quad (ca x0) (cb x0) (cc x0) (cd x0) (ce x0) (ck x0) s' t').
    { intros s' t' J1 J2. cbv beta. rewrite <- !dist_quad. apply NC; assumption. }
    specialize (RD MIN K1 K2). clear MIN.
    assert (VE : quad a' b' c' d' e' k' s t = 2 * v).
    { pose proof (f_derive ca cb cc cd ce ck a' b' c' d' e' k' x0 Da Db Dc Dd De Dk s t) as FD.
      assert (FD' : is_derive (fun x => vnorm2 (vsub (cap_point (sts x) a s) (cap_point (sts x) b t))) x0 (quad a' b' c' d' e' k' s t)).
      { eapply is_derive_ext; [|exact FD]. intros x. cbv beta. symmetry. apply sq_dist. }
      rewrite <- (is_derive_unique _ _ _ FD'). apply is_derive_unique. exact DV. }
    rewrite VE in RD.
    set (F := fun x => let q0 := exact_q (ca x) (cb x) (cc x) (cd x) (ce x) in quad (ca x) (cb x) (cc x) (cd x) (ce x) (ck x) (rep_s q0) (rep_t q0)).
    assert (RD' : is_derive F x0 (2 * v)) by exact RD. clear RD.
    set (q0 := fun x => exact_q (ca x) (cb x) (cc x) (cd x) (ce x)).
    assert (FE : forall x, F x = seg_dist2 (o1 x) (d1 x) (o2 x) (d2 x) (rep_s (q0 x)) (rep_t (q0 x))) by (intros x; rewrite dist_quad; reflexivity).
    assert (SK : forall x m, kSegEps <= spread_area2 (d1 x) (d2 x) ->
      closest_on_segments (o1 x) (d1 x) (o2 x) (d2 x) m = (if Rltb (m * m) (F x) then None else Some (sqrt (F x), (rep_s (q0 x), rep_t (q0 x))))).
    { intros x m Hx. pose proof (skew_exact (o1 x) (d1 x) (o2 x) (d2 x) m Hx) as SE. cbv zeta in SE. rewrite FE. exact SE. }
    assert (ST : axis_dist (sts x0) a b s t = sqrt (F x0)).
    { destruct (seg_closest_partial (o1 x0) (d1 x0) (o2 x0) (d2 x0) (axis_dist (sts x0) a b s t) s t) as [C1 _].
      - apply sqrt_pos.
      - lra.
      - apply nearest_closest, N'.
      - destruct K1 as [?|[? ?]]; [left; assumption|right; lra].
      - destruct K2 as [?|[? ?]]; [left; assumption|right; lra].
      - rewrite SK in C1 by (unfold kSegEps; lra). rewrite <- axis_dist_seg in C1.
        assert (WI : within (o1 x0) (d1 x0) (o2 x0) (d2 x0) (axis_dist (sts x0) a b s t)).
        { exists s, t. rewrite <- axis_dist_seg. split; [exact I1|]. split; [exact I2|apply Rle_refl]. }
        specialize (C1 WI). destruct (Rltb _ _); [discriminate|]. injection C1 as C1 _ _. symmetry. exact C1. }
    assert (FP : 0 < F x0). { destruct (Rle_lt_dec (F x0) 0) as [L|L]; [|exact L]. rewrite sqrt_neg_0 in ST by exact L. lra. }
    pose proof (is_derive_sqrt F x0 _ RD' FP) as DS.
    assert (LA : locally x0 (fun x => kSegEps < spread_area2 (d1 x) (d2 x))).
    { pose proof (locally_above _ x0 _ kSegEps (area_derive ca cb cc a' b' c' x0 Da Db Dc)) as LA. cbv beta in LA. rewrite <- GR0 in LA.
      eapply filter_imp; [|exact (LA H)]. intros x Hx. rewrite spread_area2_gram. exact Hx. }
    assert (LB : locally x0 (fun x => co_eps E < sqrt (F x))) by (apply (locally_above _ x0 _ (co_eps E) DS); rewrite <- ST; exact ED).
    set (rr := cap_girth (sts x0) a + cap_girth (sts x0) b) in *.
    assert (RC : forall c x, untapered c -> keeps_size E i c -> In c (co_geo E) ->
      cap_radius (sts x) c 0 = cap_girth (sts x0) c /\ cap_radius (sts x) c 1 = cap_girth (sts x0) c).
    { intros c x T K G. rewrite !(radius_steady c _ x K G). unfold cap_girth.
      replace (cap_radius (sts x0) c 1) with (cap_radius (sts x0) c 0) by (unfold cap_radius; rewrite T; ring). rewrite Rmax_left by apply Rle_refl. auto. }
    assert (VAL : locally x0 (fun x => excess2 (rr - sqrt (F x)) =
       (let d := match ovl (co_eps E) (sts x) a b with Some (_, _, ov) => ov | None => 0 end in d * d))).
    { eapply filter_imp; [|exact (filter_and _ _ LA LB)]. intros x [X1 X2]. unfold ovl, overlaps, cap_st.
      destruct (RC a x Ta Ka Ga) as [-> ->]. destruct (RC b x Tb Kb Gb) as [-> ->].
      rewrite !Rmax_left by apply Rle_refl. fold rr. rewrite (SK x rr (Rlt_le _ _ X1)).
      pose proof (sqrt_pos (F x)) as SP.
      destruct (Rltb_spec (rr * rr) (F x)) as [L|L].
      - cbv zeta. rewrite excess2_neg; [ring|]. destruct (Rle_lt_dec (rr - sqrt (F x)) 0) as [?|L']; [assumption|exfalso].
        pose proof (Rmult_le_compat (sqrt (F x)) rr (sqrt (F x)) rr SP SP ltac:(lra) ltac:(lra)) as Q. rewrite sqrt_sqrt in Q; [lra|].
        pose proof (sq_pos rr). lra.
      - match goal with |- context [Rltb 0 ?y] => replace y with (rr - sqrt (F x)) by (unfold rr; ring) end.
        destruct (Rltb_spec 0 (rr - sqrt (F x))) as [L1|L1].
        + destruct (Rleb_spec (co_eps E) (sqrt (F x))) as [_|L2]; [|lra]. cbn [andb]. cbv zeta. apply excess2_pos. lra.
        + cbn [andb]. cbv zeta. rewrite excess2_neg by lra. ring. }
    assert (DP : depth (sts x0) a b s t = rr - sqrt (F x0)).
    { unfold depth. rewrite ST, (cap_radius_line (sts x0) a s), (cap_radius_line (sts x0) b t).
      destruct (RC a x0 Ta Ka Ga) as [-> ->]. destruct (RC b x0 Tb Kb Gb) as [-> ->]. unfold rr. ring. }
    apply (is_derive_ext_loc (fun x => excess2 (rr - sqrt (F x)))); [exact VAL|].
    rewrite DP, ST. eapply d_eq; [apply (d_excess2 (fun x => rr - sqrt (F x))); apply d_minus; [apply d_const|exact DS]|].
    cbv beta. f_equal. pose proof (sqrt_lt_R0 _ FP). field. lra.
Qed.
End Coefs.

(** ** The gradient *)
Definition pair_ok (N : cpair -> R * R) (pr : cpair) : Prop := forall a b, capsules_of E pr a b ->
  keeps_size E i a /\ keeps_size E i b /\ settled (co_eps E) (sts x0) a b (fst (N pr)) (snd (N pr)).
Definition pair_strict (N : cpair -> R * R) (pr : cpair) : Prop := forall a b, capsules_of E pr a b ->
  untapered a /\ untapered b /\ settled_strictly (co_eps E) (sts x0) a b (fst (N pr)) (snd (N pr)).

Lemma settled_dist a b s t : 0 < co_eps E -> settled (co_eps E) (sts x0) a b s t -> 0 < axis_dist (sts x0) a b s t.
Proof.
  intros EP (I1 & I2 & M & [(gap & G & A)|(_ & H & _)]); [|lra]. specialize (A s t I1 I2). lra.
Qed.

(** The derivative that a pair contributes. *)
Lemma pair_derive N pr : 0 < co_eps E -> In pr (co_pairs E) -> pair_ok N pr ->
  exists a b ti tj va vb, capsules_of E pr a b /\
    let s := fst (N pr) in let t := snd (N pr) in
    let dir := vsub (cap_point (sts x0) a s) (cap_point (sts x0) b t) in
    let D := - (vdot dir (vsub va vb) / axis_dist (sts x0) a b s t) * (2 * Rmax 0 (depth (sts x0) a b s t)) in
    coll_terms E (sts x0) (fst (fst pr)) (snd pr) (cap_point (sts x0) a s) = Ok ti /\
    coll_terms E (sts x0) (snd (fst pr)) (snd pr) (cap_point (sts x0) b t) = Ok tj /\
    (forall g, linear g -> rsum (map (fun x => g (snd x) * C (fst x)) ti) = g va) /\
    (forall g, linear g -> rsum (map (fun x => g (snd x) * C (fst x)) tj) = g vb) /\
    is_derive (fun x => excess2 (depth_at E (sts x) N pr)) x0 D /\
    (pair_strict N pr -> is_derive (fun x => rep_depth E (sts x) pr * rep_depth E (sts x) pr) x0 D).
Proof.
  intros EP HP OK. destruct (wf_caps E W pr HP) as (a & b & CO). destruct (OK a b CO) as (Ka & Kb & ST).
  pose proof (nth_error_In _ _ (proj1 CO)) as Ga. pose proof (nth_error_In _ _ (proj2 CO)) as Gb.
  destruct (pair_motion pr a b (fst (N pr)) (snd (N pr)) HP CO Ka Kb) as (ti & tj & va & vb & T1 & T2 & S1 & S2 & DV).
  exists a, b, ti, tj, va, vb. split; [exact CO|]. cbv zeta. split; [exact T1|]. split; [exact T2|]. split; [exact S1|]. split; [exact S2|].
  pose proof (settled_dist _ _ _ _ EP ST) as DP. split.
  - apply (is_derive_ext (fun x => excess2 (depth (sts x) a b (fst (N pr)) (snd (N pr))))).
    { intros x. unfold depth_at. rewrite (proj1 CO), (proj2 CO). reflexivity. }
    apply (d_excess2 (fun x => depth (sts x) a b (fst (N pr)) (snd (N pr)))).
    apply (depth_derive a b _ _ _ Ga Gb Ka Kb DP DV).
  - intros PS. destruct (PS a b CO) as (Ta & Tb & SS).
    apply (is_derive_ext (fun x => let d := match ovl (co_eps E) (sts x) a b with Some (_, _, ov) => ov | None => 0 end in d * d)).
    { intros x. unfold rep_depth. rewrite (reported_at E (sts x) pr a b CO). reflexivity. }
    exact (moving_term a b Ga Gb _ _ _ EP Ka Kb Ta Tb SS DV).
Qed.

Lemma grad1_ok N pr : 0 < co_eps E -> In pr (co_pairs E) -> pair_ok N pr ->
  exists e f incs D, coll_grad1 E (sts x0) (map (cap_st (sts x0)) (co_geo E)) pr = Ok (e, f, incs) /\
    (forall k v, In (k, v) incs -> (k < pt_cols (co_pt E))%nat) /\
    e = 5 / 1000 * co_weight E * (rep_depth E (sts x0) pr * rep_depth E (sts x0) pr) /\
    f = (match reported E (sts x0) pr with Some _ => true | None => false end) /\
    dsum incs i = 5 / 1000 * co_weight E * D /\
    is_derive (fun x => excess2 (depth_at E (sts x) N pr)) x0 D /\
    (pair_strict N pr -> is_derive (fun x => rep_depth E (sts x) pr * rep_depth E (sts x) pr) x0 D).
Proof.
  intros EP HP OK. destruct (pair_derive N pr EP HP OK) as (a & b & ti & tj & va & vb & CO & T1 & T2 & S1 & S2 & D1 & D2). cbv zeta in *.
  destruct (OK a b CO) as (Ka & Kb & ST). pose proof (settled_dist _ _ _ _ EP ST) as DP.
  unfold coll_grad1. rewrite (pair_overlap_ok E (sts x0) pr a b CO). cbn [obind].
  unfold rep_depth at 1 2. rewrite (reported_at E (sts x0) pr a b CO). rewrite (settled_ovl _ _ _ _ _ _ ST).
  set (s := fst (N pr)) in *. set (t := snd (N pr)) in *.
  destruct (Rltb_spec 0 (depth (sts x0) a b s t)) as [P|P].
  - destruct pr as [[ia jb] k]. cbn [fst snd] in *. rewrite !axis_point_cap, T1. cbn [obind]. rewrite T2. cbn [obind].
    do 4 eexists. split; [reflexivity|]. split; [|split; [|split; [|split; [|split; [exact D1|exact D2]]]]].
    + intros k' v Hin. apply in_app_or in Hin as [Hin|Hin]; destruct (spread_in _ _ _ _ _ Hin) as [en [Hen <-]]; apply (wf_entries _ WP en Hen).
    + unfold kCollisionWeight. ring.
    + reflexivity.
    + rewrite dsum_app, !dsum_spread.
      match goal with |- rsum (map (fun rv => vdot ?d (snd rv) * ?w * _) ti) + _ = _ =>
        rewrite (S1 (fun z => vdot d z * w)) by (split; intros; unfold vdot; cbn; ring);
        rewrite (S2 (fun z => vdot d z * - w)) by (split; intros; unfold vdot; cbn; ring) end.
      rewrite Rmax_right by lra. unfold kCollisionWeight.
      assert (VS : forall w, vdot w (vsub va vb) = vdot w va - vdot w vb) by (intros w; destruct w, va, vb; unfold vdot, vsub; cbn; ring).
      rewrite VS.
      field. lra.
  - do 4 eexists. split; [reflexivity|]. split; [intros ? ? []|]. split; [ring|]. split; [reflexivity|]. split; [|split; [exact D1|exact D2]].
    rewrite Rmax_left by (clear D1 D2; lra). unfold dsum; cbn. ring.
Qed.

Lemma grad_loop_ok N prs : 0 < co_eps E -> (forall pr, In pr prs -> In pr (co_pairs E) /\ pair_ok N pr) ->
  forall g, length g = pt_cols (co_pt E) ->
  exists g' D, coll_grad_loop E (sts x0) (map (cap_st (sts x0)) (co_geo E)) prs g =
      Ok (5 / 1000 * co_weight E * rsum (map (fun pr => rep_depth E (sts x0) pr * rep_depth E (sts x0) pr) prs),
          map (fun pr => match reported E (sts x0) pr with Some _ => true | None => false end) prs, g') /\
    length g' = length g /\ nth i g' 0 - nth i g 0 = 5 / 1000 * co_weight E * D /\
    is_derive (fun x => rsum (map (fun pr => excess2 (depth_at E (sts x) N pr)) prs)) x0 D /\
    ((forall pr, In pr prs -> pair_strict N pr) ->
     is_derive (fun x => rsum (map (fun pr => rep_depth E (sts x) pr * rep_depth E (sts x) pr) prs)) x0 D).
Proof.
  intros EP. induction prs as [|pr prs IH]; intros H g Lg.
  - exists g, 0. cbn [coll_grad_loop map rsum]. split; [do 3 f_equal; ring|]. split; [reflexivity|]. split; [ring|].
    split; [|intros _]; apply d_const.
  - destruct (H pr (or_introl eq_refl)) as [HP OK].
    destruct (grad1_ok N pr EP HP OK) as (e & f & incs & D & G1 & G2 & G3 & G4 & G5 & G6 & G7).
    cbn [coll_grad_loop]. rewrite G1. cbn [obind].
    destruct (add_all_ok incs g) as (g1 & A1 & A2 & A3); [intros; rewrite Lg; eapply G2; eassumption|].
    rewrite A1. cbn [obind].
    destruct (IH (fun z Hz => H z (or_intror Hz)) g1 ltac:(congruence)) as (g2 & D' & R1 & R2 & R3 & R4 & R5).
    rewrite R1. cbn [obind]. exists g2, (D + D'). split; [|split; [congruence|split; [|split]]].
    + cbn [map rsum]. rewrite G3, G4. apply (f_equal (@Ok (R * list bool * list R))), (f_equal2 pair); [|reflexivity]. apply (f_equal2 pair); [ring|reflexivity].
    + replace (nth i g2 0 - nth i g 0) with ((nth i g2 0 - nth i g1 0) + (nth i g1 0 - nth i g 0)) by ring.
      rewrite R3, A3. destruct (Nat.ltb_spec i (length g)); [|lia]. rewrite G5. ring.
    + cbn [map rsum]. apply d_plus; assumption.
    + intros PS. cbn [map rsum]. apply d_plus; [apply G7, PS; left; reflexivity|apply R5; intros; apply PS; right; assumption].
Qed.

(** ** The Jacobian *)
Lemma jac1_ok N pr : 0 < co_eps E -> 0 <= co_weight E -> In pr (co_pairs E) -> pair_ok N pr ->
  exists e f rows D, coll_jac1 E (sts x0) (map (cap_st (sts x0)) (co_geo E)) pr = Ok (e, f, rows) /\
    length rows = (if f then 1 else 0)%nat /\
    (forall row, In row rows -> length (fst row) = pt_cols (co_pt E)) /\
    e = 5 / 1000 * co_weight E * (rep_depth E (sts x0) pr * rep_depth E (sts x0) pr) /\
    f = (match reported E (sts x0) pr with Some _ => true | None => false end) /\
    rsum (map (fun row => snd row * snd row) rows) = e /\
    jt_r rows i = 5 / 1000 * co_weight E * D /\
    is_derive (fun x => excess2 (depth_at E (sts x) N pr)) x0 D /\
    (pair_strict N pr -> is_derive (fun x => rep_depth E (sts x) pr * rep_depth E (sts x) pr) x0 D).
Proof.
  intros EP WG HP OK. destruct (pair_derive N pr EP HP OK) as (a & b & ti & tj & va & vb & CO & T1 & T2 & S1 & S2 & D1 & D2). cbv zeta in *.
  destruct (OK a b CO) as (Ka & Kb & ST). pose proof (settled_dist _ _ _ _ EP ST) as DP.
  unfold coll_jac1. rewrite (pair_overlap_ok E (sts x0) pr a b CO). cbn [obind].
  unfold rep_depth at 1 2. rewrite (reported_at E (sts x0) pr a b CO). rewrite (settled_ovl _ _ _ _ _ _ ST).
  set (s := fst (N pr)) in *. set (t := snd (N pr)) in *.
  destruct (Rltb_spec 0 (depth (sts x0) a b s t)) as [P|P].
  - destruct pr as [[ia jb] k]. cbn [fst snd] in *. rewrite !axis_point_cap, T1. cbn [obind]. rewrite T2. cbn [obind].
    match goal with |- context [add_all ?z ?i0] => destruct (add_all_ok i0 z) as (row & A1 & A2 & A3) end.
    { intros k' v Hin. rewrite repeat_length. apply in_app_or in Hin as [Hin|Hin]; destruct (spread_in _ _ _ _ _ Hin) as [en [Hen <-]]; apply (wf_entries _ WP en Hen). }
    rewrite A1. cbn [obind]. rewrite repeat_length in A2, A3.
    assert (SQ : sqrt (kCollisionWeight * co_weight E) * sqrt (kCollisionWeight * co_weight E) = 5 / 1000 * co_weight E).
    { rewrite sqrt_sqrt; [reflexivity|]. unfold kCollisionWeight. apply Rmult_le_pos; lra. }
    do 4 eexists. split; [reflexivity|]. split; [reflexivity|]. split; [|split; [|split; [|split; [|split; [|split; [exact D1|exact D2]]]]]].
    + intros r [<-|[]]. exact A2.
    + unfold kCollisionWeight. ring.
    + reflexivity.
    + cbn [map rsum snd]. unfold kCollisionWeight in *. 
      replace (depth (sts x0) a b s t * sqrt (5 / 1000 * co_weight E) * (depth (sts x0) a b s t * sqrt (5 / 1000 * co_weight E)))
        with (depth (sts x0) a b s t * depth (sts x0) a b s t * (sqrt (5 / 1000 * co_weight E) * sqrt (5 / 1000 * co_weight E))) by ring.
      rewrite SQ. ring.
    + unfold jt_r. cbn [map rsum fst snd]. rewrite A3, nth_repeat. destruct (Nat.ltb_spec i (pt_cols (co_pt E))); [|lia].
      rewrite dsum_app, !dsum_spread.
      match goal with |- context [rsum (map (fun rv => vdot ?d (snd rv) * - ?w * _) ti)] =>
        rewrite (S1 (fun z => vdot d z * - w)) by (split; intros; unfold vdot; cbn; ring);
        rewrite (S2 (fun z => vdot d z * w)) by (split; intros; unfold vdot; cbn; ring) end.
      rewrite Rmax_right by lra. rewrite <- SQ.
      assert (VS : forall w, vdot w (vsub va vb) = vdot w va - vdot w vb) by (intros w; destruct w, va, vb; unfold vdot, vsub; cbn; ring).
      rewrite VS.
      field. lra.
  - do 4 eexists. split; [reflexivity|]. split; [reflexivity|]. split; [intros ? []|]. split; [ring|]. split; [reflexivity|]. split; [reflexivity|].
    split; [|split; [exact D1|exact D2]].
    rewrite Rmax_left by (clear D1 D2; lra). unfold jt_r; cbn. ring.
Qed.

Lemma jac_loop_ok N prs : 0 < co_eps E -> 0 <= co_weight E -> (forall pr, In pr prs -> In pr (co_pairs E) /\ pair_ok N pr) ->
  exists rows D, coll_jac_loop E (sts x0) (map (cap_st (sts x0)) (co_geo E)) prs =
      Ok (5 / 1000 * co_weight E * rsum (map (fun pr => rep_depth E (sts x0) pr * rep_depth E (sts x0) pr) prs),
          map (fun pr => match reported E (sts x0) pr with Some _ => true | None => false end) prs, rows) /\
    (length rows <= length prs)%nat /\
    (forall row, In row rows -> length (fst row) = pt_cols (co_pt E)) /\
    rsum (map (fun row => snd row * snd row) rows) = 5 / 1000 * co_weight E * rsum (map (fun pr => rep_depth E (sts x0) pr * rep_depth E (sts x0) pr) prs) /\
    jt_r rows i = 5 / 1000 * co_weight E * D /\
    is_derive (fun x => rsum (map (fun pr => excess2 (depth_at E (sts x) N pr)) prs)) x0 D /\
    ((forall pr, In pr prs -> pair_strict N pr) ->
     is_derive (fun x => rsum (map (fun pr => rep_depth E (sts x) pr * rep_depth E (sts x) pr) prs)) x0 D).
Proof.
  intros EP WG. induction prs as [|pr prs IH]; intros H.
  - exists [], 0. cbn [coll_jac_loop map rsum]. split; [do 3 f_equal; ring|]. split; [reflexivity|]. split; [intros ? []|]. split; [ring|].
    split; [unfold jt_r; cbn; ring|]. split; [|intros _]; apply d_const.
  - destruct (H pr (or_introl eq_refl)) as [HP OK].
    destruct (jac1_ok N pr EP WG HP OK) as (e & f & rows & D & G1 & GL & G2 & G3 & G4 & GR & G5 & G6 & G7).
    cbn [coll_jac_loop]. rewrite G1. cbn [obind].
    destruct (IH (fun z Hz => H z (or_intror Hz))) as (rows2 & D' & R1 & RL & R2 & RR & R3 & R4 & R5).
    rewrite R1. cbn [obind]. exists (rows ++ rows2), (D + D'). split; [|split; [|split; [|split; [|split; [|split]]]]].
    + cbn [map rsum]. rewrite G3, G4. apply (f_equal (@Ok (R * list bool * list (list R * R)))), (f_equal2 pair); [|reflexivity]. apply (f_equal2 pair); [ring|reflexivity].
    + rewrite app_length, GL. cbn [length]. destruct f; lia.
    + intros row Hr. apply in_app_or in Hr as [Hr|Hr]; [apply G2, Hr|apply R2, Hr].
    + rewrite map_app, rsum_app, GR, RR, G3. cbn [map rsum]. ring.
    + rewrite jt_r_app, G5, R3. ring.
    + cbn [map rsum]. apply d_plus; assumption.
    + intros PS. cbn [map rsum]. apply d_plus; [apply G7, PS; left; reflexivity|apply R5; intros; apply PS; right; assumption].
Qed.
End Path.
