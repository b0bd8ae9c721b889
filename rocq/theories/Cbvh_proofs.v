(** Lemmas about the collision penalty with a tree (C104). *)

From Coq Require Import Bool Reals List Arith Lia Lra Psatz Permutation.
From Coquelicot Require Import Coquelicot.
From Verif Require Import Prelude Loops LinAlg Rbool R3 Transform_model Transform_proofs Skeleton_model Skeleton_spec Skeleton_props FK_model FK_spec FK_proofs
  ParamTransform_model ParamTransform_spec Limits_model Limits_spec Limits_proofs Constraint_model Skin_model CharUtil_model
  Ellipsoid_model Ellipsoid_spec Seg_model Seg_spec Seg_proofs Coll_model Coll_spec Coll_proofs Coll_deriv_proofs Coll_props Cbvh_model Cbvh_spec.
Import ListNotations.
Local Open Scope nat_scope.
Local Open Scope R_scope.

(** ** Boxes *)

Lemma coord_le (u : vec3) d : 0 <= d -> vnorm2 u <= d * d -> - d <= vx u <= d /\ - d <= vy u <= d /\ - d <= vz u <= d.
Proof.
  intros P H. unfold vnorm2, vdot in H.
  pose proof (sq_pos (vx u)). pose proof (sq_pos (vy u)). pose proof (sq_pos (vz u)).
  assert (K : forall c, c * c <= d * d -> - d <= c <= d).
  { intros c Q. apply Rsqr_le_abs_0 in Q. rewrite (Rabs_pos_eq d P) in Q. apply Rabs_le_between in Q. exact Q. }
  split; [|split]; apply K; lra.
Qed.
Lemma mix_min s x y : in_unit s -> Rmin x y <= (1 - s) * x + s * y.
Proof.
  intros [H1 H2]. pose proof (Rmin_l x y). pose proof (Rmin_r x y).
  assert ((1 - s) * Rmin x y <= (1 - s) * x) by (apply Rmult_le_compat_l; lra).
  assert (s * Rmin x y <= s * y) by (apply Rmult_le_compat_l; lra). lra.
Qed.
Lemma mix_max s x y : in_unit s -> (1 - s) * x + s * y <= Rmax x y.
Proof.
  intros [H1 H2]. pose proof (Rmax_l x y). pose proof (Rmax_r x y).
  assert ((1 - s) * x <= (1 - s) * Rmax x y) by (apply Rmult_le_compat_l; lra).
  assert (s * y <= s * Rmax x y) by (apply Rmult_le_compat_l; lra). lra.
Qed.
Lemma aabb_holds sts c s : in_unit s -> let b := update_aabb (cap_st sts c) in let p := cap_point sts c s in let r := cap_radius sts c s in
  (vx (rb_lo b) <= vx p - r /\ vx p + r <= vx (rb_hi b)) /\ (vy (rb_lo b) <= vy p - r /\ vy p + r <= vy (rb_hi b)) /\
  (vz (rb_lo b) <= vz p - r /\ vz p + r <= vz (rb_hi b)).
Proof.
  intros I. cbv zeta. rewrite (cap_point_line sts c s), (cap_radius_line sts c s). unfold cap_st, update_aabb.
  set (o := cap_point sts c 0). set (d := cap_axis sts c). set (r0 := cap_radius sts c 0). set (r1 := cap_radius sts c 1).
  clearbody o d r0 r1. destruct o as [ox oy oz], d as [dx dy dz]. unfold vmap2, vconst, seg_point, vadd, vsub, vscale; cbn.
  assert (K : forall o d, Rmin (o - r0) (o + d - r1) <= o + s * d - (r0 + s * (r1 - r0)) /\ o + s * d + (r0 + s * (r1 - r0)) <= Rmax (o + r0) (o + d + r1)).
  { intros o d. pose proof (mix_min s (o - r0) (o + d - r1) I). pose proof (mix_max s (o + r0) (o + d + r1) I). split; lra. }
  split; [|split]; apply K.
Qed.
Lemma ovl_boxes eps sts a b o : ovl eps sts a b = Some o -> boxes_meet (update_aabb (cap_st sts a)) (update_aabb (cap_st sts b)).
Proof.
  destruct o as [[dist [s t]] ov]. intros H. destruct (ovl_sound _ _ _ _ _ _ _ _ H) as (I1 & I2 & D & O & P & _).
  pose proof (aabb_holds sts a s I1) as A. pose proof (aabb_holds sts b t I2) as B. cbv zeta in A, B.
  rewrite O in P. unfold depth, axis_dist in P. set (u := vsub (cap_point sts a s) (cap_point sts b t)) in *.
  destruct (coord_le u (sqrt (vnorm2 u)) (sqrt_pos _)) as (U1 & U2 & U3); [rewrite sqrt_sqrt; [lra|apply vn2_pos]|].
  unfold u in U1, U2, U3. unfold vsub in U1, U2, U3 at 1. cbn in U1, U2, U3. unfold boxes_meet. fold u in P.
  unfold u, vsub in *. cbn in *. split; [|split]; lra.
Qed.

(** ** The constructor *)

Lemma bloop_ok (f : nat -> outcome (list (nat * nat) * nat)) (h : nat -> outcome (list cpair)) l :
  (forall x, In x l -> exists e r, f x = Ok (e, length r) /\ h x = Ok r) ->
  exists ex rs, bloop f l = Ok (ex, length rs) /\ oconcat h l = Ok rs /\
    forall v, In v ex <-> exists x e n, In x l /\ f x = Ok (e, n) /\ In v e.
Proof.
  induction l as [|x l IH]; intros H.
  - exists [], []. split; [reflexivity|]. split; [reflexivity|]. intros v. split; [intros []|intros (x & e & n & [] & _)].
  - destruct (H x (or_introl eq_refl)) as (e & r & F & G). destruct (IH (fun y Hy => H y (or_intror Hy))) as (ex & rs & I1 & I2 & I3).
    exists (e ++ ex), (r ++ rs). cbn [bloop oconcat]. rewrite F, G. cbn [obind]. rewrite I1, I2. cbn [obind]. rewrite app_length.
    split; [reflexivity|]. split; [reflexivity|]. intros v. rewrite in_app_iff, I3. split.
    + intros [K|(y & e' & n' & K1 & K2 & K3)]; [exists x, e, (length r)|exists y, e', n']; auto with datatypes.
    + intros (y & e' & n' & [<-|K] & K2 & K3); [left|right; exists y, e', n'; auto]. rewrite F in K2. injection K2 as <- _. exact K3.
Qed.
Lemma body_ok eps sk g sts i j : valid_sk sk -> single_root (sk_parents sk) ->
  (forall c, In c g -> exists j, cap_parent c = Some j /\ (j < length sk)%nat) -> (i < length g)%nat -> (j < length g)%nat ->
  exists e r, bpair_body eps sk g (map (cap_st sts) g) i j = Ok (e, length r) /\ pair_body eps sk g (map (cap_st sts) g) i j = Ok r /\
    ((e = [(i, j)] /\ r = []) \/ (e = [] /\ exists o, r = [(i, j, o)])).
Proof.
  intros V SR PC Hi Hj. destruct (nth_error g i) as [a|] eqn:Ha; [|apply nth_error_None in Ha; lia].
  destruct (nth_error g j) as [b|] eqn:Hb; [|apply nth_error_None in Hb; lia].
  destruct (PC a (nth_error_In _ _ Ha)) as (ja & Pa & La). destruct (PC b (nth_error_In _ _ Hb)) as (jb & Pb & Lb).
  destruct (common_ok sk V SR (2 * length sk) ja jb 0 La Lb ltac:(lia)) as (c & n & C1 & _).
  unfold bpair_body, pair_body, rd. rewrite !nth_error_map, Ha, Hb. cbn [option_map obind].
  destruct (overlaps eps (cap_st sts a) (cap_st sts b)); [exists [(i, j)], []; auto|].
  rewrite Pa, Pb, C1. cbn [obind]. destruct (Nat.ltb 1 (0 + n)); [exists [], [(i, j, Some c)]; eauto 6|exists [(i, j)], []; auto].
Qed.
Lemma bpairs_ok eps sk g sts : valid_sk sk -> single_root (sk_parents sk) -> length sts = length sk ->
  (forall c, In c g -> exists j, cap_parent c = Some j /\ (j < length sk)%nat) ->
  exists ex prs, bloop (fun i => bloop (bpair_body eps sk g (map (cap_st sts) g) i) (seq (S i) (length g - S i))) (seq 0 (length g)) = Ok (ex, length prs) /\
    oconcat (fun i => oconcat (pair_body eps sk g (map (cap_st sts) g) i) (seq (S i) (length g - S i))) (seq 0 (length g)) = Ok prs /\
    NoDup (map fst prs) /\ (forall i j a, In (i, j, a) prs -> (i < j)%nat) /\
    (forall i j, In (i, j) ex <-> (i < j < length g)%nat /\ ~ exists a, In (i, j, a) prs).
Proof.
  intros V SR LS PC. destruct (pairs_loop_ok eps sk g sts V SR LS PC) as (prs & P1 & P2 & P3).
  assert (IN : forall i, (i < length g)%nat -> exists ex rs, bloop (bpair_body eps sk g (map (cap_st sts) g) i) (seq (S i) (length g - S i)) = Ok (ex, length rs) /\
     oconcat (pair_body eps sk g (map (cap_st sts) g) i) (seq (S i) (length g - S i)) = Ok rs /\
     forall v, In v ex <-> fst v = i /\ (i < snd v < length g)%nat /\ pair_body eps sk g (map (cap_st sts) g) i (snd v) = Ok []).
  { intros i Hi. destruct (bloop_ok (bpair_body eps sk g (map (cap_st sts) g) i) (pair_body eps sk g (map (cap_st sts) g) i) (seq (S i) (length g - S i))) as (ex & rs & B1 & B2 & B3).
    - intros j Hj. apply in_seq in Hj. destruct (body_ok eps sk g sts i j V SR PC Hi ltac:(lia)) as (e & r & F & G & _). eauto.
    - exists ex, rs. split; [exact B1|]. split; [exact B2|]. intros v. rewrite B3. split.
      + intros (j & e & n & Hj & F & Hv). apply in_seq in Hj. destruct (body_ok eps sk g sts i j V SR PC Hi ltac:(lia)) as (e' & r & F' & G & [[-> ->]|[-> _]]);
          rewrite F in F'; injection F' as -> _; [|destruct Hv]. destruct Hv as [<-|[]]. cbn. split; [reflexivity|]. split; [lia|exact G].
      + destruct v as [i' j]. cbn [fst snd]. intros (-> & Hj & G). destruct (body_ok eps sk g sts i j V SR PC Hi ltac:(lia)) as (e' & r & F' & G' & [[-> ->]|[-> [o ->]]]); [|congruence].
        exists j, [(i, j)], 0%nat. split; [apply in_seq; lia|]. split; [exact F'|]. left; reflexivity. }
  destruct (bloop_ok (fun i => bloop (bpair_body eps sk g (map (cap_st sts) g) i) (seq (S i) (length g - S i)))
    (fun i => oconcat (pair_body eps sk g (map (cap_st sts) g) i) (seq (S i) (length g - S i))) (seq 0 (length g))) as (ex & rs & B1 & B2 & B3).
  { intros i Hi. apply in_seq in Hi. destruct (IN i ltac:(lia)) as (e & r & F & G & _). eauto. }
  rewrite P1 in B2. injection B2 as <-. exists ex, prs. split; [exact B1|]. split; [exact P1|]. split; [|split].
  - assert (U : forall x y, In x prs -> In y prs -> fst x = fst y -> x = y).
    { intros [[i j] o] [[i' j'] o'] Hx Hy Q. cbn in Q. injection Q as <- <-. apply P3 in Hx as (_ & Hx). apply P3 in Hy as (_ & Hy).
      destruct Hx as (a & b & ja & jb & c & n & X1 & X2 & X3 & X4 & X5 & _ & -> & _). destruct Hy as (a' & b' & ja' & jb' & c' & n' & Y1 & Y2 & Y3 & Y4 & Y5 & _ & -> & _).
      assert (a' = a) by congruence. assert (b' = b) by congruence. subst a' b'. assert (ja' = ja) by congruence. assert (jb' = jb) by congruence. subst ja' jb'.
      destruct (meets_unique _ _ _ _ _ _ _ X5 Y5) as [-> _]. reflexivity. }
    clear - P2 U. induction P2 as [|x l N1 N2 IH]; [constructor|]. cbn [map]. constructor.
    + intros K. apply in_map_iff in K as (y & Q & Hy). assert (y = x) as -> by (apply U; [right; exact Hy|left; reflexivity|exact Q]). contradiction.
    + apply IH. intros; apply U; try (right; assumption); assumption.
  - intros i j a Hin. apply P3 in Hin. apply Hin.
  - intros i j. rewrite B3. split.
    + intros (i' & e & n & Hi & F & Hv). apply in_seq in Hi. destruct (IN i' ltac:(lia)) as (ex' & rs' & F' & G & K). rewrite F in F'. injection F' as -> _.
      apply K in Hv. cbn in Hv. destruct Hv as (<- & Hj & PB). split; [lia|]. intros [a Ha]. apply P3 in Ha as (_ & Ha).
      destruct (pair_body_in eps sk g sts V SR LS PC i j ltac:(lia) ltac:(lia)) as (r & R1 & _ & _ & R4). rewrite PB in R1. injection R1 as <-. apply R4 in Ha. destruct Ha.
    + intros (Hij & NO). destruct (IN i ltac:(lia)) as (ex' & rs' & F' & G & K). exists i, ex', (length rs'). split; [apply in_seq; lia|]. split; [exact F'|].
      apply K. cbn. split; [reflexivity|]. split; [lia|].
      destruct (body_ok eps sk g sts i j V SR PC ltac:(lia) ltac:(lia)) as (e & r & _ & PB & [[_ ->]|[_ [o ->]]]); [exact PB|]. exfalso. apply NO.
      exists o. destruct (pair_body_in eps sk g sts V SR LS PC i j ltac:(lia) ltac:(lia)) as (r & R1 & _ & _ & R4). rewrite PB in R1. injection R1 as <-.
      apply P3. split; [lia|]. apply R4. left; reflexivity.
Qed.
Lemma pair_equal_iff v w : pair_equal v w = true <-> w = v \/ w = (snd v, fst v).
Proof.
  destruct v as [i j], w as [k l]. unfold pair_equal. cbn [fst snd]. rewrite orb_true_iff, !andb_true_iff, !Nat.eqb_eq. split.
  - intros [[-> ->]|[-> ->]]; auto.
  - intros [Q|Q]; injection Q as -> ->; auto.
Qed.
Lemma excluded_iff B i j : excluded B (i, j) = true <-> In (i, j) (bc_excluding B) \/ In (j, i) (bc_excluding B).
Proof.
  unfold excluded. rewrite existsb_exists. split.
  - intros (w & Hw & Q). apply pair_equal_iff in Q as [-> | ->]; auto.
  - intros [H|H]; eexists; (split; [exact H|]); apply pair_equal_iff; auto.
Qed.
Lemma excluded_sym B i j : excluded B (i, j) = excluded B (j, i).
Proof.
  destruct (excluded B (i, j)) eqn:X, (excluded B (j, i)) eqn:Y; try reflexivity; [apply excluded_iff in X|apply excluded_iff in Y];
    rewrite or_comm in *; [apply excluded_iff in X|apply excluded_iff in Y]; congruence.
Qed.

(** ** Sums over visits *)

Lemma rsum_perm l l' : Permutation l l' -> rsum l = rsum l'.
Proof. induction 1; cbn; lra. Qed.
Lemma in_dec2 (v : nat * nat) l : {In v l} + {~ In v l}.
Proof. apply in_dec. intros [a b] [c d]. destruct (Nat.eq_dec a c), (Nat.eq_dec b d); [left; congruence|right; congruence|right; congruence|right; congruence]. Qed.
Lemma rsum_sub (h : nat * nat -> R) l l' : NoDup l -> NoDup l' -> incl l l' -> (forall x, In x l' -> ~ In x l -> h x = 0) ->
  rsum (map h l) = rsum (map h l').
Proof.
  intros N1 N2 I Z. set (f := fun x => if in_dec2 x l then true else false).
  assert (P : Permutation l (filter f l')).
  { apply NoDup_Permutation; [exact N1|apply NoDup_filter, N2|]. intros x. rewrite filter_In. unfold f. destruct (in_dec2 x l) as [Q|Q]; split.
    - intros _. auto.
    - intros _. exact Q.
    - intros H. contradiction.
    - intros [_ H]. discriminate. }
  rewrite (rsum_perm _ _ (Permutation_map h P)). clear P I N1 N2. unfold f. induction l' as [|x l' IH]; [reflexivity|]. cbn [filter map rsum].
  rewrite <- IH by (intros; apply Z; [right; assumption|assumption]). destruct (in_dec2 x l) as [Q|Q]; cbn [map rsum]; [reflexivity|].
  rewrite (Z x (or_introl eq_refl) Q). ring.
Qed.

Definition flip (v : nat * nat) : nat * nat := (snd v, fst v).
Definition norm (v : nat * nat) : nat * nat := if Nat.leb (fst v) (snd v) then v else flip v.
(** The visit of an ordered pair. *)
Definition as_visited (vs : list (nat * nat)) (v : nat * nat) : option (nat * nat) :=
  if in_dec2 v vs then Some v else if in_dec2 (flip v) vs then Some (flip v) else None.
Definition pick (vs : list (nat * nat)) (f : nat * nat -> R) (v : nat * nat) : R :=
  match as_visited vs v with Some w => f w | None => 0 end.

Section Same.
Context (E : coll_fn) (B : bcoll_fn) (SF : same_function E B) (W : coll_wf E).
Context (V : valid_sk (co_sk E)) (SR : single_root (sk_parents (co_sk E))).
Local Notation keys := (map fst (co_pairs E)).
Definition kept (vs : list (nat * nat)) : list (nat * nat) := filter (fun v => negb (excluded B v)) vs.

Section Visits.
Context (boxes : list rbox) (vs : list (nat * nat)) (T : traversal boxes vs) (LB : length boxes = length (co_geo E)).

Lemma kept_norm v : In v (kept vs) -> In (norm v) keys.
Proof.
  destruct v as [i j]. intros H. apply filter_In in H as [H X]. apply negb_true_iff in X.
  destruct (tv_range _ _ T i j H) as (Hi & Hj & NE). rewrite LB in Hi, Hj. unfold norm; cbn [fst snd].
  destruct (Nat.leb_spec i j) as [L|L].
  - destruct (proj1 (sf_excluded E B SF i j ltac:(lia) Hj) X) as [a Ha]. apply (in_map fst) in Ha. exact Ha.
  - rewrite excluded_sym in X. destruct (proj1 (sf_excluded E B SF j i ltac:(lia) Hi) X) as [a Ha]. apply (in_map fst) in Ha. exact Ha.
Qed.
Lemma norm_cases v : norm v = v \/ norm v = flip v.
Proof. unfold norm. destruct (Nat.leb (fst v) (snd v)); auto. Qed.
Lemma flip_flip v : flip (flip v) = v.
Proof. destruct v; reflexivity. Qed.
Lemma kept_once : NoDup (map norm (kept vs)).
Proof.
  assert (K : forall l, NoDup l -> (forall i j, In (i, j) l -> ~ In (j, i) l) -> NoDup (map norm l)).
  { induction l as [|v l IH]; intros N F; [constructor|]. inversion N as [|? ? N1 N2]; subst. cbn [map]. constructor.
    - intros H. apply in_map_iff in H as (w & Q & Hw).
      assert (w = v \/ w = flip v) as [-> | ->].
      { destruct (norm_cases v) as [Q1|Q1], (norm_cases w) as [Q2|Q2]; rewrite Q1, Q2 in Q.
        - left; exact Q.
        - right. rewrite <- Q, flip_flip. reflexivity.
        - right; exact Q.
        - left. rewrite <- (flip_flip w), Q. apply flip_flip. }
      + contradiction.
      + destruct v as [i j]. apply (F i j (or_introl eq_refl)). right. exact Hw.
    - apply IH; [exact N2|]. intros i j H1 H2. apply (F i j); right; assumption. }
  apply K; [apply NoDup_filter, (tv_once _ _ T)|]. intros i j H1 H2. apply filter_In in H1 as [H1 _]. apply filter_In in H2 as [H2 _].
  exact (tv_one_way _ _ T i j H1 H2).
Qed.
Lemma kept_few : (length (kept vs) <= bc_size B)%nat.
Proof.
  assert (L : length keys = length (co_pairs E)) by apply map_length. rewrite (sf_size E B SF), <- (map_length norm (kept vs)), <- L. apply NoDup_incl_length; [exact kept_once|].
  intros v H. apply in_map_iff in H as (w & <- & Hw). apply kept_norm, Hw.
Qed.
Lemma pick_norm f v : In v vs -> pick vs f (norm v) = f v.
Proof.
  intros H. unfold pick, as_visited. destruct (norm_cases v) as [-> | ->].
  - destruct (in_dec2 v vs); [reflexivity|contradiction].
  - destruct (in_dec2 (flip v) vs) as [Q|Q].
    + exfalso. destruct v as [i j]. exact (tv_one_way _ _ T i j H Q).
    + rewrite flip_flip. destruct (in_dec2 v vs); [reflexivity|contradiction].
Qed.
Lemma key_kept v : In v keys -> (In v vs -> In v (kept vs)) /\ (In (flip v) vs -> In (flip v) (kept vs)) /\ norm v = v /\ norm (flip v) = v.
Proof.
  intros H. apply in_map_iff in H as ([[i j] a] & <- & H). cbn [fst]. pose proof (sf_order E B SF i j a H) as L.
  destruct (wf_caps E W _ H) as (ca & cb & C1 & C2). cbn [fst snd] in C1, C2.
  assert (Hj : (j < length (co_geo E))%nat) by (apply nth_error_Some; congruence).
  assert (X : excluded B (i, j) = false) by (apply (sf_excluded E B SF i j L Hj); eauto).
  unfold flip, norm; cbn [fst snd]. split; [|split; [|split]].
  - intros Q. apply filter_In. rewrite X. auto.
  - intros Q. apply filter_In. rewrite excluded_sym, X. auto.
  - destruct (Nat.leb_spec i j); [reflexivity|lia].
  - destruct (Nat.leb_spec j i); [lia|reflexivity].
Qed.
Lemma kept_sum f : rsum (map f (kept vs)) = rsum (map (fun pr => pick vs f (fst pr)) (co_pairs E)).
Proof.
  rewrite <- (map_map fst (pick vs f)). transitivity (rsum (map (pick vs f) (map norm (kept vs)))).
  - rewrite map_map. f_equal. apply map_ext_in. intros v H. symmetry. apply pick_norm. apply filter_In in H. apply H.
  - apply rsum_sub; [exact kept_once|exact (sf_once E B SF)| |].
    + intros v H. apply in_map_iff in H as (w & <- & Hw). apply kept_norm, Hw.
    + intros v Hv NI. destruct (key_kept v Hv) as (K1 & K2 & K3 & K4). unfold pick, as_visited.
      destruct (in_dec2 v vs) as [Q|_]; [exfalso; apply NI; rewrite <- K3; apply in_map, K1, Q|].
      destruct (in_dec2 (flip v) vs) as [Q|_]; [exfalso; apply NI; rewrite <- K4; apply in_map, K2, Q|reflexivity].
Qed.
(** The sum over the kept visits of a quantity that does not depend on the order. *)
Lemma kept_sum_norm h : (forall v, In v keys -> ~ In v vs -> ~ In (flip v) vs -> h v = 0) ->
  rsum (map (fun v => h (norm v)) (kept vs)) = rsum (map (fun pr => h (fst pr)) (co_pairs E)).
Proof.
  intros Z. rewrite <- (map_map norm h), <- (map_map fst h). apply rsum_sub; [exact kept_once|exact (sf_once E B SF)| |].
  - intros v H. apply in_map_iff in H as (w & <- & Hw). apply kept_norm, Hw.
  - intros v Hv NI. destruct (key_kept v Hv) as (K1 & K2 & K3 & K4). apply Z; [exact Hv| |]; intros Q; apply NI.
    + rewrite <- K3. apply in_map, K1, Q.
    + rewrite <- K4. apply in_map, K2, Q.
Qed.
End Visits.

(** ** The functions without the tree *)

Definition anc (v : nat * nat) : option nat := match bc_ancestor B v with Ok o => o | _ => None end.
Definition prs_of (vs : list (nat * nat)) : list cpair := map (fun v => (v, anc v)) (kept vs).
Definition with_pairs (prs : list cpair) : coll_fn := Coll (co_sk E) (co_pt E) (co_geo E) prs (co_weight E) (co_enabled E) (co_active E) (co_eps E).
Lemma core_eq : bc_core B = with_pairs [].
Proof. unfold bc_core, with_pairs. rewrite (sf_sk E B SF), (sf_pt E B SF), (sf_geo E B SF), (sf_weight E B SF), (sf_enabled E B SF), (sf_active E B SF), (sf_eps E B SF). reflexivity. Qed.

Lemma anc_ok v a b : nth_error (co_geo E) (fst v) = Some a -> nth_error (co_geo E) (snd v) = Some b ->
  exists c ja jb, bc_ancestor B v = Ok (Some c) /\ cap_parent a = Some ja /\ cap_parent b = Some jb /\ carries (co_sk E) c ja /\ carries (co_sk E) c jb.
Proof.
  intros Ha Hb. destruct (cw_caps E W a (nth_error_In _ _ Ha)) as (ja & Pa & La). destruct (cw_caps E W b (nth_error_In _ _ Hb)) as (jb & Pb & Lb).
  assert (LP : length (sk_parents (co_sk E)) = length (co_sk E)) by apply map_length.
  destruct (common_ancestor_one_root_symmetric (sk_parents (co_sk E)) ja jb (S (2 * length (co_sk E))) V SR) as (c & C1 & _ & [C2 C3] & _); [lia|lia|rewrite LP; lia|].
  exists c, ja, jb. unfold bc_ancestor, rd. rewrite (sf_geo E B SF), (sf_sk E B SF), Ha, Hb. cbn [obind]. rewrite Pa, Pb. split; [exact C1|].
  split; [reflexivity|]. split; [reflexivity|].
  destruct (chain_exists _ V ja La) as [l1 L1]. destruct (chain_exists _ V jb Lb) as [l2 L2].
  split; [exists l1|exists l2]; (split; [assumption|]); eapply chain_ancestor; eassumption.
Qed.
Definition in_range (vs : list (nat * nat)) : Prop := forall v, In v vs -> (fst v < length (co_geo E))%nat /\ (snd v < length (co_geo E))%nat.
Lemma range_caps vs v : in_range vs -> In v vs -> exists a b, nth_error (co_geo E) (fst v) = Some a /\ nth_error (co_geo E) (snd v) = Some b.
Proof.
  intros R H. destruct (R v H) as [H1 H2]. destruct (nth_error (co_geo E) (fst v)) as [a|] eqn:Q1; [|apply nth_error_None in Q1; lia].
  destruct (nth_error (co_geo E) (snd v)) as [b|] eqn:Q2; [|apply nth_error_None in Q2; lia]. eauto.
Qed.
Lemma with_wf vs : in_range vs -> coll_wf (with_pairs (prs_of vs)).
Proof.
  intros R. constructor; cbn; [apply (cw_pt E W)|apply (cw_active_len E W)|apply (cw_active E W)|apply (cw_caps E W)|].
  intros pr H. apply in_map_iff in H as (v & <- & H). apply filter_In in H as [H _]. destruct (range_caps vs v R H) as (a & b & Ha & Hb).
  destruct (anc_ok v a b Ha Hb) as (c & ja & jb & A & Pa & Pb & C1 & C2). exists a, b, c, ja, jb. unfold anc. rewrite A.
  split; [split; assumption|]. auto.
Qed.

Lemma overlap_core prs cs v o : pair_overlap (with_pairs prs) cs (v, o) = pair_overlap (bc_core B) cs (v, None).
Proof. rewrite core_eq. destruct v. reflexivity. Qed.

Lemma berr_ok prs cs vs e act : coll_err_loop (with_pairs prs) cs (prs_of vs) = Ok (e, act) -> bcoll_err_loop B cs vs = Ok e.
Proof.
  revert e act. unfold prs_of, kept. induction vs as [|v vs IH]; intros e act H; [cbn in *; congruence|]. cbn [bcoll_err_loop filter] in *.
  destruct (excluded B v); cbn [negb map coll_err_loop] in *; [eapply IH, H|]. rewrite overlap_core in H.
  destruct (pair_overlap (bc_core B) cs (v, None)) as [o| | | |]; cbn [obind] in *; try discriminate.
  destruct (coll_err_loop (with_pairs prs) cs _) as [[e' act']| | | |]; cbn [obind] in *; try discriminate.
  rewrite (IH e' act' eq_refl). cbn [obind]. destruct o as [[[? ?] [[? ?] ov]]|]; injection H as <- _; [|reflexivity].
  rewrite (sf_weight E B SF). reflexivity.
Qed.
Lemma bgrad_ok prs sts cs vs e act g g' : in_range vs -> coll_grad_loop (with_pairs prs) sts cs (prs_of vs) g = Ok (e, act, g') -> bcoll_grad_loop B sts cs vs g = Ok (e, g').
Proof.
  intros R. revert e act g g'. unfold prs_of, kept. induction vs as [|v vs IH]; intros e act g g' H; [cbn in *; congruence|]. 
  assert (R' : in_range vs) by (intros w Hw; apply R; right; exact Hw).
  cbn [bcoll_grad_loop filter] in *. unfold bcoll_grad1. destruct (excluded B v); cbn [negb map coll_grad_loop] in *.
  - cbn [obind add_all]. rewrite (IH R' _ _ _ _ H). cbn [obind]. rewrite Rplus_0_l. reflexivity.
  - destruct (range_caps _ v R (or_introl eq_refl)) as (a & b & Ha & Hb). destruct (anc_ok v a b Ha Hb) as (c & ja & jb & A & _).
    assert (AV : anc v = Some c) by (unfold anc; rewrite A; reflexivity). rewrite AV in H.
    destruct (coll_grad1 (with_pairs prs) sts cs (v, Some c)) as [[[e1 f1] incs]| | | |] eqn:G1; cbn [obind] in H; try discriminate.
    assert (G2 : coll_grad1 (bc_core B) sts cs (v, Some c) = Ok (e1, f1, incs)) by (rewrite <- G1, core_eq; destruct v; reflexivity).
    assert (Q : exists o, pair_overlap (bc_core B) cs (v, None) = Ok o).
    { unfold coll_grad1 in G2. replace (pair_overlap (bc_core B) cs (v, Some c)) with (pair_overlap (bc_core B) cs (v, None)) in G2 by (destruct v; reflexivity).
      destruct (pair_overlap (bc_core B) cs (v, None)); [eauto|discriminate..]. }
    destruct Q as [o Q]. rewrite Q. cbn [obind].
    assert (G3 : (match o with None => Ok (0, []) | Some _ => obind (bc_ancestor B v) (fun a => obind (coll_grad1 (bc_core B) sts cs (v, a)) (fun x => Ok (fst (fst x), snd x))) end) = Ok (e1, incs)).
    { destruct o as [o|].
      - rewrite A. cbn [obind]. rewrite G2. reflexivity.
      - unfold coll_grad1 in G2. replace (pair_overlap (bc_core B) cs (v, Some c)) with (pair_overlap (bc_core B) cs (v, None)) in G2 by (destruct v; reflexivity).
        rewrite Q in G2. cbn [obind] in G2. injection G2 as <- _ <-. reflexivity. }
    rewrite G3. cbn [obind]. destruct (add_all g incs) as [g1| | | |]; cbn [obind] in *; try discriminate.
    match type of H with obind ?x _ = _ => destruct x as [[[e2 act2] g2]| | | |] eqn:L; cbn [obind] in H; try discriminate end.
    rewrite (IH R' _ _ _ _ L). cbn [obind]. injection H as <- _ <-. reflexivity.
Qed.
Lemma bjac_ok prs sts cs vs e act rows : in_range vs -> coll_jac_loop (with_pairs prs) sts cs (prs_of vs) = Ok (e, act, rows) -> bcoll_jac_loop B sts cs vs = Ok (e, rows).
Proof.
  intros R. revert e act rows. unfold prs_of, kept. induction vs as [|v vs IH]; intros e act rows H; [cbn in *; congruence|]. 
  assert (R' : in_range vs) by (intros w Hw; apply R; right; exact Hw).
  cbn [bcoll_jac_loop filter] in *. unfold bcoll_jac1. destruct (excluded B v); cbn [negb map coll_jac_loop] in *.
  - cbn [obind]. rewrite (IH R' _ _ _ H). cbn [obind app]. rewrite Rplus_0_l. reflexivity.
  - destruct (range_caps _ v R (or_introl eq_refl)) as (a & b & Ha & Hb). destruct (anc_ok v a b Ha Hb) as (c & ja & jb & A & _).
    assert (AV : anc v = Some c) by (unfold anc; rewrite A; reflexivity). rewrite AV in H.
    destruct (coll_jac1 (with_pairs prs) sts cs (v, Some c)) as [[[e1 f1] incs]| | | |] eqn:G1; cbn [obind] in H; try discriminate.
    assert (G2 : coll_jac1 (bc_core B) sts cs (v, Some c) = Ok (e1, f1, incs)) by (rewrite <- G1, core_eq; destruct v; reflexivity).
    assert (Q : exists o, pair_overlap (bc_core B) cs (v, None) = Ok o).
    { unfold coll_jac1 in G2. replace (pair_overlap (bc_core B) cs (v, Some c)) with (pair_overlap (bc_core B) cs (v, None)) in G2 by (destruct v; reflexivity).
      destruct (pair_overlap (bc_core B) cs (v, None)); [eauto|discriminate..]. }
    destruct Q as [o Q]. rewrite Q. cbn [obind].
    assert (G3 : (match o with None => Ok (0, []) | Some _ => obind (bc_ancestor B v) (fun a => obind (coll_jac1 (bc_core B) sts cs (v, a)) (fun x => Ok (fst (fst x), snd x))) end) = Ok (e1, incs)).
    { destruct o as [o|].
      - rewrite A. cbn [obind]. rewrite G2. reflexivity.
      - unfold coll_jac1 in G2. replace (pair_overlap (bc_core B) cs (v, Some c)) with (pair_overlap (bc_core B) cs (v, None)) in G2 by (destruct v; reflexivity).
        rewrite Q in G2. cbn [obind] in G2. injection G2 as <- _ <-. reflexivity. }
    rewrite G3. cbn [obind].
    match type of H with obind ?x _ = _ => destruct x as [[[e2 act2] g2]| | | |] eqn:L; cbn [obind] in H; try discriminate end.
    rewrite (IH R' _ _ _ eq_refl). cbn [obind]. injection H as <- _ <-. reflexivity.
Qed.

Section Pose.
Context (sts : list jstate) (LS : length sts = length (co_sk E)).
Local Notation cs := (map (cap_st sts) (co_geo E)).
Definition rep (v : nat * nat) : R := rep_depth E sts (v, None).
Lemma bupdate : caps_update sts (bc_geo B) = Ok cs.
Proof. rewrite (sf_geo E B SF). apply (wf_update E W sts LS). Qed.
Lemma boxes_of boxes : capsule_boxes B sts boxes -> boxes = map update_aabb cs /\ length boxes = length (co_geo E).
Proof.
  intros (cs' & H & ->). rewrite bupdate in H. injection H as <-. split; [reflexivity|]. rewrite !map_length. reflexivity.
Qed.
Lemma tv_in_range boxes vs : capsule_boxes B sts boxes -> traversal boxes vs -> in_range vs.
Proof. intros CB T [i j] H. destruct (boxes_of boxes CB) as [_ L]. destruct (tv_range _ _ T i j H) as (H1 & H2 & _). cbn. lia. Qed.
Lemma bpairs_loop_ok vs : in_range vs -> bcoll_pairs_loop B cs vs = Ok (filter (fun v => match reported E sts (v, None) with Some _ => true | None => false end) (kept vs)).
Proof.
  intros R. unfold kept. induction vs as [|v vs IH]; [reflexivity|]. cbn [bcoll_pairs_loop filter].
  assert (R' : in_range vs) by (intros w Hw; apply R; right; exact Hw). destruct (range_caps _ v R (or_introl eq_refl)) as (a & b & Ha & Hb).
  destruct (excluded B v); cbn [negb filter]; [apply IH, R'|]. rewrite core_eq.
  pose proof (pair_overlap_ok (with_pairs []) sts (v, None) a b (conj Ha Hb)) as PO. cbn [with_pairs co_geo co_eps] in PO. rewrite PO. cbn [obind]. rewrite (IH R'). cbn [obind].
  rewrite (reported_at E sts (v, None) a b (conj Ha Hb)). destruct (ovl (co_eps E) sts a b); reflexivity.
Qed.
Lemma bcoll_error_ok m vs jp : in_range vs -> length jp = pt_rows (co_pt E) -> sts <> [] ->
  bcoll_error B m vs jp sts = Ok (5 / 1000 * co_weight E * rsum (map (fun v => rep v * rep v) (kept vs)), (cs, vs)).
Proof.
  intros R LJ NE. unfold bcoll_error. destruct sts as [|st0 r] eqn:S; [congruence|]. rewrite <- S in *.
  rewrite LJ, (cw_pt E W), (sf_sk E B SF), Nat.mul_comm, Nat.eqb_refl. cbn [check obind]. rewrite bupdate. cbn [obind].
  assert (K : forall prs, incl prs (prs_of vs) -> coll_err_loop (with_pairs (prs_of vs)) cs prs = Ok (5 / 1000 * co_weight E * rsum (map (fun pr => rep_depth E sts pr * rep_depth E sts pr) prs),
     map (fun pr => match reported E sts pr with Some _ => true | None => false end) prs)).
  { intros prs I. apply (err_loop_ok (with_pairs (prs_of vs)) sts prs). intros pr H. apply (wf_caps _ (with_wf vs R)), I, H. }
  erewrite berr_ok by (apply (K (prs_of vs)); apply incl_refl). cbn [obind]. unfold prs_of. rewrite map_map. reflexivity.
Qed.
(** Pairs whose boxes are not visited do not overlap. *)
Lemma unvisited boxes vs i j a : capsule_boxes B sts boxes -> traversal boxes vs -> In (i, j, a) (co_pairs E) -> ~ visited vs i j -> rep (i, j) = 0.
Proof.
  intros CB T H NV. destruct (boxes_of boxes CB) as [-> _]. destruct (wf_caps E W _ H) as (ca & cb & CO). pose proof CO as [C1 C2]. cbn [fst snd] in C1, C2.
  unfold rep, rep_depth. rewrite (reported_at E sts ((i, j), None) ca cb CO). destruct (ovl (co_eps E) sts ca cb) as [o|] eqn:Q; [|reflexivity].
  exfalso. apply NV. apply (tv_complete _ _ T i j (update_aabb (cap_st sts ca)) (update_aabb (cap_st sts cb)) (sf_order E B SF i j a H)).
  - rewrite map_map, nth_error_map, C1. reflexivity.
  - rewrite map_map, nth_error_map, C2. reflexivity.
  - eapply ovl_boxes, Q.
Qed.
End Pose.
End Same.
