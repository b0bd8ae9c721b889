(** C104. The penalty for colliding capsules found with a tree of boxes (CollisionErrorFunction). *)

From Coq Require Import String Bool Reals List Arith NArith QArith Qreals Lia Lra Psatz Permutation.
From Coquelicot Require Import Coquelicot.
From Verif Require Import Prelude Loops LinAlg Rbool R3 Transform_model Transform_proofs Skeleton_model Skeleton_spec FK_model FK_spec FK_proofs FK_deriv_proofs
  ParamTransform_model ParamTransform_spec ParamTransform_proofs Limits_model Limits_spec Limits_proofs
  Constraint_model Constraint_spec Constraint_props Skin_model CharUtil_model
  Ellipsoid_model Ellipsoid_spec Seg_model Seg_spec Seg_proofs Seg_props Coll_model Coll_spec Coll_proofs Coll_deriv_proofs Coll_props
  Box_model Box_spec Bvh_model Bvh_spec Bvh_build_proofs Bvh_props Bvh_pair_model Bvh_pair_spec Bvh_pair_props
  Cbvh_model Cbvh_spec Cbvh_proofs Cbvh_deriv_proofs.
Import ListNotations.
Local Open Scope list_scope.
Local Open Scope nat_scope.
Local Open Scope R_scope.

(** ** The constructor *)

(** C104. The constructor excludes exactly the pairs that the function without a tree does not test, and
    the Jacobian size counts the others. *)
Theorem bcoll_make_same eps sk pt g sts vs :
  parents_first (sk_parents sk) -> single_root (sk_parents sk) ->
  (forall c, In c g -> exists j, cap_parent c = Some j /\ (j < length sk)%nat) ->
  length (pt_offsets pt) = pt_rows pt -> fk sk (pt_offsets pt) = Ok sts ->
  exists E B m, coll_make eps sk pt g = Ok E /\ bcoll_make eps sk pt g vs = Ok (B, m) /\ same_function E B /\
    bcoll_jacobian_size B = coll_jacobian_size E.
Proof.
  intros V SR PC LO FK. pose proof (proj1 (proj2 (fk_inv _ _ _ V FK))) as LS.
  destruct (bpairs_ok eps sk g sts V SR LS PC) as (ex & prs & B1 & P1 & ND & OR & EX).
  assert (CU : caps_update sts g = Ok (map (cap_st sts) g)).
  { apply caps_update_ok. intros c Hc. destruct (PC c Hc) as (j & Pj & L). rewrite <- LS in L.
    destruct (nth_error sts j) as [st|] eqn:Q; [exists j, st; auto|apply nth_error_None in Q; lia]. }
  exists (Coll sk pt g prs 1 (fun _ => true) (pt_active pt) eps), (BColl sk pt g ex (length prs) 1 (fun _ => true) (pt_active pt) eps), (map (cap_st sts) g, vs).
  split; [|split; [|split]].
  - unfold coll_make, collision_pairs. rewrite LO, Nat.eqb_refl. cbn [Limits_model.check obind]. rewrite FK. cbn [obind]. rewrite CU. cbn [obind]. rewrite P1. reflexivity.
  - unfold bcoll_make. rewrite LO, Nat.eqb_refl. cbn [Limits_model.check obind]. rewrite FK. cbn [obind]. rewrite CU. cbn [obind]. rewrite B1. reflexivity.
  - constructor; try reflexivity; [exact ND|exact OR|]. intros i j L Hj. cbn [co_geo co_pairs] in *. split.
    + intros X. destruct (excluded_iff (BColl sk pt g ex (length prs) 1 (fun _ => true) (pt_active pt) eps) i j) as [_ K]. cbn [bc_excluding] in K.
      destruct (in_dec2 (i, j) (map fst prs)) as [Y|Y].
      * apply in_map_iff in Y as ([[i' j'] a] & Q & Y). cbn in Q. injection Q as -> ->. eauto.
      * exfalso. rewrite K in X; [discriminate|]. left. apply EX. split; [lia|]. intros [a Ha]. apply Y. apply (in_map fst) in Ha. exact Ha.
    + intros [a Ha]. destruct (excluded _ (i, j)) eqn:X; [|reflexivity]. exfalso. apply excluded_iff in X. cbn [bc_excluding] in X.
      destruct X as [X|X]; apply EX in X as [X1 X2]; [apply X2; eauto|lia].
  - reflexivity.
Qed.
Print Assumptions bcoll_make_same.

(** C104. Two orders of a pair have the same hash, as the set of excluded pairs needs, and pairs of
    indices below 2^32 have the same hash only if they are the same. *)
Theorem pair_hash_ok : (forall a b, pair_hash (a, b) = pair_hash (b, a)) /\
  forall a b c d, (a < 2 ^ 32)%N -> (b < 2 ^ 32)%N -> (c < 2 ^ 32)%N -> (d < 2 ^ 32)%N ->
    pair_hash (a, b) = pair_hash (c, d) -> (a = c /\ b = d) \/ (a = d /\ b = c).
Proof.
  assert (SY : forall a b, pair_hash (a, b) = pair_hash (b, a)) by (intros a b; unfold pair_hash; cbn [fst snd]; rewrite N.min_comm, N.max_comm; reflexivity).
  split; [exact SY|]. 
  assert (K : forall a b, (a < 2 ^ 32)%N -> (b < 2 ^ 32)%N ->
    N.shiftr (pair_hash (a, b)) 32 = N.min a b /\ N.land (pair_hash (a, b)) (N.ones 32) = N.max a b).
  { intros a b Ha Hb. unfold pair_hash. cbn [fst snd]. rewrite N.mod_small.
    - split.
      + rewrite N.shiftr_lor, N.shiftr_shiftl_l by lia. rewrite N.sub_diag, N.shiftl_0_r, (N.shiftr_div_pow2 (N.max a b)), (N.div_small (N.max a b)) by lia. apply N.lor_0_r.
      + rewrite N.land_lor_distr_l, !N.land_ones, N.shiftl_mul_pow2, N.mod_mul by lia. rewrite N.lor_0_l. apply N.mod_small. lia.
    - rewrite N.shiftl_mul_pow2. change (2 ^ 64)%N with (2 ^ 32 * 2 ^ 32)%N. apply N.mul_lt_mono_pos_r; lia. }
  intros a b c d Ha Hb Hc Hd H. destruct (K a b Ha Hb) as [K1 K2]. destruct (K c d Hc Hd) as [K3 K4]. rewrite H in K1, K2. lia.
Qed.
Print Assumptions pair_hash_ok.

(** ** Boxes *)

(** C104. The box of a capsule contains the ball around every point of its axis. *)
Theorem bcoll_box_covers B sts boxes k c s p : capsule_boxes B sts boxes ->
  nth_error (bc_geo B) k = Some c -> in_unit s -> 0 <= cap_radius sts c s ->
  sqrt (vnorm2 (vsub p (cap_point sts c s))) <= cap_radius sts c s ->
  exists b, nth_error boxes k = Some b /\ box_has b p.
Proof.
  intros (cs & CU & ->) Hk I RP D. revert k cs CU Hk. induction (bc_geo B) as [|c0 g IH]; intros k cs CU Hk; [destruct k; discriminate|].
  cbn [caps_update] in CU. destruct (capsule_state sts c0) as [s0| | | |] eqn:C0; cbn [obind] in CU; try discriminate.
  destruct (caps_update sts g) as [rest| | | |] eqn:CR; cbn [obind] in CU; try discriminate. injection CU as <-.
  destruct k as [|k]; cbn [nth_error] in Hk; [|apply (IH k rest eq_refl Hk)]. injection Hk as ->.
  exists (update_aabb s0). split; [reflexivity|].
  assert (s0 = cap_st sts c) as ->.
  { unfold capsule_state in C0. destruct (cap_parent c) as [j|] eqn:P; [|discriminate]. destruct (rd sts j) as [st| | | |] eqn:R; cbn [obind] in C0; try discriminate.
    assert (PL : placed sts c). { exists j, st. split; [exact P|]. unfold rd in R. destruct (nth_error sts j); congruence. }
    pose proof (cap_state_ok sts c PL) as Q. unfold capsule_state in Q. rewrite P, R in Q. cbn [obind] in Q. congruence. }
  pose proof (aabb_holds sts c s I) as A. cbv zeta in A.
  destruct (coord_le (vsub p (cap_point sts c s)) (cap_radius sts c s) RP) as (U1 & U2 & U3).
  { rewrite <- (sqrt_sqrt (vnorm2 (vsub p (cap_point sts c s)))) by apply vn2_pos. apply Rmult_le_compat; try apply sqrt_pos; exact D. }
  unfold vsub in U1, U2, U3. cbn in U1, U2, U3. unfold box_has. lra.
Qed.
Print Assumptions bcoll_box_covers.

(** ** The tree *)

Definition q3r (v : q3) : vec3 := V3 (Q2R (qx v)) (Q2R (qy v)) (Q2R (qz v)).

Lemma nodup_app {A} (l r : list A) : NoDup l -> NoDup r -> (forall x, In x l -> ~ In x r) -> NoDup (l ++ r).
Proof.
  induction 1 as [|x l N1 N2 IH]; intros R D; [exact R|]. cbn [app]. constructor.
  - intros H. apply in_app_or in H as [H|H]; [contradiction|]. apply (D x (or_introl eq_refl) H).
  - apply IH; [exact R|]. intros y Hy. apply D. right; exact Hy.
Qed.
Lemma nodup_app_l {A} (l r : list A) : NoDup (l ++ r) -> NoDup l.
Proof.
  induction l as [|x l IH]; intros N; [constructor|]. cbn [app] in N. inversion N as [|? ? N1 N2]; subst. constructor; [|apply IH, N2].
  intros H. apply N1, in_or_app. left; exact H.
Qed.
Lemma pairs_in l a b : In a l -> In b l -> a <> b -> In (a, b) (pairs l) \/ In (b, a) (pairs l).
Proof.
  induction l as [|x l IH]; intros Ha Hb NE; [destruct Ha|]. cbn [pairs]. destruct Ha as [<-|Ha], Hb as [<-|Hb].
  - contradiction.
  - left. apply in_or_app. left. apply in_map, Hb.
  - right. apply in_or_app. left. apply in_map, Ha.
  - destruct (IH Ha Hb NE); [left|right]; apply in_or_app; right; assumption.
Qed.
Lemma pairs_ids l : NoDup (map bid l) -> NoDup (map ids (pairs l)) /\
  forall i j, In (i, j) (map ids (pairs l)) -> In i (map bid l) /\ In j (map bid l) /\ i <> j /\ ~ In (j, i) (map ids (pairs l)).
Proof.
  induction l as [|x l IH]; intros N; [split; [constructor|intros i j []]|]. cbn [map] in N. inversion N as [|? ? N1 N2]; subst.
  destruct (IH N2) as [I1 I2]. cbn [pairs]. rewrite map_app, map_map. unfold ids at 1 3 5. cbn [fst snd].
  assert (FX : forall k j, In (k, j) (map (fun y => (bid x, bid y)) l) <-> k = bid x /\ In j (map bid l)).
  { intros k j. rewrite !in_map_iff. split.
    - intros (y & Q & H). injection Q as <- <-. split; [reflexivity|]. exists y. auto.
    - intros (-> & y & <- & H). exists y. auto. }
  split.
  - apply nodup_app; [|exact I1|].
    + clear - N2. induction l as [|y l IH]; [constructor|]. cbn [map] in *. inversion N2 as [|? ? M1 M2]; subst. constructor; [|apply IH, M2].
      intros H. apply in_map_iff in H as (z & Q & H). injection Q as Q. apply M1. rewrite <- Q. apply in_map, H.
    + intros [k j] H1 H2. apply FX in H1 as [-> _]. apply I2 in H2 as (H2 & _). contradiction.
  - intros i j H. rewrite in_app_iff in *. cbn [map In]. destruct H as [H|H].
    + apply FX in H as [-> H]. split; [left; reflexivity|]. split; [right; exact H|]. split; [intros Q; rewrite <- Q in H; contradiction|].
      intros [K|K]; [apply FX in K as [-> K]; contradiction|]. apply I2 in K as (_ & K & _). contradiction.
    + pose proof (I2 i j H) as (H1 & H2 & H3 & H4). split; [right; exact H1|]. split; [right; exact H2|]. split; [exact H3|].
      intros [K|K]; [apply FX in K as [-> K]; contradiction|contradiction].
Qed.
Lemma run_record l a : run (record true) l a = a ++ l.
Proof.
  unfold run. revert a. induction l as [|[i j] l IH]; intros a; [symmetry; apply app_nil_r|]. cbn [fold_left]. rewrite IH. unfold record; cbn [fst snd].
  rewrite <- app_assoc. reflexivity.
Qed.

(** C104. The tree as modelled for C55, with one box per leaf, visits as the theorems below ask, for up to
    128 boxes with rational corners in any order. Beyond 128 the construction may overrun its stack, see
    [build_stack_refuted]. *)
Theorem bcoll_tree_contract prims boxes : prims <> [] -> (length prims <= 128)%nat ->
  Permutation (map bid prims) (seq 0 (length boxes)) ->
  (forall b, In b prims -> nth_error boxes (bid b) = Some (RB (q3r (lo b)) (q3r (hi b)))) ->
  exists t vs, build 1 prims = Ok t /\ overlapping_pairs (record true) t [] = Ok vs /\ traversal boxes vs.
Proof.
  intros NE L IDS BX.
  assert (CN : countable prims). { unfold countable, small. assert (N.of_nat (2 * length prims) <= 256)%N by lia. eapply N.le_lt_trans; [exact H|reflexivity]. }
  destruct (build_hierarchy_partial 1 prims (le_n 1) NE CN) as [(t & tr & B1 & P & H)|[B _]]; [|lia].
  destruct (overlapping_pairs_partial (record true) tight 1 t tr [] H (fun b s T => proj1 T) (or_intror eq_refl)) as (ch & ot & O1 & O2 & O3 & O4).
  destruct (O4 eq_refl) as [O5 _]. rewrite O5, app_nil_r in O2. rewrite run_record in O1. cbn [app] in O1.
  exists t, (map ids ch). split; [exact B1|]. split; [exact O1|].
  assert (PI : Permutation (map bid (t_prims t)) (seq 0 (length boxes))) by (rewrite <- IDS; symmetry; apply Permutation_map, P).
  assert (ND : NoDup (map bid (t_prims t))) by (eapply Permutation_NoDup; [symmetry; exact PI|apply seq_NoDup]).
  destruct (pairs_ids (t_prims t) ND) as [I1 I2].
  pose proof (Permutation_map ids O2) as PM. rewrite map_app in PM.
  assert (SUB : forall v, In v (map ids ch) -> In v (map ids (pairs (t_prims t)))).
  { intros v Hv. eapply Permutation_in; [symmetry; exact PM|]. apply in_or_app. left; exact Hv. }
  constructor.
  - intros i j Hv. destruct (I2 i j (SUB _ Hv)) as (H1 & H2 & H3 & _).
    apply (Permutation_in _ PI) in H1, H2. apply in_seq in H1, H2. split; [lia|]. split; [lia|exact H3].
  - eapply nodup_app_l, Permutation_NoDup; [exact PM|exact I1].
  - intros i j H1 H2. destruct (I2 i j (SUB _ H1)) as (_ & _ & _ & H3). apply H3, SUB, H2.
  - intros i j b c Lij Hb Hc M.
    assert (FND : forall k, (k < length boxes)%nat -> exists b, In b (t_prims t) /\ bid b = k).
    { intros k Hk. assert (K : In k (map bid (t_prims t))) by (eapply Permutation_in; [symmetry; exact PI|apply in_seq; lia]).
      apply in_map_iff in K as (b' & Q & K). eauto. }
    assert (Li : (i < length boxes)%nat) by (apply nth_error_Some; congruence). assert (Lj : (j < length boxes)%nat) by (apply nth_error_Some; congruence).
    destruct (FND i Li) as (bi & Ei & Qi). destruct (FND j Lj) as (bj & Ej & Qj).
    pose proof (BX bi (Permutation_in _ (Permutation_sym P) Ei)) as Bi. pose proof (BX bj (Permutation_in _ (Permutation_sym P) Ej)) as Bj.
    rewrite Qi in Bi. rewrite Qj in Bj. rewrite Hb in Bi. rewrite Hc in Bj. injection Bi as ->. injection Bj as ->.
    assert (MM : meet bi bj).
    { unfold boxes_meet, q3r in M. cbn in M. destruct M as (M1 & M2 & M3). intros []; cbn; split; apply Rle_Qle; apply M1 || apply M2 || apply M3. }
    assert (SYM : meet bj bi) by (intros d; destruct (MM d); split; assumption).
    assert (NB : bi <> bj) by (intros ->; lia).
    assert (K : forall p, In p (pairs (t_prims t)) -> overlap p -> In (ids p) (map ids ch)).
    { intros p Hp Ov. apply (Permutation_in _ O2) in Hp. apply in_app_or in Hp as [Hp|Hp]; [apply in_map, Hp|]. exfalso. exact (O3 p Hp Ov). }
    destruct (pairs_in (t_prims t) bi bj Ei Ej NB) as [Hp|Hp]; [left|right]; apply K in Hp; try assumption;
      unfold ids in Hp; cbn [fst snd] in Hp; rewrite Qi, Qj in Hp; exact Hp.
Qed.
Print Assumptions bcoll_tree_contract.

(** ** The error *)

Lemma excess2_max d : excess2 d = Rmax 0 d * Rmax 0 d.
Proof.
  destruct (Rle_lt_dec d 0); [rewrite excess2_neg, Rmax_left by lra; ring|rewrite excess2_pos, Rmax_right by lra; ring].
Qed.
Lemma states_nonempty E (sts : list jstate) : co_sk E <> [] -> length sts = length (co_sk E) -> sts <> [].
Proof. intros NE L ->. destruct (co_sk E); [congruence|discriminate L]. Qed.

(** C104. Whatever the pose and the order of the visits, the error is 0.005 times the weight times the sum
    of the squared depths, at some axis points closer than the radii, of the pairs that getCollisionPairs
    then returns; these are tested pairs, each once. *)
Theorem bcoll_error_sound E B m vs boxes jp sts : coll_wf E -> same_function E B -> parents_first (sk_parents (co_sk E)) -> single_root (sk_parents (co_sk E)) ->
  co_sk E <> [] -> length sts = length (co_sk E) -> length jp = pt_rows (co_pt E) -> capsule_boxes B sts boxes -> traversal boxes vs ->
  exists m' l N, bcoll_error B m vs jp sts = Ok (5 / 1000 * co_weight E * rsum (map (fun v => depth_at E sts N (v, None) * depth_at E sts N (v, None)) l), m') /\
    bcoll_pairs B m' = Ok l /\ NoDup l /\ (forall i j, In (i, j) l -> ~ In (j, i) l) /\
    forall i j, In (i, j) l -> (exists c, In (i, j, c) (co_pairs E) \/ In (j, i, c) (co_pairs E)) /\
      exists a b s t, capsules_of E (i, j, None) a b /\ N (i, j, None) = (s, t) /\ in_unit s /\ in_unit t /\
        0 < depth sts a b s t /\ co_eps E <= axis_dist sts a b s t.
Proof.
  intros W SF V SR NE LS LJ CB T. pose proof (tv_in_range E B SF W sts LS boxes vs CB T) as RG.
  destruct (boxes_of E B SF W sts LS boxes CB) as [_ LB].
  set (fl := fun v : nat * nat => match reported E sts (v, None) with Some _ => true | None => false end).
  set (N := fun pr => match reported E sts pr with Some (_, st, _) => st | None => (0, 0) end).
  exists (map (cap_st sts) (co_geo E), vs), (filter fl (kept B vs)), N.
  assert (FC : forall v, In v (kept B vs) -> exists a b, capsules_of E (v, None) a b).
  { intros v Hv. destruct (range_caps E vs v RG) as (a & b & Ha & Hb); [apply filter_In in Hv; apply Hv|]. exists a, b. split; assumption. }
  split; [|split; [apply (bpairs_loop_ok E B SF sts vs RG)|split; [|split]]].
  - rewrite (bcoll_error_ok E B SF W V SR sts LS m vs jp RG LJ (states_nonempty E sts NE LS)).
    apply (f_equal (@Ok (R * bmem))), (f_equal2 pair); [|reflexivity]. f_equal. clear RG T. induction (kept B vs) as [|v l IH]; [reflexivity|].
    cbn [map rsum filter]. rewrite IH by (intros; apply FC; right; assumption). destruct (FC v (or_introl eq_refl)) as (a & b & CO).
    destruct (reported E sts (v, None)) as [[[dist [s t]] ov]|] eqn:Q.
    + assert (F : fl v = true) by (unfold fl; rewrite Q; reflexivity). rewrite F. cbn [map rsum].
      assert (RV : rep E sts v = ov) by (unfold rep, rep_depth; rewrite Q; reflexivity). rewrite RV.
      assert (DV : depth_at E sts N (v, None) = ov); [|rewrite DV; reflexivity].
      unfold depth_at. assert (NV : N (v, None) = (s, t)) by (unfold N; rewrite Q; reflexivity). rewrite NV. destruct CO as [C1 C2]. rewrite C1, C2.
      rewrite (reported_at E sts (v, None) a b (conj C1 C2)) in Q. destruct (ovl_sound _ _ _ _ _ _ _ _ Q) as (_ & _ & _ & O & _). symmetry; exact O.
    + assert (F : fl v = false) by (unfold fl; rewrite Q; reflexivity). rewrite F.
      assert (RV : rep E sts v = 0) by (unfold rep, rep_depth; rewrite Q; reflexivity). rewrite RV. ring.
  - apply NoDup_filter, NoDup_filter, (tv_once _ _ T).
  - intros i j H1 H2. apply filter_In in H1 as [H1 _]. apply filter_In in H2 as [H2 _]. apply filter_In in H1 as [H1 _]. apply filter_In in H2 as [H2 _].
    exact (tv_one_way _ _ T i j H1 H2).
  - intros i j H. apply filter_In in H as [H F]. split.
    + pose proof (kept_norm E B SF boxes vs T LB (i, j) H) as K. apply in_map_iff in K as ([[k l] c] & Q & K). exists c. cbn [fst] in Q. subst.
      destruct (norm_cases (i, j)) as [X|X]; rewrite X in Q; injection Q as -> ->; auto.
    + destruct (FC _ H) as (a & b & CO). unfold fl in F. unfold N.
      destruct (reported E sts (i, j, None)) as [[[dist [s t]] ov]|] eqn:Q; [|discriminate F].
      rewrite (reported_at E sts (i, j, None) a b CO) in Q. destruct (ovl_sound _ _ _ _ _ _ _ _ Q) as (I1 & I2 & D & O & P & EP).
      exists a, b, s, t. subst dist ov. auto 8.
Qed.
Print Assumptions bcoll_error_sound.

(** C104. In a settled pose the order of the visits does not matter: the error is that of the function
    without a tree, and getCollisionPairs returns the pairs that overlap. Missing: the other poses, see
    [bcoll_order_refuted] and the refuted parts of C103. *)
Theorem bcoll_error_partial E B m vs boxes jp sts N : coll_wf E -> same_function E B -> parents_first (sk_parents (co_sk E)) -> single_root (sk_parents (co_sk E)) ->
  co_sk E <> [] -> length sts = length (co_sk E) -> length jp = pt_rows (co_pt E) -> capsule_boxes B sts boxes -> traversal boxes vs ->
  (forall pr a b, In pr (co_pairs E) -> capsules_of E pr a b -> settled (co_eps E) sts a b (fst (N pr)) (snd (N pr))) ->
  exists m' l act, bcoll_error B m vs jp sts = Ok (coll_penalty E sts N, m') /\ coll_error E jp sts = Ok (coll_penalty E sts N, act) /\
    bcoll_pairs B m' = Ok l /\ NoDup l /\
    forall i j, (i < j)%nat -> (visited l i j <-> exists c, In (i, j, c) (co_pairs E) /\ 0 < depth_at E sts N (i, j, c)).
Proof.
  intros W SF V SR NE LS LJ CB T ST. pose proof (tv_in_range E B SF W sts LS boxes vs CB T) as RG.
  destruct (boxes_of E B SF W sts LS boxes CB) as [_ LB].
  destruct (coll_error_partial E jp sts N W LS LJ ST) as (act & CE & _).
  set (fl := fun v : nat * nat => match reported E sts (v, None) with Some _ => true | None => false end).
  assert (KR : forall pr v, In pr (co_pairs E) -> v = fst pr \/ v = flip (fst pr) ->
    rep E sts v = Rmax 0 (depth_at E sts N pr) /\ (fl v = true <-> 0 < depth_at E sts N pr)).
  { intros pr v HP HV. destruct (wf_caps E W pr HP) as (a & b & CO). pose proof (ST pr a b HP CO) as S.
    assert (DA : depth_at E sts N pr = depth sts a b (fst (N pr)) (snd (N pr))) by (unfold depth_at; destruct CO as [-> ->]; reflexivity). rewrite DA.
    unfold fl. destruct HV as [-> | ->].
    - split; [apply (rep_settled E (fun _ => sts) 0 a b (fst pr)); [exact CO|exact S]|].
      rewrite (reported_at E sts (fst pr, None) a b CO), (settled_ovl _ _ _ _ _ _ S). destruct (Rltb_spec 0 (depth sts a b (fst (N pr)) (snd (N pr)))); split; try reflexivity; try discriminate; intros; lra.
    - apply settled_sym in S. assert (CO' : capsules_of E (flip (fst pr), None) b a) by (destruct CO; split; assumption). rewrite depth_sym.
      split; [apply (rep_settled E (fun _ => sts) 0 b a (flip (fst pr))); [exact CO'|exact S]|].
      rewrite (reported_at E sts (flip (fst pr), None) b a CO'), (settled_ovl _ _ _ _ _ _ S). destruct (Rltb_spec 0 (depth sts b a (snd (N pr)) (fst (N pr)))); split; try reflexivity; try discriminate; intros; lra. }
  exists (map (cap_st sts) (co_geo E), vs), (filter fl (kept B vs)), act. split; [|split; [exact CE|split; [apply (bpairs_loop_ok E B SF sts vs RG)|split]]].
  - rewrite (bcoll_error_ok E B SF W V SR sts LS m vs jp RG LJ (states_nonempty E sts NE LS)).
    apply (f_equal (@Ok (R * bmem))), (f_equal2 pair); [|reflexivity]. unfold coll_penalty. f_equal.
    rewrite (kept_sum E B SF W boxes vs T LB). f_equal. apply map_ext_in. intros pr HP. unfold pick, as_visited. rewrite excess2_max.
    destruct (in_dec2 (fst pr) vs) as [_|N1]; [destruct (KR pr (fst pr) HP (or_introl eq_refl)) as [-> _]; reflexivity|].
    destruct (in_dec2 (flip (fst pr)) vs) as [_|N2']; [destruct (KR pr (flip (fst pr)) HP (or_intror eq_refl)) as [-> _]; reflexivity|].
    destruct (KR pr (fst pr) HP (or_introl eq_refl)) as [Q _]. rewrite <- Q. destruct pr as [[k l] a]. cbn [fst] in *.
    rewrite (unvisited E B SF W sts LS boxes vs k l a CB T HP); [ring|]. intros [X|X]; [apply N1, X|apply N2', X].
  - apply NoDup_filter, NoDup_filter, (tv_once _ _ T).
  - intros i j L. split.
    + assert (K : forall v, norm v = (i, j) -> In v (filter fl (kept B vs)) -> exists c, In (i, j, c) (co_pairs E) /\ 0 < depth_at E sts N (i, j, c)).
      { intros v Q Hv. apply filter_In in Hv as [Hv F]. pose proof (kept_norm E B SF boxes vs T LB v Hv) as K. rewrite Q in K.
        apply in_map_iff in K as ([[k l] c] & Q2 & K). cbn [fst] in Q2. injection Q2 as -> ->. exists c. split; [exact K|].
        apply (KR (i, j, c) v K); [|exact F]. cbn [fst]. rewrite <- Q. destruct (norm_cases v) as [-> | ->]; [left; reflexivity|right; symmetry; apply flip_flip]. }
      intros [H|H]; [apply (K (i, j)); [|exact H]|apply (K (j, i)); [|exact H]]; unfold norm, flip; cbn [fst snd];
        [destruct (Nat.leb_spec i j)|destruct (Nat.leb_spec j i)]; try reflexivity; lia.
    + intros (c & HP & D).
      assert (VI : visited vs i j).
      { destruct (in_dec2 (i, j) vs) as [X|N1]; [left; exact X|]. destruct (in_dec2 (j, i) vs) as [X|N2']; [right; exact X|]. exfalso.
        destruct (KR (i, j, c) (i, j) HP (or_introl eq_refl)) as [Q _]. rewrite (unvisited E B SF W sts LS boxes vs i j c CB T HP) in Q by (intros [X|X]; contradiction).
        rewrite Rmax_right in Q by lra. lra. }
      destruct (key_kept E B SF W boxes vs LB (i, j)) as (K1 & K2 & _); [apply (in_map fst) in HP; exact HP|].
      destruct VI as [X|X]; [left|right]; apply filter_In; (split; [first [apply K1, X|apply K2, X]|]).
      * apply (KR (i, j, c) (i, j) HP (or_introl eq_refl)), D.
      * apply (KR (i, j, c) (j, i) HP (or_intror eq_refl)), D.
Qed.
Print Assumptions bcoll_error_partial.

(** ** Gradient and Jacobian *)

(** C17, C104. The gradient is the derivative of the error that getError returns when it visits the pairs in
    any order, which may be another one at every parameter value. Missing: the poses that are not strictly
    settled, tapered capsules and parameters that scale a capsule, refuted in C103. *)
Theorem bcoll_gradient_partial E B m p i q sts N vis g :
  coll_wf E -> same_function E B -> pt_wf (co_pt E) -> parents_first (sk_parents (co_sk E)) -> single_root (sk_parents (co_sk E)) -> unit_prerotations (co_sk E) ->
  co_sk E <> [] -> length p = pt_cols (co_pt E) -> length g = length p -> (i < length p)%nat -> co_enabled E i = true -> 0 < co_eps E ->
  (forall t, pt_apply (co_pt E) (set_nth p i t) = Ok (q t)) -> (forall t, fk (co_sk E) (q t) = Ok (sts t)) ->
  (forall x, exists boxes, capsule_boxes B (sts x) boxes /\ traversal boxes (vis x)) ->
  (forall pr a b, In pr (co_pairs E) -> capsules_of E pr a b ->
     keeps_size E i a /\ keeps_size E i b /\ untapered a /\ untapered b /\
     settled_strictly (co_eps E) (sts (nth i p 0)) a b (fst (N pr)) (snd (N pr))) ->
  exists F m' g', (forall x, exists m', bcoll_error B m (vis x) (q x) (sts x) = Ok (F x, m')) /\
    bcoll_gradient B m (vis (nth i p 0)) (q (nth i p 0)) (sts (nth i p 0)) g = Ok (F (nth i p 0), g', m') /\ length g' = length g /\
    is_derive F (nth i p 0) (nth i g' 0 - nth i g 0).
Proof.
  intros W SF WP V SR U NE Lp Lg Hi EN EP Hq Hs TV ST. rewrite Lp in *.
  set (x0 := nth i p 0) in *. pose proof (path_len E V q sts Hs) as LS. pose proof (path_qlen' E WP p i q Hq) as LQ.
  destruct (TV x0) as (boxes & CB & T). pose proof (tv_in_range E B SF W (sts x0) (LS x0) boxes (vis x0) CB T) as RG.
  pose proof (with_wf E B SF W V SR (vis x0) RG) as WV.
  destruct (grad_loop_ok (with_pairs E (prs_of B (vis x0))) WV WP V U p i q sts Lp Hi EN Hq Hs (N3 E N) (prs_of B (vis x0)) EP) with (g := g)
    as (g' & D & G1 & G2 & G3 & G4 & _); [|exact Lg|].
  { intros pr HP. split; [exact HP|]. apply (kept_ok E B SF W V p i q sts Hs N ST boxes (vis x0) CB T pr HP). }
  exists (Ferr E B sts vis), (map (cap_st (sts x0)) (co_geo E), vis x0), g'. split; [|split; [|split; [exact G2|]]].
  - intros x. destruct (TV x) as (bx & CBx & Tx). eexists.
    rewrite (bcoll_error_ok E B SF W V SR (sts x) (LS x) m (vis x) (q x) (tv_in_range E B SF W (sts x) (LS x) bx (vis x) CBx Tx) (LQ x) (states_nonempty E _ NE (LS x))).
    reflexivity.
  - unfold bcoll_gradient. pose proof (states_nonempty E _ NE (LS x0)) as NS. destruct (sts x0) as [|s0 r] eqn:Q; [congruence|]. rewrite <- Q in *.
    rewrite LQ, (cw_pt E W), (sf_sk E B SF), Nat.mul_comm, Nat.eqb_refl. cbn [Limits_model.check obind]. rewrite (bupdate E B SF W (sts x0) (LS x0)). cbn [obind].
    pose proof (bgrad_ok E B SF W V SR _ _ _ _ _ _ _ _ RG G1) as G1'. cbn [co_geo with_pairs] in G1'. fold x0 in G1'. rewrite G1'. cbn [obind]. apply (f_equal (@Ok (R * list R * bmem))), (f_equal2 pair); [apply (f_equal2 pair)|]; try reflexivity.
    unfold Ferr. f_equal. unfold prs_of. rewrite map_map. reflexivity.
  - rewrite G3. cbn [co_weight with_pairs]. rewrite (total_at E B SF W WP V U p i q sts Lp Hi EN EP Hq Hs N ST boxes (vis x0) CB T D G4).
    apply (Ferr_derive E B SF W WP V U p i q sts Lp Hi EN EP Hq Hs N ST vis TV).
Qed.
Print Assumptions bcoll_gradient_partial.

(** C18, C104. The Jacobian likewise: no more rows than getJacobianSize says, and J^T r is the derivative of
    the error. *)
Theorem bcoll_jacobian_partial E B m p i q sts N vis :
  coll_wf E -> same_function E B -> pt_wf (co_pt E) -> parents_first (sk_parents (co_sk E)) -> single_root (sk_parents (co_sk E)) -> unit_prerotations (co_sk E) ->
  co_sk E <> [] -> length p = pt_cols (co_pt E) -> (i < length p)%nat -> co_enabled E i = true -> 0 < co_eps E -> 0 <= co_weight E ->
  (forall t, pt_apply (co_pt E) (set_nth p i t) = Ok (q t)) -> (forall t, fk (co_sk E) (q t) = Ok (sts t)) ->
  (forall x, exists boxes, capsule_boxes B (sts x) boxes /\ traversal boxes (vis x)) ->
  (forall pr a b, In pr (co_pairs E) -> capsules_of E pr a b ->
     keeps_size E i a /\ keeps_size E i b /\ untapered a /\ untapered b /\
     settled_strictly (co_eps E) (sts (nth i p 0)) a b (fst (N pr)) (snd (N pr))) ->
  exists F m' rows, (forall x, exists m', bcoll_error B m (vis x) (q x) (sts x) = Ok (F x, m')) /\
    bcoll_jacobian B m (vis (nth i p 0)) (q (nth i p 0)) (sts (nth i p 0)) = Ok (F (nth i p 0), rows, m') /\
    (length rows <= bcoll_jacobian_size B)%nat /\ (forall row, In row rows -> length (fst row) = pt_cols (co_pt E)) /\
    rsum (map (fun row => snd row * snd row) rows) = F (nth i p 0) /\
    is_derive F (nth i p 0) (jt_r rows i).
Proof.
  intros W SF WP V SR U NE Lp Hi EN EP WG Hq Hs TV ST. rewrite Lp in *.
  set (x0 := nth i p 0) in *. pose proof (path_len E V q sts Hs) as LS. pose proof (path_qlen' E WP p i q Hq) as LQ.
  destruct (TV x0) as (boxes & CB & T). pose proof (tv_in_range E B SF W (sts x0) (LS x0) boxes (vis x0) CB T) as RG.
  pose proof (with_wf E B SF W V SR (vis x0) RG) as WV.
  destruct (jac_loop_ok (with_pairs E (prs_of B (vis x0))) WV WP V U p i q sts Lp Hi EN Hq Hs (N3 E N) (prs_of B (vis x0)) EP WG)
    as (rows & D & G1 & G2 & G3 & G4 & G5 & G6 & _).
  { intros pr HP. split; [exact HP|]. apply (kept_ok E B SF W V p i q sts Hs N ST boxes (vis x0) CB T pr HP). }
  assert (FX : 5 / 1000 * co_weight (with_pairs E (prs_of B (vis x0))) * rsum (map (fun pr => rep_depth (with_pairs E (prs_of B (vis x0))) (sts x0) pr * rep_depth (with_pairs E (prs_of B (vis x0))) (sts x0) pr) (prs_of B (vis x0))) = Ferr E B sts vis x0).
  { unfold Ferr. cbn [co_weight with_pairs]. f_equal. unfold prs_of. rewrite map_map. reflexivity. }
  fold x0 in G1, G4. rewrite FX in G1, G4.
  exists (Ferr E B sts vis), (map (cap_st (sts x0)) (co_geo E), vis x0), rows. split; [|split; [|split; [|split; [exact G3|split; [exact G4|]]]]].
  - intros x. destruct (TV x) as (bx & CBx & Tx). eexists.
    rewrite (bcoll_error_ok E B SF W V SR (sts x) (LS x) m (vis x) (q x) (tv_in_range E B SF W (sts x) (LS x) bx (vis x) CBx Tx) (LQ x) (states_nonempty E _ NE (LS x))).
    reflexivity.
  - unfold bcoll_jacobian. pose proof (states_nonempty E _ NE (LS x0)) as NS. destruct (sts x0) as [|s0 r] eqn:Q; [congruence|]. rewrite <- Q in *.
    rewrite LQ, (cw_pt E W), (sf_sk E B SF), Nat.mul_comm, Nat.eqb_refl. cbn [Limits_model.check obind]. rewrite (bupdate E B SF W (sts x0) (LS x0)). cbn [obind].
    pose proof (bjac_ok E B SF W V SR _ _ _ _ _ _ _ RG G1) as G1'. cbn [co_geo with_pairs] in G1'. fold x0 in G1'. rewrite G1'. reflexivity.
  - eapply Nat.le_trans; [exact G2|]. unfold prs_of. rewrite map_length. unfold bcoll_jacobian_size. destruct (boxes_of E B SF W (sts x0) (LS x0) boxes CB) as [_ LB].
    apply (kept_few E B SF boxes (vis x0) T LB).
  - rewrite G5. cbn [co_weight with_pairs]. rewrite (total_at E B SF W WP V U p i q sts Lp Hi EN EP Hq Hs N ST boxes (vis x0) CB T D G6).
    apply (Ferr_derive E B SF W WP V U p i q sts Lp Hi EN EP Hq Hs N ST vis TV).
Qed.
Print Assumptions bcoll_jacobian_partial.

(** ** Histories *)

Lemma caps_nil_mem (sts : list jstate) {A} (x y : A) : sts <> [] -> match sts with [] => x | _ => y end = y.
Proof. destruct sts; [congruence|reflexivity]. Qed.
Lemma bstep_mem B m c m' : Cbvh_model.bstep B m c = Ok m' ->
  (snd (call_pose c) = [] -> m' = m) /\ (snd (call_pose c) <> [] -> exists cs, caps_update (snd (call_pose c)) (bc_geo B) = Ok cs /\ m' = (cs, fst (call_pose c))).
Proof.
  destruct c as [vs jp sts|vs jp sts g|vs jp sts]; cbn [Cbvh_model.bstep call_pose fst snd]; [unfold bcoll_error|unfold bcoll_gradient|unfold bcoll_jacobian];
    (destruct sts as [|s r]; [cbn [obind snd]; intros H; injection H as <-; split; [reflexivity|congruence]|]);
    (destruct (Limits_model.check _) as [[]| | | |]; try discriminate); cbn [obind];
    (destruct (caps_update (s :: r) (bc_geo B)) as [cs| | | |] eqn:C; try discriminate); cbn [obind].
  - destruct (bcoll_err_loop B cs vs) as [e| | | |]; try discriminate. cbn [obind snd]. intros H; injection H as <-. split; [discriminate|]. intros _. exists cs. split; [reflexivity|reflexivity].
  - destruct (bcoll_grad_loop B (s :: r) cs vs g) as [[e g']| | | |]; try discriminate. cbn [obind snd]. intros H; injection H as <-. split; [discriminate|]. intros _. exists cs. split; [reflexivity|reflexivity].
  - destruct (bcoll_jac_loop B (s :: r) cs vs) as [[e g']| | | |]; try discriminate. cbn [obind snd]. intros H; injection H as <-. split; [discriminate|]. intros _. exists cs. split; [reflexivity|reflexivity].
Qed.

(** C104. After any history of calls, getCollisionPairs answers for the pose of the last call that had one,
    whatever the object did before; without such a call it answers for the rest pose. *)
Theorem bcoll_history B m l m' : bhistory B m l = Ok m' ->
  match last_pose l with
  | None => m' = m
  | Some (vs, sts) => exists cs, caps_update sts (bc_geo B) = Ok cs /\ m' = (cs, vs)
  end.
Proof.
  revert m; induction l as [|c l IH]; intros m; cbn [bhistory last_pose]; [intros H; injection H as <-; reflexivity|].
  destruct (Cbvh_model.bstep B m c) as [m1| | | |] eqn:S1; try discriminate. cbn [obind]. intros H. specialize (IH m1 H).
  destruct (bstep_mem B m c m1 S1) as [M1 M2]. destruct (last_pose l) as [x|]; [exact IH|].
  destruct (snd (call_pose c)) as [|s r] eqn:Q; [subst; apply M1; reflexivity|]. destruct (call_pose c) as [vs sts]. cbn [fst snd] in *. subst sts m1.
  apply M2. discriminate.
Qed.
Print Assumptions bcoll_history.

(** C104. No call depends on what the object did before. *)
Theorem bcoll_history_free B m m' vs jp sts g : sts <> [] ->
  bcoll_error B m vs jp sts = bcoll_error B m' vs jp sts /\ bcoll_gradient B m vs jp sts g = bcoll_gradient B m' vs jp sts g /\
  bcoll_jacobian B m vs jp sts = bcoll_jacobian B m' vs jp sts.
Proof. intros NE. unfold bcoll_error, bcoll_gradient, bcoll_jacobian. destruct sts; [congruence|]. auto. Qed.
Print Assumptions bcoll_history_free.

(** ** Cases *)

(** The function with a tree for the two capsules of [cx_E]; no pair is excluded. *)
Definition cx_B (h : R) (r : nat) (a b : capsule) : bcoll_fn :=
  BColl (cx_sk h) (cx_pt r) [a; b] [] 1 1 (fun _ => true) (repeat true 21) (/ 100000000).
Lemma cx_same h r a b : same_function (cx_E h r a b) (cx_B h r a b).
Proof.
  constructor; try reflexivity.
  - repeat constructor. intros [].
  - intros i j o H. cbn in H. destruct H as [H|[]]. injection H as <- <- _. lia.
  - intros i j L1 L2. cbn in L2. split; [|reflexivity]. intros _. exists (Some 0%nat). left. assert (i = 0%nat /\ j = 1%nat) as [-> ->] by lia. reflexivity.
Qed.
Lemma two_traversal b c : traversal [b; c] [(0, 1)%nat] /\ traversal [b; c] [(1, 0)%nat].
Proof.
  split; constructor.
  - intros i j [H|[]]. injection H as <- <-. cbn. lia.
  - repeat constructor. intros [].
  - intros i j [H|[]] [H2|[]]. injection H as <- <-. discriminate.
  - intros i j x y L H1 H2 _. assert (j < 2)%nat by (apply (proj1 (nth_error_Some [b; c] j)); congruence). assert (i = 0%nat /\ j = 1%nat) as [-> ->] by lia. left; left; reflexivity.
  - intros i j [H|[]]. injection H as <- <-. cbn. lia.
  - repeat constructor. intros [].
  - intros i j [H|[]] [H2|[]]. injection H as <- <-. discriminate.
  - intros i j x y L H1 H2 _. assert (j < 2)%nat by (apply (proj1 (nth_error_Some [b; c] j)); congruence). assert (i = 0%nat /\ j = 1%nat) as [-> ->] by lia. right; left; reflexivity.
Qed.
Lemma cx_boxes h r a b sts : coll_wf (cx_E h r a b) -> length sts = 3%nat ->
  exists bx, capsule_boxes (cx_B h r a b) sts bx /\ traversal bx [(0, 1)%nat] /\ traversal bx [(1, 0)%nat].
Proof.
  intros W L. pose proof (bupdate (cx_E h r a b) (cx_B h r a b) (cx_same h r a b) W sts L) as U. eexists. split; [eexists; split; [exact U|reflexivity]|].
  cbn [cx_E co_geo map]. apply two_traversal.
Qed.

(** Four boxes in the order of the leaves. *)
Example half_tree : exists t vs, build 1 half = Ok t /\ overlapping_pairs (record true) t [] = Ok vs /\
  traversal (map (fun b => RB (q3r (lo b)) (q3r (hi b))) half) vs.
Proof.
  apply bcoll_tree_contract; [discriminate|cbn; lia|apply Permutation_refl|].
  intros b [<-|[<-|[<-|[<-|[]]]]]; reflexivity.
Qed.
(** The constructor on two capsules. *)
Example cx_make : exists E B m, coll_make (/ 100000000) (cx_sk 0) (cx_pt 7) [cy; cz] = Ok E /\ bcoll_make (/ 100000000) (cx_sk 0) (cx_pt 7) [cy; cz] [(0, 1)%nat] = Ok (B, m) /\
  same_function E B /\ (0 < bcoll_jacobian_size B)%nat.
Proof.
  destruct (cx_sk_ok 0) as (H1 & _ & H2).
  destruct (bcoll_make_same (/ 100000000) (cx_sk 0) (cx_pt 7) [cy; cz] (cx_sts 0 7 0) [(0, 1)%nat] H1 H2) as (E & B & m & M1 & M2 & M3 & M4).
  - intros c [<-|[<-|[]]]; eexists; (split; [reflexivity|cbn; lia]).
  - reflexivity.
  - apply (cx_fk 0 7 0). left; reflexivity.
  - exists E, B, m. split; [exact M1|]. split; [exact M2|]. split; [exact M3|]. rewrite M4.
    destruct cx_pairs as (prs & P1 & P2). unfold coll_make in M1. rewrite P1 in M1. cbn [obind] in M1. injection M1 as <-.
    unfold coll_jacobian_size. cbn [co_pairs]. destruct prs; [destruct P2|cbn; lia].
Qed.
(** A point of a capsule is in its box. *)
Example cx_box : exists bx b, capsule_boxes (cx_B 0 7 cy cz) (cx_sts 0 7 0) bx /\ nth_error bx 0 = Some b /\ box_has b (V3 (10 + 1 / 4) 0 0).
Proof.
  destruct (cx_boxes 0 7 cy cz (cx_sts 0 7 0) cyz_wf eq_refl) as (bx & CB & _).
  destruct (bcoll_box_covers (cx_B 0 7 cy cz) (cx_sts 0 7 0) bx 0 cy (1 / 2) (V3 (10 + 1 / 4) 0 0) CB eq_refl) as (b & B1 & B2).
  - unfold in_unit. lra.
  - rewrite cy_radius. lra.
  - rewrite cy_radius, cy_point. unfold vsub; cbn. rewrite (dist_at _ _ _ (1 / 4)) by (lra || field). lra.
  - exists bx, b. auto.
Qed.

(** The pose at distance 1/2: the error is that of the other function, and the pair is reported. *)
Example cx_berror : exists m l, bcoll_error (cx_B 0 7 cy cz) ([], []) [(1, 0)%nat] (cx_q 7 (- (19 / 2))) (cx_sts 0 7 (- (19 / 2))) = Ok (5 / 1000 * (1 / 4), m) /\
  bcoll_pairs (cx_B 0 7 cy cz) m = Ok l /\ visited l 0 1.
Proof.
  destruct (cx_boxes 0 7 cy cz (cx_sts 0 7 (- (19 / 2))) cyz_wf eq_refl) as (bx & CB & _ & T). destruct (cx_sk_ok 0) as (H1 & _ & H2).
  destruct (bcoll_error_partial (cx_E 0 7 cy cz) (cx_B 0 7 cy cz) ([], []) [(1, 0)%nat] bx (cx_q 7 (- (19 / 2))) (cx_sts 0 7 (- (19 / 2))) (fun _ => (1 / 2, 1 / 2))
    cyz_wf (cx_same _ _ _ _) H1 H2 ltac:(discriminate) eq_refl eq_refl CB T) as (m & l & act & E1 & _ & E3 & _ & E5).
  { intros pr a b H [C1 C2]. cbn in H. destruct H as [<-|[]]. cbn in C1, C2. injection C1 as <-. injection C2 as <-. apply settled_weaken, cyz_settled. cbn. lra. }
  assert (D : depth_at (cx_E 0 7 cy cz) (cx_sts 0 7 (- (19 / 2))) (fun _ => (1 / 2, 1 / 2)) (0%nat, 1%nat, Some 0%nat) = 1 / 2).
  { change (depth (cx_sts 0 7 (- (19 / 2))) cy cz (1 / 2) (1 / 2) = 1 / 2). rewrite cyz_depth by lra. lra. }
  exists m, l. split; [|split; [exact E3|]].
  - rewrite E1. apply (f_equal (@Ok (R * bmem))), (f_equal2 pair); [|reflexivity]. unfold coll_penalty. cbn [cx_E co_weight co_pairs map rsum]. cbn [cx_E] in D.
    change (5 / 1000 * 1 * (excess2 (depth_at (cx_E 0 7 cy cz) (cx_sts 0 7 (- (19 / 2))) (fun _ => (1 / 2, 1 / 2)) (0%nat, 1%nat, Some 0%nat)) + 0) = 5 / 1000 * (1 / 4)).
    change (depth_at (cx_E 0 7 cy cz) (cx_sts 0 7 (- (19 / 2))) (fun _ => (1 / 2, 1 / 2)) (0%nat, 1%nat, Some 0%nat) = 1 / 2) in D.
    rewrite D, excess2_pos by lra. field.
  - apply E5; [lia|]. exists (Some 0%nat). split; [left; reflexivity|]. rewrite D. lra.
Qed.

(** After that call and one with an empty pose the memory is still that of the first one. *)
Example cx_bhistory : exists m', bhistory (cx_B 0 7 cy cz) ([], []) [BError [(1, 0)%nat] (cx_q 7 (- (19 / 2))) (cx_sts 0 7 (- (19 / 2))); BJacobian [] [] []] = Ok m' /\
  snd m' = [(1, 0)%nat].
Proof.
  destruct cx_berror as (m & l & E1 & _). unfold bhistory, Cbvh_model.bstep. rewrite E1. cbn [obind snd bcoll_jacobian]. exists m. split; [reflexivity|].
  assert (H : bhistory (cx_B 0 7 cy cz) ([], []) [BError [(1, 0)%nat] (cx_q 7 (- (19 / 2))) (cx_sts 0 7 (- (19 / 2)))] = Ok m) by (unfold bhistory, Cbvh_model.bstep; rewrite E1; reflexivity).
  apply bcoll_history in H. cbn [last_pose call_pose snd] in H. destruct H as (cs & _ & ->). reflexivity.
Qed.

(** The gradient in that pose, with an order of the visits that changes with the parameter. *)
Example cx_bgradient : exists F m g' m' rows,
  bcoll_gradient (cx_B 0 7 cy cz) ([], []) [(0, 1)%nat] (cx_q 7 (- (19 / 2))) (cx_sts 0 7 (- (19 / 2))) [7] = Ok (F, g', m) /\ nth 0 g' 0 = 7 - 5 / 1000 /\
  bcoll_jacobian (cx_B 0 7 cy cz) ([], []) [(0, 1)%nat] (cx_q 7 (- (19 / 2))) (cx_sts 0 7 (- (19 / 2))) = Ok (F, rows, m') /\ jt_r rows 0 = - (5 / 1000).
Proof.
  destruct (cx_hyps 7 0 cy cz (or_introl eq_refl)) as (H1 & H2 & H3 & H4 & H5). destruct (cx_sk_ok 0) as (_ & _ & HR).
  assert (ST : forall pr a b, In pr (co_pairs (cx_E 0 7 cy cz)) -> capsules_of (cx_E 0 7 cy cz) pr a b ->
     keeps_size (cx_E 0 7 cy cz) 0 a /\ keeps_size (cx_E 0 7 cy cz) 0 b /\ untapered a /\ untapered b /\
     settled_strictly (co_eps (cx_E 0 7 cy cz)) (cx_sts 0 7 (nth 0 [- (19 / 2)] 0)) a b (fst (1 / 2, 1 / 2)) (snd (1 / 2, 1 / 2))).
  { intros pr a b H [C1 C2]. cbn in H. destruct H as [<-|[]]. cbn in C1, C2. injection C1 as <-. injection C2 as <-.
    split; [apply cx_keeps|]. split; [apply cx_keeps|]. split; [reflexivity|]. split; [reflexivity|]. apply cyz_settled. cbn. lra. }
  set (vis := fun x : R => if Rltb (- (19 / 2)) x then [(1, 0)%nat] else [(0, 1)%nat]).
  assert (V0 : vis (- (19 / 2)) = [(0, 1)%nat]) by (unfold vis; destruct (Rltb_spec (- (19 / 2)) (- (19 / 2))); [lra|reflexivity]).
  assert (TV : forall x, exists boxes, capsule_boxes (cx_B 0 7 cy cz) (cx_sts 0 7 x) boxes /\ traversal boxes (vis x)).
  { intros x. destruct (cx_boxes 0 7 cy cz (cx_sts 0 7 x) cyz_wf eq_refl) as (bx & CB & T1 & T2). exists bx. split; [exact CB|]. unfold vis. destruct (Rltb _ _); assumption. }
  destruct (bcoll_gradient_partial (cx_E 0 7 cy cz) (cx_B 0 7 cy cz) ([], []) [- (19 / 2)] 0 (cx_q 7) (cx_sts 0 7) (fun _ => (1 / 2, 1 / 2)) vis [7]
    cyz_wf (cx_same _ _ _ _) H1 H2 HR H3 ltac:(discriminate) eq_refl eq_refl ltac:(cbn; lia) eq_refl ltac:(cbn; lra) (H4 _) H5 TV ST) as (F & m & g' & F1 & F2 & _ & F3).
  destruct (bcoll_jacobian_partial (cx_E 0 7 cy cz) (cx_B 0 7 cy cz) ([], []) [- (19 / 2)] 0 (cx_q 7) (cx_sts 0 7) (fun _ => (1 / 2, 1 / 2)) vis
    cyz_wf (cx_same _ _ _ _) H1 H2 HR H3 ltac:(discriminate) eq_refl ltac:(cbn; lia) eq_refl ltac:(cbn; lra) ltac:(cbn; lra) (H4 _) H5 TV ST) as (F' & m' & rows & F1' & G2 & _ & _ & _ & G3).
  cbn [nth] in F2, F3, G2, G3. rewrite V0 in F2, G2.
  assert (FF : forall x, F' x = F x). { intros x. destruct (F1 x) as (? & A1). destruct (F1' x) as (? & A2). rewrite A1 in A2. injection A2 as -> _. reflexivity. }
  assert (D : is_derive F (- (19 / 2)) (- (5 / 1000))).
  { apply (is_derive_ext_loc (fun x => 5 / 1000 * ((- 9 - x) * (- 9 - x)))).
    - exists (mkposreal (/ 4) ltac:(lra)). intros t Ht. unfold ball in Ht; cbn in Ht. unfold AbsRing_ball, abs, minus, plus, opp in Ht; cbn in Ht.
      apply Rabs_lt_between in Ht. destruct (F1 t) as (mt & A1). destruct (TV t) as (bx & CB & T).
      destruct (bcoll_error_partial (cx_E 0 7 cy cz) (cx_B 0 7 cy cz) ([], []) (vis t) bx (cx_q 7 t) (cx_sts 0 7 t) (fun _ => (1 / 2, 1 / 2))
        cyz_wf (cx_same _ _ _ _) H2 HR ltac:(discriminate) eq_refl eq_refl CB T) as (mm & l & act & E1 & _).
      { intros pr a b H [C1 C2]. cbn in H. destruct H as [<-|[]]. cbn in C1, C2. injection C1 as <-. injection C2 as <-. apply settled_weaken, cyz_settled. cbn. lra. }
      rewrite A1 in E1. injection E1 as E1 _. rewrite E1. unfold coll_penalty. cbn [cx_E co_weight co_pairs map rsum].
      change (5 / 1000 * ((-9 - t) * (-9 - t)) = 5 / 1000 * 1 * (excess2 (depth (cx_sts 0 7 t) cy cz (1 / 2) (1 / 2)) + 0)).
      rewrite cyz_depth, excess2_pos by lra. field.
    - auto_derive; [exact I|]. field. }
  exists (F (- (19 / 2))), m, g', m', rows. split; [exact F2|].
  pose proof (is_derive_unique _ _ _ D) as U. rewrite (is_derive_unique _ _ _ F3) in U. split; [lra|].
  split; [rewrite <- FF; exact G2|]. rewrite <- (is_derive_unique _ _ _ G3), (Derive_ext F' F) by (intros; apply FF).
  apply is_derive_unique, D.
Qed.

(** ** What fails *)

(** C104. A capsule and a sphere beside its far end: the error depends on which of the two the tree names
    first. *)
Definition co_a : capsule := cx_cap 1 mid vzero (3 / 2) (3 / 2).
Definition co_s : capsule := Cap (Aff mid (V3 2 (3 / 2) 0)) (3 / 2) (3 / 2) (Some 2%nat) 0.
Lemma co_a_point s : cap_point (cx_sts 0 7 0) co_a s = V3 (2 * s) 0 0.
Proof.
  unfold cap_point, world_point, tf_point. cbn [co_a cx_cap cap_parent cap_tf cap_length nth_error cx_sts Nat.eqb cx_state js_world scl rot trans].
  rewrite exp2_0. lazy -[Rplus Rmult Rminus Ropp]. f_equal; ring.
Qed.
Lemma co_s_point s : cap_point (cx_sts 0 7 0) co_s s = V3 2 (3 / 2) 0.
Proof.
  unfold cap_point, world_point, tf_point. cbn [co_s cap_parent cap_tf cap_length nth_error cx_sts Nat.eqb cx_state js_world scl rot trans].
  rewrite exp2_0. lazy -[Rplus Rmult Rminus Ropp Rdiv]. f_equal; field.
Qed.
Lemma co_radius s : cap_radius (cx_sts 0 7 0) co_a s = 3 / 2 /\ cap_radius (cx_sts 0 7 0) co_s s = 3 / 2.
Proof. split; unfold cap_radius, cap_scale; cbn; rewrite exp2_0; field. Qed.
Lemma co_wf : coll_wf (cx_E 0 7 co_a co_s).
Proof.
  constructor; try reflexivity.
  - intros e H _. cbn in H. destruct H as [<-|[]]. reflexivity.
  - intros c H. cbn in H. destruct H as [<-|[<-|[]]]; eexists; (split; [reflexivity|cbn; lia]).
  - intros pr H. cbn in H. destruct H as [<-|[]]. eexists. eexists. exists 0%nat, 1%nat, 2%nat. split; [split; reflexivity|].
    split; [reflexivity|]. split; [reflexivity|]. split; [reflexivity|]. destruct (cx_chains 0) as [C1 C2].
    split; [exists [0; 1]%nat; split; [exact C1|left; reflexivity]|exists [0; 2]%nat; split; [exact C2|left; reflexivity]].
Qed.
Ltac rb := match goal with
  | |- context [Rltb ?u ?v] => first [rewrite (proj2 (Rltb_true u v)) by (unfold kSegEps; lra) | rewrite (proj2 (Rltb_false u v)) by (unfold kSegEps; lra)]; cbv iota zeta
  end.
Lemma param_zero n m : n = 0 -> seg_param n m = 0.
Proof. intros ->. unfold seg_param. rewrite Rabs_R0. rb. reflexivity. Qed.
Lemma param_div n m : 1 <= n -> seg_param n m = n / m.
Proof. intros H. unfold seg_param. rewrite Rabs_right by lra. rb. reflexivity. Qed.
Lemma co_close1 : closest_on_segments (V3 (2 * 0) 0 0) (vsub (V3 (2 * 1) 0 0) (V3 (2 * 0) 0 0)) (V3 2 (3 / 2) 0) (vsub (V3 2 (3 / 2) 0) (V3 2 (3 / 2) 0)) (3 / 2 + 3 / 2) =
  Some (5 / 2, (0, 0)).
Proof.
  unfold closest_on_segments, seg_lines, vnorm2, vdot, vsub; cbn [vx vy vz]. cbv zeta. rb. rb. unfold seg_edges. rb. rb.
  rewrite (param_zero 0 1) by lra. rewrite param_zero by lra. unfold vadd, vscale; cbn [vx vy vz]. rb. do 2 f_equal. 
  match goal with |- sqrt ?u = _ => replace u with (5 / 2 * (5 / 2)) by field end. apply sqrt_square. lra.
Qed.
Lemma co_close2 : closest_on_segments (V3 2 (3 / 2) 0) (vsub (V3 2 (3 / 2) 0) (V3 2 (3 / 2) 0)) (V3 (2 * 0) 0 0) (vsub (V3 (2 * 1) 0 0) (V3 (2 * 0) 0 0)) (3 / 2 + 3 / 2) =
  Some (3 / 2, (0, 1)).
Proof.
  unfold closest_on_segments, seg_lines, vnorm2, vdot, vsub; cbn [vx vy vz]. cbv zeta. rb. rb. unfold seg_edges. rb. rb.
  rewrite (param_zero 0 1) by lra. rewrite param_div by lra. unfold vadd, vscale; cbn [vx vy vz].
  match goal with |- context [?u / ?v] => replace (u / v) with 1 by field end. rb. do 2 f_equal.
  match goal with |- sqrt ?u = _ => replace u with (3 / 2 * (3 / 2)) by field end. apply sqrt_square. lra.
Qed.
Lemma co_rep : rep (cx_E 0 7 co_a co_s) (cx_sts 0 7 0) (0, 1)%nat = 1 / 2 /\ rep (cx_E 0 7 co_a co_s) (cx_sts 0 7 0) (1, 0)%nat = 3 / 2.
Proof.
  destruct (co_radius 0) as [Q1 Q2]. destruct (co_radius 1) as [Q3 Q4]. unfold rep, rep_depth. split.
  - change (reported (cx_E 0 7 co_a co_s) (cx_sts 0 7 0) ((0, 1)%nat, None)) with (overlaps (/ 100000000) (cap_st (cx_sts 0 7 0) co_a) (cap_st (cx_sts 0 7 0) co_s)).
    unfold cap_st, cap_axis, overlaps. rewrite !co_a_point, !co_s_point, Q1, Q2, Q3, Q4, Rmax_left by lra. rewrite co_close1. rb.
    destruct (Rleb_spec (/ 100000000) (5 / 2)); [|lra]. cbn [andb]. field.
  - change (reported (cx_E 0 7 co_a co_s) (cx_sts 0 7 0) ((1, 0)%nat, None)) with (overlaps (/ 100000000) (cap_st (cx_sts 0 7 0) co_s) (cap_st (cx_sts 0 7 0) co_a)).
    unfold cap_st, cap_axis, overlaps. rewrite !co_a_point, !co_s_point, Q1, Q2, Q3, Q4, Rmax_left by lra. rewrite co_close2. rb.
    destruct (Rleb_spec (/ 100000000) (3 / 2)); [|lra]. cbn [andb]. field.
Qed.
Theorem bcoll_order_refuted : exists E B m jp sts boxes vs vs' e e' m1 m2, coll_wf E /\ same_function E B /\ parents_first (sk_parents (co_sk E)) /\ single_root (sk_parents (co_sk E)) /\
  length sts = length (co_sk E) /\ length jp = pt_rows (co_pt E) /\ capsule_boxes B sts boxes /\ traversal boxes vs /\ traversal boxes vs' /\
  bcoll_error B m vs jp sts = Ok (e, m1) /\ bcoll_error B m vs' jp sts = Ok (e', m2) /\ e' = 9 * e /\ 0 < e.
Proof.
  destruct (cx_boxes 0 7 co_a co_s (cx_sts 0 7 0) co_wf eq_refl) as (bx & CB & T1 & T2). destruct (cx_sk_ok 0) as (H1 & _ & H2).
  destruct co_rep as [R1 R2].
  pose proof (fun vs T => tv_in_range (cx_E 0 7 co_a co_s) (cx_B 0 7 co_a co_s) (cx_same _ _ _ _) co_wf (cx_sts 0 7 0) eq_refl bx vs CB T) as RG.
  exists (cx_E 0 7 co_a co_s), (cx_B 0 7 co_a co_s), ([], []), (cx_q 7 0), (cx_sts 0 7 0), bx, [(0, 1)%nat], [(1, 0)%nat], (5 / 1000 * (1 / 4)), (5 / 1000 * (9 / 4)).
  eexists. eexists. split; [exact co_wf|]. split; [apply cx_same|]. split; [exact H1|]. split; [exact H2|]. split; [reflexivity|]. split; [reflexivity|].
  split; [exact CB|]. split; [exact T1|]. split; [exact T2|]. split; [|split; [|split; lra]].
  - rewrite (bcoll_error_ok (cx_E 0 7 co_a co_s) (cx_B 0 7 co_a co_s) (cx_same _ _ _ _) co_wf H1 H2 (cx_sts 0 7 0) eq_refl ([], []) [(0, 1)%nat] (cx_q 7 0) (RG _ T1) eq_refl ltac:(discriminate)).
    apply (f_equal (@Ok (R * bmem))), (f_equal2 pair); [|reflexivity]. unfold kept. cbn [filter excluded cx_B bc_excluding existsb negb map rsum]. rewrite R1. cbn [cx_E co_weight]. field.
  - rewrite (bcoll_error_ok (cx_E 0 7 co_a co_s) (cx_B 0 7 co_a co_s) (cx_same _ _ _ _) co_wf H1 H2 (cx_sts 0 7 0) eq_refl ([], []) [(1, 0)%nat] (cx_q 7 0) (RG _ T2) eq_refl ltac:(discriminate)).
    apply (f_equal (@Ok (R * bmem))), (f_equal2 pair); [|reflexivity]. unfold kept. cbn [filter excluded cx_B bc_excluding existsb negb map rsum]. rewrite R2. cbn [cx_E co_weight]. field.
Qed.
Print Assumptions bcoll_order_refuted.
