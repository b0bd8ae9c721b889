(** C58, C59, C84: closest points and points in a ball by the k-d tree. *)

From Coq Require Import List Arith ZArith QArith Bool Permutation Lia Lqa.
From Verif Require Import Prelude Loops Box_model Box_spec Box_proofs Bvh_pair_model Tri_model Tri_spec Kd_model Kd_spec Kd_proofs Kd_walk_proofs.
Import ListNotations.
Local Open Scope outcome_scope.
Local Open Scope nat_scope.

Lemma items_nth (points : list q3) i p : In (i, p) (combine (seq 0 (length points)) points) <-> nth_error points i = Some p.
Proof.
  assert (G : forall b, In (i, p) (combine (seq b (length points)) points) <-> b <= i /\ nth_error points (i - b) = Some p).
  { induction points as [|x l IH]; intros b; cbn [length seq combine In].
    - split; [intros []|]. intros [_ H]. destruct (i - b); discriminate.
    - rewrite IH. split.
      + intros [H|[H1 H2]]; [injection H as -> ->; rewrite Nat.sub_diag; auto|].
        split; [lia|]. replace (i - b) with (S (i - S b)) by lia. exact H2.
      + intros [H1 H2]. destruct (Nat.eq_dec i b) as [->|Ne].
        * rewrite Nat.sub_diag in H2. cbn in H2. left. congruence.
        * right. split; [lia|]. replace (i - b) with (S (i - S b)) in H2 by lia. exact H2. }
  rewrite G, Nat.sub_0_r. split; [tauto|]. split; [lia|assumption].
Qed.

Lemma map_fst_combine_seq {X} (l : list X) b : map fst (combine (seq b (length l)) l) = seq b (length l).
Proof. revert b. induction l as [|x l IH]; intros b; [reflexivity|]. cbn. rewrite IH. reflexivity. Qed.

(** The construction never fails, and what it stores. *)
Lemma kd_made W A normals colors points : 1 <= W -> algos_ok A -> few points ->
  normals = [] \/ length normals = length points -> colors = [] \/ length colors = length points ->
  exists t, kd_make W A normals colors points = Ok t /\ k_count t = length points /\ k_depth t <= max_depth /\
    parallel normals colors t /\
    (points <> [] -> exists seg h, Permutation (combine (seq 0 (length points)) points) seg /\ h <= max_depth /\
       kover W t 0 seg h (length (k_nodes t))).
Proof.
  intros W1 AO F NL CL. unfold kd_make. destruct points as [|p0 ps] eqn:EP.
  - eexists. split; [reflexivity|]. cbn. split; [reflexivity|]. split; [lia|]. split; [|congruence].
    split; cbn; destruct (length _ =? 0); reflexivity.
  - rewrite <- EP in *. set (items := combine (seq 0 (length points)) points).
    assert (LI : length items = length points) by (unfold items; rewrite combine_length, seq_length; lia).
    assert (V : valid (length points) items).
    { intros [i p] Hp. apply items_nth in Hp. apply nth_error_len in Hp. exact Hp. }
    set (e := {| k_nodes := []; k_blocks := []; k_normals := []; k_colors := []; k_depth := 0; k_count := length points |}).
    destruct (split_ok W normals colors (length points) W1 F NL CL A AO max_depth items e) as (r & E & B1 & B2 & B3 & B4 & nn & nb & seg & h & B5 & B6 & B7 & B8 & B9).
    + intros Z. rewrite Z, EP in LI. discriminate.
    + exact V.
    + subst e. split; cbn; destruct (length _ =? 0); reflexivity.
    + lia.
    + rewrite E. cbn [obind]. exists (snd r). split; [reflexivity|]. split; [exact B3|]. split; [cbn [k_depth e] in B4; lia|].
      split; [exact B2|]. intros _. exists seg, h. split; [exact B7|]. split; [exact B8|].
      cbn [k_nodes k_blocks e app length] in *. rewrite B1 in B9. rewrite B5. apply B9.
      * intros i x Hx. rewrite B5. exact Hx.
      * intros i x Hx. rewrite B6. exact Hx.
Qed.

(** What every query returns. *)
Lemma search_ok W A normals colors points t q filt acc skip bound : 1 <= W -> algos_ok A -> few points ->
  normals = [] \/ length normals = length points -> colors = [] \/ length colors = length points ->
  kd_make W A normals colors points = Ok t ->
  (forall i b, nth_error (k_blocks t) i = Some b -> filt i b = Ok (map acc b)) ->
  exists r, kd_search W t q filt skip bound = Ok r /\
    improved q acc skip (combine (seq 0 (length points)) points) (bound, None) r.
Proof.
  intros W1 AO F NL CL E FO.
  destruct (kd_made W A normals colors points W1 AO F NL CL) as (t' & E' & C & D & P & K). assert (t' = t) as -> by congruence. clear E'.
  unfold kd_search. rewrite C. destruct (Nat.eqb_spec (length points) 0) as [Z|Z].
  - eexists. split; [reflexivity|]. left. split; [reflexivity|]. destruct points; [intros p []|discriminate].
  - destruct K as (seg & h & Pm & Hh & K); [intros ->; apply Z; reflexivity|].
    destruct (walk_ok W t q filt acc skip FO (length points) seg) with (i := 0) (seg := seg) (h := h) (n := length (k_nodes t))
      (rest := @nil nat) (s := (bound, None) : best) (fuel := length (k_nodes t)) as (s' & k & Hk & Ew & Im).
    + exact F.
    + intros [i p] Hp. apply (Permutation_in _ (Permutation_sym Pm)) in Hp. apply items_nth in Hp. apply nth_error_len in Hp. exact Hp.
    + exact K.
    + apply incl_refl.
    + cbn [length]. lia.
    + lia.
    + exists s'. split.
      * rewrite Ew. destruct (length (k_nodes t) - k); reflexivity.
      * assert (I1 : forall p, In p (combine (seq 0 (length points)) points) -> In p seg) by (intros p; apply Permutation_in; exact Pm).
        assert (I2 : forall p, In p seg -> In p (combine (seq 0 (length points)) points)) by (intros p; apply Permutation_in, Permutation_sym; exact Pm).
        destruct Im as [[-> H]|(l & M & -> & Lt & H)]; [left; split; auto|right]. exists l. split; [|auto].
        eapply may_incl; [|exact M]. exact I2.
Qed.

(** From the lanes to the points. *)
Lemma answer points q acc skip bound accept r :
  (forall i p, nth_error points i = Some p -> (acc (lane_of (i, p)) = true <-> accept i)) ->
  improved q acc skip (combine (seq 0 (length points)) points) (bound, None) r ->
  acc pad = false \/ filler_harmless points accept q bound -> closest_answer points accept q bound r.
Proof.
  intros HA Im K. unfold closest_answer.
  assert (Seen : forall i p, nth_error points i = Some p -> accept i ->
     must q acc (i, p) \/ (acc pad = true /\ (filler_dist q <= sq_dist p q)%Q)).
  { intros i p E Ai. unfold must. cbn [snd]. destruct (Qlt_le_dec (sq_dist p q) (filler_dist q)) as [L|L].
    - left. split; [apply (HA i p E); exact Ai|auto].
    - destruct (acc pad) eqn:Ap; [right; auto|left]. split; [apply (HA i p E); exact Ai|congruence]. }
  destruct Im as [[-> H]|(l & M & -> & Lt & H)]; cbn [fst snd] in *.
  - split; [reflexivity|]. intros i p E Ai.
    assert (Direct : must q acc (i, p) -> (bound <= sq_dist p q)%Q) by (intros Mu; apply (H (i, p)); [apply items_nth; exact E|exact Mu]).
    destruct (Seen i p E Ai) as [Mu|[Ap Far]]; [auto|].
    destruct K as [K|[K|(j & p' & Ej & Aj & Lj)]]; [congruence|lra|].
    destruct (Seen j p' Ej Aj) as [Mu|[_ Far']]; [|lra].
    specialize (H (j, p') (proj2 (items_nth _ _ _) Ej) Mu). cbn [snd] in H. lra.
  - assert (Bound : (sq_dist (l_pos l) q < filler_dist q)%Q \/ acc pad = false).
    { destruct K as [K|[K|(j & p' & Ej & Aj & Lj)]]; [auto|left; lra|left].
      destruct (Seen j p' Ej Aj) as [Mu|[_ Far']]; [|lra].
      specialize (H (j, p') (proj2 (items_nth _ _ _) Ej) Mu). cbn [snd] in H. lra. }
    destruct M as [Al [([i p] & Hp & ->)|[_ ->]]].
    + apply items_nth in Hp. exists i, p. cbn [lane_of l_idx l_pos fst snd] in *. split; [reflexivity|]. split; [exact Hp|].
      split; [apply (HA i p Hp); exact Al|]. split; [reflexivity|]. split; [exact Lt|].
      intros j p' Ej Aj. destruct (Seen j p' Ej Aj) as [Mu|[Ap Far]].
      * exact (H (j, p') (proj2 (items_nth _ _ _) Ej) Mu).
      * destruct Bound as [B|B]; [lra|congruence].
    + exfalso. destruct Bound as [B|B]; [|congruence]. change (filler_dist q) with (sq_dist far q) in B. cbn [pad l_pos] in B. lra.
Qed.

Lemma answer_real points q acc bound accept r :
  (forall i p, nth_error points i = Some p -> (acc (lane_of (i, p)) = true <-> accept i)) ->
  improved q acc true (combine (seq 0 (length points)) points) (bound, None) r -> real_answer points accept q bound r.
Proof.
  intros HA [[-> _]|(l & M & -> & Lt & _)] z Z; cbn [fst snd] in *; [discriminate|].
  destruct M as [Al [([i p] & Hp & ->)|[C _]]]; [|discriminate]. apply items_nth in Hp.
  exists i, p. assert (z = l_idx (lane_of (i, p))) as -> by congruence. split; [reflexivity|]. split; [exact Hp|].
  split; [apply (HA i p Hp); exact Al|]. split; [reflexivity|exact Lt].
Qed.

(** *** C58 *)

(** closestPoint: the tree is built, and the query returns the closest point closer than the bound,
    or none if there is none; if the bound does not reach the filler, or some point is closer than it. *)
Theorem kd_closest_correct W A normals colors points q bound : 1 <= W -> algos_ok A -> few points ->
  normals = [] \/ length normals = length points -> colors = [] \/ length colors = length points ->
  filler_harmless points (fun _ => True) q bound ->
  exists t r, kd_make W A normals colors points = Ok t /\ kd_closest W t q bound = Ok r /\
    closest_answer points (fun _ => True) q bound r.
Proof.
  intros W1 AO F NL CL H. destruct (kd_made W A normals colors points W1 AO F NL CL) as (t & E & _). exists t.
  destruct (search_ok W A normals colors points t q (fun _ b => Ok (map (fun _ => true) b)) (fun _ => true) false bound) as (r & Er & Im); auto.
  exists r. split; [exact E|]. split; [exact Er|]. apply (answer points q (fun _ => true) false); auto. intros; split; auto.
Qed.
Print Assumptions kd_closest_correct.

(** The tree is at most kMaxDepth deep. *)
Theorem kd_depth_bounded W A normals colors points : 1 <= W -> algos_ok A -> few points ->
  normals = [] \/ length normals = length points -> colors = [] \/ length colors = length points ->
  exists t, kd_make W A normals colors points = Ok t /\ k_depth t <= 20 /\ k_count t = length points.
Proof. intros W1 AO F NL CL. destruct (kd_made W A normals colors points W1 AO F NL CL) as (t & E & C & D & _). exists t. auto. Qed.
Print Assumptions kd_depth_bounded.

(** *** C59 *)

Lemma normal_accept normals n mindot (i : nat) (p : q3) N : length normals = N -> (Z.of_nat N <= int_max)%Z -> i < N ->
  Qle_bool mindot (dot3 n (lane_value normals (Q3 0 0 0) (lane_of (i, p)))) = true <-> normal_ok normals n mindot i.
Proof.
  intros L F Hi. unfold lane_value, lane_of. cbn [l_idx fst snd].
  destruct (Z.eqb_spec (Z.of_nat i) int_max); [lia|]. rewrite Nat2Z.id.
  destruct (nth_error_lt normals i) as [m E]; [lia|]. rewrite (nth_error_nth _ _ _ E).
  unfold normal_ok. rewrite Qle_bool_iff. change (dot3 n m) with (inner n m). split; [eauto|].
  intros (m' & E' & H). rewrite E in E'. injection E' as <-. exact H.
Qed.

Lemma color_dist_gap c k : color_dist c k == color_gap c k.
Proof. destruct c as [[[c0 c1] c2] c3], k as [[[k0 k1] k2] k3]. unfold color_dist, color_gap. ring. Qed.

Lemma color_accept colors c most (i : nat) (p : q3) N : length colors = N -> (Z.of_nat N <= int_max)%Z -> i < N ->
  Qle_bool (color_dist c (lane_value colors (0, 0, 0, 0)%Q (lane_of (i, p)))) most = true <-> color_ok colors c most i.
Proof.
  intros L F Hi. unfold lane_value, lane_of. cbn [l_idx fst snd].
  destruct (Z.eqb_spec (Z.of_nat i) int_max); [lia|]. rewrite Nat2Z.id.
  destruct (nth_error_lt colors i) as [m E]; [lia|]. rewrite (nth_error_nth _ _ _ E).
  unfold color_ok. rewrite Qle_bool_iff, color_dist_gap. split; [eauto|].
  intros (m' & E' & H). pose proof (eq_trans (eq_sym E) E') as X.
  apply (f_equal (fun o => match o with Some x => x | None => m end)) in X. cbv beta iota in X. rewrite X. exact H.
Qed.

(** closestPoint with normals never reports an index that is not a point, nor one that fails the
    test; and it reports the closest of the points that pass, if the filler, with its normal zero,
    fails the test or is harmless. *)
Theorem kd_closest_normal_correct W A normals colors points q n bound mindot : 1 <= W -> algos_ok A -> few points ->
  length normals = length points -> colors = [] \/ length colors = length points ->
  exists t r, kd_make W A normals colors points = Ok t /\ kd_closest_normal W t q n bound mindot = Ok r /\
    real_answer points (normal_ok normals n mindot) q bound r /\
    ((0 < mindot)%Q \/ filler_harmless points (normal_ok normals n mindot) q bound ->
     closest_answer points (normal_ok normals n mindot) q bound r).
Proof.
  intros W1 AO F NL CL. destruct (kd_made W A normals colors points W1 AO F (or_intror NL) CL) as (t & E & C & _ & P & _). exists t.
  set (acc := fun l => Qle_bool mindot (dot3 n (lane_value normals (Q3 0 0 0) l))).
  assert (HA : forall i p, nth_error points i = Some p -> (acc (lane_of (i, p)) = true <-> normal_ok normals n mindot i)).
  { intros i p Ep. apply nth_error_len in Ep. apply (normal_accept _ _ _ _ _ (length points)); auto. }
  destruct (search_ok W A normals colors points t q
    (fun i _ => let* ns := rd (k_normals t) i in Ok (map (fun m => Qle_bool mindot (dot3 n m)) ns)) acc true bound) as (r & Er & Im); auto.
  { intros i b Eb. destruct P as [P _]. rewrite P. destruct (Nat.eqb_spec (length normals) 0) as [Z|Z].
    - exfalso. rewrite NL in Z. destruct points; [|discriminate]. cbn in E. injection E as <-. destruct i; discriminate.
    - rewrite (rd_some _ i (map (lane_value normals (Q3 0 0 0)) b)) by (rewrite nth_error_map, Eb; reflexivity).
      cbn [obind]. rewrite map_map. reflexivity. }
  exists r. split; [exact E|]. split; [exact Er|]. split; [eapply answer_real; eauto|].
  intros K. apply (answer points q acc true); auto. destruct K as [K|K]; [left|right; exact K].
  unfold acc, lane_value. cbn [pad l_idx]. rewrite Z.eqb_refl.
  destruct (Qleb_spec mindot (dot3 n (Q3 0 0 0))) as [H|H]; [|reflexivity]. exfalso.
  unfold dot3 in H. cbn [qx qy qz] in H. lra.
Qed.
Print Assumptions kd_closest_normal_correct.

(** The same with colors: the filler has the color zero. *)
Theorem kd_closest_color_correct W A normals colors points q n c bound mindot most : 1 <= W -> algos_ok A -> few points ->
  length normals = length points -> length colors = length points ->
  let accept i := normal_ok normals n mindot i /\ color_ok colors c most i in
  exists t r, kd_make W A normals colors points = Ok t /\ kd_closest_color W t q n c bound mindot most = Ok r /\
    real_answer points accept q bound r /\
    ((0 < mindot)%Q \/ (most < 0)%Q \/ filler_harmless points accept q bound -> closest_answer points accept q bound r).
Proof.
  intros W1 AO F NL CL accept. destruct (kd_made W A normals colors points W1 AO F (or_intror NL) (or_intror CL)) as (t & E & C & _ & P & _). exists t.
  set (acc := fun l => Qle_bool mindot (dot3 n (lane_value normals (Q3 0 0 0) l)) && Qle_bool (color_dist c (lane_value colors (0, 0, 0, 0)%Q l)) most).
  assert (HA : forall i p, nth_error points i = Some p -> (acc (lane_of (i, p)) = true <-> accept i)).
  { intros i p Ep. apply nth_error_len in Ep. unfold acc, accept. rewrite andb_true_iff.
    rewrite (normal_accept _ _ _ _ _ (length points)), (color_accept _ _ _ _ _ (length points)) by auto. reflexivity. }
  destruct (search_ok W A normals colors points t q
    (fun i _ => let* ns := rd (k_normals t) i in let* cs := rd (k_colors t) i in
      Ok (map (fun x => Qle_bool mindot (dot3 n (fst x)) && Qle_bool (color_dist c (snd x)) most) (combine ns cs))) acc true bound) as (r & Er & Im); auto.
  { intros i b Eb. destruct P as [P1 P2]. rewrite P1, P2. destruct (Nat.eqb_spec (length normals) 0) as [Z|Z].
    - exfalso. rewrite NL in Z. destruct points; [|discriminate]. cbn in E. injection E as <-. destruct i; discriminate.
    - destruct (Nat.eqb_spec (length colors) 0) as [Z'|_]; [lia|].
      rewrite (rd_some _ i (map (lane_value normals (Q3 0 0 0)) b)) by (rewrite nth_error_map, Eb; reflexivity).
      cbn [obind]. rewrite (rd_some _ i (map (lane_value colors (0, 0, 0, 0)%Q) b)) by (rewrite nth_error_map, Eb; reflexivity).
      cbn [obind]. f_equal. clear. induction b as [|l b IH]; [reflexivity|]. cbn [map combine]. rewrite IH. reflexivity. }
  exists r. split; [exact E|]. split; [exact Er|]. split; [eapply answer_real; eauto|].
  intros K. apply (answer points q acc true); auto. destruct K as [K|[K|K]]; [left|left|right; exact K].
  - unfold acc, lane_value. cbn [pad l_idx]. rewrite Z.eqb_refl.
    destruct (Qleb_spec mindot (dot3 n (Q3 0 0 0))) as [H|H]; [|reflexivity]. exfalso.
    unfold dot3 in H. cbn [qx qy qz] in H. lra.
  - unfold acc, lane_value. cbn [pad l_idx]. rewrite Z.eqb_refl.
    destruct (Qleb_spec (color_dist c (0, 0, 0, 0)%Q) most) as [H|H]; [|apply andb_false_r]. exfalso.
    rewrite color_dist_gap in H. destruct c as [[[c0 c1] c2] c3]. unfold color_gap in H. nra.
Qed.
Print Assumptions kd_closest_color_correct.

(** closestPointWithAcceptance reports the closest of the points that the callback accepts, if the
    callback refuses INT_MAX, which it may be given though no point has that index. *)
Theorem kd_closest_accept_partial W A normals colors points q bound accept : 1 <= W -> algos_ok A -> few points ->
  normals = [] \/ length normals = length points -> colors = [] \/ length colors = length points ->
  accept int_max = false \/ filler_harmless points (fun i => accept (Z.of_nat i) = true) q bound ->
  exists t r, kd_make W A normals colors points = Ok t /\ kd_closest_accept W t q bound accept = Ok r /\
    closest_answer points (fun i => accept (Z.of_nat i) = true) q bound r.
Proof.
  intros W1 AO F NL CL H. destruct (kd_made W A normals colors points W1 AO F NL CL) as (t & E & _). exists t.
  destruct (search_ok W A normals colors points t q (fun _ b => Ok (map (fun l => accept (l_idx l)) b)) (fun l => accept (l_idx l)) false bound) as (r & Er & Im); auto.
  exists r. split; [exact E|]. split; [exact Er|]. apply (answer points q (fun l => accept (l_idx l)) false); auto. intros; reflexivity.
Qed.
Print Assumptions kd_closest_accept_partial.

(** *** C84 *)

(** pointsInNSphere returns the index of each point in the ball exactly once, and nothing else. *)
Theorem kd_sphere_correct W A normals colors points c r : 1 <= W -> algos_ok A -> few points ->
  normals = [] \/ length normals = length points -> colors = [] \/ length colors = length points ->
  (0 <= r)%Q -> (r * r < filler_dist c)%Q ->
  exists t found, kd_make W A normals colors points = Ok t /\ kd_sphere t c r = Ok found /\ NoDup found /\
    forall z, In z found <-> exists i p, z = Z.of_nat i /\ nth_error points i = Some p /\ (sq_dist p c <= r * r)%Q.
Proof.
  intros W1 AO F NL CL R0 RF. destruct (kd_made W A normals colors points W1 AO F NL CL) as (t & E & C & _ & _ & K). exists t.
  unfold kd_sphere. rewrite C. destruct (Nat.eqb_spec (length points) 0) as [Z|Z].
  - exists []. split; [exact E|]. split; [reflexivity|]. split; [constructor|]. destruct points; [|discriminate].
    intros z. split; [intros []|]. intros (i & p & _ & H & _). destruct i; discriminate.
  - destruct K as (seg & h & Pm & Hh & K); [intros ->; apply Z; reflexivity|].
    destruct (sphere_ok W t c r R0 RF 0 seg h (length (k_nodes t)) K [] [] (length (k_nodes t))) as (found & k & Hk & Es & Pf); [cbn; lia|lia|].
    exists found. split; [exact E|]. split; [rewrite Es; destruct (length (k_nodes t) - k); reflexivity|].
    set (items := combine (seq 0 (length points)) points) in *.
    assert (Pf' : Permutation found (map (fun p : item => Z.of_nat (fst p)) (filter (in_ball c r) items))).
    { eapply Permutation_trans; [exact Pf|]. apply Permutation_map.
      clear - Pm. apply Permutation_sym in Pm. induction Pm; cbn [filter].
      - constructor.
      - destruct (in_ball c r x); [constructor|]; assumption.
      - destruct (in_ball c r x), (in_ball c r y); try constructor; apply Permutation_refl.
      - eapply Permutation_trans; eassumption. }
    split.
    + apply (Permutation_NoDup (Permutation_sym Pf')).
      assert (N0 : NoDup (map (fun p : item => Z.of_nat (fst p)) items)).
      { rewrite <- (map_map fst Z.of_nat). apply FinFun.Injective_map_NoDup; [intros a b; apply Nat2Z.inj|].
        unfold items. rewrite map_fst_combine_seq. apply seq_NoDup. }
      clear - N0. induction items as [|x l IH]; [constructor|]. cbn [map filter] in *. inversion N0 as [|y l' Hn Hd]; subst.
      destruct (in_ball c r x); [|auto]. cbn [map]. constructor; [|auto]. intros H. apply Hn.
      apply in_map_iff in H. destruct H as (y & Ey & Hy). apply filter_In in Hy. apply in_map_iff. exists y. tauto.
    + intros z. split.
      * intros H. apply (Permutation_in _ Pf') in H. apply in_map_iff in H. destruct H as ([i p] & <- & H).
        apply filter_In in H. destruct H as [H1 H2]. apply items_nth in H1. exists i, p. split; [reflexivity|]. split; [exact H1|].
        unfold in_ball in H2. cbn [snd] in H2. apply Qle_bool_iff. exact H2.
      * intros (i & p & -> & Ep & D). apply (Permutation_in _ (Permutation_sym Pf')). apply in_map_iff. exists (i, p).
        split; [reflexivity|]. apply filter_In. split; [apply items_nth; exact Ep|]. apply Qle_bool_iff. exact D.
Qed.
Print Assumptions kd_sphere_correct.

(** *** The filler in the way *)

(** Algorithms as the standard wants them. *)
Fixpoint put (d : dim) (x : item) (l : list item) : list item :=
  match l with
  | [] => [x]
  | y :: l => if Qle_bool (at3 (snd x) d) (at3 (snd y) d) then x :: y :: l else y :: put d x l
  end.
Definition sorting : algos :=
  {| do_partition := fun f l => (filter f l, filter (fun x => negb (f x)) l);
     do_nth := fun d _ l => fold_right (put d) [] l |}.

Lemma put_perm d x l : Permutation (x :: l) (put d x l).
Proof.
  induction l as [|y l IH]; [apply Permutation_refl|]. cbn [put]. destruct (Qle_bool _ _); [apply Permutation_refl|].
  eapply Permutation_trans; [apply perm_swap|]. constructor. exact IH.
Qed.
Inductive rising (d : dim) : list item -> Prop :=
| rise_nil : rising d []
| rise_cons x l : (forall y, In y l -> (at3 (snd x) d <= at3 (snd y) d)%Q) -> rising d l -> rising d (x :: l).
Lemma put_rising d x l : rising d l -> rising d (put d x l).
Proof.
  induction 1 as [|y l H R IH]; cbn [put]; [constructor; [intros ? []|constructor]|].
  destruct (Qleb_spec (at3 (snd x) d) (at3 (snd y) d)) as [L|L].
  - constructor; [|constructor; assumption]. intros z [<-|Hz]; [exact L|]. specialize (H z Hz). lra.
  - constructor; [|exact IH]. intros z Hz. apply (Permutation_in _ (Permutation_sym (put_perm d x l))) in Hz.
    destruct Hz as [<-|Hz]; [lra|auto].
Qed.
Lemma sorting_ok : algos_ok sorting.
Proof.
  split.
  - intros f l. cbn. split; [|split; intros x Hx; apply filter_In in Hx; destruct Hx as [_ Hx]; [exact Hx|]].
    + induction l as [|x l IH]; [constructor|]. cbn [filter]. destruct (f x); cbn [negb].
      * constructor. exact IH.
      * apply Permutation_cons_app. exact IH.
    + destruct (f x); [discriminate|reflexivity].
  - intros d n l Hn. cbn [do_nth sorting].
    assert (Pm : Permutation l (fold_right (put d) [] l)).
    { clear. induction l as [|x l IH]; [constructor|]. cbn [fold_right]. eapply Permutation_trans; [|apply put_perm]. constructor. exact IH. }
    split; [exact Pm|]. rewrite (Permutation_length Pm) in Hn.
    assert (R : rising d (fold_right (put d) [] l)) by (clear; induction l; [constructor|apply put_rising; assumption]).
    set (s := fold_right (put d) [] l) in *. clearbody s. clear Pm l. revert n Hn.
    induction R as [|x s H R IH]; intros n Hn; [cbn in Hn; lia|]. destruct n as [|n].
    + exists x. cbn. split; [reflexivity|]. split; [intros ? []|]. intros y [<-|Hy]; [lra|auto].
    + cbn [length] in Hn. destruct (IH n ltac:(lia)) as (z & E & H1 & H2). exists z. split; [exact E|]. cbn [firstn skipn].
      split; [|exact H2]. intros y [<-|Hy]; [|auto]. apply H. eapply nth_error_In. exact E.
Qed.

Definition far_point (k : Z) : q3 := Q3 (k * 10000000000 # 1) 0 0.
Definition origin : q3 := Q3 0 0 0.
Definition wide : Q := 1000000000000000000000000 # 1.

(** With the only point farther away than the filler, closestPoint reports the index INT_MAX. *)
Theorem kd_closest_refuted : exists points q bound t r,
  few points /\ kd_make 4 sorting [] [] points = Ok t /\ kd_closest 4 t q bound = Ok r /\
  snd r = Some int_max /\ ~ closest_answer points (fun _ => True) q bound r.
Proof.
  eexists [far_point 2], origin, wide, _, _. split; [vm_compute; discriminate|].
  split; [vm_compute; reflexivity|]. split; [vm_compute; reflexivity|]. split; [reflexivity|].
  intros (i & p & Z & E & _). destruct i as [|i]; [vm_compute in Z; discriminate|]. destruct i; discriminate.
Qed.
Print Assumptions kd_closest_refuted.

(** Two callbacks that agree on every point get different answers: the callback is asked about
    INT_MAX, and the index INT_MAX is reported. *)
Theorem kd_closest_accept_refuted : exists points q bound t a1 a2 r1 r2,
  few points /\ kd_make 4 sorting [] [] points = Ok t /\
  (forall i, i < length points -> a1 (Z.of_nat i) = a2 (Z.of_nat i)) /\
  kd_closest_accept 4 t q bound a1 = Ok r1 /\ kd_closest_accept 4 t q bound a2 = Ok r2 /\
  snd r1 = Some int_max /\ snd r2 = None.
Proof.
  eexists [origin], origin, wide, _, (fun z => negb (z =? 0)%Z), (fun z => negb ((z =? 0) || (z =? int_max))%Z), _, _.
  split; [vm_compute; discriminate|]. split; [vm_compute; reflexivity|].
  split; [intros [|[|i]] H; [reflexivity|cbn in H; lia|cbn in H; lia]|].
  split; [vm_compute; reflexivity|]. split; [vm_compute; reflexivity|]. split; reflexivity.
Qed.
Print Assumptions kd_closest_accept_refuted.

(** The filler hides a point from the query with normals: the last point is reported though the
    second one is closer. *)
Theorem kd_closest_normal_refuted : exists normals points q n bound mindot t r,
  few points /\ length normals = length points /\
  kd_make 2 sorting normals [] points = Ok t /\ kd_closest_normal 2 t q n bound mindot = Ok r /\
  ~ closest_answer points (normal_ok normals n mindot) q bound r.
Proof.
  eexists [Q3 1 0 0; Q3 1 0 0; Q3 1 0 0], [far_point 4; far_point 2; far_point 3], origin, (Q3 1 0 0), wide, 0%Q, _, _.
  split; [vm_compute; discriminate|]. split; [reflexivity|]. split; [vm_compute; reflexivity|]. split; [vm_compute; reflexivity|].
  intros (i & p & Z & E & _ & _ & _ & M).
  assert (i = 2) as -> by (vm_compute in Z; destruct i as [|[|[|i]]]; try discriminate; [reflexivity|destruct i; discriminate]).
  injection E as <-. specialize (M 1 (far_point 2) eq_refl).
  assert (C : normal_ok [Q3 1 0 0; Q3 1 0 0; Q3 1 0 0] (Q3 1 0 0) 0 1) by (eexists; split; [reflexivity|vm_compute; discriminate]).
  specialize (M C). vm_compute in M. apply M. reflexivity.
Qed.
Print Assumptions kd_closest_normal_refuted.

(** A ball that contains the filler gives the index INT_MAX. *)
Theorem kd_sphere_refuted : exists points c r t found,
  few points /\ kd_make 4 sorting [] [] points = Ok t /\ kd_sphere t c r = Ok found /\ In int_max found /\
  In 0%Z found /\ length found = 4.
Proof.
  eexists [origin], far, (20000000000 # 1), _, _.
  split; [vm_compute; discriminate|]. split; [vm_compute; reflexivity|]. split; [vm_compute; reflexivity|].
  cbn. auto.
Qed.
Print Assumptions kd_sphere_refuted.

(** *** A case with an inner node *)
Definition grid : list q3 :=
  map (fun i => Q3 (Z.of_nat ((i * 7) mod 19) # 1) (Z.of_nat ((i * 5) mod 11) # 1) (Z.of_nat (i mod 3) # 1)) (seq 0 19).
Definition grid_query : q3 := Q3 (37 # 4) (21 # 4) (3 # 4).
Example kd_case :
  algos_ok sorting /\ few grid /\ filler_harmless grid (fun _ => True) grid_query 100 /\
  (exists t v d l r b, kd_make 2 sorting grid [] grid = Ok t /\ nth_error (k_nodes t) 0 = Some (KNode v d l r b) /\
    length (k_nodes t) = 3 /\ length (k_blocks t) = 10 /\
    (exists s, kd_closest 2 t grid_query 100 = Ok (s, Some 12%Z)) /\
    (exists s, kd_closest_accept 2 t grid_query 100 (fun z => negb (z =? 12)%Z) = Ok (s, Some 1%Z)) /\
    kd_closest 2 t grid_query (1 # 100) = Ok (1 # 100, None)) /\
  (4 * 4 < filler_dist grid_query)%Q.
Proof.
  split; [apply sorting_ok|]. split; [vm_compute; discriminate|]. split; [left; vm_compute; discriminate|].
  split; [|vm_compute; reflexivity].
  do 6 eexists. split; [vm_compute; reflexivity|]. split; [reflexivity|]. split; [reflexivity|]. split; [reflexivity|].
  split; [eexists; vm_compute; reflexivity|]. split; [eexists; vm_compute; reflexivity|]. vm_compute. reflexivity.
Qed.
