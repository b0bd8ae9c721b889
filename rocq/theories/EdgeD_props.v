(** C111: the distance of two edges. *)

From Coq Require Import Bool Reals Lra Psatz.
From Verif Require Import Rbool R3 EdgeD_model EdgeD_spec EdgeD_proofs.
Local Open Scope R_scope.

(** What is returned describes points of the edges and their distance. *)
Theorem edge_distance_sound p1 q1 p2 q2 ok s t d : distance_edge_edge p1 q1 p2 q2 = (ok, s, t, d) ->
  0 <= s <= 1 /\ 0 <= t <= 1 /\ d = dist (on_edge p1 q1 s) (on_edge p2 q2 t).
Proof.
  unfold distance_edge_edge. cbv zeta. destruct (edge_params (vsub q1 p1) (vsub q2 p2) (vsub p1 p2)) as [[s0 t0]|] eqn:E; intros H; injection H as <- <- <- <-.
  - assert (B : 0 <= s0 <= 1 /\ 0 <= t0 <= 1).
    { unfold edge_params in E. cbv zeta in E. revert E. destruct (_ && _); [discriminate|]. destruct (Rleb _ edge_eps).
      { intros E. injection E as <- <-. split; [lra|apply clamp01_range]. }
      destruct (Rleb _ edge_eps). { intros E. injection E as <- <-. split; [apply clamp01_range|lra]. }
      set (w := if Rltb edge_eps _ then _ else 0). assert (W : 0 <= w <= 1) by (unfold w; destruct (Rltb edge_eps _); [apply clamp01_range|lra]).
      destruct (Rltb_spec ((vdot (vsub q1 p1) (vsub q2 p2) * w + vdot (vsub q2 p2) (vsub p1 p2)) / vdot (vsub q2 p2) (vsub q2 p2)) 0).
      { intros E. injection E as <- <-. split; [apply clamp01_range|lra]. }
      destruct (Rltb_spec 1 ((vdot (vsub q1 p1) (vsub q2 p2) * w + vdot (vsub q2 p2) (vsub p1 p2)) / vdot (vsub q2 p2) (vsub q2 p2))).
      { intros E. injection E as <- <-. split; [apply clamp01_range|lra]. }
      intros E. injection E as <- <-. split; [exact W|lra]. }
    split; [apply B|]. split; [apply B|]. reflexivity.
  - split; [lra|]. split; [lra|]. unfold dist, on_edge. f_equal. destruct p1, q1, p2, q2. unfold vnorm2, vdot, vsub, vadd, vscale. cbn. ring.
Qed.
Print Assumptions edge_distance_sound.

Lemma phi_closest p1 q1 p2 q2 s t : 0 <= s <= 1 -> 0 <= t <= 1 ->
  (forall s', 0 <= s' <= 1 -> 0 <= (vdot (vsub q1 p1) (vsub p1 p2) + vdot (vsub q1 p1) (vsub q1 p1) * s - vdot (vsub q1 p1) (vsub q2 p2) * t) * (s' - s)) ->
  (forall t', 0 <= t' <= 1 -> 0 <= (- vdot (vsub q2 p2) (vsub p1 p2) - vdot (vsub q1 p1) (vsub q2 p2) * s + vdot (vsub q2 p2) (vsub q2 p2) * t) * (t' - t)) ->
  closest_at p1 q1 p2 q2 s t.
Proof.
  intros S T FS FT. split; [exact S|]. split; [exact T|]. intros s' t' Is It. unfold dist. apply sqrt_le_1_alt. unfold on_edge. rewrite !dist_phi.
  apply phi_min; auto; [apply (vnorm2_nonneg (vsub q1 p1))|apply (vnorm2_nonneg (vsub q2 p2))|apply cauchy].
Qed.

(** For edges that are not short, and not nearly parallel unless exactly so, they are the closest points. *)
Theorem edge_distance_closest_partial p1 q1 p2 q2 :
  / 10 ^ 4 < len2 p1 q1 -> / 10 ^ 4 < len2 p2 q2 -> / 10 ^ 4 < area2 p1 q1 p2 q2 \/ area2 p1 q1 p2 q2 = 0 ->
  exists s t d, distance_edge_edge p1 q1 p2 q2 = (true, s, t, d) /\ closest_at p1 q1 p2 q2 s t.
Proof.
  unfold len2, area2. rewrite area_lagrange. unfold vnorm2. intros L1 L2 A. unfold distance_edge_edge, edge_params. cbv zeta.
  set (d1 := vsub q1 p1) in *. set (d2 := vsub q2 p2) in *. set (r := vsub p1 p2). set (a := vdot d1 d1) in *. set (e := vdot d2 d2) in *. set (b := vdot d1 d2) in *. set (f := vdot d2 r). set (c := vdot d1 r).
  assert (EPS : edge_eps = / 10 ^ 4) by (unfold edge_eps; lra). rewrite EPS. destruct (Rleb_spec a (/ 10 ^ 4)); [lra|]. destruct (Rleb_spec e (/ 10 ^ 4)); [lra|]. cbn [andb].
  set (s0 := if Rltb (/ 10 ^ 4) (Rabs (a * e - b * b)) then clamp01 ((b * f - c * e) / (a * e - b * b)) else 0).
  assert (H : (0 < a * e - b * b /\ s0 = clamp01 ((b * f - c * e) / (a * e - b * b))) \/ (a * e - b * b = 0 /\ b * f = c * e /\ s0 = 0)).
  { unfold s0. destruct A as [A|A].
    - left. rewrite Rabs_right by lra. destruct (Rltb_spec (/ 10 ^ 4) (a * e - b * b)); [split; [lra|reflexivity]|lra].
    - right. split; [exact A|]. split; [apply parallel_slopes; exact A|]. rewrite A, Rabs_R0. destruct (Rltb_spec (/ 10 ^ 4) 0); [lra|reflexivity]. }
  pose proof (edge_case4 a b c e f s0 ltac:(lra) ltac:(lra) (cauchy d1 d2) H) as C. cbv zeta in C.
  destruct (Rltb ((b * s0 + f) / e) 0); [|destruct (Rltb 1 ((b * s0 + f) / e))]; destruct C as (C1 & C2 & C3 & C4); do 3 eexists; (split; [reflexivity|]); apply phi_closest; assumption.
Qed.
Print Assumptions edge_distance_closest_partial.

(** An edge shorter than 1/100 counts as its first point: the distance is at most that much too large. *)
Theorem edge_distance_short p1 q1 p2 q2 : len2 p1 q1 <= / 10 ^ 4 -> / 10 ^ 4 < len2 p2 q2 ->
  exists t d, distance_edge_edge p1 q1 p2 q2 = (true, 0, t, d) /\
    forall s' t', 0 <= s' <= 1 -> 0 <= t' <= 1 -> d <= dist (on_edge p1 q1 s') (on_edge p2 q2 t') + / 100.
Proof.
  unfold len2 at 1 2. unfold vnorm2. intros L1 L2. unfold distance_edge_edge, edge_params. cbv zeta.
  set (d1 := vsub q1 p1) in *. set (d2 := vsub q2 p2) in *. set (r := vsub p1 p2). set (a := vdot d1 d1) in *. set (e := vdot d2 d2) in *. set (f := vdot d2 r).
  assert (EPS : edge_eps = / 10 ^ 4) by (unfold edge_eps; lra). rewrite EPS. destruct (Rleb_spec a (/ 10 ^ 4)); [|lra]. destruct (Rleb_spec e (/ 10 ^ 4)); [lra|]. cbn [andb].
  set (t := clamp01 (f / e)). do 2 eexists. split; [reflexivity|]. intros s' t' Is It.
  assert (N : dist (on_edge p1 q1 s') p1 <= / 100) by (rewrite dist_sym; apply on_edge_near; [exact Is|lra|unfold len2, vnorm2; fold d1 a; lra]).
  assert (C : dist p1 (on_edge p2 q2 t) <= dist p1 (on_edge p2 q2 t')).
  { unfold dist. apply sqrt_le_1_alt. unfold on_edge. fold d2.
    replace (vnorm2 (vsub p1 (vadd p2 (vscale t d2)))) with (vnorm2 r - 2 * f * t + e * t * t) by (unfold e, f, r; destruct p1, p2, d2; unfold vnorm2, vdot, vadd, vsub, vscale; cbn; ring).
    replace (vnorm2 (vsub p1 (vadd p2 (vscale t' d2)))) with (vnorm2 r - 2 * f * t' + e * t' * t') by (unfold e, f, r; destruct p1, p2, d2; unfold vnorm2, vdot, vadd, vsub, vscale; cbn; ring).
    assert (ET : t = clamp01 (- (- f) / e)) by (unfold t; f_equal; field; lra).
    pose proof (clamp_first_order e (- f) t ltac:(lra) ET t' It) as FO. assert (0 <= e * ((t' - t) * (t' - t))) by (apply Rmult_le_pos; [lra|apply Rle_0_sqr]). lra. }
  change (sqrt (vnorm2 (vsub (vadd p1 (vscale 0 d1)) (vadd p2 (vscale t d2))))) with (dist (on_edge p1 q1 0) (on_edge p2 q2 t)).
  replace (on_edge p1 q1 0) with p1 by (unfold on_edge; destruct p1, q1; unfold vadd, vscale, vsub; cbn; f_equal; ring).
  pose proof (dist_triangle p1 (on_edge p1 q1 s') (on_edge p2 q2 t')) as T. rewrite (dist_sym p1 (on_edge p1 q1 s')) in T. lra.
Qed.
Print Assumptions edge_distance_short.

(** The same for a short second edge, and the answer false for two short ones. *)
Theorem edge_distance_short2 p1 q1 p2 q2 : / 10 ^ 4 < len2 p1 q1 -> len2 p2 q2 <= / 10 ^ 4 ->
  exists s d, distance_edge_edge p1 q1 p2 q2 = (true, s, 0, d) /\
    forall s' t', 0 <= s' <= 1 -> 0 <= t' <= 1 -> d <= dist (on_edge p1 q1 s') (on_edge p2 q2 t') + / 100.
Proof.
  unfold len2 at 1 2. unfold vnorm2. intros L1 L2. unfold distance_edge_edge, edge_params. cbv zeta.
  set (d1 := vsub q1 p1) in *. set (d2 := vsub q2 p2) in *. set (r := vsub p1 p2). set (a := vdot d1 d1) in *. set (e := vdot d2 d2) in *. set (c := vdot d1 r).
  assert (EPS : edge_eps = / 10 ^ 4) by (unfold edge_eps; lra). rewrite EPS. destruct (Rleb_spec a (/ 10 ^ 4)); [lra|]. destruct (Rleb_spec e (/ 10 ^ 4)); [|lra]. cbn [andb].
  set (s := clamp01 (- c / a)). do 2 eexists. split; [reflexivity|]. intros s' t' Is It.
  assert (N : dist (on_edge p2 q2 t') p2 <= / 100) by (rewrite dist_sym; apply on_edge_near; [exact It|lra|unfold len2, vnorm2; fold d2 e; lra]).
  assert (C : dist (on_edge p1 q1 s) p2 <= dist (on_edge p1 q1 s') p2).
  { unfold dist. apply sqrt_le_1_alt. unfold on_edge. fold d1.
    replace (vnorm2 (vsub (vadd p1 (vscale s d1)) p2)) with (vnorm2 r + 2 * c * s + a * s * s) by (unfold a, c, r; destruct p1, p2, d1; unfold vnorm2, vdot, vadd, vsub, vscale; cbn; ring).
    replace (vnorm2 (vsub (vadd p1 (vscale s' d1)) p2)) with (vnorm2 r + 2 * c * s' + a * s' * s') by (unfold a, c, r; destruct p1, p2, d1; unfold vnorm2, vdot, vadd, vsub, vscale; cbn; ring).
    pose proof (clamp_first_order a c s ltac:(lra) eq_refl s' Is) as FO. assert (0 <= a * ((s' - s) * (s' - s))) by (apply Rmult_le_pos; [lra|apply Rle_0_sqr]). lra. }
  change (sqrt (vnorm2 (vsub (vadd p1 (vscale s d1)) (vadd p2 (vscale 0 d2))))) with (dist (on_edge p1 q1 s) (on_edge p2 q2 0)).
  replace (on_edge p2 q2 0) with p2 by (unfold on_edge; destruct p2, q2; unfold vadd, vscale, vsub; cbn; f_equal; ring).
  pose proof (dist_triangle (on_edge p1 q1 s') (on_edge p2 q2 t') p2) as T. lra.
Qed.
Print Assumptions edge_distance_short2.
Theorem edge_distance_fails p1 q1 p2 q2 : fst (fst (fst (distance_edge_edge p1 q1 p2 q2))) = false <-> len2 p1 q1 <= / 10 ^ 4 /\ len2 p2 q2 <= / 10 ^ 4.
Proof.
  unfold len2, vnorm2, distance_edge_edge, edge_params. cbv zeta. assert (EPS : edge_eps = / 10 ^ 4) by (unfold edge_eps; lra). rewrite EPS.
  destruct (Rleb_spec (vdot (vsub q1 p1) (vsub q1 p1)) (/ 10 ^ 4)) as [A|A]; destruct (Rleb_spec (vdot (vsub q2 p2) (vsub q2 p2)) (/ 10 ^ 4)) as [B|B]; cbn [andb].
  - split; [intros _; split; assumption|reflexivity].
  - split; [discriminate|intros [_ H]; lra].
  - split; [discriminate|intros [H _]; lra].
  - split; [|intros [H _]; lra]. destruct (Rltb _ 0); [discriminate|]. destruct (Rltb 1 _); discriminate.
Qed.
Print Assumptions edge_distance_fails.

(** Nearly parallel edges: two edges of length one that cross in their middle are said to be apart. *)
Theorem edge_distance_closest_refuted : exists p1 q1 p2 q2 s t d,
  / 2 < len2 p1 q1 /\ / 2 < len2 p2 q2 /\ on_edge p1 q1 (/ 2) = on_edge p2 q2 (/ 2) /\
  distance_edge_edge p1 q1 p2 q2 = (true, s, t, d) /\ / 250 < d.
Proof.
  exists vzero, (V3 1 0 0), (V3 0 (- / 200) 0), (V3 1 (/ 200) 0), 0, (/ 20000 / (10001 / 10000)). eexists. split; [unfold len2, vnorm2, vdot, vsub, vzero; cbn; lra|].
  split; [unfold len2, vnorm2, vdot, vsub; cbn; lra|]. split; [unfold on_edge, vadd, vscale, vsub, vzero; cbn; f_equal; field|]. split.
  - unfold distance_edge_edge, edge_params. cbv zeta. set (d1 := vsub (V3 1 0 0) vzero). set (d2 := vsub (V3 1 (/ 200) 0) (V3 0 (- / 200) 0)). set (r := vsub vzero (V3 0 (- / 200) 0)).
    assert (E1 : vdot d1 d1 = 1) by (unfold d1, vdot, vsub, vzero; cbn; field). assert (E2 : vdot d2 d2 = 10001 / 10000) by (unfold d2, vdot, vsub; cbn; field).
    assert (E3 : vdot d1 d2 = 1) by (unfold d1, d2, vdot, vsub, vzero; cbn; field). assert (E4 : vdot d2 r = / 20000) by (unfold d2, r, vdot, vsub, vzero; cbn; field).
    rewrite E1, E2, E3, E4. assert (EPS : edge_eps = / 10000) by reflexivity. rewrite EPS. destruct (Rleb_spec 1 (/ 10000)); [lra|]. destruct (Rleb_spec (10001 / 10000) (/ 10000)); [lra|]. cbn [andb].
    replace (1 * (10001 / 10000) - 1 * 1) with (/ 10000) by field. rewrite Rabs_right by lra. destruct (Rltb_spec (/ 10000) (/ 10000)); [lra|].
    replace (1 * 0 + / 20000) with (/ 20000) by ring. destruct (Rltb_spec (/ 20000 / (10001 / 10000)) 0); [lra|]. destruct (Rltb_spec 1 (/ 20000 / (10001 / 10000))); [lra|]. reflexivity.
  - match goal with |- _ < sqrt ?x => assert (X : / 250 * / 250 < x) end.
    { unfold vnorm2, vdot, vadd, vscale, vsub, vzero. cbn. lra. }
    rewrite <- (sqrt_square (/ 250)) by lra. apply sqrt_lt_1_alt. split; [lra|exact X].
Qed.
Print Assumptions edge_distance_closest_refuted.

Example edge_case : / 10 ^ 4 < len2 vzero (V3 1 0 0) /\ / 10 ^ 4 < len2 (V3 0 0 1) (V3 0 2 1) /\ / 10 ^ 4 < area2 vzero (V3 1 0 0) (V3 0 0 1) (V3 0 2 1).
Proof. unfold len2, area2, vnorm2, vcross, vdot, vsub, vzero. cbn. lra. Qed.
Example edge_parallel_case : / 10 ^ 4 < len2 vzero (V3 1 0 0) /\ / 10 ^ 4 < len2 (V3 0 0 1) (V3 2 0 1) /\ area2 vzero (V3 1 0 0) (V3 0 0 1) (V3 2 0 1) = 0.
Proof. unfold len2, area2, vnorm2, vcross, vdot, vsub, vzero. cbn. lra. Qed.
Example edge_short_case : len2 vzero (V3 (/ 1000) 0 0) <= / 10 ^ 4 /\ / 10 ^ 4 < len2 (V3 0 0 1) (V3 2 0 1).
Proof. unfold len2, vnorm2, vdot, vsub, vzero. cbn. lra. Qed.
