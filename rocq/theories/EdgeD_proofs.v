(** Lemmas for C111. *)

From Coq Require Import Bool Reals Lra Psatz.
From Verif Require Import Rbool R3 EdgeD_model EdgeD_spec.
Local Open Scope R_scope.

Lemma clamp01_range x : 0 <= clamp01 x <= 1.
Proof. unfold clamp01. destruct (Rltb_spec x 0), (Rltb_spec 1 x); lra. Qed.

(** |r + s d1 - t d2|^2 with the five products. *)
Definition phi (a b c e f g s t : R) : R := g + 2 * c * s - 2 * f * t + a * s * s - 2 * b * s * t + e * t * t.
Lemma dist_phi p1 q1 p2 q2 s t :
  vnorm2 (vsub (vadd p1 (vscale s (vsub q1 p1))) (vadd p2 (vscale t (vsub q2 p2)))) =
  phi (vdot (vsub q1 p1) (vsub q1 p1)) (vdot (vsub q1 p1) (vsub q2 p2)) (vdot (vsub q1 p1) (vsub p1 p2))
      (vdot (vsub q2 p2) (vsub q2 p2)) (vdot (vsub q2 p2) (vsub p1 p2)) (vnorm2 (vsub p1 p2)) s t.
Proof. destruct p1, q1, p2, q2. unfold phi, vnorm2, vdot, vsub, vadd, vscale. cbn. ring. Qed.

(** The first order conditions make a point the minimum, as phi is convex. *)
Lemma phi_min a b c e f g s t : 0 <= a -> 0 <= e -> b * b <= a * e ->
  (forall s', 0 <= s' <= 1 -> 0 <= (c + a * s - b * t) * (s' - s)) ->
  (forall t', 0 <= t' <= 1 -> 0 <= (- f - b * s + e * t) * (t' - t)) ->
  forall s' t', 0 <= s' <= 1 -> 0 <= t' <= 1 -> phi a b c e f g s t <= phi a b c e f g s' t'.
Proof.
  intros Ha He Hb Hs Ht s' t' Is It. specialize (Hs s' Is). specialize (Ht t' It). set (u := s' - s) in *. set (v := t' - t) in *.
  assert (Q : 0 <= a * u * u - 2 * b * u * v + e * v * v).
  { destruct (Req_dec a 0) as [Z|Z].
    - rewrite Z in *. assert (b = 0) by nra. subst b. assert (0 <= v * v) by nra. nra.
    - assert (A : 0 < a) by lra. apply Rmult_le_reg_l with a; [exact A|]. rewrite Rmult_0_r.
      replace (a * (a * u * u - 2 * b * u * v + e * v * v)) with ((a * u - b * v) * (a * u - b * v) + (a * e - b * b) * (v * v)) by ring.
      assert (0 <= (a * u - b * v) * (a * u - b * v)) by apply Rle_0_sqr. assert (0 <= v * v) by apply Rle_0_sqr. assert (0 <= (a * e - b * b) * (v * v)) by (apply Rmult_le_pos; lra). lra. }
  replace (phi a b c e f g s' t') with (phi a b c e f g s t + 2 * ((c + a * s - b * t) * u) + 2 * ((- f - b * s + e * t) * v) + (a * u * u - 2 * b * u * v + e * v * v)) by (unfold phi, u, v; ring).
  lra.
Qed.
(** The clamped minimum of a quadratic function of one variable. *)
Lemma clamp_first_order k m s : 0 < k -> s = clamp01 (- m / k) -> forall s', 0 <= s' <= 1 -> 0 <= (m + k * s) * (s' - s).
Proof.
  intros Hk -> s' Is. unfold clamp01. destruct (Rltb_spec (- m / k) 0) as [L|L].
  - assert (0 < m). { apply Rmult_lt_compat_r with (r := k) in L; [|exact Hk]. unfold Rdiv in L. rewrite Rmult_assoc, Rinv_l, Rmult_0_l in L by lra. lra. }
    replace ((m + k * 0) * (s' - 0)) with (m * s') by ring. apply Rmult_le_pos; lra.
  - destruct (Rltb_spec 1 (- m / k)) as [U|U].
    + assert (m + k < 0). { apply Rmult_lt_compat_r with (r := k) in U; [|exact Hk]. unfold Rdiv in U. rewrite Rmult_assoc, Rinv_l in U by lra. lra. }
      replace ((m + k * 1) * (s' - 1)) with ((- (m + k)) * (1 - s')) by ring. apply Rmult_le_pos; lra.
    + replace (m + k * (- m / k)) with 0 by (field; lra). lra.
Qed.

(** Every case of the algorithm meets the first order conditions. *)
Lemma edge_case4 a b c e f s0 : 0 < a -> 0 < e -> b * b <= a * e ->
  (0 < a * e - b * b /\ s0 = clamp01 ((b * f - c * e) / (a * e - b * b))) \/ (a * e - b * b = 0 /\ b * f = c * e /\ s0 = 0) ->
  let t0 := (b * s0 + f) / e in
  let '(s, t) := if Rltb t0 0 then (clamp01 (- c / a), 0) else if Rltb 1 t0 then (clamp01 ((b - c) / a), 1) else (s0, t0) in
  (0 <= s <= 1) /\ (0 <= t <= 1) /\
  (forall s', 0 <= s' <= 1 -> 0 <= (c + a * s - b * t) * (s' - s)) /\ (forall t', 0 <= t' <= 1 -> 0 <= (- f - b * s + e * t) * (t' - t)).
Proof.
  intros Ha He Hb H t0. assert (S0 : 0 <= s0 <= 1) by (destruct H as [[_ ->]|[_ [_ ->]]]; [apply clamp01_range|lra]).
  (* the slope at s0 along the line of best t: proportional to D s0 - (b f - c e) *)
  assert (FO : forall s', 0 <= s' <= 1 -> 0 <= ((a * e - b * b) * s0 - (b * f - c * e)) * (s' - s0)).
  { intros s' Is. destruct H as [[D ->]|[D [P ->]]].
    - replace ((b * f - c * e) / (a * e - b * b)) with (- (- (b * f - c * e)) / (a * e - b * b)) by (field; lra).
      pose proof (clamp_first_order (a * e - b * b) (- (b * f - c * e)) _ D eq_refl s' Is). lra.
    - rewrite D, P. lra. }
  assert (T : e * t0 = b * s0 + f) by (unfold t0; field; lra).
  destruct (Rltb_spec t0 0) as [L|L]; [|destruct (Rltb_spec 1 t0) as [U|U]].
  - (* t = 0: the slope in t at (s, 0) is - f - b s >= 0 *)
    set (s := clamp01 (- c / a)). assert (SR : 0 <= s <= 1) by apply clamp01_range. split; [exact SR|]. split; [lra|]. split.
    + intros s' Is. pose proof (clamp_first_order a c s Ha eq_refl s' Is). replace (c + a * s - b * 0) with (c + a * s) by ring. assumption.
    + intros t' It. replace (- f - b * s + e * 0) with (- (f + b * s)) by ring. replace (t' - 0) with t' by ring. apply Rmult_le_pos; [|lra].
      assert (N : b * s0 + f < 0) by (rewrite <- T; nra). destruct (Rle_lt_dec (f + b * s) 0) as [|B]; [lra|exfalso].
      pose proof (clamp_first_order a c s Ha eq_refl s0 S0) as C1. pose proof (FO s SR) as C2.
      assert (BS : 0 < b * (s - s0)) by lra.
      (* e (c + a s0) - b (b s0 + f) = D s0 - (b f - c e) *)
      assert (E1 : (a * e - b * b) * s0 - (b * f - c * e) = e * (c + a * s0) - b * (b * s0 + f)) by ring. rewrite E1 in C2.
      assert (X : (c + a * s0) * (s - s0) <= - a * ((s - s0) * (s - s0))) by (replace ((c + a * s0) * (s - s0)) with ((c + a * s) * (s - s0) - a * ((s - s0) * (s - s0))) by ring; lra).
      assert (Y : 0 < - (b * s0 + f) * (b * (s - s0))) by (apply Rmult_lt_0_compat; lra).
      (* combine: (e(c + a s0) - b n)(s - s0) >= 0, n = b s0 + f < 0, e (c+a s0)(s-s0) <= -e a (s-s0)^2 *)
      assert (NS : s <> s0) by (intros E; rewrite E in BS; lra). assert (SQ : 0 < (s - s0) * (s - s0)) by (apply Rsqr_pos_lt; lra).
      assert (B2 : (b * (s - s0)) * (b * (s - s0)) <= a * e * ((s - s0) * (s - s0))) by (replace ((b * (s - s0)) * (b * (s - s0))) with (b * b * ((s - s0) * (s - s0))) by ring; apply Rmult_le_compat_r; lra).
      (* from B: b s + f > 0 so b (s - s0) > - n *)
      assert (G1 : - (b * s0 + f) < b * (s - s0)) by lra.
      assert (Z : - (b * s0 + f) * (b * (s - s0)) < (b * (s - s0)) * (b * (s - s0))) by (apply Rmult_lt_compat_r; lra).
      assert (W : (e * (c + a * s0) - b * (b * s0 + f)) * (s - s0) = e * ((c + a * s0) * (s - s0)) + - (b * s0 + f) * (b * (s - s0))) by ring. rewrite W in C2.
      assert (V : e * ((c + a * s0) * (s - s0)) <= e * (- a * ((s - s0) * (s - s0)))) by (apply Rmult_le_compat_l; lra). lra.
  - set (s := clamp01 ((b - c) / a)). assert (SR : 0 <= s <= 1) by apply clamp01_range. split; [exact SR|]. split; [lra|].
    assert (ES : s = clamp01 (- (c - b) / a)) by (unfold s; f_equal; f_equal; ring). split.
    + intros s' Is. pose proof (clamp_first_order a (c - b) s Ha ES s' Is). replace (c + a * s - b * 1) with (c - b + a * s) by ring. assumption.
    + intros t' It. replace ((- f - b * s + e * 1) * (t' - 1)) with ((f + b * s - e) * (1 - t')) by ring. apply Rmult_le_pos; [|lra].
      assert (N : 0 < b * s0 + f - e) by (rewrite <- T; nra). destruct (Rle_lt_dec 0 (f + b * s - e)) as [|B]; [lra|exfalso].
      pose proof (clamp_first_order a (c - b) s Ha ES s0 S0) as C1. pose proof (FO s SR) as C2.
      assert (BS : 0 < - (b * (s - s0))) by lra.
      assert (E1 : (a * e - b * b) * s0 - (b * f - c * e) = e * (c - b + a * s0) - b * (b * s0 + f - e)) by ring. rewrite E1 in C2.
      assert (X : (c - b + a * s0) * (s - s0) <= - a * ((s - s0) * (s - s0))) by (replace ((c - b + a * s0) * (s - s0)) with ((c - b + a * s) * (s - s0) - a * ((s - s0) * (s - s0))) by ring; lra).
      assert (NS : s <> s0) by (intros E; rewrite E in BS; lra). assert (SQ : 0 < (s - s0) * (s - s0)) by (apply Rsqr_pos_lt; lra).
      assert (B2 : (b * (s - s0)) * (b * (s - s0)) <= a * e * ((s - s0) * (s - s0))) by (replace ((b * (s - s0)) * (b * (s - s0))) with (b * b * ((s - s0) * (s - s0))) by ring; apply Rmult_le_compat_r; lra).
      assert (G1 : b * s0 + f - e < - (b * (s - s0))) by lra.
      assert (Z : (b * s0 + f - e) * - (b * (s - s0)) < - (b * (s - s0)) * - (b * (s - s0))) by (apply Rmult_lt_compat_r; lra).
      assert (W : (e * (c - b + a * s0) - b * (b * s0 + f - e)) * (s - s0) = e * ((c - b + a * s0) * (s - s0)) + (b * s0 + f - e) * - (b * (s - s0))) by ring. rewrite W in C2.
      assert (V : e * ((c - b + a * s0) * (s - s0)) <= e * (- a * ((s - s0) * (s - s0)))) by (apply Rmult_le_compat_l; lra). lra.
  - split; [exact S0|]. split; [lra|]. split.
    + intros s' Is. specialize (FO s' Is). apply Rmult_le_reg_l with e; [exact He|]. rewrite Rmult_0_r.
      replace (e * ((c + a * s0 - b * t0) * (s' - s0))) with ((e * c + e * a * s0 - b * (e * t0)) * (s' - s0)) by ring. rewrite T. lra.
    + intros t' It. replace (- f - b * s0 + e * t0) with 0 by lra. lra.
Qed.
Lemma cauchy u v : vdot u v * vdot u v <= vdot u u * vdot v v.
Proof.
  assert (H : 0 <= vnorm2 (vcross u v)) by (unfold vnorm2, vdot; nra). replace (vnorm2 (vcross u v)) with (vdot u u * vdot v v - vdot u v * vdot u v) in H by (destruct u, v; unfold vnorm2, vcross, vdot; cbn; ring). lra.
Qed.
Lemma area_lagrange u v : vnorm2 (vcross u v) = vdot u u * vdot v v - vdot u v * vdot u v.
Proof. destruct u, v. unfold vnorm2, vcross, vdot. cbn. ring. Qed.
(** Parallel directions: b f = c e. *)
Lemma parallel_slopes u v r : vdot u u * vdot v v - vdot u v * vdot u v = 0 -> vdot u v * vdot v r = vdot u r * vdot v v.
Proof.
  rewrite <- area_lagrange. intros H. assert (C : vcross u v = vzero).
  { destruct (vcross u v) as [x y z]. unfold vnorm2, vdot in H. cbn in H. unfold vzero. assert (x = 0 /\ y = 0 /\ z = 0) as (-> & -> & ->) by (repeat split; nra). reflexivity. }
  assert (E : vdot u v * vdot v r - vdot u r * vdot v v = vdot (vcross (vcross u v) v) r) by (destruct u, v, r; unfold vcross, vdot; cbn; ring).
  rewrite C in E. assert (Z : vdot (vcross vzero v) r = 0) by (unfold vcross, vzero, vdot; cbn; ring). lra.
Qed.

(** ** Distances *)
Lemma vnorm2_nonneg u : 0 <= vnorm2 u.
Proof. unfold vnorm2, vdot. nra. Qed.
Lemma norm_triangle u v : sqrt (vnorm2 (vadd u v)) <= sqrt (vnorm2 u) + sqrt (vnorm2 v).
Proof.
  pose proof (vnorm2_nonneg u) as U. pose proof (vnorm2_nonneg v) as V. pose proof (sqrt_pos (vnorm2 u)) as SU. pose proof (sqrt_pos (vnorm2 v)) as SV.
  apply Rsqr_incr_0_var; [|lra]. rewrite Rsqr_sqrt by apply vnorm2_nonneg. unfold Rsqr.
  replace (vnorm2 (vadd u v)) with (vnorm2 u + vnorm2 v + 2 * vdot u v) by (destruct u, v; unfold vnorm2, vadd, vdot; cbn; ring).
  assert (C : vdot u v <= sqrt (vnorm2 u) * sqrt (vnorm2 v)).
  { rewrite <- sqrt_mult by assumption. apply Rle_trans with (Rabs (vdot u v)); [apply Rle_abs|]. rewrite <- sqrt_Rsqr_abs. apply sqrt_le_1_alt. unfold Rsqr, vnorm2. apply cauchy. }
  pose proof (sqrt_sqrt _ U). pose proof (sqrt_sqrt _ V). nra.
Qed.
Lemma dist_triangle x y z : dist x z <= dist x y + dist y z.
Proof.
  unfold dist. replace (vsub x z) with (vadd (vsub x y) (vsub y z)) by (destruct x, y, z; unfold vadd, vsub; cbn; f_equal; ring). apply norm_triangle.
Qed.
Lemma dist_sym x y : dist x y = dist y x.
Proof. unfold dist. f_equal. destruct x, y. unfold vnorm2, vdot, vsub. cbn. ring. Qed.
Lemma on_edge_near p q s l : 0 <= s <= 1 -> 0 <= l -> len2 p q <= l * l -> dist p (on_edge p q s) <= l.
Proof.
  intros S L H. unfold dist. rewrite <- (sqrt_square l L). apply sqrt_le_1_alt. unfold len2 in H. unfold on_edge.
  replace (vnorm2 (vsub p (vadd p (vscale s (vsub q p))))) with (s * s * vnorm2 (vsub q p)) by (destruct p, q; unfold vnorm2, vdot, vadd, vsub, vscale; cbn; ring).
  pose proof (vnorm2_nonneg (vsub q p)). assert (s * s <= 1) by nra. nra.
Qed.
