(** Closest points on segments: the algorithm finds the minimum of a convex quadratic on a square. *)

From Coq Require Import Bool Reals Lra Psatz.
From Verif Require Import Rbool R3 Seg_model Seg_spec.
Local Open Scope R_scope.

Lemma spread_area2_gram d1 d2 : spread_area2 d1 d2 = vnorm2 d1 * vnorm2 d2 - vdot d1 d2 * vdot d1 d2.
Proof. destruct d1, d2. unfold spread_area2, vnorm2, vdot, vcross; cbn. ring. Qed.

Lemma diff_shift o1 d1 o2 d2 s t :
  vsub (vadd (vsub o1 o2) (vscale s d1)) (vscale t d2) = vsub (seg_point o1 d1 s) (seg_point o2 d2 t).
Proof. destruct o1, d1, o2, d2. unfold seg_point, vsub, vadd, vscale; cbn. f_equal; ring. Qed.

(** The quadratic. *)
Definition quad (a b c d e k s t : R) : R := a * (s * s) + c * (t * t) - 2 * b * (s * t) + 2 * d * s - 2 * e * t + k.
Lemma dist_quad o1 d1 o2 d2 s t : seg_dist2 o1 d1 o2 d2 s t =
  quad (vnorm2 d1) (vdot d1 d2) (vnorm2 d2) (vdot d1 (vsub o1 o2)) (vdot d2 (vsub o1 o2)) (vnorm2 (vsub o1 o2)) s t.
Proof. destruct o1, d1, o2, d2. unfold seg_dist2, quad, seg_point, vnorm2, vdot, vsub, vadd, vscale; cbn. ring. Qed.

(** The conditions at a minimum on [0, 1]. *)
Definition opt (s g : R) : Prop := g = 0 \/ (s = 0 /\ 0 <= g) \/ (s = 1 /\ g <= 0).
Lemma opt_step s g s' : opt s g -> in_unit s' -> 0 <= g * (s' - s).
Proof. intros [->|[[-> H]|[-> H]]] [H1 H2]; nra. Qed.

Section Quad.
Context (a b c d e k : R) (PA : 0 < a) (PC : 0 < c) (PD : 0 < a * c - b * b).

Lemma sq_pos x : 0 <= x * x.
Proof. clear. pose proof (Rle_0_sqr x). unfold Rsqr in *. assumption. Qed.
Lemma quad_a x y : a * (a * (x * x) + c * (y * y) - 2 * b * (x * y)) = (a * x - b * y) * (a * x - b * y) + (a * c - b * b) * (y * y).
Proof. clear. ring. Qed.
Lemma quad_pos x y : 0 <= a * (x * x) + c * (y * y) - 2 * b * (x * y).
Proof.
  apply (Rmult_le_reg_l a); [exact PA|]. rewrite Rmult_0_r, quad_a.
  pose proof (sq_pos (a * x - b * y)). pose proof (Rmult_le_pos _ _ (Rlt_le _ _ PD) (sq_pos y)). lra.
Qed.
Lemma quad_zero x y : a * (x * x) + c * (y * y) - 2 * b * (x * y) <= 0 -> x = 0 /\ y = 0.
Proof.
  intros H. apply (Rmult_le_compat_l a _ _ (Rlt_le _ _ PA)) in H. rewrite Rmult_0_r, quad_a in H.
  pose proof (sq_pos (a * x - b * y)) as H1. pose proof (Rmult_le_pos _ _ (Rlt_le _ _ PD) (sq_pos y)) as H2.
  assert (Y2 : (a * c - b * b) * (y * y) = 0) by lra. apply Rmult_integral in Y2 as [Y2|Y2]; [lra|].
  assert (Y : y = 0) by (apply Rmult_integral in Y2 as [?|?]; assumption). split; [|exact Y]. subst y.
  assert (X2 : (a * x - b * 0) * (a * x - b * 0) = 0) by lra. rewrite Rmult_0_r, Rminus_0_r in X2.
  apply Rmult_integral in X2 as [X2|X2]; apply Rmult_integral in X2 as [?|?]; lra.
Qed.
Lemma quad_diff s t s' t' : quad a b c d e k s' t' - quad a b c d e k s t =
  a * ((s' - s) * (s' - s)) + c * ((t' - t) * (t' - t)) - 2 * b * ((s' - s) * (t' - t)) +
  2 * ((a * s - b * t + d) * (s' - s)) + 2 * ((c * t - b * s - e) * (t' - t)).
Proof. unfold quad. ring. Qed.

Lemma opt_min s t s' t' : opt s (a * s - b * t + d) -> opt t (c * t - b * s - e) -> in_unit s' -> in_unit t' ->
  quad a b c d e k s t <= quad a b c d e k s' t'.
Proof.
  intros O1 O2 I1 I2. pose proof (quad_diff s t s' t') as Q. pose proof (quad_pos (s' - s) (t' - t)).
  pose proof (opt_step _ _ s' O1 I1). pose proof (opt_step _ _ t' O2 I2). lra.
Qed.
Lemma opt_unique s t s' t' : opt s (a * s - b * t + d) -> opt t (c * t - b * s - e) -> in_unit s' -> in_unit t' ->
  quad a b c d e k s' t' <= quad a b c d e k s t -> s' = s /\ t' = t.
Proof.
  intros O1 O2 I1 I2 H. pose proof (quad_diff s t s' t') as Q.
  pose proof (opt_step _ _ s' O1 I1). pose proof (opt_step _ _ t' O2 I2).
  destruct (quad_zero (s' - s) (t' - t)) as [Z1 Z2]; [lra|]. lra.
Qed.
(** The minimum over the plane. *)
Lemma quad_global s t : quad a b c d e k ((b * e - c * d) / (a * c - b * b)) ((a * e - b * d) / (a * c - b * b)) <= quad a b c d e k s t.
Proof.
  set (s0 := (b * e - c * d) / (a * c - b * b)). set (t0 := (a * e - b * d) / (a * c - b * b)).
  pose proof (quad_diff s0 t0 s t) as Q. pose proof (quad_pos (s - s0) (t - t0)).
  replace (a * s0 - b * t0 + d) with 0 in Q by (unfold s0, t0; field; lra).
  replace (c * t0 - b * s0 - e) with 0 in Q by (unfold s0, t0; field; lra). lra.
Qed.
End Quad.

(** Signs at the edge t = 0. *)
Lemma pos_div x y : 0 < x -> 0 < x * y -> 0 < y.
Proof. intros H1 H2. destruct (Rlt_le_dec 0 y); [assumption|]. pose proof (Rmult_le_compat_l x y 0 (Rlt_le _ _ H1) r). lra. Qed.
Lemma sign_A a b c d e : 0 < a -> 0 < c -> 0 < a * c - b * b ->
  0 <= b * e - c * d -> a * e - b * d < 0 -> 0 < d -> e <= 0.
Proof.
  intros PA PC PD H1 H2 H3. destruct (Rle_lt_dec e 0) as [|E]; [assumption|]. exfalso.
  assert (CD : 0 < c * d) by (apply Rmult_lt_0_compat; assumption).
  assert (B : 0 < b) by (apply (pos_div e); [exact E|lra]).
  assert (Q1 : a * (c * d) <= a * (b * e)) by (apply Rmult_le_compat_l; lra).
  assert (Q2 : b * (a * e) < b * (b * d)) by (apply Rmult_lt_compat_l; lra).
  assert (Q3 : 0 < (a * c - b * b) * d) by (apply Rmult_lt_0_compat; assumption). lra.
Qed.
Lemma sign_B a b c d e : 0 < a -> 0 < c -> 0 < a * c - b * b ->
  b * e - c * d <= a * c - b * b -> a * e - b * d < 0 -> a < - d -> b + e <= 0.
Proof.
  intros PA PC PD H1 H2 H3.
  assert (Q : e + b <= 0); [|lra]. apply (sign_A a (- b) c (- d - a) (e + b)); lra.
Qed.
Lemma sign_C a b c d e : 0 < a -> 0 < c -> 0 < a * c - b * b ->
  b * e - c * d < 0 -> e < 0 -> d <= 0 -> 0 <= b * d - a * e.
Proof.
  intros PA PC PD H1 H2 H3.
  assert (CD : 0 <= c * - d) by (apply Rmult_le_pos; lra).
  assert (B : 0 < b) by (apply (pos_div (- e)); lra).
  assert (Q1 : b * (b * e) < b * (c * d)) by (apply Rmult_lt_compat_l; lra).
  assert (Q3 : 0 < (a * c - b * b) * - e) by (apply Rmult_lt_0_compat; lra).
  apply Rlt_le. apply (pos_div c); lra.
Qed.
Lemma sign_D a b c d e : 0 < a -> 0 < c -> 0 < a * c - b * b ->
  b * e - c * d < 0 -> e < 0 -> a < - d -> b + e <= 0.
Proof.
  intros PA PC PD H1 H2 H3.
  assert (CD : 0 < c * (- d - a)) by (apply Rmult_lt_0_compat; lra).
  assert (CA : 0 < c * a) by (apply Rmult_lt_0_compat; lra).
  assert (B : 0 < b) by (apply (pos_div (- e)); lra).
  assert (Q : 0 < b * (- e - b)) by lra. apply (pos_div b) in Q; lra.
Qed.

(** When the second parameter is clamped to 0. *)
Definition below (a b c d e : R) : Prop :=
  (0 <= b * e - c * d <= a * c - b * b /\ a * e - b * d < 0) \/
  (b * e - c * d < 0 /\ e < 0) \/
  (a * c - b * b < b * e - c * d /\ e + b < 0).
Lemma edge0 a b c d e : 0 < a -> 0 < c -> 0 < a * c - b * b -> below a b c d e ->
  (- d < 0 -> 0 <= - e) /\ (a < - d -> 0 <= - b - e) /\ (0 <= - d <= a -> 0 <= b * d - a * e).
Proof.
  intros PA PC PD [[[H1 H1'] H2]|[[H1 H2]|[H1 H2]]].
  - split; [|split]; intros H.
    + pose proof (sign_A a b c d e PA PC PD H1 H2 ltac:(lra)). lra.
    + pose proof (sign_B a b c d e PA PC PD H1' H2 H). lra.
    + lra.
  - split; [|split]; intros H.
    + lra.
    + pose proof (sign_D a b c d e PA PC PD H1 H2 H). lra.
    + apply (sign_C a b c d e); lra.
  - (* s -> 1 - s *)
    split; [|split]; intros H.
    + pose proof (sign_D a (- b) c (- d - a) (e + b) PA PC ltac:(lra) ltac:(lra) ltac:(lra) ltac:(lra)). lra.
    + lra.
    + pose proof (sign_C a (- b) c (- d - a) (e + b) PA PC ltac:(lra) ltac:(lra) ltac:(lra) ltac:(lra)). lra.
Qed.

Lemma opt0 g : 0 <= g -> opt 0 g. Proof. intros; right; left; auto. Qed.
Lemma opt1 g : g <= 0 -> opt 1 g. Proof. intros; right; right; auto. Qed.

Section Steps.
Context (a b c d e : R) (PA : 0 < a) (PC : 0 < c) (PD : 0 < a * c - b * b).
Local Notation D := (a * c - b * b).

Definition first_step : R * R * R * R :=
  let sN := b * e - c * d in
  let tN := a * e - b * d in
  if Rltb sN 0 then (0, D, e, c) else if Rltb D sN then (D, D, e + b, c) else (sN, D, tN, D).

Definition good (q : R * R * R * R) : Prop :=
  let '(sN, sD, tN, tD) := q in
  (sD = D \/ sD = a) /\ (tD = D \/ tD = c) /\ 0 <= sN <= sD /\ 0 <= tN <= tD /\
  opt (sN / sD) (a * (sN / sD) - b * (tN / tD) + d) /\ opt (tN / tD) (c * (tN / tD) - b * (sN / sD) - e).

(** What the first step leaves. *)
Definition half_good (q : R * R * R * R) : Prop :=
  let '(sN, sD, tN, tD) := q in
  sD = D /\ (tD = D \/ tD = c) /\ 0 <= sN <= sD /\ 0 < tD /\
  (tN < 0 -> below a b c d e) /\ (tD < tN -> below a (- b) c (d - b) (c - e)) /\
  (0 <= tN <= tD -> opt (sN / sD) (a * (sN / sD) - b * (tN / tD) + d) /\ opt (tN / tD) (c * (tN / tD) - b * (sN / sD) - e)).

Lemma first_step_ok : half_good first_step.
Proof.
  unfold first_step. destruct (Rltb_spec (b * e - c * d) 0) as [H1|H1]; [|destruct (Rltb_spec D (b * e - c * d)) as [H2|H2]].
  - cbn. split; [reflexivity|]. split; [right; reflexivity|]. split; [lra|]. split; [exact PC|]. split; [|split].
    + intros H. right; left. lra.
    + intros H. right; left. split; lra.
    + intros H. replace (0 / D) with 0 by (field; lra). split.
      * apply opt0. replace (a * 0 - b * (e / c) + d) with (- (b * e - c * d) / c) by (field; lra).
        apply Rlt_le, Rdiv_lt_0_compat; lra.
      * left. field. lra.
  - cbn. split; [reflexivity|]. split; [right; reflexivity|]. split; [lra|]. split; [exact PC|]. split; [|split].
    + intros H. right; right. lra.
    + intros H. right; right. split; lra.
    + intros H. replace (D / D) with 1 by (field; lra). split.
      * apply opt1. replace (a * 1 - b * ((e + b) / c) + d) with (- ((b * e - c * d - D) / c)) by (field; lra).
        apply Rlt_le, Ropp_lt_gt_0_contravar, Rdiv_lt_0_compat; lra.
      * left. field. lra.
  - cbn. split; [reflexivity|]. split; [left; reflexivity|]. split; [lra|]. split; [exact PD|]. split; [|split].
    + intros H. left. lra.
    + intros H. left. split; lra.
    + intros H. split; left; field; lra.
Qed.

Lemma edges_ok q : half_good q -> good (seg_edges a b d q).
Proof.
  destruct q as [[[sN sD] tN] tD]. unfold half_good, seg_edges. intros (-> & HD & HS & HT & H0 & H1 & H2).
  assert (HDD : D / D = 1) by (field; lra). assert (HTT : tD / tD = 1) by (field; lra).
  assert (Z0 : 0 / D = 0) by (field; lra). assert (Z1 : 0 / tD = 0) by (field; lra).
  destruct (Rltb_spec tN 0) as [T0|T0]; [|destruct (Rltb_spec tD tN) as [T1|T1]].
  - destruct (edge0 a b c d e PA PC PD (H0 T0)) as (E1 & E2 & E3).
    destruct (Rltb_spec (- d) 0) as [S0|S0]; [|destruct (Rltb_spec a (- d)) as [S1|S1]]; unfold good.
    + split; [left; reflexivity|]. split; [exact HD|]. split; [lra|]. split; [lra|]. rewrite Z0, Z1. split; apply opt0; lra.
    + split; [left; reflexivity|]. split; [exact HD|]. split; [lra|]. split; [lra|]. rewrite HDD, Z1. split; [apply opt1|apply opt0]; lra.
    + split; [right; reflexivity|]. split; [exact HD|]. split; [lra|]. split; [lra|]. rewrite Z1. split.
      * left. field. lra.
      * apply opt0. replace (c * 0 - b * (- d / a) - e) with ((b * d - a * e) / a) by (field; lra).
        apply Rmult_le_pos; [apply E3; lra|]. apply Rlt_le, Rinv_0_lt_compat, PA.
  - destruct (edge0 a (- b) c (d - b) (c - e) PA PC ltac:(lra) (H1 T1)) as (E1 & E2 & E3).
    destruct (Rltb_spec (- d + b) 0) as [S0|S0]; [|destruct (Rltb_spec a (- d + b)) as [S1|S1]]; unfold good.
    + split; [left; reflexivity|]. split; [exact HD|]. split; [lra|]. split; [lra|]. rewrite Z0, HTT. split; [apply opt0|apply opt1]; lra.
    + split; [left; reflexivity|]. split; [exact HD|]. split; [lra|]. split; [lra|]. rewrite HDD, HTT. split; apply opt1; lra.
    + split; [right; reflexivity|]. split; [exact HD|]. split; [lra|]. split; [lra|]. rewrite HTT. split.
      * left. field. lra.
      * apply opt1. replace (c * 1 - b * ((- d + b) / a) - e) with (- ((- b * (d - b) - a * (c - e)) / a + 2 * (c - e) - 2 * (c - e))) by (field; lra).
        assert (0 <= (- b * (d - b) - a * (c - e)) / a); [|lra].
        apply Rmult_le_pos; [apply E3; lra|]. apply Rlt_le, Rinv_0_lt_compat, PA.
  - unfold good. split; [left; reflexivity|]. split; [exact HD|]. split; [exact HS|]. split; [lra|]. apply H2. lra.
Qed.
End Steps.

(** ** Lengths *)
Lemma vn2_pos v : 0 <= vnorm2 v.
Proof. destruct v as [x y z]. unfold vnorm2, vdot; cbn. pose proof (sq_pos x). pose proof (sq_pos y). pose proof (sq_pos z). lra. Qed.
Lemma len_scale s v : sqrt (vnorm2 (vscale s v)) = Rabs s * sqrt (vnorm2 v).
Proof.
  replace (vnorm2 (vscale s v)) with (Rsqr s * vnorm2 v) by (destruct v; unfold vnorm2, vdot, vscale, Rsqr; cbn; ring).
  rewrite sqrt_mult; [|apply Rle_0_sqr|apply vn2_pos]. rewrite sqrt_Rsqr_abs. reflexivity.
Qed.
Lemma dot_le u v : vdot u v <= sqrt (vnorm2 u) * sqrt (vnorm2 v).
Proof.
  rewrite <- sqrt_mult by apply vn2_pos. eapply Rle_trans; [apply Rle_abs|]. rewrite <- sqrt_Rsqr_abs. apply sqrt_le_1_alt.
  pose proof (spread_area2_gram u v) as G. pose proof (vn2_pos (vcross u v)) as P. unfold spread_area2 in G. unfold Rsqr. lra.
Qed.
Lemma len_add u v : sqrt (vnorm2 (vadd u v)) <= sqrt (vnorm2 u) + sqrt (vnorm2 v).
Proof.
  pose proof (sqrt_pos (vnorm2 u)) as P1. pose proof (sqrt_pos (vnorm2 v)) as P2.
  apply Rsqr_incr_0; [|apply sqrt_pos|lra]. rewrite Rsqr_sqrt by apply vn2_pos. rewrite Rsqr_plus, !Rsqr_sqrt by apply vn2_pos.
  replace (vnorm2 (vadd u v)) with (vnorm2 u + vnorm2 v + 2 * vdot u v) by (destruct u, v; unfold vnorm2, vdot, vadd; cbn; ring).
  pose proof (dot_le u v). lra.
Qed.
(** Moving the parameters moves the distance by no more than the points move. *)
Lemma dist_move o1 d1 o2 d2 s t s' t' :
  sqrt (seg_dist2 o1 d1 o2 d2 s t) <= sqrt (seg_dist2 o1 d1 o2 d2 s' t') + (Rabs (s - s') * sqrt (vnorm2 d1) + Rabs (t - t') * sqrt (vnorm2 d2)).
Proof.
  unfold seg_dist2.
  replace (vsub (seg_point o1 d1 s) (seg_point o2 d2 t)) with
    (vadd (vsub (seg_point o1 d1 s') (seg_point o2 d2 t')) (vadd (vscale (s - s') d1) (vscale (- (t - t')) d2)))
    by (destruct o1, d1, o2, d2; unfold seg_point, vsub, vadd, vscale; cbn; f_equal; ring).
  eapply Rle_trans; [apply len_add|]. apply Rplus_le_compat_l. eapply Rle_trans; [apply len_add|].
  rewrite !len_scale, Rabs_Ropp. lra.
Qed.

(** ** The division *)
Lemma param_unit n m : 0 < m -> 0 <= n <= m -> in_unit (seg_param n m).
Proof.
  intros M H. unfold seg_param, in_unit. destruct (Rltb_spec (Rabs n) kSegEps); [lra|]. split.
  - apply Rmult_le_pos; [lra|]. apply Rlt_le, Rinv_0_lt_compat, M.
  - apply (Rmult_le_reg_r m); [exact M|]. unfold Rdiv. rewrite Rmult_assoc, Rinv_l; lra.
Qed.
Lemma div_unit n m : 0 < m -> 0 <= n <= m -> in_unit (n / m).
Proof.
  intros M H. split.
  - apply Rmult_le_pos; [lra|]. apply Rlt_le, Rinv_0_lt_compat, M.
  - apply (Rmult_le_reg_r m); [exact M|]. unfold Rdiv. rewrite Rmult_assoc, Rinv_l; lra.
Qed.
Lemma param_near n m : 0 < m -> Rabs (seg_param n m - n / m) <= kSegEps / m.
Proof.
  intros M. unfold seg_param. destruct (Rltb_spec (Rabs n) kSegEps) as [H|H].
  - replace (0 - n / m) with (- n * / m) by (field; lra). rewrite Rabs_mult, Rabs_Ropp, (Rabs_right (/ m)) by (apply Rle_ge, Rlt_le, Rinv_0_lt_compat, M).
    apply Rmult_le_compat_r; [apply Rlt_le, Rinv_0_lt_compat, M|lra].
  - rewrite Rminus_eq_0, Rabs_R0. apply Rmult_le_pos; [unfold kSegEps; lra|apply Rlt_le, Rinv_0_lt_compat, M].
Qed.
Lemma param_exact n m : 0 < m -> n = 0 \/ kSegEps <= n -> seg_param n m = n / m.
Proof.
  intros M [->|H]; unfold seg_param.
  - rewrite Rabs_R0. destruct (Rltb_spec 0 kSegEps); field; lra.
  - rewrite Rabs_right by (apply Rle_ge; unfold kSegEps in *; lra). destruct (Rltb_spec n kSegEps); [lra|reflexivity].
Qed.

(** The distance that the algorithm measures. *)
Lemma closest_unfold o1 d1 o2 d2 m : closest_on_segments o1 d1 o2 d2 m =
  match seg_lines (vsub o1 o2) d1 d2 (m * m) with
  | None => None
  | Some q =>
      let '(sN, sD, tN, tD) := seg_edges (vnorm2 d1) (vdot d1 d2) (vdot d1 (vsub o1 o2)) q in
      let x := seg_dist2 o1 d1 o2 d2 (seg_param sN sD) (seg_param tN tD) in
      if Rltb (m * m) x then None else Some (sqrt x, (seg_param sN sD, seg_param tN tD))
  end.
Proof.
  unfold closest_on_segments. destruct (seg_lines _ _ _ _) as [q|]; [|reflexivity].
  destruct (seg_edges _ _ _ _) as [[[sN sD] tN] tD]. rewrite diff_shift. reflexivity.
Qed.

(** What the early return and the first step do when the lines are not parallel. *)
Lemma lines_skew o1 d1 o2 d2 m : kSegEps <= spread_area2 d1 d2 ->
  seg_lines (vsub o1 o2) d1 d2 (m * m) =
  let w := vsub o1 o2 in let a := vnorm2 d1 in let b := vdot d1 d2 in let c := vnorm2 d2 in let d := vdot d1 w in let e := vdot d2 w in
  if Rltb (m * m) (seg_dist2 o1 d1 o2 d2 ((b * e - c * d) / (a * c - b * b)) ((a * e - b * d) / (a * c - b * b))) then None
  else Some (first_step a b c d e).
Proof.
  intros H. rewrite spread_area2_gram in H. unfold seg_lines, first_step. cbv zeta.
  set (a := vnorm2 d1) in *. set (b := vdot d1 d2) in *. set (c := vnorm2 d2) in *.
  set (d := vdot d1 (vsub o1 o2)). set (e := vdot d2 (vsub o1 o2)).
  destruct (Rltb_spec (a * c - b * b) kSegEps); [lra|].
  unfold seg_dist2. rewrite <- diff_shift.
  assert (V : forall x v, vscale (/ (a * c - b * b)) (vscale x v) = vscale (x / (a * c - b * b)) v).
  { intros x [p q r]. unfold vscale; cbn. f_equal; unfold Rdiv; ring. }
  rewrite !V. destruct (Rltb _ _); [reflexivity|].
  destruct (Rltb _ _); [reflexivity|]. destruct (Rltb _ _); reflexivity.
Qed.

Lemma skew_pos d1 d2 : kSegEps <= spread_area2 d1 d2 ->
  0 < vnorm2 d1 /\ 0 < vnorm2 d2 /\ 0 < vnorm2 d1 * vnorm2 d2 - vdot d1 d2 * vdot d1 d2.
Proof.
  intros H. rewrite spread_area2_gram in H. pose proof (vn2_pos d1) as P1. pose proof (vn2_pos d2) as P2.
  pose proof (sq_pos (vdot d1 d2)) as P3. unfold kSegEps in H.
  assert (P : 0 < vnorm2 d1 * vnorm2 d2) by lra.
  destruct P1 as [P1|P1]; [|rewrite <- P1 in P; lra]. destruct P2 as [P2|P2]; [|rewrite <- P2 in P; lra].
  split; [exact P1|]. split; [exact P2|]. lra.
Qed.

(** The exact parameters and the ones that come out. *)
Lemma skew_result o1 d1 o2 d2 m : kSegEps <= spread_area2 d1 d2 ->
  exists sN sD tN tD,
    (sD = spread_area2 d1 d2 \/ sD = vnorm2 d1) /\ (tD = spread_area2 d1 d2 \/ tD = vnorm2 d2) /\
    0 < sD /\ 0 < tD /\ 0 <= sN <= sD /\ 0 <= tN <= tD /\
    closest_pair o1 d1 o2 d2 (sN / sD) (tN / tD) /\
    (forall s t, in_unit s -> in_unit t -> seg_dist2 o1 d1 o2 d2 s t <= seg_dist2 o1 d1 o2 d2 (sN / sD) (tN / tD) -> s = sN / sD /\ t = tN / tD) /\
    let x := seg_dist2 o1 d1 o2 d2 (seg_param sN sD) (seg_param tN tD) in
    closest_on_segments o1 d1 o2 d2 m = (if Rltb (m * m) x then None else Some (sqrt x, (seg_param sN sD, seg_param tN tD))).
Proof.
  intros H. destruct (skew_pos _ _ H) as (PA & PC & PD). rewrite closest_unfold, (lines_skew _ _ _ _ _ H). cbv zeta.
  rewrite spread_area2_gram.
  set (w := vsub o1 o2). set (a := vnorm2 d1) in *. set (b := vdot d1 d2) in *. set (c := vnorm2 d2) in *.
  set (d := vdot d1 w). set (e := vdot d2 w).
  pose proof (edges_ok a b c d e PA PC PD _ (first_step_ok a b c d e PC PD)) as G.
  destruct (seg_edges a b d (first_step a b c d e)) as [[[sN sD] tN] tD] eqn:E. destruct G as (G1 & G2 & G3 & G4 & G5 & G6).
  assert (P1 : 0 < sD) by (destruct G1; subst sD; assumption). assert (P2 : 0 < tD) by (destruct G2; subst tD; assumption).
  exists sN, sD, tN, tD. split; [exact G1|]. split; [exact G2|]. split; [exact P1|]. split; [exact P2|]. split; [exact G3|]. split; [exact G4|].
  split; [split; [apply div_unit; assumption|]; split; [apply div_unit; assumption|]|split].
  - intros s' t' I1 I2. rewrite !dist_quad. fold w a b c d e. apply opt_min; assumption.
  - intros s t I1 I2. rewrite !dist_quad. fold w a b c d e. apply opt_unique; assumption.
  - destruct (Rltb_spec (m * m) (seg_dist2 o1 d1 o2 d2 ((b * e - c * d) / (a * c - b * b)) ((a * e - b * d) / (a * c - b * b)))) as [F|F].
    + assert (Q : seg_dist2 o1 d1 o2 d2 ((b * e - c * d) / (a * c - b * b)) ((a * e - b * d) / (a * c - b * b)) <= seg_dist2 o1 d1 o2 d2 (seg_param sN sD) (seg_param tN tD))
        by (rewrite !dist_quad; apply quad_global; assumption).
      destruct (Rltb_spec (m * m) (seg_dist2 o1 d1 o2 d2 (seg_param sN sD) (seg_param tN tD))); [reflexivity|lra].
    + rewrite E. reflexivity.
Qed.

(** ** Parallel segments *)
Lemma parallel_lines d1 d2 : vcross d1 d2 = vzero -> 0 < vnorm2 d1 -> d2 = vscale (vdot d1 d2 / vnorm2 d1) d1.
Proof.
  intros C P. destruct d1 as [x y z], d2 as [p q r].
  pose proof (f_equal vx C) as C1. pose proof (f_equal vy C) as C2. pose proof (f_equal vz C) as C3.
  unfold vcross, vzero, vnorm2, vdot, vscale in *; cbn in *.
  set (n := x * x + y * y + z * z) in *.
  assert (Q : forall u v w, u * n - w * v = 0 -> u = w / n * v) by (intros u v w Q; apply (Rmult_eq_reg_r n); [|lra]; field_simplify; lra).
  f_equal; apply Q; unfold n.
  - replace (p * (x * x + y * y + z * z) - (x * p + y * q + z * r) * x) with (z * (z * p - x * r) - y * (x * q - y * p)) by ring. rewrite C2, C3. ring.
  - replace (q * (x * x + y * y + z * z) - (x * p + y * q + z * r) * y) with (x * (x * q - y * p) - z * (y * r - z * q)) by ring. rewrite C1, C3. ring.
  - replace (r * (x * x + y * y + z * z) - (x * p + y * q + z * r) * z) with (y * (y * r - z * q) - x * (z * p - x * r)) by ring. rewrite C2, C1. ring.
Qed.

Section Parallel.
Context (a l d : R) (PA : 0 < a) (PL : l <> 0).
Local Notation b := (l * a).
Local Notation c := (l * l * a).
Local Notation e := (l * d).

Lemma par_c : 0 < c.
Proof. apply Rmult_lt_0_compat; [|exact PA]. pose proof (sq_pos l) as [H|H]; [exact H|]. symmetry in H. apply Rmult_integral in H as [?|?]; contradiction. Qed.
Lemma par_pos x y : 0 <= a * (x * x) + c * (y * y) - 2 * b * (x * y).
Proof. replace (a * (x * x) + c * (y * y) - 2 * b * (x * y)) with (a * ((x - l * y) * (x - l * y))) by ring. apply Rmult_le_pos; [lra|apply sq_pos]. Qed.
Lemma par_min k s t s' t' : opt s (a * s - b * t + d) -> opt t (c * t - b * s - e) -> in_unit s' -> in_unit t' ->
  quad a b c d e k s t <= quad a b c d e k s' t'.
Proof.
  intros O1 O2 I1 I2. pose proof (quad_diff a b c d e k s t s' t') as Q. pose proof (par_pos (s' - s) (t' - t)).
  pose proof (opt_step _ _ s' O1 I1). pose proof (opt_step _ _ t' O2 I2). lra.
Qed.
Lemma par_edges : exists sN sD tN tD, seg_edges a b d (0, 1, e, c) = (sN, sD, tN, tD) /\
  ((sN = 0 /\ sD = 1) \/ (sN = 1 /\ sD = 1) \/ sD = a) /\ tD = c /\ 0 <= sN <= sD /\ 0 <= tN <= tD /\ 0 < sD /\ 0 < tD /\
  opt (sN / sD) (a * (sN / sD) - b * (tN / tD) + d) /\ opt (tN / tD) (c * (tN / tD) - b * (sN / sD) - e).
Proof.
  pose proof par_c as PC. unfold seg_edges.
  assert (Z0 : 0 / 1 = 0) by field. assert (Z1 : 0 / c = 0) by (field; lra). assert (Z2 : 1 / 1 = 1) by field. assert (Z3 : c / c = 1) by (field; split; lra).
  assert (K : forall sN sD tN tD, ((sN = 0 /\ sD = 1) \/ (sN = 1 /\ sD = 1) \/ sD = a) -> tD = c -> 0 <= sN <= sD -> 0 <= tN <= tD ->
    opt (sN / sD) (a * (sN / sD) - b * (tN / tD) + d) -> opt (tN / tD) (c * (tN / tD) - b * (sN / sD) - e) ->
    exists sN' sD' tN' tD', (sN, sD, tN, tD) = (sN', sD', tN', tD') /\
    ((sN' = 0 /\ sD' = 1) \/ (sN' = 1 /\ sD' = 1) \/ sD' = a) /\ tD' = c /\ 0 <= sN' <= sD' /\ 0 <= tN' <= tD' /\ 0 < sD' /\ 0 < tD' /\
    opt (sN' / sD') (a * (sN' / sD') - b * (tN' / tD') + d) /\ opt (tN' / tD') (c * (tN' / tD') - b * (sN' / sD') - e)).
  { intros sN sD tN tD H1 -> H3 H4 H5 H6. exists sN, sD, tN, c. split; [reflexivity|]. split; [exact H1|]. split; [reflexivity|]. split; [exact H3|]. split; [exact H4|].
    split; [destruct H1 as [[_ ->]|[[_ ->]| ->]]; lra|]. split; [exact PC|]. split; assumption. }
  destruct (Rltb_spec e 0) as [T0|T0]; [|destruct (Rltb_spec c e) as [T1|T1]].
  - destruct (Rltb_spec (- d) 0) as [S0|S0]; [|destruct (Rltb_spec a (- d)) as [S1|S1]]; apply K; rewrite ?Z0, ?Z1, ?Z2, ?Z3; try lra; try reflexivity; auto;
      try (apply opt0; lra); try (apply opt1; lra); try (left; field; lra).
    apply opt0. assert (L : 0 < l) by (apply (pos_div (- d)); lra). pose proof (Rmult_lt_0_compat l (- d - a) L ltac:(lra)). lra.
  - destruct (Rltb_spec (- d + b) 0) as [S0|S0]; [|destruct (Rltb_spec a (- d + b)) as [S1|S1]]; apply K; rewrite ?Z0, ?Z1, ?Z2, ?Z3; try lra; try reflexivity; auto;
      try (apply opt0; lra); try (apply opt1; lra); try (left; field; lra).
    apply opt1. assert (L : 0 < - l) by (apply (pos_div (- d + b)); lra). pose proof (Rmult_lt_0_compat (- l) (- d + b - a) L ltac:(lra)). lra.
  - apply K; rewrite ?Z0; try lra; try reflexivity; auto; left; field; split; lra.
Qed.
End Parallel.

Lemma parallel_result o1 d1 o2 d2 m : vcross d1 d2 = vzero -> 0 < vnorm2 d1 -> 0 < vnorm2 d2 -> vnorm2 (vsub o1 o2) <= m * m ->
  exists sN sD tN tD,
    ((sN = 0 /\ sD = 1) \/ (sN = 1 /\ sD = 1) \/ sD = vnorm2 d1) /\ tD = vnorm2 d2 /\
    0 < sD /\ 0 < tD /\ 0 <= sN <= sD /\ 0 <= tN <= tD /\
    closest_pair o1 d1 o2 d2 (sN / sD) (tN / tD) /\
    let x := seg_dist2 o1 d1 o2 d2 (seg_param sN sD) (seg_param tN tD) in
    closest_on_segments o1 d1 o2 d2 m = (if Rltb (m * m) x then None else Some (sqrt x, (seg_param sN sD, seg_param tN tD))).
Proof.
  intros C P1 P2 M. pose proof (parallel_lines _ _ C P1) as L. set (l := vdot d1 d2 / vnorm2 d1) in L. clearbody l. subst d2.
  assert (PL : l <> 0). { intros ->. replace (vnorm2 (vscale 0 d1)) with 0 in P2 by (destruct d1; unfold vnorm2, vdot, vscale; cbn; ring). lra. }
  set (w := vsub o1 o2) in *. set (a := vnorm2 d1) in *. set (d := vdot d1 w).
  assert (B : vdot d1 (vscale l d1) = l * a) by (unfold a; destruct d1; unfold vnorm2, vdot, vscale; cbn; ring).
  assert (CC : vnorm2 (vscale l d1) = l * l * a) by (unfold a; destruct d1; unfold vnorm2, vdot, vscale; cbn; ring).
  assert (EE : vdot (vscale l d1) w = l * d) by (unfold d; generalize w; intros []; destruct d1; unfold vdot, vscale; cbn; ring).
  destruct (par_edges a l d P1 PL) as (sN & sD & tN & tD & E & H1 & H2 & H3 & H4 & H5 & H6 & O1 & O2).
  exists sN, sD, tN, tD. split; [exact H1|]. split; [rewrite CC; exact H2|]. split; [exact H5|]. split; [exact H6|]. split; [exact H3|]. split; [exact H4|].
  split.
  - split; [apply div_unit; assumption|]. split; [apply div_unit; assumption|]. intros s' t' I1 I2. rewrite !dist_quad. fold w a d. rewrite B, CC, EE.
    apply par_min; assumption.
  - rewrite closest_unfold. unfold seg_lines. cbv zeta. fold w a d. rewrite B, CC, EE.
    destruct (Rltb_spec (a * (l * l * a) - l * a * (l * a)) kSegEps) as [_|F]; [|unfold kSegEps in F; lra].
    destruct (Rltb_spec (m * m) (vnorm2 w)); [lra|]. rewrite E. reflexivity.
Qed.

Lemma vn2_nonzero v : v <> vzero -> 0 < vnorm2 v.
Proof.
  intros N. destruct (vn2_pos v) as [H|H]; [exact H|]. exfalso. apply N. destruct v as [x y z]. unfold vnorm2, vdot in H; cbn in H.
  pose proof (sq_pos x). pose proof (sq_pos y). pose proof (sq_pos z).
  assert (Z : forall u, u * u = 0 -> u = 0) by (intros u U; apply Rmult_integral in U as [?|?]; assumption).
  unfold vzero. f_equal; apply Z; lra.
Qed.

(** From the exact parameters to the ones that come out. *)
Lemma snap_bound n m m' : 0 < m -> 0 < m' -> seg_param n m = n / m \/ m' <= m -> Rabs (seg_param n m - n / m) <= kSegEps / m'.
Proof.
  intros M M' [H|H].
  - rewrite H, Rminus_eq_0, Rabs_R0. apply Rmult_le_pos; [unfold kSegEps; lra|apply Rlt_le, Rinv_0_lt_compat, M'].
  - eapply Rle_trans; [apply param_near, M|]. apply Rmult_le_compat_l; [unfold kSegEps; lra|]. apply Rinv_le_contravar; assumption.
Qed.
Lemma snap_near o1 d1 o2 d2 sN sD tN tD s' t' m1 m2 : 0 < sD -> 0 < tD -> 0 < m1 -> 0 < m2 ->
  seg_param sN sD = sN / sD \/ m1 <= sD -> seg_param tN tD = tN / tD \/ m2 <= tD ->
  seg_dist2 o1 d1 o2 d2 (sN / sD) (tN / tD) <= seg_dist2 o1 d1 o2 d2 s' t' ->
  sqrt (seg_dist2 o1 d1 o2 d2 (seg_param sN sD) (seg_param tN tD)) <= sqrt (seg_dist2 o1 d1 o2 d2 s' t') + seg_slack d1 d2 m1 m2.
Proof.
  intros P1 P2 M1 M2 H1 H2 C. eapply Rle_trans; [apply dist_move|]. apply Rplus_le_compat; [apply sqrt_le_1_alt, C|].
  pose proof (snap_bound _ _ _ P1 M1 H1) as B1. pose proof (snap_bound _ _ _ P2 M2 H2) as B2.
  apply (Rmult_le_compat_r (sqrt (vnorm2 d1)) _ _ (sqrt_pos _)) in B1. apply (Rmult_le_compat_r (sqrt (vnorm2 d2)) _ _ (sqrt_pos _)) in B2.
  unfold seg_slack. fold kSegEps. unfold Rdiv in *. lra.
Qed.

(** The parameters stay on the segments. *)
Definition unit_q (q : R * R * R * R) : Prop := let '(sN, sD, tN, tD) := q in 0 <= sN <= sD /\ 0 <= tD.
Lemma lines_unit w d1 d2 m q : seg_lines w d1 d2 m = Some q -> unit_q q.
Proof.
  unfold seg_lines. pose proof (vn2_pos d1) as P1. pose proof (vn2_pos d2) as P2.
  destruct (Rltb_spec (vnorm2 d1 * vnorm2 d2 - vdot d1 d2 * vdot d1 d2) kSegEps) as [H|H].
  - destruct (Rltb _ _); [discriminate|]. intros E. injection E as <-. cbn. lra.
  - unfold kSegEps in H. destruct (Rltb _ _); [discriminate|].
    match goal with |- context [Rltb ?x 0] => destruct (Rltb_spec x 0) end; [intros E; injection E as <-; cbn; lra|].
    match goal with |- context [Rltb ?x ?y] => destruct (Rltb_spec x y) end; intros E; injection E as <-; cbn; lra.
Qed.
Lemma param_unit0 n m : 0 <= n <= m -> in_unit (seg_param n m).
Proof.
  intros H. destruct (Rle_lt_dec m 0) as [M|M].
  - assert (n = 0) by lra. subst n. unfold seg_param. rewrite Rabs_R0. destruct (Rltb_spec 0 kSegEps) as [_|F]; unfold in_unit, kSegEps in *; lra.
  - apply param_unit; assumption.
Qed.
Lemma edges_unit a b d q sN sD tN tD : 0 <= a -> unit_q q -> seg_edges a b d q = (sN, sD, tN, tD) -> in_unit (seg_param sN sD) /\ in_unit (seg_param tN tD).
Proof.
  destruct q as [[[n1 m1] n2] m2]. unfold unit_q, seg_edges. intros A H.
  repeat match goal with |- context [Rltb ?x ?y] => destruct (Rltb_spec x y) end; intros E; injection E as <- <- <- <-; split; apply param_unit0; lra.
Qed.
