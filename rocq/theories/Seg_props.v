(** C102: the closest points of two segments. *)

From Coq Require Import Bool Reals Lra.
From Verif Require Import Rbool R3 Seg_model Seg_spec Seg_proofs.
Local Open Scope R_scope.

(** ** What is reported *)
(** Whatever the segments are: reported parameters lie on the segments, the reported distance is the
    distance of the reported points, and it is at most the given one. *)
Theorem seg_sound : forall o1 d1 o2 d2 m dist s t, 0 <= m ->
  closest_on_segments o1 d1 o2 d2 m = Some (dist, (s, t)) ->
  in_unit s /\ in_unit t /\ dist = sqrt (seg_dist2 o1 d1 o2 d2 s t) /\ dist <= m.
Proof.
  intros o1 d1 o2 d2 m dist s t M H. rewrite closest_unfold in H.
  destruct (seg_lines (vsub o1 o2) d1 d2 (m * m)) as [q|] eqn:L; [|discriminate].
  destruct (seg_edges (vnorm2 d1) (vdot d1 d2) (vdot d1 (vsub o1 o2)) q) as [[[sN sD] tN] tD] eqn:E. cbv zeta in H.
  destruct (Rltb_spec (m * m) (seg_dist2 o1 d1 o2 d2 (seg_param sN sD) (seg_param tN tD))) as [F|F]; [discriminate|].
  injection H as H1 H2 H3. subst dist s t.
  assert (B : in_unit (seg_param sN sD) /\ in_unit (seg_param tN tD)); [|destruct B as [B1 B2]; split; [exact B1|]; split; [exact B2|]; split; [reflexivity|]].
  - exact (edges_unit _ _ _ _ _ _ _ _ (vn2_pos d1) (lines_unit _ _ _ _ _ L) E).
  - apply Rsqr_incr_0; [|apply sqrt_pos|exact M]. rewrite Rsqr_sqrt by apply vn2_pos. unfold Rsqr. lra.
Qed.

(** ** Segments that are not parallel *)
(** If the directions span a squared area of at least 1e-7, the reported distance is the smallest one
    except for a small slack, and a refusal means that every pair of points is farther apart than the
    given distance, except for that slack. *)
Theorem seg_near_partial : forall o1 d1 o2 d2 m, 0 <= m -> / 10000000 <= spread_area2 d1 d2 ->
  forall s' t', in_unit s' -> in_unit t' ->
  let slack := seg_slack d1 d2 (Rmin (vnorm2 d1) (spread_area2 d1 d2)) (Rmin (vnorm2 d2) (spread_area2 d1 d2)) in
  match closest_on_segments o1 d1 o2 d2 m with
  | Some (dist, _) => dist <= sqrt (seg_dist2 o1 d1 o2 d2 s' t') + slack
  | None => m < sqrt (seg_dist2 o1 d1 o2 d2 s' t') + slack
  end.
Proof.
  intros o1 d1 o2 d2 m M H s' t' I1 I2 slack.
  destruct (skew_result o1 d1 o2 d2 m H) as (sN & sD & tN & tD & H1 & H2 & P1 & P2 & H3 & H4 & (_ & _ & C) & _ & E). cbv zeta in E. rewrite E.
  pose proof (Rlt_le_trans 0 (/ 10000000) _ ltac:(lra) H) as PS. destruct (skew_pos _ _ H) as (PA & PC & _).
  assert (Q : sqrt (seg_dist2 o1 d1 o2 d2 (seg_param sN sD) (seg_param tN tD)) <= sqrt (seg_dist2 o1 d1 o2 d2 s' t') + slack).
  { apply (snap_near _ _ _ _ _ _ _ _ _ _ _ _ P1 P2).
    - apply Rmin_glb_lt; assumption.
    - apply Rmin_glb_lt; assumption.
    - destruct H1 as [-> | ->]; [right; apply Rmin_r|right; apply Rmin_l].
    - destruct H2 as [-> | ->]; [right; apply Rmin_r|right; apply Rmin_l].
    - exact (C _ _ I1 I2). }
  destruct (Rltb_spec (m * m) (seg_dist2 o1 d1 o2 d2 (seg_param sN sD) (seg_param tN tD))) as [F|F]; [|exact Q].
  eapply Rlt_le_trans; [|exact Q]. apply Rsqr_incrst_0; [|exact M|apply sqrt_pos]. rewrite Rsqr_sqrt by apply vn2_pos. exact F.
Qed.
Print Assumptions seg_near_partial.

(** If the closest points are not too near the first ends, they are what is reported, exactly when
    their distance is at most the given one. *)
Theorem seg_closest_partial : forall o1 d1 o2 d2 m s t, 0 <= m -> / 10000000 <= spread_area2 d1 d2 ->
  closest_pair o1 d1 o2 d2 s t ->
  clear_of_start s (vnorm2 d1) (spread_area2 d1 d2) -> clear_of_start t (vnorm2 d2) (spread_area2 d1 d2) ->
  (within o1 d1 o2 d2 m -> closest_on_segments o1 d1 o2 d2 m = Some (sqrt (seg_dist2 o1 d1 o2 d2 s t), (s, t))) /\
  (~ within o1 d1 o2 d2 m -> closest_on_segments o1 d1 o2 d2 m = None).
Proof.
  intros o1 d1 o2 d2 m s t M H (I1 & I2 & C) K1 K2.
  destruct (skew_result o1 d1 o2 d2 m H) as (sN & sD & tN & tD & H1 & H2 & P1 & P2 & H3 & H4 & (J1 & J2 & _) & U & E). cbv zeta in E.
  destruct (U s t I1 I2 (C _ _ J1 J2)) as [Es Et].
  assert (S : seg_param sN sD = s).
  { rewrite param_exact, <- Es; [reflexivity|exact P1|]. assert (N : sN = s * sD) by (rewrite Es; field; lra).
    destruct K1 as [Z|[Z1 Z2]]; [left; rewrite N, Z; ring|right]. rewrite N. destruct H1 as [-> | ->]; assumption. }
  assert (T : seg_param tN tD = t).
  { rewrite param_exact, <- Et; [reflexivity|exact P2|]. assert (N : tN = t * tD) by (rewrite Et; field; lra).
    destruct K2 as [Z|[Z1 Z2]]; [left; rewrite N, Z; ring|right]. rewrite N. destruct H2 as [-> | ->]; assumption. }
  rewrite S, T in E. rewrite E. split; intros W.
  - destruct W as (s' & t' & I1' & I2' & W). destruct (Rltb_spec (m * m) (seg_dist2 o1 d1 o2 d2 s t)) as [F|F]; [|reflexivity]. exfalso.
    pose proof (sqrt_le_1_alt _ _ (C s' t' I1' I2')) as Q.
    assert (L : m < sqrt (seg_dist2 o1 d1 o2 d2 s t)) by (apply Rsqr_incrst_0; [|exact M|apply sqrt_pos]; rewrite Rsqr_sqrt by apply vn2_pos; exact F). lra.
  - destruct (Rltb_spec (m * m) (seg_dist2 o1 d1 o2 d2 s t)) as [F|F]; [reflexivity|]. exfalso. apply W. exists s, t. split; [exact I1|]. split; [exact I2|].
    apply Rsqr_incr_0; [|apply sqrt_pos|exact M]. rewrite Rsqr_sqrt by apply vn2_pos. unfold Rsqr. lra.
Qed.
Print Assumptions seg_closest_partial.

(** ** Parallel segments *)
(** If the first ends are no farther apart than the given distance, the distance reported for exactly
    parallel segments of positive length is the smallest one except for the slack. *)
Theorem seg_parallel_partial : forall o1 d1 o2 d2 m, 0 <= m -> vcross d1 d2 = vzero -> d1 <> vzero -> d2 <> vzero ->
  sqrt (seg_dist2 o1 d1 o2 d2 0 0) <= m ->
  forall s' t', in_unit s' -> in_unit t' ->
  match closest_on_segments o1 d1 o2 d2 m with
  | Some (dist, _) => dist <= sqrt (seg_dist2 o1 d1 o2 d2 s' t') + seg_slack d1 d2 (vnorm2 d1) (vnorm2 d2)
  | None => m < sqrt (seg_dist2 o1 d1 o2 d2 s' t') + seg_slack d1 d2 (vnorm2 d1) (vnorm2 d2)
  end.
Proof.
  intros o1 d1 o2 d2 m M X N1 N2 W s' t' I1 I2.
  pose proof (vn2_nonzero _ N1) as PA. pose proof (vn2_nonzero _ N2) as PC.
  assert (W' : vnorm2 (vsub o1 o2) <= m * m).
  { replace (seg_dist2 o1 d1 o2 d2 0 0) with (vnorm2 (vsub o1 o2)) in W
      by (destruct o1, d1, o2, d2; unfold seg_dist2, seg_point, vnorm2, vdot, vsub, vadd, vscale; cbn; ring).
    rewrite <- (Rsqr_sqrt (vnorm2 (vsub o1 o2))) by apply vn2_pos. apply (Rsqr_incr_1 _ _ W); [apply sqrt_pos|exact M]. }
  destruct (parallel_result o1 d1 o2 d2 m X PA PC W') as (sN & sD & tN & tD & H1 & -> & P1 & P2 & H3 & H4 & (_ & _ & C) & E). cbv zeta in E. rewrite E.
  assert (Q : sqrt (seg_dist2 o1 d1 o2 d2 (seg_param sN sD) (seg_param tN (vnorm2 d2))) <= sqrt (seg_dist2 o1 d1 o2 d2 s' t') + seg_slack d1 d2 (vnorm2 d1) (vnorm2 d2)).
  { apply (snap_near _ _ _ _ _ _ _ _ _ _ _ _ P1 P2); try assumption.
    - destruct H1 as [[-> ->]|[[-> ->]| ->]]; [left|left|right; lra].
      + rewrite param_exact; [reflexivity|lra|left; reflexivity].
      + rewrite param_exact; [reflexivity|lra|right; unfold kSegEps; lra].
    - right. lra.
    - exact (C _ _ I1 I2). }
  destruct (Rltb_spec (m * m) (seg_dist2 o1 d1 o2 d2 (seg_param sN sD) (seg_param tN (vnorm2 d2)))) as [F|F]; [|exact Q].
  eapply Rlt_le_trans; [|exact Q]. apply Rsqr_incrst_0; [|exact M|apply sqrt_pos]. rewrite Rsqr_sqrt by apply vn2_pos. exact F.
Qed.
Print Assumptions seg_parallel_partial.

(** ** An example: two crossing segments at distance 1 *)
Definition exs_o2 : vec3 := V3 (1 / 2) (- (1 / 4)) 1.
Definition exs_d1 : vec3 := V3 1 0 0.
Definition exs_d2 : vec3 := V3 0 1 0.
Example exs_area : spread_area2 exs_d1 exs_d2 = 1.
Proof. lazy -[Rplus Rmult Rminus Ropp]. ring. Qed.
Example exs_area_ok : / 10000000 <= spread_area2 exs_d1 exs_d2.
Proof. rewrite exs_area. lra. Qed.
Lemma exs_dist s t : seg_dist2 vzero exs_d1 exs_o2 exs_d2 s t = (s - 1 / 2) * (s - 1 / 2) + (t - 1 / 4) * (t - 1 / 4) + 1.
Proof. unfold exs_d1, exs_d2, exs_o2, vzero, seg_dist2, seg_point, vnorm2, vdot, vsub, vadd, vscale; cbn [vx vy vz]. field. Qed.
Example exs_closest : closest_pair vzero exs_d1 exs_o2 exs_d2 (1 / 2) (1 / 4).
Proof.
  split; [unfold in_unit; lra|]. split; [unfold in_unit; lra|]. intros s' t' _ _. rewrite !exs_dist.
  pose proof (sq_pos (s' - 1 / 2)). pose proof (sq_pos (t' - 1 / 4)). lra.
Qed.
Example exs_clear : clear_of_start (1 / 2) (vnorm2 exs_d1) (spread_area2 exs_d1 exs_d2) /\ clear_of_start (1 / 4) (vnorm2 exs_d2) (spread_area2 exs_d1 exs_d2).
Proof. rewrite exs_area. unfold clear_of_start, vnorm2, vdot, exs_d1, exs_d2; cbn [vx vy vz]. split; right; split; lra. Qed.
Example exs_result : closest_on_segments vzero exs_d1 exs_o2 exs_d2 2 = Some (1, (1 / 2, 1 / 4)).
Proof.
  destruct exs_clear as [K1 K2].
  assert (Q : sqrt (seg_dist2 vzero exs_d1 exs_o2 exs_d2 (1 / 2) (1 / 4)) = 1).
  { rewrite exs_dist. replace (_ + 1) with 1 by field. apply sqrt_1. }
  destruct (seg_closest_partial vzero exs_d1 exs_o2 exs_d2 2 (1 / 2) (1 / 4) ltac:(lra) exs_area_ok exs_closest K1 K2) as [P _].
  rewrite P, Q; [reflexivity|]. exists (1 / 2), (1 / 4). rewrite Q. unfold in_unit. lra.
Qed.
Print Assumptions seg_sound.

(** Parallel segments for which the hypotheses hold. *)
Example exs_parallel : vcross exs_d1 (vscale 2 exs_d1) = vzero /\ exs_d1 <> vzero /\ vscale 2 exs_d1 <> vzero /\
  sqrt (seg_dist2 vzero exs_d1 (V3 0 1 0) (vscale 2 exs_d1) 0 0) <= 1.
Proof.
  unfold exs_d1, vzero. split; [unfold vcross, vscale; cbn [vx vy vz]; f_equal; ring|].
  split; [intros H; apply (f_equal vx) in H; cbn in H; lra|]. split; [intros H; apply (f_equal vx) in H; cbn in H; lra|].
  right. replace (seg_dist2 _ _ _ _ _ _) with 1; [apply sqrt_1|].
  unfold seg_dist2, seg_point, vnorm2, vdot, vsub, vadd, vscale; cbn [vx vy vz]. ring.
Qed.

(** ** What does not hold *)
Lemma unit0 : in_unit 0. Proof. unfold in_unit. lra. Qed.
Lemma unit1 : in_unit 1. Proof. unfold in_unit. lra. Qed.

(** Parallel segments of length 2 that run beside each other at distance 1, one forwards and one
    backwards: reported as farther apart than 3/2, because only the first ends are compared. *)
Theorem seg_parallel_refuted : exists o1 d1 o2 d2,
  within o1 d1 o2 d2 1 /\ closest_on_segments o1 d1 o2 d2 (3 / 2) = None.
Proof.
  exists vzero, (V3 2 0 0), (V3 2 1 0), (V3 (- 2) 0 0). split.
  - exists 0, 1. split; [exact unit0|]. split; [exact unit1|]. right.
    replace (seg_dist2 _ _ _ _ _ _) with 1; [apply sqrt_1|].
    unfold vzero, seg_dist2, seg_point, vnorm2, vdot, vsub, vadd, vscale; cbn [vx vy vz]. ring.
  - unfold closest_on_segments, seg_lines, vzero, vnorm2, vdot, vsub; cbn [vx vy vz].
    destruct (Rltb_spec ((2 * 2 + 0 * 0 + 0 * 0) * (- 2 * - 2 + 0 * 0 + 0 * 0) - (2 * - 2 + 0 * 0 + 0 * 0) * (2 * - 2 + 0 * 0 + 0 * 0)) kSegEps) as [_|F];
      [|unfold kSegEps in F; lra].
    destruct (Rltb_spec (3 / 2 * (3 / 2)) ((0 - 2) * (0 - 2) + (0 - 1) * (0 - 1) + (0 - 0) * (0 - 0))) as [_|F]; [reflexivity|lra].
Qed.
Print Assumptions seg_parallel_refuted.

(** A point on the far end of a segment: reported at distance 2 from it. *)
Theorem seg_point_refuted : exists o1 d1 o2 d2,
  within o1 d1 o2 d2 0 /\ closest_on_segments o1 d1 o2 d2 2 = Some (2, (0, 0)) /\ closest_on_segments o1 d1 o2 d2 1 = None.
Proof.
  exists vzero, (V3 2 0 0), (V3 2 0 0), vzero. split; [|split].
  - exists 1, 0. split; [exact unit1|]. split; [exact unit0|]. right.
    replace (seg_dist2 _ _ _ _ _ _) with 0; [apply sqrt_0|].
    unfold vzero, seg_dist2, seg_point, vnorm2, vdot, vsub, vadd, vscale; cbn [vx vy vz]. ring.
  - rewrite closest_unfold. unfold seg_lines, vzero, vnorm2, vdot, vsub; cbn [vx vy vz].
    match goal with |- context [Rltb ?x kSegEps] => destruct (Rltb_spec x kSegEps) as [_|F]; [|unfold kSegEps in F; lra] end.
    match goal with |- context [Rltb (2 * 2) ?x] => destruct (Rltb_spec (2 * 2) x) as [F|_]; [lra|] end.
    unfold seg_edges.
    match goal with |- context [Rltb ?x 0] => destruct (Rltb_spec x 0) as [F|_]; [lra|] end.
    match goal with |- context [Rltb (0 * 0 + 0 * 0 + 0 * 0) ?x] => destruct (Rltb_spec (0 * 0 + 0 * 0 + 0 * 0) x) as [F|_]; [lra|] end.
    assert (S : forall n m, n = 0 -> seg_param n m = 0).
    { intros n m ->. unfold seg_param. rewrite Rabs_R0. destruct (Rltb_spec 0 kSegEps) as [_|F]; [reflexivity|unfold kSegEps in F; lra]. }
    rewrite !S by ring. cbv zeta. unfold seg_dist2, seg_point, vnorm2, vdot, vsub, vadd, vscale; cbn [vx vy vz].
    match goal with |- context [Rltb (2 * 2) ?x] => replace x with (2 * 2) by ring end.
    destruct (Rltb_spec (2 * 2) (2 * 2)) as [F|_]; [lra|]. rewrite sqrt_square by lra. reflexivity.
  - rewrite closest_unfold. unfold seg_lines, vzero, vnorm2, vdot, vsub; cbn [vx vy vz].
    match goal with |- context [Rltb ?x kSegEps] => destruct (Rltb_spec x kSegEps) as [_|F]; [|unfold kSegEps in F; lra] end.
    match goal with |- context [Rltb (1 * 1) ?x] => destruct (Rltb_spec (1 * 1) x) as [_|F]; [reflexivity|lra] end.
Qed.
Print Assumptions seg_point_refuted.

(** Two segments of length 1 and a little more that touch, at an angle of about 1/2500: reported as
    farther apart than 1/4, because the small numerator of the first parameter is taken for 0. *)
Theorem seg_touch_refuted : exists o1 d1 o2 d2,
  / 10000000 <= spread_area2 d1 d2 /\ within o1 d1 o2 d2 0 /\ closest_on_segments o1 d1 o2 d2 (1 / 4) = None.
Proof.
  set (h := / 2500). exists vzero, (V3 1 0 0), (V3 (- (1 / 2)) (- h) 0), (V3 1 h 0).
  assert (A : spread_area2 (V3 1 0 0) (V3 1 h 0) = h * h) by (unfold spread_area2, vnorm2, vdot, vcross; cbn [vx vy vz]; ring).
  assert (Hh : h = / 2500) by reflexivity. clearbody h.
  assert (B : / 10000000 <= h * h) by (subst h; lra).
  split; [rewrite A; exact B|]. split.
  - exists (1 / 2), 1. split; [unfold in_unit; lra|]. split; [exact unit1|]. right.
    replace (seg_dist2 _ _ _ _ _ _) with 0; [apply sqrt_0|].
    unfold vzero, seg_dist2, seg_point, vnorm2, vdot, vsub, vadd, vscale; cbn [vx vy vz]. field.
  - rewrite closest_unfold. unfold seg_lines, vzero, vnorm2, vdot, vsub; cbn [vx vy vz].
    set (D := (1 * 1 + 0 * 0 + 0 * 0) * (1 * 1 + h * h + 0 * 0) - (1 * 1 + 0 * h + 0 * 0) * (1 * 1 + 0 * h + 0 * 0)).
    assert (HD : D = h * h) by (unfold D; ring).
    destruct (Rltb_spec D kSegEps) as [F|_]; [unfold kSegEps in F; lra|].
    match goal with |- context [if Rltb ?u ?v then None else _] => destruct (Rltb_spec u v) as [_|_]; [reflexivity|] end.
    match goal with |- context [Rltb ?x 0] => assert (X : x = h * h / 2) by field; rewrite X; clear X end.
    destruct (Rltb_spec (h * h / 2) 0) as [F|_]; [lra|]. destruct (Rltb_spec D (h * h / 2)) as [F|_]; [lra|].
    unfold seg_edges.
    match goal with |- context [Rltb ?x 0] => assert (X : x = h * h) by field; rewrite X; clear X end.
    destruct (Rltb_spec (h * h) 0) as [F|_]; [lra|]. destruct (Rltb_spec D (h * h)) as [F|_]; [lra|].
    rewrite HD. clear HD D.
    assert (S1 : seg_param (h * h / 2) (h * h) = 0).
    { unfold seg_param. rewrite Rabs_right by lra. destruct (Rltb_spec (h * h / 2) kSegEps) as [_|F]; [reflexivity|unfold kSegEps in F; subst h; lra]. }
    assert (S2 : seg_param (h * h) (h * h) = 1).
    { rewrite param_exact; [field; subst h; lra|lra|right; exact B]. }
    rewrite S1, S2. cbv zeta.
    match goal with |- context [Rltb ?u ?v] => destruct (Rltb_spec u v) as [_|F]; [reflexivity|exfalso] end.
    unfold seg_dist2, seg_point, vnorm2, vdot, vsub, vadd, vscale in F; cbn [vx vy vz] in F. lra.
Qed.
Print Assumptions seg_touch_refuted.
