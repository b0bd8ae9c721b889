(** Lemmas for C112. *)

From Coq Require Import Bool List Reals Lra Psatz.
From Verif Require Import Rbool R3 Cub_model Cub_spec Cub_proofs Cub_props EdgeD_model EdgeD_spec EdgeD_proofs EdgeD_props Ccd_model Ccd_spec.
Import ListNotations.
Local Open Scope R_scope.

Lemma candidate_in times dt t : In t (candidates times dt) <-> 0 < t <= dt /\ (In t times \/ t = dt).
Proof.
  unfold candidates. rewrite filter_In, in_app_iff. cbn [In]. split.
  - intros [H K]. destruct (Rleb_spec t 0); [discriminate K|]. destruct (Rltb_spec dt t); [discriminate K|]. split; [lra|]. destruct H as [|[|[]]]; auto.
  - intros [H K]. split; [destruct K as [|K]; [left; assumption|right; left; symmetry; exact K]|]. destruct (Rleb_spec t 0); [lra|]. destruct (Rltb_spec dt t); [lra|]. reflexivity.
Qed.
Lemma at_time_moved x v t : at_time x v t = moved x v t.
Proof. reflexivity. Qed.
Lemma posed_times x1 x2 x3 x4 v1 v2 v3 v4 t : well_posed x1 x2 x3 x4 v1 v2 v3 v4 ->
  coplanar (moved x1 v1 t) (moved x2 v2 t) (moved x3 v3 t) (moved x4 v4 t) -> In t (times_coplanar x1 x2 x3 x4 v1 v2 v3 v4).
Proof.
  intros (k3 & k2 & k1 & k0 & V & [K|[-> K]]) H.
  - exact (coplanar_times_cubic _ _ _ _ _ _ _ _ _ _ _ _ t V K H).
  - apply (coplanar_times_lower_partial _ _ _ _ _ _ _ _ _ _ _ t V K). exact H.
Qed.

(** Edges that touch, and a point on a face, are coplanar. *)
Lemma edges_touch_coplanar p1 q1 p2 q2 s t : on_edge p1 q1 s = on_edge p2 q2 t -> coplanar p1 q1 p2 q2.
Proof.
  intros H. apply coplanar_volume. unfold volume. assert (Q : vsub p2 p1 = vadd (vscale s (vsub q1 p1)) (vscale (- t) (vsub q2 p2))).
  { destruct p1, q1, p2, q2. unfold on_edge, vadd, vscale, vsub in *. cbn in *. injection H as H1 H2 H3. f_equal; lra. }
  assert (Q2 : vsub q2 p1 = vadd (vsub p2 p1) (vsub q2 p2)) by (destruct p1, p2, q2; unfold vadd, vsub; cbn; f_equal; ring).
  rewrite Q2, Q. destruct (vsub q1 p1), (vsub q2 p2). unfold vdot, vcross, vadd, vscale. cbn. ring.
Qed.
Lemma face_coplanar a b c v w : coplanar a b c (on_face a b c v w).
Proof. apply coplanar_volume. unfold volume, on_face. destruct a, b, c. unfold vdot, vcross, vadd, vscale, vsub. cbn. ring. Qed.

(** ** The triangle *)
Lemma corner_covered A B C d1 d2 : 0 < A -> 0 < C -> 0 < A * C - B * B -> d1 < 0 -> A * d2 - B * d1 <= 0 -> 0 < d2 ->
  ~ (C * d1 - B * d2 <= 0 /\ 0 <= d2 /\ d2 - C <= 0) -> ~ (0 <= d2 - C /\ d1 - B <= d2 - C) -> False.
Proof.
  intros PA PC PD H1 Hc H2 N1 N2.
  assert (B0 : B < 0) by nra.
  assert (Vb : C * d1 - B * d2 < 0).
  { assert (X : 0 < B * (C * d1 - B * d2)) by nra. nra. }
  assert (L6 : 0 < d2 - C). { destruct (Rlt_le_dec 0 (d2 - C)) as [X|X]; [exact X|]. exfalso. apply N1. lra. }
  assert (L5 : d2 - C < d1 - B). { destruct (Rlt_le_dec (d2 - C) (d1 - B)) as [X|X]; [exact X|]. exfalso. apply N2. lra. }
  assert (X : B * d1 < B * B) by nra. nra.
Qed.
Definition misses A B C d1 d2 : Prop :=
  let d3 := d1 - A in let d4 := d2 - B in let d5 := d1 - B in let d6 := d2 - C in
  ~ (d1 <= 0 /\ d2 <= 0) /\ ~ (0 <= d3 /\ d4 <= d3) /\ ~ (d1 * d4 - d3 * d2 <= 0 /\ 0 <= d1 /\ d3 <= 0) /\
  ~ (0 <= d6 /\ d5 <= d6) /\ ~ (d5 * d2 - d1 * d6 <= 0 /\ 0 <= d2 /\ d6 <= 0) /\
  ~ (d3 * d6 - d5 * d4 <= 0 /\ 0 <= d4 - d3 /\ 0 <= d5 - d6).
Lemma face_positive A B C d1 d2 : 0 <= A -> 0 <= C -> 0 < A * C - B * B -> misses A B C d1 d2 ->
  0 < (d1 - A) * (d2 - C) - (d1 - B) * (d2 - B) /\ 0 < (d1 - B) * d2 - d1 * (d2 - C) /\ 0 < d1 * (d2 - B) - (d1 - A) * d2.
Proof.
  intros GA GC PD (nA & nB & nAB & nC & nAC & nBC).
  assert (PA : 0 < A) by (destruct (Rlt_le_dec 0 A); [assumption|]; assert (A = 0) by lra; nra).
  assert (PC : 0 < C) by (destruct (Rlt_le_dec 0 C); [assumption|]; assert (C = 0) by lra; nra).
  set (W := A - 2 * B + C).
  assert (GS : 0 < A * W - (A - B) * (A - B)) by (unfold W; replace (A * (A - 2 * B + C) - (A - B) * (A - B)) with (A * C - B * B) by ring; exact PD).
  assert (GS2 : 0 < C * W - (C - B) * (C - B)) by (unfold W; replace (C * (A - 2 * B + C) - (C - B) * (C - B)) with (A * C - B * B) by ring; exact PD).
  assert (PS : 0 < W).
  { clear - GS PA. clearbody W. apply Rnot_le_lt. intros H. pose proof (Rle_0_sqr (A - B)) as X. unfold Rsqr in X.
    assert (0 <= A * (- W)) by (apply Rmult_le_pos; lra). lra. }
  split; [|split]; apply Rnot_le_lt; intros H.
  - destruct (Rlt_le_dec (d2 - B - (d1 - A)) 0) as [L|L].
    + apply (corner_covered W (A - B) A (d2 - B - (d1 - A)) (- (d1 - A))); try assumption; unfold W in *; lra.
    + destruct (Rlt_le_dec (d1 - B - (d2 - C)) 0) as [M|M]; [|apply nBC; auto].
      apply (corner_covered W (C - B) C (d1 - B - (d2 - C)) (- (d2 - C))); try assumption; unfold W in *; lra.
  - destruct (Rlt_le_dec d2 0) as [L|L].
    + apply (corner_covered C B A d2 d1); try assumption; lra.
    + destruct (Rlt_le_dec 0 (d2 - C)) as [M|M]; [|apply nAC; auto].
      apply (corner_covered C (C - B) W (- (d2 - C)) (d1 - B - (d2 - C))); try assumption; unfold W in *; lra.
  - destruct (Rlt_le_dec d1 0) as [L|L].
    + apply (corner_covered A B C d1 d2); try assumption; lra.
    + destruct (Rlt_le_dec 0 (d1 - A)) as [M|M]; [|apply nAB; auto].
      apply (corner_covered A (A - B) W (- (d1 - A)) (d2 - B - (d1 - A))); try assumption; unfold W in *; lra.
Qed.

Lemma and_leb a b c d : Rleb a b && Rleb c d = true <-> a <= b /\ c <= d.
Proof. rewrite andb_true_iff, !Rleb_true. tauto. Qed.
Lemma and3_leb a b c d e f : Rleb a b && Rleb c d && Rleb e f = true <-> a <= b /\ c <= d /\ e <= f.
Proof. rewrite !andb_true_iff, !Rleb_true. tauto. Qed.
Lemma not_true_false (x : bool) P : (x = true <-> P) -> x = false -> ~ P.
Proof. intros H E K. apply H in K. congruence. Qed.

(** The products of the query with the edges from the other corners. *)
Lemma dots p a b c : let ab := vsub b a in let ac := vsub c a in
  vdot ab (vsub p b) = vdot ab (vsub p a) - vdot ab ab /\ vdot ac (vsub p b) = vdot ac (vsub p a) - vdot ab ac /\
  vdot ab (vsub p c) = vdot ab (vsub p a) - vdot ab ac /\ vdot ac (vsub p c) = vdot ac (vsub p a) - vdot ac ac.
Proof. destruct p, a, b, c. cbv zeta. unfold vdot, vsub. cbn. repeat split; ring. Qed.

(** The answer true: the point is in the interior of the face. *)
Lemma project_true p a b c x : project_tri p a b c = (true, Some x) ->
  exists v w, 0 < v /\ 0 < w /\ v + w < 1 /\ x = on_face a b c v w /\ vcross (vsub b a) (vsub c a) <> vzero.
Proof.
  unfold project_tri. cbv zeta. destruct (dots p a b c) as (E3 & E4 & E5 & E6). rewrite E3, E4, E5, E6.
  set (ab := vsub b a) in *. set (ac := vsub c a) in *. set (A := vdot ab ab) in *. set (B := vdot ab ac) in *. set (C := vdot ac ac) in *. set (d1 := vdot ab (vsub p a)) in *. set (d2 := vdot ac (vsub p a)) in *.
  destruct (Rleb d1 0 && Rleb d2 0) eqn:T1; [intros H; discriminate H|]. apply (not_true_false _ _ (and_leb _ _ _ _)) in T1.
  destruct (_ && _) eqn:T2; [intros H; discriminate H|]. apply (not_true_false _ _ (and_leb _ _ _ _)) in T2.
  destruct (_ && _) eqn:T3; [intros H; discriminate H|]. apply (not_true_false _ _ (and3_leb _ _ _ _ _ _)) in T3.
  destruct (_ && _) eqn:T4; [intros H; discriminate H|]. apply (not_true_false _ _ (and_leb _ _ _ _)) in T4.
  destruct (_ && _) eqn:T5; [intros H; discriminate H|]. apply (not_true_false _ _ (and3_leb _ _ _ _ _ _)) in T5.
  destruct (_ && _) eqn:T6; [intros H; discriminate H|]. apply (not_true_false _ _ (and3_leb _ _ _ _ _ _)) in T6.
  unfold rdiv. set (va := (d1 - A) * (d2 - C) - (d1 - B) * (d2 - B)) in *. set (vb := (d1 - B) * d2 - d1 * (d2 - C)) in *. set (vc := d1 * (d2 - B) - (d1 - A) * d2) in *.
  assert (D : va + vb + vc = A * C - B * B) by (unfold va, vb, vc; ring). destruct (Reqb_spec (va + vb + vc) 0) as [Z|N]; [intros H; discriminate H|]. cbn [option_map].
  pose proof (cauchy ab ac) as CS. fold A B C in CS. destruct (face_positive A B C d1 d2 (vnorm2_nonneg ab) (vnorm2_nonneg ac) ltac:(lra)) as (Pa & Pb & Pc).
  { repeat split; assumption. }
  fold va in Pa. fold vb in Pb. fold vc in Pc. intros H. injection H as <-. set (k := 1 / (va + vb + vc)). assert (K : 0 < k) by (apply Rdiv_lt_0_compat; lra).
  assert (KS : va * k + vb * k + vc * k = 1) by (unfold k; field; lra).
  exists (vb * k), (vc * k). split; [apply Rmult_lt_0_compat; assumption|]. split; [apply Rmult_lt_0_compat; assumption|]. split; [assert (0 < va * k) by (apply Rmult_lt_0_compat; assumption); lra|].
  split; [reflexivity|]. fold ab ac. intros X. pose proof (area_lagrange ab ac) as L. rewrite X in L. assert (Z0 : vnorm2 vzero = 0) by (unfold vnorm2, vdot, vzero; cbn; ring). rewrite Z0 in L. fold A B C in L. lra.
Qed.
(** A point inside is its own projection. *)
Lemma project_inside p a b c : inside_face a b c p -> project_tri p a b c = (true, Some p).
Proof.
  intros (N & v & w & V & W & S & E). unfold project_tri. cbv zeta. destruct (dots p a b c) as (E3 & E4 & E5 & E6). rewrite E3, E4, E5, E6.
  assert (P : vsub p a = vadd (vscale v (vsub b a)) (vscale w (vsub c a))) by (rewrite E; unfold on_face; destruct a, b, c; unfold vadd, vscale, vsub; cbn; f_equal; ring).
  rewrite P. set (ab := vsub b a) in *. set (ac := vsub c a) in *.
  assert (D1 : vdot ab (vadd (vscale v ab) (vscale w ac)) = v * vdot ab ab + w * vdot ab ac) by (destruct ab, ac; unfold vdot, vadd, vscale; cbn; ring).
  assert (D2 : vdot ac (vadd (vscale v ab) (vscale w ac)) = v * vdot ab ac + w * vdot ac ac) by (destruct ab, ac; unfold vdot, vadd, vscale; cbn; ring).
  rewrite D1, D2. pose proof (area_lagrange ab ac) as L. assert (PD : 0 < vdot ab ab * vdot ac ac - vdot ab ac * vdot ab ac).
  { rewrite <- L. pose proof (vnorm2_nonneg (vcross ab ac)) as G. destruct (Req_dec (vnorm2 (vcross ab ac)) 0) as [Z|Z]; [|lra]. exfalso. apply N, vdot_self_zero, Z. }
  pose proof (vnorm2_nonneg ab) as GA. pose proof (vnorm2_nonneg ac) as GC. unfold vnorm2 in GA, GC. clear D1 D2 L. clearbody ab ac.
  set (A := vdot ab ab) in *. set (B := vdot ab ac) in *. set (C := vdot ac ac) in *. set (D := A * C - B * B) in *. set (d1 := v * A + w * B). set (d2 := v * B + w * C).
  assert (Vc : d1 * (d2 - B) - (d1 - A) * d2 = w * D) by (unfold d1, d2, D; ring). assert (Vb : (d1 - B) * d2 - d1 * (d2 - C) = v * D) by (unfold d1, d2, D; ring).
  assert (Va : (d1 - A) * (d2 - C) - (d1 - B) * (d2 - B) = (1 - v - w) * D) by (unfold d1, d2, D; ring). rewrite Va, Vb, Vc.
  assert (Pw : 0 < w * D) by (apply Rmult_lt_0_compat; assumption). assert (Pv : 0 < v * D) by (apply Rmult_lt_0_compat; assumption). assert (Pu : 0 < (1 - v - w) * D) by (apply Rmult_lt_0_compat; lra).
  assert (S2 : 0 <= A - 2 * B + C). { assert (Q : A - 2 * B + C = vnorm2 (vsub ab ac)) by (unfold A, B, C; destruct ab, ac; unfold vnorm2, vdot, vsub; cbn; ring). rewrite Q. apply vnorm2_nonneg. }
  assert (QF : forall u t, (u <> 0 \/ t <> 0) -> 0 < u * u * A + 2 * (u * t) * B + t * t * C).
  { intros u t H. assert (PA : 0 < A) by nra. assert (Q : A * (u * u * A + 2 * (u * t) * B + t * t * C) = (u * A + t * B) * (u * A + t * B) + t * t * D) by (unfold D; ring).
    pose proof (Rle_0_sqr (u * A + t * B)) as X1. unfold Rsqr in X1. pose proof (Rle_0_sqr t) as X2. unfold Rsqr in X2. assert (X3 : 0 <= t * t * D) by (apply Rmult_le_pos; lra).
    destruct (Rle_lt_dec (u * u * A + 2 * (u * t) * B + t * t * C) 0) as [Y|Y]; [exfalso|exact Y].
    assert (Y2 : A * (u * u * A + 2 * (u * t) * B + t * t * C) <= 0) by nra. assert (T0 : t * t * D = 0) by lra. assert (t = 0). { apply Rmult_integral in T0. destruct T0 as [T0|T0]; [|lra]. apply Rmult_integral in T0. tauto. }
    subst t. assert (U0 : (u * A + 0 * B) * (u * A + 0 * B) = 0) by lra. assert (u = 0). { apply Rmult_integral in U0. assert (U1 : u * A = 0) by (destruct U0; lra). apply Rmult_integral in U1. destruct U1; lra. } tauto. }
  destruct (Rleb d1 0 && Rleb d2 0) eqn:T1.
  { exfalso. apply and_leb in T1. unfold d1, d2 in T1. pose proof (QF v w ltac:(left; lra)). assert (v * (v * A + w * B) <= 0) by nra. assert (w * (v * B + w * C) <= 0) by nra. lra. }
  destruct (Rleb 0 (d1 - A) && Rleb (d2 - B) (d1 - A)) eqn:T2.
  { exfalso. apply and_leb in T2. destruct T2 as [T2 T3]. unfold d1, d2 in *. pose proof (QF (v - 1) w ltac:(right; lra)) as Q.
    assert (X : (1 - v) * (v * A + w * B - A) - w * (v * B + w * C - B) <= 0) by (assert (Y : - ((v - 1) * (v - 1) * A + 2 * ((v - 1) * w) * B + w * w * C) = (1 - v) * (v * A + w * B - A) - w * (v * B + w * C - B)) by ring; lra).
    assert (X2 : 0 <= (1 - v - w) * (v * A + w * B - A)) by (apply Rmult_le_pos; lra). assert (X3 : 0 <= w * ((v * A + w * B - A) - (v * B + w * C - B))) by (apply Rmult_le_pos; lra).
    assert (Y : - ((v - 1) * (v - 1) * A + 2 * ((v - 1) * w) * B + w * w * C) = (1 - v) * (v * A + w * B - A) - w * (v * B + w * C - B)) by ring. lra. }
  destruct (Rleb (w * D) 0 && _ && _) eqn:T3; [exfalso; apply and3_leb in T3; lra|].
  destruct (Rleb 0 (d2 - C) && Rleb (d1 - B) (d2 - C)) eqn:T4.
  { exfalso. apply and_leb in T4. destruct T4 as [T4 T5]. unfold d1, d2 in *. pose proof (QF v (w - 1) ltac:(left; lra)) as Q.
    assert (X2 : 0 <= (1 - v - w) * (v * B + w * C - C)) by (apply Rmult_le_pos; lra). assert (X3 : 0 <= v * ((v * B + w * C - C) - (v * A + w * B - B))) by (apply Rmult_le_pos; lra).
    assert (Y : - (v * v * A + 2 * (v * (w - 1)) * B + (w - 1) * (w - 1) * C) = (1 - w) * (v * B + w * C - C) - v * (v * A + w * B - B)) by ring. lra. }
  destruct (Rleb (v * D) 0 && _ && _) eqn:T5; [exfalso; apply and3_leb in T5; lra|].
  destruct (Rleb ((1 - v - w) * D) 0 && _ && _) eqn:T6; [exfalso; apply and3_leb in T6; lra|].
  f_equal. replace ((1 - v - w) * D + v * D + w * D) with D by ring. unfold rdiv. destruct (Reqb_spec D 0); [lra|]. cbn [option_map]. f_equal.
  replace (v * D * (1 / D)) with v by (field; lra). replace (w * D * (1 / D)) with w by (field; lra).
  assert (PP : p = vadd a (vsub p a)) by (destruct p, a; unfold vadd, vsub; cbn; f_equal; ring). rewrite PP, P. destruct a, ab, ac. unfold vadd, vscale. cbn. f_equal; ring.
Qed.
