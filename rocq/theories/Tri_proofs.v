(** The regions of the projection on a triangle. *)

From Coq Require Import List Arith ZArith QArith Bool Lia Lqa Psatz Setoid.
From Verif Require Import Prelude Box_model Box_spec Box_proofs Tri_model Tri_spec.
Import ListNotations.
Local Open Scope Q_scope.

(** ** Scalars

    A, B, C: products of the edges from the first corner; d1, d2: products with the query. *)

Lemma qdiv_some x y : ~ y == 0 -> qdiv x y = Some (x / y).
Proof. intros H. unfold qdiv. destruct (Qeq_bool y 0) eqn:E; [|reflexivity]. apply Qeq_bool_iff in E. contradiction. Qed.

Lemma div_mul x y : ~ y == 0 -> x / y * y == x.
Proof. intros H. field. exact H. Qed.

Lemma div_range x y : 0 <= x -> x <= y -> ~ y == 0 -> 0 <= x / y /\ x / y <= 1.
Proof.
  intros H K N. assert (P : 0 < y) by (destruct (Qlt_le_dec 0 y); [assumption|exfalso; apply N; lra]).
  pose proof (div_mul x y N) as E. split.
  - destruct (Qlt_le_dec (x / y) 0) as [L|L]; [|exact L]. nra.
  - destruct (Qlt_le_dec 1 (x / y)) as [L|L]; [|exact L]. nra.
Qed.

(** (v, w) are the coordinates of the closest point. *)
Definition optimal (A B C d1 d2 v w : Q) : Prop :=
  let g1 := d1 - v * A - w * B in let g2 := d2 - v * B - w * C in
  0 <= v /\ 0 <= w /\ v + w <= 1 /\
  - v * g1 - w * g2 <= 0 /\ (1 - v) * g1 - w * g2 <= 0 /\ - v * g1 + (1 - w) * g2 <= 0.

Global Instance optimal_proper : Morphisms.Proper (Qeq ==> Qeq ==> Qeq ==> Qeq ==> Qeq ==> Qeq ==> Qeq ==> iff)%signature optimal.
Proof.
  intros A A' EA B B' EB C C' EC d e E1 f g E2 v v' Ev w w' Ew. unfold optimal. rewrite EA, EB, EC, E1, E2, Ev, Ew. reflexivity.
Qed.

Section Regions.
Variables A B C d1 d2 : Q.
Let S := A - 2 * B + C.
Let d3 := d1 - A. Let d4 := d2 - B. Let d5 := d1 - B. Let d6 := d2 - C.
Let vc := d1 * d4 - d3 * d2. Let vb := d5 * d2 - d1 * d6. Let va := d3 * d6 - d5 * d4.

Lemma region_a : d1 <= 0 -> d2 <= 0 -> optimal A B C d1 d2 0 0.
Proof. intros. unfold optimal. lra. Qed.
Lemma region_b : 0 <= d3 -> d4 <= d3 -> optimal A B C d1 d2 1 0.
Proof. unfold d3, d4. intros. unfold optimal. lra. Qed.
Lemma region_c : 0 <= d6 -> d5 <= d6 -> optimal A B C d1 d2 0 1.
Proof. unfold d5, d6. intros. unfold optimal. lra. Qed.

Lemma region_ab : 0 <= A -> ~ A == 0 -> vc <= 0 -> 0 <= d1 -> d3 <= 0 -> optimal A B C d1 d2 (d1 / (d1 - d3)) 0.
Proof.
  unfold vc, d3, d4. intros P N H K L. setoid_replace (d1 - (d1 - A)) with A by ring.
  destruct (div_range d1 A) as (R1 & R2); [lra|lra|exact N|].
  pose proof (div_mul d1 A N) as E. set (v := d1 / A) in *. clearbody v. unfold optimal.
  assert (G : A * (d2 - v * B) <= 0) by (setoid_replace (A * (d2 - v * B)) with (A * d2 - v * A * B) by ring; rewrite E; lra).
  assert (G2 : d2 - v * B <= 0). { destruct (Qlt_le_dec 0 (d2 - v * B)) as [X|X]; [|exact X]. assert (0 < A) by (destruct (Qlt_le_dec 0 A); [assumption|exfalso; apply N; lra]). nra. }
  assert (Z : d1 - v * A == 0) by lra.
  setoid_replace (d1 - v * A - 0 * B) with 0 by lra.
  repeat split; lra.
Qed.

Lemma region_ac : 0 <= C -> ~ C == 0 -> vb <= 0 -> 0 <= d2 -> d6 <= 0 -> optimal A B C d1 d2 0 (d2 / (d2 - d6)).
Proof.
  unfold vb, d5, d6. intros P N H K L. setoid_replace (d2 - (d2 - C)) with C by ring.
  destruct (div_range d2 C) as (R1 & R2); [lra|lra|exact N|].
  pose proof (div_mul d2 C N) as E. set (w := d2 / C) in *. clearbody w. unfold optimal.
  assert (G : C * (d1 - w * B) <= 0) by (setoid_replace (C * (d1 - w * B)) with (C * d1 - w * C * B) by ring; rewrite E; lra).
  assert (G2 : d1 - w * B <= 0). { destruct (Qlt_le_dec 0 (d1 - w * B)) as [X|X]; [|exact X]. assert (0 < C) by (destruct (Qlt_le_dec 0 C); [assumption|exfalso; apply N; lra]). nra. }
  assert (Z : d2 - w * C == 0) by lra.
  setoid_replace (d2 - 0 * B - w * C) with 0 by lra.
  repeat split; lra.
Qed.

Lemma region_bc : ~ S == 0 -> va <= 0 -> 0 <= d4 - d3 -> 0 <= d5 - d6 ->
  optimal A B C d1 d2 (1 - (d4 - d3) / ((d4 - d3) + (d5 - d6))) ((d4 - d3) / ((d4 - d3) + (d5 - d6))).
Proof.
  unfold S, va, d3, d4, d5, d6. intros N H K L.
  setoid_replace (d2 - B - (d1 - A) + (d1 - B - (d2 - C))) with (A - 2 * B + C) by ring.
  destruct (div_range (d2 - B - (d1 - A)) (A - 2 * B + C)) as (R1 & R2); [lra|lra|exact N|].
  pose proof (div_mul (d2 - B - (d1 - A)) _ N) as E.
  assert (P : 0 < A - 2 * B + C) by (destruct (Qlt_le_dec 0 (A - 2 * B + C)); [assumption|exfalso; apply N; lra]).
  set (w := (d2 - B - (d1 - A)) / (A - 2 * B + C)) in *. clearbody w. unfold optimal.
  assert (G : d1 - (1 - w) * A - w * B == d2 - (1 - w) * B - w * C).
  { setoid_replace (d1 - (1 - w) * A - w * B) with (d1 - A + w * (A - 2 * B + C) + w * B - w * C) by ring. rewrite E. ring. }
  assert (GS : (d1 - (1 - w) * A - w * B) * (A - 2 * B + C) == - ((d1 - A) * (d2 - C) - (d1 - B) * (d2 - B))).
  { setoid_replace ((d1 - (1 - w) * A - w * B) * (A - 2 * B + C)) with ((d1 - A) * (A - 2 * B + C) + (w * (A - 2 * B + C)) * (A - B)) by ring.
    rewrite E. ring. }
  set (g1 := d1 - (1 - w) * A - w * B) in *. set (g2 := d2 - (1 - w) * B - w * C) in *. clearbody g1 g2.
  assert (G0 : 0 <= g1). { destruct (Qlt_le_dec g1 0) as [X|X]; [|exact X]. nra. }
  rewrite <- G.
  setoid_replace (- (1 - w) * g1 - w * g1) with (- g1) by ring.
  setoid_replace ((1 - (1 - w)) * g1 - w * g1) with 0 by ring.
  setoid_replace (- (1 - w) * g1 + (1 - w) * g1) with 0 by ring. repeat split; lra.
Qed.

Lemma region_face D : D == A * C - B * B -> 0 < D -> va + vb + vc == D -> 0 <= va -> 0 <= vb -> 0 <= vc ->
  optimal A B C d1 d2 (vb / D) (vc / D) /\ d1 - vb / D * A - vc / D * B == 0 /\ d2 - vb / D * B - vc / D * C == 0.
Proof.
  intros ED P E Ha Hb Hc. assert (N : ~ D == 0) by lra.
  destruct (div_range vb D) as (R1 & R2); [lra|lra|exact N|]. destruct (div_range vc D) as (R3 & R4); [lra|lra|exact N|].
  pose proof (div_mul vb D N) as Eb. pose proof (div_mul vc D N) as Ec.
  assert (Z1 : d1 - vb / D * A - vc / D * B == 0).
  { setoid_replace (d1 - vb / D * A - vc / D * B) with ((d1 * D - vb * A - vc * B) / D) by (field; exact N).
    setoid_replace (d1 * D - vb * A - vc * B) with 0 by (rewrite ED; unfold vb, vc, d3, d4, d5, d6; ring). field; exact N. }
  assert (Z2 : d2 - vb / D * B - vc / D * C == 0).
  { setoid_replace (d2 - vb / D * B - vc / D * C) with ((d2 * D - vb * B - vc * C) / D) by (field; exact N).
    setoid_replace (d2 * D - vb * B - vc * C) with 0 by (rewrite ED; unfold vb, vc, d3, d4, d5, d6; ring). field; exact N. }
  split; [|split; assumption].
  assert (Sum : vb / D + vc / D <= 1).
  { setoid_replace (vb / D + vc / D) with (1 - va / D) by (setoid_replace 1 with ((va + vb + vc) / D) by (rewrite E; field; exact N); field; exact N).
    destruct (div_range va D) as (R5 & _); [lra|lra|exact N|]. lra. }
  unfold optimal. rewrite Z1, Z2. repeat split; lra.
Qed.
End Regions.

(** Where the projection on the plane is beyond edge a-b but before a along it, one of the tests for
    a, edge a-c and c holds. *)
Lemma corner_covered A B C d1 d2 : 0 < A -> 0 < C -> 0 < A * C - B * B -> d1 < 0 -> A * d2 - B * d1 <= 0 -> 0 < d2 ->
  ~ (C * d1 - B * d2 <= 0 /\ 0 <= d2 /\ d2 - C <= 0) -> ~ (0 <= d2 - C /\ d1 - B <= d2 - C) -> False.
Proof.
  intros PA PC PD H1 Hc H2 N1 N2.
  assert (B0 : B < 0) by nra.
  assert (Vb : C * d1 - B * d2 < 0).
  { assert (X : 0 < B * (C * d1 - B * d2)) by nra. nra. }
  assert (L6 : 0 < d2 - C). { destruct (Qlt_le_dec 0 (d2 - C)) as [X|X]; [exact X|]. exfalso. apply N1. lra. }
  assert (L5 : d2 - C < d1 - B). { destruct (Qlt_le_dec (d2 - C) (d1 - B)) as [X|X]; [exact X|]. exfalso. apply N2. lra. }
  assert (X : B * d1 < B * B) by nra. nra.
Qed.

(** The tests of the six regions on the boundary. *)
Definition misses A B C d1 d2 : Prop :=
  let d3 := d1 - A in let d4 := d2 - B in let d5 := d1 - B in let d6 := d2 - C in
  ~ (d1 <= 0 /\ d2 <= 0) /\ ~ (0 <= d3 /\ d4 <= d3) /\ ~ (d1 * d4 - d3 * d2 <= 0 /\ 0 <= d1 /\ d3 <= 0) /\
  ~ (0 <= d6 /\ d5 <= d6) /\ ~ (d5 * d2 - d1 * d6 <= 0 /\ 0 <= d2 /\ d6 <= 0) /\
  ~ (d3 * d6 - d5 * d4 <= 0 /\ 0 <= d4 - d3 /\ 0 <= d5 - d6).

Lemma face_positive A B C d1 d2 : 0 <= A -> 0 <= C -> 0 < A * C - B * B -> misses A B C d1 d2 ->
  0 < (d1 - A) * (d2 - C) - (d1 - B) * (d2 - B) /\ 0 < (d1 - B) * d2 - d1 * (d2 - C) /\ 0 < d1 * (d2 - B) - (d1 - A) * d2.
Proof.
  intros GA GC PD (nA & nB & nAB & nC & nAC & nBC).
  assert (PA : 0 < A) by (destruct (Qlt_le_dec 0 A); [assumption|]; assert (A == 0) by lra; nra).
  assert (PC : 0 < C) by (destruct (Qlt_le_dec 0 C); [assumption|]; assert (C == 0) by lra; nra).
  set (S := A - 2 * B + C).
  assert (GS : 0 < A * S - (A - B) * (A - B)) by (unfold S; setoid_replace (A * (A - 2 * B + C) - (A - B) * (A - B)) with (A * C - B * B) by ring; exact PD).
  assert (GS2 : 0 < C * S - (C - B) * (C - B)) by (unfold S; setoid_replace (C * (A - 2 * B + C) - (C - B) * (C - B)) with (A * C - B * B) by ring; exact PD).
  assert (PS : 0 < S).
  { clear - GS PA. clearbody S. apply Qnot_le_lt. intros H. assert (X : forall q, 0 <= q * q) by (intros q; nra).
    specialize (X (A - B)). assert (0 <= A * (- S)) by (apply Qmult_le_0_compat; lra). lra. }
  split; [|split]; apply Qnot_le_lt; intros H.
  - destruct (Qlt_le_dec (d2 - B - (d1 - A)) 0) as [L|L].
    + apply (corner_covered S (A - B) A (d2 - B - (d1 - A)) (- (d1 - A))); try assumption; unfold S in *; lra.
    + destruct (Qlt_le_dec (d1 - B - (d2 - C)) 0) as [M|M]; [|apply nBC; auto].
      apply (corner_covered S (C - B) C (d1 - B - (d2 - C)) (- (d2 - C))); try assumption; unfold S in *; lra.
  - destruct (Qlt_le_dec d2 0) as [L|L].
    + apply (corner_covered C B A d2 d1); try assumption; lra.
    + destruct (Qlt_le_dec 0 (d2 - C)) as [M|M]; [|apply nAC; auto].
      apply (corner_covered C (C - B) S (- (d2 - C)) (d1 - B - (d2 - C))); try assumption; unfold S in *; lra.
  - destruct (Qlt_le_dec d1 0) as [L|L].
    + apply (corner_covered A B C d1 d2); try assumption; lra.
    + destruct (Qlt_le_dec 0 (d1 - A)) as [M|M]; [|apply nAB; auto].
      apply (corner_covered A (A - B) S (- (d1 - A)) (d2 - B - (d1 - A))); try assumption; unfold S in *; lra.
Qed.

Lemma flat_covered A B C d1 d2 : 0 <= A -> A * C - B * B == 0 -> A * d2 == B * d1 -> C * d1 == B * d2 ->
  (A == 0 -> C == 0 /\ d1 == 0 /\ d2 == 0) -> ~ misses A B C d1 d2.
Proof.
  intros GA D0 E1 E2 Z (nA & nB & nAB & nC & nAC & nBC).
  destruct (Qlt_le_dec 0 A) as [PA|PA]; [|destruct Z as (_ & X & Y); [lra|apply nA; lra]].
  assert (N : ~ A == 0) by lra.
  pose proof (div_mul B A N) as EB. pose proof (div_mul d1 A N) as E. set (k := B / A) in *. set (x := d1 / A) in *. clearbody k x.
  assert (EC : C == k * k * A). { apply (Qmult_inj_l _ _ A N). setoid_replace (A * (k * k * A)) with ((k * A) * (k * A)) by ring. rewrite EB. lra. }
  assert (ED : d2 == k * x * A). { apply (Qmult_inj_l _ _ A N). rewrite E1. setoid_replace (A * (k * x * A)) with ((k * A) * (x * A)) by ring. rewrite EB, E. reflexivity. }
  assert (Vc : d1 * (d2 - B) - (d1 - A) * d2 == 0) by (setoid_replace (d1 * (d2 - B) - (d1 - A) * d2) with (A * d2 - B * d1) by ring; lra).
  assert (Vb : (d1 - B) * d2 - d1 * (d2 - C) == 0) by (setoid_replace ((d1 - B) * d2 - d1 * (d2 - C)) with (C * d1 - B * d2) by ring; lra).
  assert (X6 : d2 - C == k * (x - k) * A) by (rewrite ED, EC; ring).
  assert (X56 : d1 - B - (d2 - C) == (1 - k) * (x - k) * A) by (rewrite X6, <- E, <- EB; ring).
  assert (X3 : d1 - A == (x - 1) * A) by (rewrite <- E; ring).
  assert (X43 : d2 - B - (d1 - A) == (k - 1) * (x - 1) * A) by (rewrite X3, ED, <- EB; ring).
  assert (M : forall y z, 0 <= y -> 0 <= z -> 0 <= y * z * A) by (intros; apply Qmult_le_0_compat; [apply Qmult_le_0_compat; assumption|lra]).
  destruct (Qlt_le_dec x 0) as [L|L].
  - assert (D2 : 0 < d2). { apply Qnot_le_lt. intros K. apply nA. split; [|exact K]. rewrite <- E. nra. }
    assert (K0 : k < 0). { apply Qnot_le_lt. intros K. assert (0 <= k * (- x) * A) by (apply M; lra). lra. }
    destruct (Qlt_le_dec x k) as [Q1|Q1].
    + apply nC. assert (0 <= (- k) * (k - x) * A) by (apply M; lra). assert (0 <= (1 - k) * (k - x) * A) by (apply M; lra). split; lra.
    + apply nAC. assert (0 <= (- k) * (x - k) * A) by (apply M; lra). repeat split; lra.
  - destruct (Qlt_le_dec 1 x) as [G|G].
    + assert (K1 : 1 < k). { apply Qnot_le_lt. intros K. apply nB. assert (0 <= (1 - k) * (x - 1) * A) by (apply M; lra). assert (0 <= (x - 1) * A) by nra. split; lra. }
      destruct (Qlt_le_dec k x) as [Q1|Q1].
      * apply nC. assert (0 <= k * (x - k) * A) by (apply M; lra). assert (0 <= (k - 1) * (x - k) * A) by (apply M; lra). split; lra.
      * apply nAC. assert (0 <= k * (k - x) * A) by (apply M; lra). assert (0 <= k * x * A) by (apply M; lra). repeat split; lra.
    + apply nAB. assert (0 <= x * A) by nra. assert (0 <= (1 - x) * A) by nra. repeat split; lra.
Qed.

(** ** Vectors *)

Lemma dot_pos a : 0 <= dot3 a a.
Proof. unfold dot3. pose proof (Qmult_le_0_compat). assert (X : forall q, 0 <= q * q) by (intros q; nra). pose proof (X (qx a)). pose proof (X (qy a)). pose proof (X (qz a)). lra. Qed.
Lemma dot_zero a : dot3 a a == 0 -> qx a == 0 /\ qy a == 0 /\ qz a == 0.
Proof.
  unfold dot3. intros H. assert (X : forall q, 0 <= q * q) by (intros q; nra).
  pose proof (X (qx a)). pose proof (X (qy a)). pose proof (X (qz a)).
  assert (Z : forall q, q * q == 0 -> q == 0) by (intros q K; destruct (Qmult_integral _ _ K); assumption).
  repeat split; apply Z; lra.
Qed.

Lemma gram_det u v : dot3 u u * dot3 v v - dot3 u v * dot3 u v == dot3 (cross3 u v) (cross3 u v).
Proof. unfold dot3, cross3. cbn. ring. Qed.
Lemma gram_flat u v x : dot3 u u * dot3 v v - dot3 u v * dot3 u v == 0 ->
  dot3 u u * dot3 v x == dot3 u v * dot3 u x /\ dot3 v v * dot3 u x == dot3 u v * dot3 v x.
Proof.
  intros H. rewrite gram_det in H. apply dot_zero in H. unfold cross3 in H. cbn in H. destruct H as (H1 & H2 & H3).
  unfold dot3. split.
  - setoid_replace ((qx u * qx u + qy u * qy u + qz u * qz u) * (qx v * qx x + qy v * qy x + qz v * qz x))
      with ((qx u * qx v + qy u * qy v + qz u * qz v) * (qx u * qx x + qy u * qy x + qz u * qz x)
        + (qy u * qz v - qz u * qy v) * (qy u * qz x - qz u * qy x) + (qz u * qx v - qx u * qz v) * (qz u * qx x - qx u * qz x)
        + (qx u * qy v - qy u * qx v) * (qx u * qy x - qy u * qx x)) by ring.
    rewrite H1, H2, H3. ring.
  - setoid_replace ((qx v * qx v + qy v * qy v + qz v * qz v) * (qx u * qx x + qy u * qy x + qz u * qz x))
      with ((qx u * qx v + qy u * qy v + qz u * qz v) * (qx v * qx x + qy v * qy x + qz v * qz x)
        - (qy u * qz v - qz u * qy v) * (qy v * qz x - qz v * qy x) - (qz u * qx v - qx u * qz v) * (qz v * qx x - qx v * qz x)
        - (qx u * qy v - qy u * qx v) * (qx v * qy x - qy v * qx x)) by ring.
    rewrite H1, H2, H3. ring.
Qed.

Lemma same_at p q : same p q <-> qx p == qx q /\ qy p == qy q /\ qz p == qz q.
Proof. split; [intros H; repeat split; [apply (H DX)|apply (H DY)|apply (H DZ)]|intros (H1 & H2 & H3) []; assumption]. Qed.
Lemma dist_same x y p : same x y -> sq_dist x p == sq_dist y p.
Proof. intros (H1 & H2 & H3)%same_at. unfold sq_dist. rewrite H1, H2, H3. reflexivity. Qed.

(** An optimal pair of coordinates gives the nearest point. *)
Lemma optimal_nearest p a b c v w x :
  let ab := sub3 b a in let ac := sub3 c a in let ap := sub3 p a in
  optimal (dot3 ab ab) (dot3 ab ac) (dot3 ac ac) (dot3 ab ap) (dot3 ac ap) v w ->
  same x (add3 (add3 a (scale3 v ab)) (scale3 w ac)) -> nearest (in_triangle a b c) p x.
Proof.
  intros ab ac ap (V0 & W0 & VW & O1 & O2 & O3) Ex. split.
  - exists (1 - v - w), v, w. repeat split; try lra. intros d. rewrite (Ex d). unfold combine3. rewrite at_make.
    unfold ab, ac, add3, scale3, sub3. destruct d; cbn; ring.
  - intros y (u' & v' & w' & U & V & W & Sm & Ey). rewrite (dist_same x _ p Ex), (dist_same y _ p Ey).
    set (g1 := dot3 ab ap - v * dot3 ab ab - w * dot3 ab ac) in *. set (g2 := dot3 ac ap - v * dot3 ab ac - w * dot3 ac ac) in *.
    assert (Eu : u' == 1 - v' - w') by lra.
    set (z := add3 (scale3 (v' - v) ab) (scale3 (w' - w) ac)).
    assert (I : sq_dist (combine3 a b c u' v' w') p ==
                sq_dist (add3 (add3 a (scale3 v ab)) (scale3 w ac)) p + dot3 z z - 2 * ((v' - v) * g1 + (w' - w) * g2)).
    { unfold sq_dist, combine3, z, g1, g2, ab, ac, ap, dot3, add3, scale3, sub3. cbn. rewrite Eu. ring. }
    rewrite I. pose proof (dot_pos z) as Z.
    assert (G : (v' - v) * g1 + (w' - w) * g2 <= 0).
    { setoid_replace ((v' - v) * g1 + (w' - w) * g2) with
        (u' * (- v * g1 - w * g2) + v' * ((1 - v) * g1 - w * g2) + w' * (- v * g1 + (1 - w) * g2)) by (rewrite Eu; ring).
      set (o1 := - v * g1 - w * g2) in *. set (o2 := (1 - v) * g1 - w * g2) in *. set (o3 := - v * g1 + (1 - w) * g2) in *. nra. }
    lra.
Qed.

(** The nearest point is unique. *)
Lemma nearest_unique a b c p x y : nearest (in_triangle a b c) p x -> nearest (in_triangle a b c) p y -> same x y.
Proof.
  intros (X & HX) (Y & HY). destruct X as (u & v & w & U & V & W & Sm & Ex), Y as (u' & v' & w' & U' & V' & W' & Sm' & Ey).
  set (m := combine3 a b c ((1 # 2) * (u + u')) ((1 # 2) * (v + v')) ((1 # 2) * (w + w'))).
  assert (M : in_triangle a b c m) by (exists ((1 # 2) * (u + u')), ((1 # 2) * (v + v')), ((1 # 2) * (w + w')); repeat split; try lra; intros d; reflexivity).
  pose proof (HX m M) as H1. pose proof (HY m M) as H2.
  assert (Em : forall d, at3 m d == (1 # 2) * (at3 x d + at3 y d)).
  { intros d. unfold m, combine3. rewrite at_make, (Ex d), (Ey d). unfold combine3. rewrite !at_make. ring. }
  assert (Ed : sq_dist m p == (1 # 2) * (sq_dist x p + sq_dist y p) - (1 # 4) * dot3 (sub3 x y) (sub3 x y)).
  { unfold sq_dist, dot3, sub3. cbn [qx qy qz]. pose proof (Em DX) as A1. pose proof (Em DY) as A2. pose proof (Em DZ) as A3. cbn [at3] in *.
    rewrite A1, A2, A3. ring. }
  assert (Z : dot3 (sub3 x y) (sub3 x y) == 0) by (pose proof (dot_pos (sub3 x y)); lra).
  apply dot_zero in Z. unfold sub3 in Z. cbn in Z. apply same_at. lra.
Qed.
