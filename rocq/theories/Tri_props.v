(** C57: projection of a point on a triangle. *)

From Coq Require Import List Arith ZArith QArith Bool Lia Lqa Psatz Setoid.
From Verif Require Import Prelude Box_model Box_spec Box_proofs Tri_model Tri_spec Tri_proofs.
Import ListNotations.
Local Open Scope Q_scope.

Lemma and3_leb a b c d e f : Qle_bool a b && Qle_bool c d && Qle_bool e f = true <-> a <= b /\ c <= d /\ e <= f.
Proof. rewrite andb_true_iff, and_leb, Qle_bool_iff. tauto. Qed.
Lemma not_true_false (x : bool) (P : Prop) : (x = true <-> P) -> x = false -> ~ P.
Proof. intros H E K. apply H in K. congruence. Qed.

Lemma same_refl p : same p p. Proof. intros d. reflexivity. Qed.
Lemma same_sym p q : same p q -> same q p. Proof. intros H d. symmetry. apply H. Qed.
Lemma same_trans p q r : same p q -> same q r -> same p r. Proof. intros H K d. rewrite (H d). apply K. Qed.
Lemma edge_zero a b : dot3 (sub3 b a) (sub3 b a) == 0 <-> same a b.
Proof.
  split.
  - intros H. apply dot_zero in H. unfold sub3 in H. cbn in H. apply same_at. lra.
  - intros (H1 & H2 & H3)%same_at. unfold dot3, sub3. cbn. rewrite H1, H2, H3. ring.
Qed.

(** The corners are on one line exactly if the cross product of the edges vanishes. *)
Lemma on_line_iff a b c : on_line a b c <->
  dot3 (sub3 b a) (sub3 b a) * dot3 (sub3 c a) (sub3 c a) - dot3 (sub3 b a) (sub3 c a) * dot3 (sub3 b a) (sub3 c a) == 0.
Proof.
  split.
  - intros (o & v & s & t & u & (A1 & A2 & A3)%same_at & (B1 & B2 & B3)%same_at & (C1 & C2 & C3)%same_at).
    unfold ray_point in *. cbn in *. unfold dot3, sub3. cbn. rewrite A1, A2, A3, B1, B2, B3, C1, C2, C3. ring.
  - intros H. pose proof (gram_flat (sub3 b a) (sub3 c a)) as F.
    destruct (Qeq_dec (dot3 (sub3 b a) (sub3 b a)) 0) as [Z|N].
    + apply edge_zero in Z. exists a, (sub3 c a), 0, 0, 1. split; [|split]; intros d; unfold ray_point; rewrite at_make.
      * ring. * rewrite <- (Z d). ring. * unfold sub3. destruct d; cbn; ring.
    + exists a, (sub3 b a), 0, 1, (dot3 (sub3 b a) (sub3 c a) / dot3 (sub3 b a) (sub3 b a)).
      split; [|split]; intros d; unfold ray_point; rewrite at_make.
      * ring. * unfold sub3. destruct d; cbn; ring.
      * assert (X : dot3 (sub3 b a) (sub3 b a) * at3 (sub3 c a) d == dot3 (sub3 b a) (sub3 c a) * at3 (sub3 b a) d).
        { set (e := make3 (fun k => match d, k with DX, DX => 1 | DY, DY => 1 | DZ, DZ => 1 | _, _ => 0 end)).
          assert (Y : forall x, dot3 x e == at3 x d) by (intros x; unfold dot3, e; destruct d; cbn; ring).
          destruct (F e H) as (G & _). rewrite !Y in G. exact G. }
        setoid_replace (dot3 (sub3 b a) (sub3 c a) / dot3 (sub3 b a) (sub3 b a) * at3 (sub3 b a) d)
          with ((dot3 (sub3 b a) (sub3 c a) * at3 (sub3 b a) d) / dot3 (sub3 b a) (sub3 b a)) by (field; exact N).
        rewrite <- X. setoid_replace (dot3 (sub3 b a) (sub3 b a) * at3 (sub3 c a) d / dot3 (sub3 b a) (sub3 b a)) with (at3 (sub3 c a) d) by (field; exact N).
        unfold sub3. destruct d; cbn; ring.
Qed.

(** The tests of both versions agree. *)
Lemma same_answer p a b c q0 : fst (project_lane p a b c q0) = fst (project_on_triangle p a b c).
Proof.
  unfold project_lane, project_on_triangle. cbv zeta. cbn [fst].
  repeat match goal with |- context [if ?x then _ else _] => destruct x; [cbn; rewrite ?orb_true_r; reflexivity|] end. reflexivity.
Qed.

Section Project.
Variables p a b c : q3.
Let ab := sub3 b a. Let ac := sub3 c a. Let ap := sub3 p a. Let bp := sub3 p b. Let cp := sub3 p c.
Let A := dot3 ab ab. Let B := dot3 ab ac. Let C := dot3 ac ac.
Let d1 := dot3 ab ap. Let d2 := dot3 ac ap. Let d3 := dot3 ab bp. Let d4 := dot3 ac bp. Let d5 := dot3 ab cp. Let d6 := dot3 ac cp.
Let near x := nearest (in_triangle a b c) p x.

Lemma e3 : d3 == d1 - A. Proof. unfold d3, d1, A, bp, ap, ab, dot3, sub3. cbn. ring. Qed.
Lemma e4 : d4 == d2 - B. Proof. unfold d4, d2, B, bp, ap, ab, ac, dot3, sub3. cbn. ring. Qed.
Lemma e5 : d5 == d1 - B. Proof. unfold d5, d1, B, cp, ap, ab, ac, dot3, sub3. cbn. ring. Qed.
Lemma e6 : d6 == d2 - C. Proof. unfold d6, d2, C, cp, ap, ab, ac, dot3, sub3. cbn. ring. Qed.
Lemma gram_d : 0 <= A * C - B * B. Proof. unfold A, B, C. rewrite gram_det. apply dot_pos. Qed.

Lemma near_of v w x : optimal A B C d1 d2 v w -> same x (add3 (add3 a (scale3 v ab)) (scale3 w ac)) -> near x.
Proof. intros H E. exact (optimal_nearest p a b c v w x H E). Qed.

Lemma at_a : d1 <= 0 -> d2 <= 0 -> near a.
Proof. intros H K. apply (near_of 0 0); [apply region_a; assumption|]. intros []; cbn; ring. Qed.
Lemma at_b : 0 <= d3 -> d4 <= d3 -> near b.
Proof. rewrite e3, e4. intros H K. apply (near_of 1 0); [apply region_b; assumption|]. intros []; cbn; ring. Qed.
Lemma at_c : 0 <= d6 -> d5 <= d6 -> near c.
Proof. rewrite e5, e6. intros H K. apply (near_of 0 1); [apply region_c; assumption|]. intros []; cbn; ring. Qed.
Lemma at_ab : ~ same a b -> d1 * d4 - d3 * d2 <= 0 -> 0 <= d1 -> d3 <= 0 ->
  exists x, option_map (fun v => add3 a (scale3 v ab)) (qdiv d1 (d1 - d3)) = Some x /\ near x.
Proof.
  rewrite <- edge_zero. fold ab. fold A. intros N H K L.
  assert (N2 : ~ d1 - d3 == 0) by (rewrite e3; setoid_replace (d1 - (d1 - A)) with A by ring; exact N).
  rewrite qdiv_some by exact N2. eexists. split; [reflexivity|].
  apply (near_of (d1 / (d1 - d3)) 0).
  - rewrite e3, e4 in *. apply region_ab; try assumption. apply dot_pos.
  - intros []; cbn; ring.
Qed.
Lemma at_ac : ~ same a c -> d5 * d2 - d1 * d6 <= 0 -> 0 <= d2 -> d6 <= 0 ->
  exists x, option_map (fun w => add3 a (scale3 w ac)) (qdiv d2 (d2 - d6)) = Some x /\ near x.
Proof.
  rewrite <- edge_zero. fold ac. fold C. intros N H K L.
  assert (N2 : ~ d2 - d6 == 0) by (rewrite e6; setoid_replace (d2 - (d2 - C)) with C by ring; exact N).
  rewrite qdiv_some by exact N2. eexists. split; [reflexivity|].
  apply (near_of 0 (d2 / (d2 - d6))).
  - rewrite e5, e6 in *. apply region_ac; try assumption. apply dot_pos.
  - intros []; cbn; ring.
Qed.
Lemma sum_bc : d4 - d3 + (d5 - d6) == A - 2 * B + C.
Proof. rewrite e3, e4, e5, e6. ring. Qed.
Lemma length_bc : A - 2 * B + C == dot3 (sub3 c b) (sub3 c b).
Proof. unfold A, B, C, ab, ac, dot3, sub3. cbn. ring. Qed.
Lemma at_bc : ~ same b c -> d3 * d6 - d5 * d4 <= 0 -> 0 <= d4 - d3 -> 0 <= d5 - d6 ->
  exists x, option_map (fun w => add3 b (scale3 w (sub3 c b))) (qdiv (d4 - d3) ((d4 - d3) + (d5 - d6))) = Some x /\ near x.
Proof.
  rewrite <- edge_zero. intros N H K L.
  assert (N3 : ~ A - 2 * B + C == 0) by (rewrite length_bc; exact N).
  assert (N2 : ~ d4 - d3 + (d5 - d6) == 0) by (rewrite sum_bc; exact N3).
  rewrite qdiv_some by exact N2. eexists. split; [reflexivity|].
  apply (near_of (1 - (d4 - d3) / (d4 - d3 + (d5 - d6))) ((d4 - d3) / (d4 - d3 + (d5 - d6)))).
  - rewrite e3, e4, e5, e6 in *. apply region_bc; assumption.
  - intros []; cbn; ring.
Qed.

Lemma missed : ~ (d1 <= 0 /\ d2 <= 0) -> ~ (0 <= d3 /\ d4 <= d3) -> ~ (d1 * d4 - d3 * d2 <= 0 /\ 0 <= d1 /\ d3 <= 0) ->
  ~ (0 <= d6 /\ d5 <= d6) -> ~ (d5 * d2 - d1 * d6 <= 0 /\ 0 <= d2 /\ d6 <= 0) ->
  ~ (d3 * d6 - d5 * d4 <= 0 /\ 0 <= d4 - d3 /\ 0 <= d5 - d6) -> misses A B C d1 d2.
Proof. rewrite e3, e4, e5, e6. unfold misses. tauto. Qed.

Lemma at_face : misses A B C d1 d2 -> (same a b -> same a c) ->
  exists x, option_map (fun denom => add3 (add3 a (scale3 ((d5 * d2 - d1 * d6) * denom) ab)) (scale3 ((d1 * d4 - d3 * d2) * denom) ac))
       (qdiv 1 (d3 * d6 - d5 * d4 + (d5 * d2 - d1 * d6) + (d1 * d4 - d3 * d2))) = Some x /\
    near x /\ ~ on_line a b c /\ in_interior a b c x /\ perpendicular_foot a b c p x.
Proof.
  intros M Hd.
  assert (Dp : 0 < A * C - B * B).
  { destruct (Qlt_le_dec 0 (A * C - B * B)) as [L|L]; [exact L|]. exfalso. pose proof gram_d as G.
    assert (Z : A * C - B * B == 0) by lra. destruct (gram_flat ab ac ap Z) as (F1 & F2).
    apply (flat_covered A B C d1 d2); try assumption.
    - apply dot_pos.
    - intros EA. apply edge_zero in EA. pose proof (Hd EA) as Ec. split; [apply edge_zero; exact Ec|].
      apply same_at in EA. apply same_at in Ec. destruct EA as (A1 & A2 & A3), Ec as (C1 & C2 & C3).
      unfold d1, d2, ab, ac, dot3, sub3. cbn. rewrite <- A1, <- A2, <- A3, <- C1, <- C2, <- C3. split; ring. }
  destruct (face_positive A B C d1 d2 (dot_pos ab) (dot_pos ac) Dp M) as (Pa & Pb & Pc).
  assert (Sum : d3 * d6 - d5 * d4 + (d5 * d2 - d1 * d6) + (d1 * d4 - d3 * d2) == A * C - B * B) by (rewrite e3, e4, e5, e6; ring).
  assert (N : ~ d3 * d6 - d5 * d4 + (d5 * d2 - d1 * d6) + (d1 * d4 - d3 * d2) == 0) by lra.
  rewrite qdiv_some by exact N. eexists. split; [reflexivity|].
  rewrite <- e3, <- e5, <- e6, <- e4 in Pa. rewrite <- e5, <- e6 in Pb. rewrite <- e3, <- e4 in Pc.
  set (va := d3 * d6 - d5 * d4) in *. set (vb := d5 * d2 - d1 * d6) in *. set (vc := d1 * d4 - d3 * d2) in *.
  set (D := va + vb + vc) in *.
  assert (Vb : vb * (1 / D) == vb / D) by (field; exact N). assert (Vc : vc * (1 / D) == vc / D) by (field; exact N).
  destruct (region_face A B C d1 d2 D) as (O & Z1 & Z2).
  { exact Sum. } { lra. } { unfold D, va, vb, vc. rewrite e3, e4, e5, e6. ring. }
  { rewrite <- e3, <- e5, <- e6, <- e4. apply Qlt_le_weak, Pa. } { rewrite <- e5, <- e6. apply Qlt_le_weak, Pb. } { rewrite <- e3, <- e4. apply Qlt_le_weak, Pc. }
  assert (Eb : (d1 - B) * d2 - d1 * (d2 - C) == vb) by (unfold vb; rewrite e5, e6; reflexivity).
  assert (Ec : d1 * (d2 - B) - (d1 - A) * d2 == vc) by (unfold vc; rewrite e3, e4; reflexivity).
  rewrite Eb, Ec in O, Z1, Z2.
  set (x := add3 (add3 a (scale3 (vb * (1 / D)) ab)) (scale3 (vc * (1 / D)) ac)).
  assert (Ex : same x (add3 (add3 a (scale3 (vb / D) ab)) (scale3 (vc / D) ac))) by (intros []; cbn; rewrite Vb, Vc; reflexivity).
  clearbody x. split; [exact (near_of _ _ _ O Ex)|]. split; [rewrite on_line_iff; fold ab ac A B C; lra|].
  assert (DP : 0 < D) by lra.
  assert (Q0 : forall y, 0 < y -> 0 < y / D).
  { intros y Y. apply Qlt_shift_div_l; [exact DP|]. lra. }
  split.
  - exists (va / D), (vb / D), (vc / D). split; [apply Q0, Pa|]. split; [apply Q0, Pb|]. split; [apply Q0, Pc|].
    assert (One : va / D + vb / D + vc / D == 1). { setoid_replace (va / D + vb / D + vc / D) with ((va + vb + vc) / D) by (field; exact N). fold D. field. exact N. }
    split; [exact One|]. assert (Eu : va / D == 1 - vb / D - vc / D) by lra.
    intros d. rewrite (Ex d). unfold combine3. rewrite at_make, Eu. unfold ab, ac, add3, scale3, sub3. destruct d; cbn; ring.
  - apply same_at in Ex. destruct Ex as (X1 & X2 & X3). unfold perpendicular_foot, inner, minus. cbn. rewrite X1, X2, X3.
    split.
    + rewrite <- Z1. unfold d1, A, B, ab, ac, ap, dot3, add3, scale3, sub3. cbn. ring.
    + rewrite <- Z2. unfold d2, C, B, ab, ac, ap, dot3, add3, scale3, sub3. cbn. ring.
Qed.

(** A foot inside the triangle is in none of the boundary regions. *)
Lemma inside_misses x : ~ on_line a b c -> in_interior a b c x -> perpendicular_foot a b c p x ->
  ~ (d1 <= 0 /\ d2 <= 0) /\ ~ (0 <= d3 /\ d4 <= d3) /\ ~ (d1 * d4 - d3 * d2 <= 0 /\ 0 <= d1 /\ d3 <= 0) /\
  ~ (0 <= d6 /\ d5 <= d6) /\ ~ (d5 * d2 - d1 * d6 <= 0 /\ 0 <= d2 /\ d6 <= 0) /\
  ~ (d3 * d6 - d5 * d4 <= 0 /\ 0 <= d4 - d3 /\ 0 <= d5 - d6).
Proof.
  rewrite on_line_iff. fold ab ac A B C. intros N (u & v & w & U & V & W & Sm & Ex) (F1 & F2).
  pose proof gram_d as G. assert (D : 0 < A * C - B * B) by lra. clear N G.
  apply same_at in Ex. unfold combine3 in Ex. cbn in Ex. destruct Ex as (X1 & X2 & X3).
  unfold inner, minus in F1, F2. cbn in F1, F2. rewrite X1, X2, X3 in F1, F2.
  assert (Eu : u == 1 - v - w) by lra.
  assert (D1 : d1 == v * A + w * B).
  { assert (X : d1 - (v * A + w * B) == 0); [|lra]. rewrite <- F1, Eu. unfold d1, A, B, ab, ac, ap, dot3, sub3. cbn. ring. }
  assert (D2 : d2 == v * B + w * C).
  { assert (X : d2 - (v * B + w * C) == 0); [|lra]. rewrite <- F2, Eu. unfold d2, C, B, ab, ac, ap, dot3, sub3. cbn. ring. }
  clear F1 F2 X1 X2 X3. rewrite e3, e4, e5, e6.
  assert (PA : 0 < A). { pose proof (dot_pos ab) as Q. fold A in Q. destruct (Qlt_le_dec 0 A); [assumption|]. assert (A == 0) by lra. assert (X : forall z, 0 <= z * z) by (intros z; nra). specialize (X B). nra. }
  assert (Sq : forall q, 0 <= q * q) by (intros q; nra).
  assert (Form : forall y z, ~ (y == 0 /\ z == 0) -> 0 < y * (y * A + z * B) + z * (y * B + z * C)).
  { intros y z NZ. apply Qnot_le_lt. intros L.
    assert (I : A * (y * (y * A + z * B) + z * (y * B + z * C)) == (y * A + z * B) * (y * A + z * B) + z * z * (A * C - B * B)) by ring.
    assert (I2 : A * (y * (y * A + z * B) + z * (y * B + z * C)) <= 0) by nra.
    pose proof (Sq (y * A + z * B)) as S1. pose proof (Sq z) as S2. assert (S3 : 0 <= z * z * (A * C - B * B)) by (apply Qmult_le_0_compat; lra).
    assert (T : z * z * (A * C - B * B) == 0) by lra. assert (T2 : (y * A + z * B) * (y * A + z * B) == 0) by lra.
    destruct (Qmult_integral _ _ T) as [T3|T3]; [|lra].
    assert (Z0 : z == 0) by (destruct (Qmult_integral _ _ T3); assumption).
    assert (Y1 : y * A + z * B == 0) by (destruct (Qmult_integral _ _ T2); assumption).
    rewrite Z0 in Y1. assert (Y2 : y * A == 0) by lra. destruct (Qmult_integral _ _ Y2) as [Y3|Y3]; [|lra]. apply NZ. auto. }
  assert (Pc : A * d2 - B * d1 == w * (A * C - B * B)) by (rewrite D1, D2; ring).
  assert (Pb : C * d1 - B * d2 == v * (A * C - B * B)) by (rewrite D1, D2; ring).
  assert (W2 : 0 < w * (A * C - B * B)) by nra. assert (V2 : 0 < v * (A * C - B * B)) by nra. assert (U2 : 0 < u * (A * C - B * B)) by nra.
  repeat split; intros H.
  - destruct H as (H1 & H2). pose proof (Form v w ltac:(lra)) as F. rewrite <- D1, <- D2 in F. nra.
  - destruct H as (H1 & H2). pose proof (Form (v - 1) w ltac:(lra)) as F.
    setoid_replace ((v - 1) * A + w * B) with (d1 - A) in F by (rewrite D1; ring).
    setoid_replace ((v - 1) * B + w * C) with (d2 - B) in F by (rewrite D2; ring).
    setoid_replace ((v - 1) * (d1 - A) + w * (d2 - B)) with (- (u * (d1 - A)) + w * (d2 - B - (d1 - A))) in F by (rewrite Eu; ring). nra.
  - destruct H as (H1 & _). lra.
  - destruct H as (H1 & H2). pose proof (Form v (w - 1) ltac:(lra)) as F.
    setoid_replace (v * A + (w - 1) * B) with (d1 - B) in F by (rewrite D1; ring).
    setoid_replace (v * B + (w - 1) * C) with (d2 - C) in F by (rewrite D2; ring).
    setoid_replace (v * (d1 - B) + (w - 1) * (d2 - C)) with (- (u * (d2 - C)) + v * (d1 - B - (d2 - C))) in F by (rewrite Eu; ring). nra.
  - destruct H as (H1 & _). lra.
  - destruct H as (H1 & _).
    assert (Pa : (d1 - A) * (d2 - C) - (d1 - B) * (d2 - B) == u * (A * C - B * B)) by (rewrite D1, D2, Eu; ring). lra.
Qed.
End Project.

(** projectOnTriangle sets q to the point of the triangle nearest to p, and answers true exactly when
    the corners are not on one line and q is the foot of the perpendicular and inside the boundary:
    for every point and every triangle, degenerate ones too unless the first two corners coincide and
    the third is elsewhere. *)
Theorem project_on_triangle_nearest p a b c : (same a b -> same a c) ->
  exists answer x, project_on_triangle p a b c = (answer, Some x) /\ nearest (in_triangle a b c) p x /\
    (answer = true <-> ~ on_line a b c /\ in_interior a b c x /\ perpendicular_foot a b c p x).
Proof.
  intros Hd.
  assert (Out : forall x, (exists T, T /\ (~ on_line a b c -> in_interior a b c x -> perpendicular_foot a b c p x -> ~ T)) ->
    (false = true <-> ~ on_line a b c /\ in_interior a b c x /\ perpendicular_foot a b c p x)).
  { intros x (T & H & K). split; [discriminate|]. intros (N & I & F). exfalso. exact (K N I F H). }
  unfold project_on_triangle. cbv zeta.
  destruct (_ && _) eqn:T1.
  { apply and_leb in T1. exists false, a. split; [reflexivity|]. split; [apply at_a; apply T1|].
    apply Out. eexists. split; [exact T1|]. intros N I F. apply (inside_misses p a b c a N I F). }
  apply (not_true_false _ _ (and_leb _ _ _ _)) in T1.
  destruct (_ && _) eqn:T2.
  { apply and_leb in T2. exists false, b. split; [reflexivity|]. split; [apply at_b; apply T2|].
    apply Out. eexists. split; [exact T2|]. intros N I F. apply (inside_misses p a b c b N I F). }
  apply (not_true_false _ _ (and_leb _ _ _ _)) in T2.
  assert (Nab : dot3 (sub3 b a) (sub3 p a) * dot3 (sub3 c a) (sub3 p b) - dot3 (sub3 b a) (sub3 p b) * dot3 (sub3 c a) (sub3 p a) <= 0 -> ~ same a b).
  { intros _ E. apply T1. pose proof (Hd E) as E2. apply same_at in E. apply same_at in E2. destruct E as (A1 & A2 & A3), E2 as (C1 & C2 & C3).
    unfold dot3, sub3. cbn. rewrite <- A1, <- A2, <- A3, <- C1, <- C2, <- C3. split; lra. }
  destruct (_ && _) eqn:T3.
  { apply and3_leb in T3. destruct (at_ab p a b c) as (x & E & X); try apply T3; [apply Nab, T3|].
    exists false, x. rewrite E. split; [reflexivity|]. split; [exact X|].
    apply Out. eexists. split; [exact T3|]. intros N I F. apply (inside_misses p a b c x N I F). }
  apply (not_true_false _ _ (and3_leb _ _ _ _ _ _)) in T3.
  destruct (_ && _) eqn:T4.
  { apply and_leb in T4. exists false, c. split; [reflexivity|]. split; [apply at_c; apply T4|].
    apply Out. eexists. split; [exact T4|]. intros N I F. apply (inside_misses p a b c c N I F). }
  apply (not_true_false _ _ (and_leb _ _ _ _)) in T4.
  destruct (_ && _) eqn:T5.
  { apply and3_leb in T5. destruct (at_ac p a b c) as (x & E & X); try apply T5.
    - intros E. apply T4. apply same_at in E. destruct E as (A1 & A2 & A3). exfalso.
      (* c = a: then d2 = d6 = 0, so d5 = d1 > 0, and the tests for b and a-b cover the rest *)
      assert (D2 : dot3 (sub3 c a) (sub3 p a) == 0) by (unfold dot3, sub3; cbn; rewrite <- A1, <- A2, <- A3; ring).
      assert (D4 : dot3 (sub3 c a) (sub3 p b) == 0) by (unfold dot3, sub3; cbn; rewrite <- A1, <- A2, <- A3; ring).
      rewrite D2 in T1, T3. rewrite D4 in T2, T3.
      revert T1 T2 T3. generalize (dot3 (sub3 b a) (sub3 p a)) (dot3 (sub3 b a) (sub3 p b)). intros x y. intros. lra.
    - exists false, x. rewrite E. split; [reflexivity|]. split; [exact X|].
      apply Out. eexists. split; [exact T5|]. intros N I F. apply (inside_misses p a b c x N I F). }
  apply (not_true_false _ _ (and3_leb _ _ _ _ _ _)) in T5.
  destruct (_ && _) eqn:T6.
  { apply and3_leb in T6. destruct (at_bc p a b c) as (x & E & X); try apply T6.
    - intros E. apply same_at in E. destruct E as (A1 & A2 & A3).
      assert (D1 : dot3 (sub3 b a) (sub3 p a) == dot3 (sub3 c a) (sub3 p a)) by (unfold dot3, sub3; cbn; rewrite A1, A2, A3; ring).
      assert (D3 : dot3 (sub3 b a) (sub3 p b) == dot3 (sub3 c a) (sub3 p b)) by (unfold dot3, sub3; cbn; rewrite A1, A2, A3; ring).
      rewrite D1 in T1, T3. rewrite D3 in T2, T3.
      revert T1 T2 T3. generalize (dot3 (sub3 c a) (sub3 p a)) (dot3 (sub3 c a) (sub3 p b)). intros x y. intros. lra.
    - exists false, x. rewrite E. split; [reflexivity|]. split; [exact X|].
      apply Out. eexists. split; [exact T6|]. intros N I F. apply (inside_misses p a b c x N I F). }
  apply (not_true_false _ _ (and3_leb _ _ _ _ _ _)) in T6.
  destruct (at_face p a b c) as (x & E & X & I); [apply missed; assumption|exact Hd|].
  exists true, x. rewrite E. split; [reflexivity|]. split; [exact X|]. split; [intros _; exact I|reflexivity].
Qed.
Print Assumptions project_on_triangle_nearest.

(** The nearest point is unique, so these conditions determine the answer up to equality of coordinates. *)
Theorem nearest_point_unique a b c p x y :
  nearest (in_triangle a b c) p x -> nearest (in_triangle a b c) p y -> same x y.
Proof. apply nearest_unique. Qed.
Print Assumptions nearest_point_unique.

Lemma select_chain (P : q3 -> Prop) (o1 o2 o3 o4 o5 o6 : bool) (q0 q1 q2 q3' q4 q5 q6 q7 : option q3) :
  (o1 = true -> exists x, q1 = Some x /\ P x) -> (o2 = true -> exists x, q2 = Some x /\ P x) ->
  (o3 = true -> exists x, q3' = Some x /\ P x) -> (o4 = true -> exists x, q4 = Some x /\ P x) ->
  (o5 = true -> exists x, q5 = Some x /\ P x) -> (o6 = true -> exists x, q6 = Some x /\ P x) ->
  (o1 = false -> o2 = false -> o3 = false -> o4 = false -> o5 = false -> o6 = false -> exists x, q7 = Some x /\ P x) ->
  exists x, select (o1 || o2 || o3 || o4 || o5 || o6)
    (select o6 q6 (select o5 q5 (select o4 q4 (select o3 q3' (select o2 q2 (select o1 q1 q0)))))) q7 = Some x /\ P x.
Proof. intros. destruct o6, o5, o4, o3, o2, o1; cbn [orb select]; auto. Qed.

(** The wide version gives the same answer and the same point in every lane, whatever was in q, if the
    corners are three different points. *)
Theorem project_lane_nearest p a b c q0 : ~ same a b -> ~ same a c -> ~ same b c ->
  exists answer x y, project_lane p a b c q0 = (answer, Some x) /\ nearest (in_triangle a b c) p x /\
    project_on_triangle p a b c = (answer, Some y) /\ same x y.
Proof.
  intros Nab Nac Nbc.
  destruct (project_on_triangle_nearest p a b c) as (ans & y & Ey & Ny & _); [tauto|].
  assert (X : exists x, snd (project_lane p a b c q0) = Some x /\ nearest (in_triangle a b c) p x).
  { unfold project_lane. cbv zeta. cbn [snd]. apply select_chain.
    - intros T. apply and_leb in T. exists a. split; [reflexivity|]. apply at_a; apply T.
    - intros T. apply and_leb in T. exists b. split; [reflexivity|]. apply at_b; apply T.
    - intros T. apply and3_leb in T. apply at_ab; [exact Nab|apply T..].
    - intros T. apply and_leb in T. exists c. split; [reflexivity|]. apply at_c; apply T.
    - intros T. apply and3_leb in T. apply at_ac; [exact Nac|apply T..].
    - intros T. apply and3_leb in T. apply at_bc; [exact Nbc|apply T..].
    - intros T1 T2 T3 T4 T5 T6.
      apply (not_true_false _ _ (and_leb _ _ _ _)) in T1. apply (not_true_false _ _ (and_leb _ _ _ _)) in T2.
      apply (not_true_false _ _ (and3_leb _ _ _ _ _ _)) in T3. apply (not_true_false _ _ (and_leb _ _ _ _)) in T4.
      apply (not_true_false _ _ (and3_leb _ _ _ _ _ _)) in T5. apply (not_true_false _ _ (and3_leb _ _ _ _ _ _)) in T6.
      destruct (at_face p a b c) as (x & E & X & _); [apply missed; assumption|tauto|]. exists x. split; [exact E|exact X]. }
  destruct X as (x & Ex & Nx). exists ans, x, y.
  split; [|split; [exact Nx|split; [exact Ey|exact (nearest_unique _ _ _ _ _ _ Nx Ny)]]].
  rewrite (surjective_pairing (project_lane p a b c q0)), same_answer, Ey, Ex. reflexivity.
Qed.
Print Assumptions project_lane_nearest.

Definition ta := Q3 0 0 0. Definition tb := Q3 4 0 0. Definition tc := Q3 1 3 0.
Example project_case_face : ~ same ta tb /\ ~ same ta tc /\ ~ same tb tc /\
  exists x, project_on_triangle (Q3 2 1 5) ta tb tc = (true, Some x) /\ same x (Q3 2 1 0).
Proof.
  repeat split; [intros H; specialize (H DX); vm_compute in H; discriminate..|].
  eexists. split; [vm_compute; reflexivity|]. intros []; vm_compute; reflexivity.
Qed.
Example project_case_edge : exists x, project_on_triangle (Q3 2 (-3) 5) ta tb tc = (false, Some x) /\ same x (Q3 2 0 0).
Proof. eexists. split; [vm_compute; reflexivity|]. intros []; vm_compute; reflexivity. Qed.
(** A degenerate triangle: three corners on a line. *)
Example project_case_flat : ~ same ta tb /\ exists x, project_on_triangle (Q3 6 1 0) ta tb (Q3 8 0 0) = (false, Some x) /\ same x (Q3 6 0 0).
Proof.
  split; [intros H; specialize (H DX); vm_compute in H; discriminate|].
  eexists. split; [vm_compute; reflexivity|]. intros []; vm_compute; reflexivity.
Qed.

(** If the first two corners coincide and the query lies on the side of the third, projectOnTriangle
    divides zero by zero: the point is not finite. *)
Theorem project_on_triangle_refuted p a b c : same a b -> 0 < inner (minus p a) (minus c a) -> project_on_triangle p a b c = (false, None).
Proof.
  intros (A1 & A2 & A3)%same_at P.
  assert (Z : forall x, dot3 (sub3 b a) x == 0) by (intros x; unfold dot3, sub3; cbn; rewrite A1, A2, A3; ring).
  assert (D2 : 0 < dot3 (sub3 c a) (sub3 p a)) by (unfold inner, minus, dot3, sub3 in *; cbn in *; lra).
  assert (D4 : dot3 (sub3 c a) (sub3 p b) == dot3 (sub3 c a) (sub3 p a)) by (unfold dot3, sub3; cbn; rewrite A1, A2, A3; ring).
  unfold project_on_triangle. cbv zeta.
  destruct (_ && _) eqn:T1. { apply and_leb in T1. exfalso. lra. }
  destruct (_ && _) eqn:T2 in |- *. { apply and_leb in T2. rewrite Z, D4 in T2. exfalso. lra. }
  destruct (_ && _ && _) eqn:T3 in |- *.
  - unfold qdiv. rewrite (proj2 (Qeq_bool_iff _ 0)); [reflexivity|]. rewrite !Z. ring.
  - exfalso. apply (not_true_false _ _ (and3_leb _ _ _ _ _ _)) in T3. apply T3. rewrite !Z. split; [|split]; lra.
Qed.
Print Assumptions project_on_triangle_refuted.
Example project_refuted_case : same ta ta /\ 0 < inner (minus (Q3 2 0 1) ta) (minus tb ta).
Proof. split; [intros d; reflexivity|vm_compute; reflexivity]. Qed.

(** The wide version is not finite for every triangle whose last two corners coincide, where the
    scalar one is right. *)
Theorem project_lane_refuted p a b c q0 : same b c -> snd (project_lane p a b c q0) = None.
Proof.
  intros (A1 & A2 & A3)%same_at.
  assert (E : forall x, dot3 (sub3 c a) x == dot3 (sub3 b a) x) by (intros x; unfold dot3, sub3; cbn; rewrite A1, A2, A3; ring).
  assert (F : forall x, dot3 x (sub3 p c) == dot3 x (sub3 p b)) by (intros x; unfold dot3, sub3; cbn; rewrite A1, A2, A3; ring).
  unfold project_lane. cbv zeta. cbn [snd].
  match goal with |- context [select (Qle_bool ?x 0 && Qle_bool 0 ?y && Qle_bool 0 ?z) (option_map _ (qdiv _ (?y + ?z)))] =>
    assert (T : Qle_bool x 0 && Qle_bool 0 y && Qle_bool 0 z = true) end.
  { apply and3_leb. rewrite !E, !F.
    split; [|split; lra]. match goal with |- ?l <= 0 => setoid_replace l with 0 by ring end. lra. }
  rewrite T, orb_true_r. cbn [select].
  unfold qdiv at 1. rewrite (proj2 (Qeq_bool_iff _ 0)); [reflexivity|]. rewrite !E, !F. ring.
Qed.
Print Assumptions project_lane_refuted.
