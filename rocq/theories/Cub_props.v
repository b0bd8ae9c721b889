(** C110: quadratic and cubic equations, and the times at which four moving points are coplanar. *)

From Coq Require Import Bool List Reals Lra Lia Psatz.
From Verif Require Import Rbool R3 Cub_model Cub_spec Cub_proofs.
Import ListNotations.
Local Open Scope R_scope.

(** ** The cubic equation *)

(** No real root is missed. *)
Theorem cubic_complete a b c x : cubic 1 a b c x = 0 -> In x (solveP3 a b c).
Proof.
  intros H. destruct (Rlt_or_le (dep_r a b c * dep_r a b c) (dep_q a b * dep_q a b * dep_q a b)) as [L|L].
  - destruct (solve3_three a b c L) as (x0 & x1 & x2 & E & F). rewrite E. rewrite F in H. apply Rmult_integral in H. destruct H as [H|H]; [apply Rmult_integral in H; destruct H as [H|H]|].
    + left. lra.
    + right. left. lra.
    + right. right. left. lra.
  - destruct (cardano a b c L) as (x0 & x1 & im & E & F). rewrite E. rewrite F in H. apply Rmult_integral in H. destruct H as [H|H].
    + destruct (Rltb (Rabs im) tiny14); left; lra.
    + assert (I0 : im = 0 /\ x = x1) by (pose proof (pow2_ge_0 (x - x1)); pose proof (pow2_ge_0 im); assert (Q1 : (x - x1) * (x - x1) = 0) by nra; assert (Q2 : im * im = 0) by nra; split; [apply Rmult_integral in Q2; tauto|apply Rmult_integral in Q1; lra]).
      destruct I0 as [-> ->]. rewrite Rabs_R0. destruct (Rltb_spec 0 tiny14) as [_|B]; [right; left; reflexivity|]. exfalso. apply B. unfold tiny14. lra.
Qed.
Print Assumptions cubic_complete.

(** Three different real roots are found exactly. *)
Theorem cubic_three a b c : 0 < discriminant a b c ->
  length (solveP3 a b c) = 3%nat /\ NoDup (solveP3 a b c) /\ forall x, In x (solveP3 a b c) <-> cubic 1 a b c x = 0.
Proof.
  intros H. assert (L : dep_r a b c * dep_r a b c < dep_q a b * dep_q a b * dep_q a b).
  { assert (Q : dep_q a b * dep_q a b * dep_q a b - dep_r a b c * dep_r a b c = discriminant a b c / 108) by (unfold dep_q, dep_r, discriminant; field). lra. }
  destruct (solve3_three a b c L) as (x0 & x1 & x2 & E & F). rewrite E.
  assert (C : c = - (x0 * x1 * x2)) by (specialize (F 0); unfold cubic in F; lra).
  assert (A : a = - (x0 + x1 + x2)) by (pose proof (F 1) as F1; pose proof (F (-1)) as F2; unfold cubic in F1, F2; lra).
  assert (B : b = x0 * x1 + x1 * x2 + x2 * x0) by (pose proof (F 1) as F1; unfold cubic in F1; lra).
  assert (D : discriminant a b c = ((x0 - x1) * (x1 - x2) * (x2 - x0)) ^ 2) by (rewrite A, B, C; unfold discriminant; ring).
  assert (N : x0 <> x1 /\ x1 <> x2 /\ x2 <> x0) by (repeat split; intros ->; rewrite D in H; ring_simplify in H; lra).
  split; [reflexivity|]. split.
  - constructor; [intros [Q|[Q|[]]]; intuition congruence|]. constructor; [intros [Q|[]]; intuition congruence|]. constructor; [intros []|constructor].
  - intros x. split; [|intros Hx; rewrite <- E; apply cubic_complete; exact Hx]. rewrite F. intros [<-|[<-|[<-|[]]]]; ring.
Qed.
Print Assumptions cubic_three.

(** The first number is always a root, and every number is nearly one. *)
Theorem cubic_nearly_sound a b c : exists z rest, solveP3 a b c = z :: rest /\ cubic 1 a b c z = 0 /\
  forall x, In x rest -> Rabs (cubic 1 a b c x) <= (/ 10 ^ 28) * Rabs (x - z).
Proof.
  destruct (Rlt_or_le (dep_r a b c * dep_r a b c) (dep_q a b * dep_q a b * dep_q a b)) as [L|L].
  - destruct (solve3_three a b c L) as (x0 & x1 & x2 & E & F). exists x0, [x1; x2]. split; [exact E|]. split; [rewrite F; ring|].
    intros x Hx. replace (cubic 1 a b c x) with 0 by (rewrite F; destruct Hx as [<-|[<-|[]]]; ring). rewrite Rabs_R0. apply Rmult_le_pos; [left; apply Rinv_0_lt_compat, pow_lt; lra|apply Rabs_pos].
  - destruct (cardano a b c L) as (x0 & x1 & im & E & F). destruct (Rltb_spec (Rabs im) tiny14) as [S|S].
    + exists x0, [x1; x1]. split; [exact E|]. split; [rewrite F; ring|]. intros x Hx. assert (Q : x = x1) by (destruct Hx as [<-|[<-|[]]]; reflexivity). rewrite F, Q.
      replace ((x1 - x0) * ((x1 - x1) ^ 2 + im ^ 2)) with (im ^ 2 * (x1 - x0)) by ring. rewrite Rabs_mult. apply Rmult_le_compat_r; [apply Rabs_pos|].
      rewrite <- RPow_abs. replace (/ 10 ^ 28) with (tiny14 ^ 2) by (unfold tiny14; lra). apply pow_incr. split; [apply Rabs_pos|lra].
    + exists x0, []. split; [exact E|]. split; [rewrite F; ring|intros x []].
Qed.
Print Assumptions cubic_nearly_sound.

(** A number that is not a root is returned for x ((x - 1)^2 + 10^-30), whose only real root is 0. *)
Theorem cubic_sound_refuted : exists a b c x, In x (solveP3 a b c) /\ cubic 1 a b c x <> 0 /\ forall z, cubic 1 a b c z = 0 -> z = 0.
Proof.
  set (e := / 10 ^ 30). assert (E0 : 0 < e) by (unfold e; apply Rinv_0_lt_compat, pow_lt; lra).
  assert (P : forall x, cubic 1 (-2) (1 + e) 0 x = x * ((x - 1) ^ 2 + e)) by (intros; unfold cubic; ring).
  assert (RT : forall z, cubic 1 (-2) (1 + e) 0 z = 0 -> z = 0).
  { intros z Hz. rewrite P in Hz. apply Rmult_integral in Hz. destruct Hz as [|Hz]; [assumption|]. pose proof (pow2_ge_0 (z - 1)). lra. }
  exists (-2), (1 + e), 0, 1. split; [|split; [rewrite P; lra|exact RT]].
  destruct (Rlt_or_le (dep_r (-2) (1 + e) 0 * dep_r (-2) (1 + e) 0) (dep_q (-2) (1 + e) * dep_q (-2) (1 + e) * dep_q (-2) (1 + e))) as [L|L].
  - exfalso. assert (Q : dep_q (-2) (1 + e) * dep_q (-2) (1 + e) * dep_q (-2) (1 + e) - dep_r (-2) (1 + e) 0 * dep_r (-2) (1 + e) 0 = - (e * (1 + e) ^ 2) / 27) by (unfold dep_q, dep_r; field).
    assert (0 < e * (1 + e) ^ 2) by (apply Rmult_lt_0_compat; [lra|apply pow_lt; lra]). lra.
  - destruct (cardano _ _ _ L) as (x0 & x1 & im & E & F). assert (X0 : x0 = 0) by (apply RT; rewrite F; ring). rewrite X0 in *.
    assert (G : forall x, x <> 0 -> (x - 1) ^ 2 + e = (x - x1) ^ 2 + im ^ 2).
    { intros x Nx. apply Rmult_eq_reg_l with x; [|exact Nx]. rewrite <- P, F. ring. }
    assert (X1 : x1 = 1) by (pose proof (G 1 ltac:(lra)); pose proof (G 2 ltac:(lra)); lra). assert (IM : im ^ 2 = e) by (pose proof (G 2 ltac:(lra)) as G2; rewrite X1 in G2; lra).
    rewrite E. assert (S : Rabs im < tiny14).
    { apply Rabs_def1; destruct (Rlt_or_le (Rabs im) tiny14) as [A|A]; try (apply Rabs_def2 in A; lra); exfalso;
      (assert (T : tiny14 ^ 2 <= im ^ 2) by (rewrite <- (pow2_abs im); apply pow_incr; split; [unfold tiny14; lra|exact A]); rewrite IM in T; unfold tiny14, e in T; lra). }
    destruct (Rltb_spec (Rabs im) tiny14); [|contradiction]. right. left. exact X1.
Qed.
Print Assumptions cubic_sound_refuted.

(** ** The quadratic equation *)

(** Exactly the real roots are returned if the discriminant is not in [0, 1e-9). *)
Theorem quadratic_roots_partial a b c x : a <> 0 -> b * b - 4 * a * c < 0 \/ / 10 ^ 9 <= b * b - 4 * a * c ->
  In x (solveP2 a b c) <-> quadratic a b c x = 0.
Proof.
  intros Ha [D|D].
  - destruct (solve2_none a b c Ha D) as [E N]. rewrite E. split; [intros []|]. intros Q. exfalso. exact (N x Q).
  - destruct (solve2_two a b c Ha ltac:(unfold tiny9; lra)) as (x0 & x1 & E & F). rewrite E, F. split.
    + intros [<-|[<-|[]]]; ring.
    + intros Q. apply Rmult_integral in Q. destruct Q as [Q|Q]; [contradiction|]. apply Rmult_integral in Q. destruct Q; [left|right; left]; lra.
Qed.
Print Assumptions quadratic_roots_partial.

(** Otherwise both roots can be missed by any distance, and the number returned is no root. *)
Theorem quadratic_roots_refuted h : 0 < h -> exists a b c, a <> 0 /\
  quadratic a b c h = 0 /\ quadratic a b c (- h) = 0 /\ solveP2 a b c = [0] /\ quadratic a b c 0 <> 0.
Proof.
  intros Hh. set (a := / (10 ^ 5 * (1 + h))). assert (A0 : 0 < a) by (apply Rinv_0_lt_compat; assert (0 < 10 ^ 5 * (1 + h)) by lra; assumption).
  exists a, 0, (- (a * h ^ 2)). split; [lra|]. split; [unfold quadratic; ring|]. split; [unfold quadratic; ring|].
  assert (AH : a * (1 + h) = / 10 ^ 5) by (unfold a; field; lra).
  destruct (solve2_flat a 0 (- (a * h ^ 2)) ltac:(lra)) as [E _].
  - replace (0 * 0 - 4 * a * - (a * h ^ 2)) with (4 * (a * h) ^ 2) by ring. assert (B : 0 <= a * h < / 10 ^ 5) by (split; [nra|lra]).
    split; [pose proof (pow2_ge_0 (a * h)); lra|]. assert ((a * h) ^ 2 <= (/ 10 ^ 5) ^ 2) by (apply pow_incr; lra). unfold tiny9. lra.
  - rewrite E. split; [f_equal; field; lra|]. unfold quadratic. assert (0 < a * h ^ 2) by (apply Rmult_lt_0_compat; [lra|apply pow_lt; lra]). lra.
Qed.
Print Assumptions quadratic_roots_refuted.

(** ** Four moving points *)

(** The polynomial: the points are coplanar exactly when their volume is zero, a polynomial of the time of degree three. *)
Theorem coplanar_is_volume p1 p2 p3 p4 : coplanar p1 p2 p3 p4 <-> volume p1 p2 p3 p4 = 0.
Proof. apply coplanar_volume. Qed.
Print Assumptions coplanar_is_volume.

(** No time is missed if the leading coefficient of that polynomial is not small: [k3] t^3 + ... is the volume at every time. *)
Theorem coplanar_times_cubic x1 x2 x3 x4 v1 v2 v3 v4 k3 k2 k1 k0 t :
  (forall t, volume (moved x1 v1 t) (moved x2 v2 t) (moved x3 v3 t) (moved x4 v4 t) = cubic k3 k2 k1 k0 t) -> / 10 ^ 9 <= Rabs k3 ->
  coplanar (moved x1 v1 t) (moved x2 v2 t) (moved x3 v3 t) (moved x4 v4 t) -> In t (times_coplanar x1 x2 x3 x4 v1 v2 v3 v4).
Proof.
  intros V K H. apply coplanar_volume in H. pose proof (volume_cubic x1 x2 x3 x4 v1 v2 v3 v4) as VC. cbv zeta in VC. unfold times_coplanar. cbv zeta.
  set (d := coef3 (vsub v2 v1) (vsub v3 v1) (vsub v4 v1)) in *. set (a := coef2 _ _ _ _ _ _) in *. set (b := coef1 _ _ _ _ _ _) in *. set (c := coef3 (vsub x2 x1) (vsub x3 x1) (vsub x4 x1)) in *.
  assert (D : d = k3). { pose proof (VC 0) as C0; pose proof (VC 1) as C1; pose proof (VC (-1)) as C2; pose proof (VC 2) as C3. rewrite V in C0, C1, C2, C3. unfold cubic in *. lra. }
  rewrite <- D in K. unfold solve_times. destruct (Rltb_spec (Rabs d) tiny9) as [B|_]; [unfold tiny9 in B; lra|].
  assert (ND : d <> 0) by (intros Z; rewrite Z, Rabs_R0 in K; lra). apply cubic_complete. rewrite VC in H. unfold cubic in *.
  apply Rmult_eq_reg_l with d; [|exact ND]. rewrite Rmult_0_r, <- H. field. exact ND.
Qed.
Print Assumptions coplanar_times_cubic.

(** The same for equations of lower degree that are not nearly degenerate; and then every returned time is right. *)
Theorem coplanar_times_lower_partial x1 x2 x3 x4 v1 v2 v3 v4 k2 k1 k0 t :
  (forall t, volume (moved x1 v1 t) (moved x2 v2 t) (moved x3 v3 t) (moved x4 v4 t) = cubic 0 k2 k1 k0 t) ->
  (/ 10 ^ 9 <= Rabs k2 /\ (k1 * k1 - 4 * k2 * k0 < 0 \/ / 10 ^ 9 <= k1 * k1 - 4 * k2 * k0)) \/ (k2 = 0 /\ / 10 ^ 9 < Rabs k1) ->
  coplanar (moved x1 v1 t) (moved x2 v2 t) (moved x3 v3 t) (moved x4 v4 t) <-> In t (times_coplanar x1 x2 x3 x4 v1 v2 v3 v4).
Proof.
  intros V K. rewrite coplanar_volume, V. pose proof (volume_cubic x1 x2 x3 x4 v1 v2 v3 v4) as VC. cbv zeta in VC. unfold times_coplanar. cbv zeta.
  set (d := coef3 (vsub v2 v1) (vsub v3 v1) (vsub v4 v1)) in *. set (a := coef2 _ _ _ _ _ _) in *. set (b := coef1 _ _ _ _ _ _) in *. set (c := coef3 (vsub x2 x1) (vsub x3 x1) (vsub x4 x1)) in *.
  assert (D : d = 0 /\ a = k2 /\ b = k1 /\ c = k0). { pose proof (VC 0) as C0; pose proof (VC 1) as C1; pose proof (VC (-1)) as C2; pose proof (VC 2) as C3. rewrite V in C0, C1, C2, C3. unfold cubic in *. repeat split; lra. }
  destruct D as (-> & -> & -> & ->). unfold solve_times. rewrite Rabs_R0. destruct (Rltb_spec 0 tiny9) as [_|B]; [|exfalso; apply B; unfold tiny9; lra].
  replace (cubic 0 k2 k1 k0 t) with (quadratic k2 k1 k0 t) by (unfold cubic, quadratic; ring). destruct K as [[K2 KD]|[-> K1]].
  - destruct (Rltb_spec (Rabs k2) tiny9) as [B|_]; [unfold tiny9 in B; lra|]. symmetry. apply quadratic_roots_partial; [|exact KD]. intros Z. rewrite Z, Rabs_R0 in K2. lra.
  - rewrite Rabs_R0. destruct (Rltb_spec 0 tiny9) as [_|B]; [|exfalso; apply B; unfold tiny9; lra]. destruct (Rltb_spec tiny9 (Rabs k1)) as [_|B]; [|unfold tiny9 in B; lra].
    assert (N : k1 <> 0) by (intros Z; rewrite Z, Rabs_R0 in K1; lra). unfold quadratic. split.
    + intros Q. left. apply Rmult_eq_reg_l with k1; [|exact N]. transitivity (- k0); [field; exact N|lra].
    + intros [<-|[]]. field. exact N.
Qed.
Print Assumptions coplanar_times_lower_partial.

(** A small triangle and a point that goes through it: the time is missed. *)
Theorem coplanar_times_refuted : exists x1 x2 x3 x4 v1 v2 v3 v4,
  coplanar (moved x1 v1 (/ 2)) (moved x2 v2 (/ 2)) (moved x3 v3 (/ 2)) (moved x4 v4 (/ 2)) /\
  (forall t, coplanar (moved x1 v1 t) (moved x2 v2 t) (moved x3 v3 t) (moved x4 v4 t) -> t = / 2) /\
  times_coplanar x1 x2 x3 x4 v1 v2 v3 v4 = [0].
Proof.
  set (l := / 2000). set (x2 := V3 l 0 0). set (x3 := V3 0 l 0). set (x4 := V3 (l / 4) (l / 4) l). set (w := V3 0 0 (- (2 * l))).
  assert (V : forall t, volume (moved vzero vzero t) (moved x2 vzero t) (moved x3 vzero t) (moved x4 w t) = cubic 0 0 (- (2 * l * l * l)) (l * l * l) t)
    by (intros t; unfold volume, moved, cubic, vdot, vcross, vsub, vadd, vscale, x2, x3, x4, w, vzero; cbn; ring).
  assert (L0 : 0 < l) by (unfold l; lra).
  exists vzero, x2, x3, x4, vzero, vzero, vzero, w. split; [apply coplanar_volume; rewrite V; unfold cubic; field|]. split.
  - intros t H. apply coplanar_volume in H. rewrite V in H. unfold cubic in H. assert (P : 0 < l * l * l) by (repeat apply Rmult_lt_0_compat; exact L0).
    assert (Z : (l * l * l) * (1 - 2 * t) = 0) by lra. apply Rmult_integral in Z. destruct Z; lra.
  - unfold times_coplanar, solve_times. cbv zeta. set (d := coef3 (vsub vzero vzero) _ _). set (a := coef2 _ _ _ _ _ _). set (b := coef1 _ _ _ _ _ _).
    assert (D : d = 0) by (unfold d, coef3, vsub, vzero; cbn; ring). assert (A : a = 0) by (unfold a, coef2, vsub, vzero; cbn; ring).
    assert (B : b = - (2 * l * l * l)) by (unfold b, coef1, vsub, vzero, x2, x3, x4, w; cbn; ring).
    rewrite D, A, B, Rabs_R0. assert (T : Rltb 0 tiny9 = true) by (apply Rltb_true; unfold tiny9; lra). rewrite T.
    assert (T2 : Rltb tiny9 (Rabs (- (2 * l * l * l))) = false). { apply Rltb_false. rewrite Rabs_Ropp, Rabs_right by (apply Rle_ge; repeat apply Rmult_le_pos; lra). unfold tiny9, l. lra. }
    rewrite T2. reflexivity.
Qed.
Print Assumptions coplanar_times_refuted.

(** With and without AVX instructions the same times are found. *)
Theorem coplanar_times_avx x1 x2 x3 x4 v1 v2 v3 v4 : times_coplanar_avx x1 x2 x3 x4 v1 v2 v3 v4 = times_coplanar x1 x2 x3 x4 v1 v2 v3 v4.
Proof. apply avx_same. Qed.
Print Assumptions coplanar_times_avx.

(** Three points that fly apart and one that moves along another axis: the polynomial has degree three. *)
Example coplanar_case : forall t, volume (moved vzero vzero t) (moved (V3 1 0 0) (V3 1 0 0) t) (moved (V3 0 1 0) (V3 0 1 0) t) (moved (V3 0 0 (-1)) (V3 0 0 1) t) = cubic 1 1 (-1) (-1) t.
Proof. intros t. unfold volume, moved, cubic, vdot, vcross, vsub, vadd, vscale, vzero. cbn. ring. Qed.
Example discriminant_case : 0 < discriminant 0 (-7) 6.
Proof. unfold discriminant. lra. Qed.
Example quadratic_case : 1 <> 0 /\ / 10 ^ 9 <= 0 * 0 - 4 * 1 * -4.
Proof. split; lra. Qed.
Example lower_case : (forall t, volume (moved vzero vzero t) (moved (V3 1 0 0) vzero t) (moved (V3 0 1 0) vzero t) (moved (V3 0 0 (-1)) (V3 0 0 2) t) = cubic 0 0 2 (-1) t) /\ / 10 ^ 9 < Rabs 2.
Proof. split; [intros t; unfold volume, moved, cubic, vdot, vcross, vsub, vadd, vscale, vzero; cbn; ring|rewrite Rabs_right; lra]. Qed.
