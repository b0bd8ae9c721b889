(** Lemmas for C110. *)

From Coq Require Import Bool List Reals Lra Lia Psatz.
From Verif Require Import Rbool R3 Cub_model Cub_spec.
Import ListNotations.
Local Open Scope R_scope.

(** ** The cube root *)
Lemma cbrt_cube x : 0 <= x -> cbrt x ^ 3 = x /\ 0 <= cbrt x.
Proof.
  intros H. unfold cbrt. destruct (Reqb_spec x 0) as [-> |N]; [split; [ring|lra]|]. split; [|unfold Rpower; left; apply exp_pos].
  rewrite <- Rpower_pow by (unfold Rpower; apply exp_pos). rewrite Rpower_mult. replace (/ 3 * INR 3) with 1 by (simpl; field). apply Rpower_1. lra.
Qed.

(** ** Three real roots *)
Lemma cos_thirds t : let c0 := cos (t * / 3) in let c1 := cos ((t + 2 * PI) * / 3) in let c2 := cos ((t - 2 * PI) * / 3) in
  c0 + c1 + c2 = 0 /\ c0 * c1 + c1 * c2 + c2 * c0 = - 3 / 4 /\ 4 * (c0 * c1 * c2) = cos t.
Proof.
  intros c0 c1 c2. set (u := t * / 3). set (s0 := sin u).
  assert (E1 : c1 = - / 2 * c0 - sqrt 3 / 2 * s0).
  { unfold c1, s0, c0. replace ((t + 2 * PI) * / 3) with (u + 2 * (PI / 3)) by (unfold u; field). rewrite cos_plus. fold u. rewrite cos_2PI3, sin_2PI3. field. }
  assert (E2 : c2 = - / 2 * c0 + sqrt 3 / 2 * s0).
  { unfold c2, s0, c0. replace ((t - 2 * PI) * / 3) with (u - 2 * (PI / 3)) by (unfold u; field). rewrite cos_minus. fold u. rewrite cos_2PI3, sin_2PI3. field. }
  assert (SC : s0 * s0 = 1 - c0 * c0) by (unfold s0, c0; fold u; pose proof (sin2_cos2 u); unfold Rsqr in *; lra).
  assert (S3 : sqrt 3 * sqrt 3 = 3) by (apply sqrt_sqrt; lra).
  assert (P12 : c1 * c2 = c0 * c0 - 3 / 4).
  { rewrite E1, E2. replace ((- / 2 * c0 - sqrt 3 / 2 * s0) * (- / 2 * c0 + sqrt 3 / 2 * s0)) with (/ 4 * (c0 * c0) - / 4 * ((sqrt 3 * sqrt 3) * (s0 * s0))) by field.
    rewrite S3, SC. field. }
  assert (C3 : cos t = 4 * (c0 * c0 * c0) - 3 * c0).
  { replace t with (u + 2 * u) by (unfold u; field). rewrite cos_plus, cos_2a_cos, sin_2a. fold c0 s0. unfold c0 in *. fold u in SC |- *. fold s0.
    replace (s0 * (2 * s0 * cos u)) with (2 * cos u * (s0 * s0)) by ring. rewrite SC. ring. }
  split; [rewrite E1, E2; field|]. split.
  - replace (c0 * c1 + c1 * c2 + c2 * c0) with (c0 * (c1 + c2) + c1 * c2) by ring. rewrite P12. replace (c1 + c2) with (- c0) by (rewrite E1, E2; field). field.
  - replace (c0 * c1 * c2) with (c0 * (c1 * c2)) by ring. rewrite P12, C3. field.
Qed.

Definition dep_q (a b : R) : R := (a * a - 3 * b) * / 9.
Definition dep_r (a b c : R) : R := (a * (2 * (a * a) - 9 * b) + 27 * c) * / 54.

Lemma depressed a b c x : cubic 1 a b c x = (x + a / 3) ^ 3 - 3 * dep_q a b * (x + a / 3) + 2 * dep_r a b c.
Proof. unfold cubic, dep_q, dep_r. field. Qed.

Lemma solve3_three a b c : dep_r a b c * dep_r a b c < dep_q a b * dep_q a b * dep_q a b ->
  exists x0 x1 x2, solveP3 a b c = [x0; x1; x2] /\ forall x, cubic 1 a b c x = (x - x0) * (x - x1) * (x - x2).
Proof.
  intros H. unfold solveP3. cbv zeta. fold (dep_q a b). fold (dep_r a b c). set (q := dep_q a b) in *. set (r := dep_r a b c) in *.
  destruct (Rltb_spec (r * r) (q * q * q)) as [_|Bad]; [|contradiction].
  assert (Q : 0 < q). { destruct (Rle_lt_dec q 0) as [L|]; [|assumption]. exfalso. assert (0 <= r * r) by nra. assert (q * q * q <= 0) by (assert (0 <= q * q) by nra; nra). lra. }
  set (w := sqrt q). assert (W : 0 < w) by (apply sqrt_lt_R0; exact Q). assert (W2 : w * w = q) by (apply sqrt_sqrt; lra).
  assert (W3 : sqrt (q * q * q) = q * w) by (rewrite sqrt_mult by nra; rewrite sqrt_square by lra; reflexivity).
  rewrite W3. assert (QW : 0 < q * w) by nra.
  assert (B : - 1 < r / (q * w) < 1).
  { assert (R2 : r * r < (q * w) * (q * w)) by (replace ((q * w) * (q * w)) with (q * q * (w * w)) by ring; rewrite W2; lra).
    split.
    - apply Rmult_lt_reg_r with (q * w); [exact QW|]. unfold Rdiv. rewrite Rmult_assoc, Rinv_l by lra. nra.
    - apply Rmult_lt_reg_r with (q * w); [exact QW|]. unfold Rdiv. rewrite Rmult_assoc, Rinv_l by lra. nra. }
  destruct (Rltb_spec (r / (q * w)) (- 1)); [lra|]. destruct (Rltb_spec 1 (r / (q * w))); [lra|].
  set (t := acos (r / (q * w))). assert (CT : cos t = r / (q * w)) by (apply cos_acos; lra).
  destruct (cos_thirds t) as (S1 & S2 & S3). do 3 eexists. split; [reflexivity|]. intros x. rewrite depressed. fold q r.
  set (c0 := cos (t * / 3)) in *. set (c1 := cos ((t + 2 * PI) * / 3)) in *. set (c2 := cos ((t - 2 * PI) * / 3)) in *. set (y := x + a / 3).
  replace (x - (-2 * w * c0 - a / 3)) with (y + 2 * w * c0) by (unfold y; ring). replace (x - (-2 * w * c1 - a / 3)) with (y + 2 * w * c1) by (unfold y; ring).
  replace (x - (-2 * w * c2 - a / 3)) with (y + 2 * w * c2) by (unfold y; ring).
  replace ((y + 2 * w * c0) * (y + 2 * w * c1) * (y + 2 * w * c2)) with
    (y ^ 3 + 2 * w * (c0 + c1 + c2) * y ^ 2 + 4 * (w * w) * (c0 * c1 + c1 * c2 + c2 * c0) * y + 2 * (w * w * w) * (4 * (c0 * c1 * c2))) by ring.
  rewrite S1, S2, S3, CT, W2. field. lra.
Qed.

(** ** One real root, or a double one *)
Lemma cardano a b c : dep_q a b * dep_q a b * dep_q a b <= dep_r a b c * dep_r a b c ->
  exists x0 x1 im, (solveP3 a b c = if Rltb (Rabs im) tiny14 then [x0; x1; x1] else [x0]) /\
    forall x, cubic 1 a b c x = (x - x0) * ((x - x1) ^ 2 + im ^ 2).
Proof.
  intros H. unfold solveP3. cbv zeta. fold (dep_q a b). fold (dep_r a b c). set (q := dep_q a b) in *. set (r := dep_r a b c) in *.
  destruct (Rltb_spec (r * r) (q * q * q)) as [Bad|_]; [lra|]. set (s := sqrt (r * r - q * q * q)).
  assert (S0 : 0 <= s) by apply sqrt_pos. assert (S2 : s * s = r * r - q * q * q) by (apply sqrt_sqrt; lra).
  set (u := Rabs r + s). assert (U : 0 <= u) by (unfold u; pose proof (Rabs_pos r); lra). destruct (cbrt_cube u U) as [K K0]. set (k := cbrt u) in *.
  set (A := if Rltb r 0 then - - k else - k). set (B := if Reqb A 0 then 0 else q / A).
  assert (AB : A * B = q /\ A ^ 3 + B ^ 3 = - 2 * r).
  { assert (A3 : A ^ 3 = if Rltb r 0 then u else - u) by (unfold A; destruct (Rltb r 0); [replace ((- - k) ^ 3) with (k ^ 3) by ring; exact K|replace ((- k) ^ 3) with (- k ^ 3) by ring; rewrite K; reflexivity]).
    unfold B. destruct (Reqb_spec A 0) as [Z|N].
    - assert (UZ : u = 0) by (rewrite Z in A3; destruct (Rltb r 0); cbn in A3; lra). assert (RZ : r = 0) by (unfold u in UZ; pose proof (Rabs_pos r); destruct (Req_dec r 0) as [|NR]; [assumption|pose proof (Rabs_pos_lt r NR); lra]).
      assert (SZ : s = 0) by (unfold u in UZ; rewrite RZ, Rabs_R0 in UZ; lra). rewrite SZ, RZ in S2. assert (QZ : q = 0). { assert (QQ : q * q * q = 0) by lra. apply Rmult_integral in QQ. destruct QQ as [QQ|]; [|assumption]. apply Rmult_integral in QQ. tauto. }
      rewrite Z, QZ, RZ. split; ring.
    - split; [field; exact N|]. assert (N3 : A ^ 3 <> 0) by (apply pow_nonzero; exact N). apply Rmult_eq_reg_r with (A ^ 3); [|exact N3].
      replace ((A ^ 3 + (q / A) ^ 3) * A ^ 3) with (A ^ 3 * A ^ 3 + q * q * q) by (field; exact N). rewrite A3. unfold u. destruct (Rltb_spec r 0) as [L|L].
      + rewrite Rabs_left by exact L. replace ((- r + s) * (- r + s) + q * q * q) with (r * r - 2 * r * s + s * s + q * q * q) by ring. rewrite S2. ring.
      + rewrite Rabs_right by lra. replace (- (r + s) * - (r + s) + q * q * q) with (r * r + 2 * r * s + s * s + q * q * q) by ring. rewrite S2. ring. }
  destruct AB as [AB1 AB2]. clearbody B A. exists (A + B - a / 3), (- / 2 * (A + B) - a / 3), (/ 2 * sqrt 3 * (A - B)). split; [reflexivity|].
  intros x. rewrite depressed. fold q r. set (y := x + a / 3). replace (2 * r) with (- (A ^ 3 + B ^ 3)) by (rewrite AB2; ring). rewrite <- AB1.
  replace ((/ 2 * sqrt 3 * (A - B)) ^ 2) with (/ 4 * (sqrt 3 * sqrt 3) * (A - B) ^ 2) by field. rewrite (sqrt_sqrt 3) by lra. unfold y. field.
Qed.

(** ** The quadratic equation *)
Lemma solve2_none a b c : a <> 0 -> b * b - 4 * a * c < 0 -> solveP2 a b c = [] /\ forall x, quadratic a b c x <> 0.
Proof.
  intros Ha D. unfold solveP2. cbv zeta. destruct (Rltb_spec (b * b - 4 * a * c) 0) as [_|]; [|contradiction]. split; [reflexivity|].
  intros x E. unfold quadratic in E. pose proof (Rle_0_sqr (2 * a * x + b)) as SQ. unfold Rsqr in SQ. assert (Q : (2 * a * x + b) * (2 * a * x + b) = 4 * a * (a * x ^ 2 + b * x + c) + (b * b - 4 * a * c)) by ring. rewrite E in Q. lra.
Qed.
Lemma solve2_two a b c : a <> 0 -> tiny9 <= b * b - 4 * a * c ->
  exists x0 x1, solveP2 a b c = [x0; x1] /\ forall x, quadratic a b c x = a * ((x - x0) * (x - x1)).
Proof.
  intros Ha D. unfold solveP2. cbv zeta. assert (T : 0 < tiny9) by (unfold tiny9; lra). set (e := b * b - 4 * a * c) in *.
  destruct (Rltb_spec e 0); [lra|]. destruct (Rltb_spec e tiny9); [lra|]. do 2 eexists. split; [reflexivity|]. intros x. unfold quadratic.
  assert (S2 : sqrt e * sqrt e = e) by (apply sqrt_sqrt; lra). set (s := sqrt e) in *. replace (a * ((x - (- b + s) / (2 * a)) * (x - (- b - s) / (2 * a)))) with (a * x ^ 2 + b * x + (b * b - s * s) / (4 * a)) by (field; exact Ha).
  rewrite S2. unfold e. field. exact Ha.
Qed.
Lemma solve2_flat a b c : a <> 0 -> 0 <= b * b - 4 * a * c < tiny9 ->
  solveP2 a b c = [- b / (2 * a)] /\ quadratic a b c (- b / (2 * a)) = - (b * b - 4 * a * c) / (4 * a).
Proof.
  intros Ha D. unfold solveP2. cbv zeta. destruct (Rltb_spec (b * b - 4 * a * c) 0); [lra|]. destruct (Rltb_spec (b * b - 4 * a * c) tiny9); [|lra].
  split; [reflexivity|]. unfold quadratic. field. exact Ha.
Qed.

(** ** Four points *)
Lemma vdot_self_zero u : vdot u u = 0 -> u = vzero.
Proof. destruct u as [x y z]. unfold vdot, vzero. cbn. intros H. assert (x = 0 /\ y = 0 /\ z = 0) as (-> & -> & ->) by (repeat split; nra). reflexivity. Qed.
Lemma vec_dec (u : vec3) : u = vzero \/ u <> vzero.
Proof.
  destruct u as [x y z]. unfold vzero. destruct (Req_dec x 0) as [-> |]; [|right; congruence]. destruct (Req_dec y 0) as [-> |]; [|right; congruence].
  destruct (Req_dec z 0) as [-> |]; [left; reflexivity|right; congruence].
Qed.
Lemma perp_exists u : exists n, n <> vzero /\ vdot n u = 0.
Proof.
  destruct u as [x y z]. destruct (Req_dec x 0) as [-> |N].
  - exists (V3 1 0 0). unfold vzero, vdot. cbn. split; [intros E; injection E; lra|ring].
  - exists (V3 y (- x) 0). unfold vzero, vdot. cbn. split; [intros E; injection E; lra|ring].
Qed.
Lemma parallel_perp n u v : u <> vzero -> vcross u v = vzero -> vdot n u = 0 -> vdot n v = 0.
Proof.
  intros NU C D. assert (P : vdot u u <> 0) by (intros Z; apply NU, vdot_self_zero, Z). apply Rmult_eq_reg_l with (vdot u u); [|exact P]. rewrite Rmult_0_r.
  transitivity (vdot u v * vdot n u - vdot n (vcross u (vcross u v))).
  - destruct u, v, n. unfold vcross, vdot. cbn. ring.
  - rewrite C, D. unfold vcross, vdot, vzero. cbn. ring.
Qed.
Lemma span_plane u v w : vdot (vcross u v) w = 0 -> exists n, n <> vzero /\ vdot n u = 0 /\ vdot n v = 0 /\ vdot n w = 0.
Proof.
  intros H. destruct (vec_dec (vcross u v)) as [Z1|N1].
  - destruct (vec_dec (vcross u w)) as [Z2|N2].
    + destruct (vec_dec u) as [-> |NU].
      * destruct (vec_dec (vcross v w)) as [Z3|N3].
        -- destruct (vec_dec v) as [-> |NV].
           ++ destruct (perp_exists w) as (n & Nn & Dn). exists n. split; [exact Nn|]. repeat split; try exact Dn; unfold vdot, vzero; cbn; ring.
           ++ destruct (perp_exists v) as (n & Nn & Dn). exists n. split; [exact Nn|]. split; [unfold vdot, vzero; cbn; ring|]. split; [exact Dn|]. exact (parallel_perp n v w NV Z3 Dn).
        -- exists (vcross v w). split; [exact N3|]. repeat split; unfold vdot, vcross, vzero; cbn; ring.
      * destruct (perp_exists u) as (n & Nn & Dn). exists n. split; [exact Nn|]. split; [exact Dn|]. split; [exact (parallel_perp n u v NU Z1 Dn)|exact (parallel_perp n u w NU Z2 Dn)].
    + exists (vcross u w). split; [exact N2|]. split; [unfold vdot, vcross; cbn; ring|]. split; [|unfold vdot, vcross; cbn; ring].
      transitivity (- vdot (vcross u v) w); [unfold vdot, vcross; cbn; ring|rewrite H; ring].
  - exists (vcross u v). split; [exact N1|]. split; [unfold vdot, vcross; cbn; ring|]. split; [unfold vdot, vcross; cbn; ring|exact H].
Qed.
Lemma plane_span n u v w : n <> vzero -> vdot n u = 0 -> vdot n v = 0 -> vdot n w = 0 -> vdot (vcross u v) w = 0.
Proof.
  intros N A B C. assert (P : vdot n n <> 0) by (intros Z; apply N, vdot_self_zero, Z). apply Rmult_eq_reg_l with (vdot n n); [|exact P]. rewrite Rmult_0_r.
  transitivity (vdot n u * vdot (vcross v w) n + vdot n v * vdot (vcross w u) n + vdot n w * vdot (vcross u v) n).
  - destruct n, u, v, w. unfold vdot, vcross. cbn. ring.
  - rewrite A, B, C. ring.
Qed.
Lemma vdot_sub n a b : vdot n (vsub a b) = vdot n a - vdot n b.
Proof. unfold vdot, vsub. cbn. ring. Qed.
Lemma coplanar_volume p1 p2 p3 p4 : coplanar p1 p2 p3 p4 <-> volume p1 p2 p3 p4 = 0.
Proof.
  unfold coplanar, volume. split.
  - intros (n & k & N & E1 & E2 & E3 & E4). apply (plane_span n); [exact N| | |]; rewrite vdot_sub; lra.
  - intros H. destruct (span_plane _ _ _ H) as (n & N & E2 & E3 & E4). exists n, (vdot n p1). rewrite vdot_sub in *. repeat split; [exact N|lra|lra|lra].
Qed.

Lemma volume_cubic x1 x2 x3 x4 v1 v2 v3 v4 t :
  let x21 := vsub x2 x1 in let x31 := vsub x3 x1 in let x41 := vsub x4 x1 in
  let v21 := vsub v2 v1 in let v31 := vsub v3 v1 in let v41 := vsub v4 v1 in
  volume (moved x1 v1 t) (moved x2 v2 t) (moved x3 v3 t) (moved x4 v4 t) =
  cubic (coef3 v21 v31 v41) (coef2 x21 x31 x41 v21 v31 v41) (coef1 x21 x31 x41 v21 v31 v41) (coef3 x21 x31 x41) t.
Proof. destruct x1, x2, x3, x4, v1, v2, v3, v4. cbv zeta. unfold volume, moved, cubic, coef3, coef2, coef1, vsub, vadd, vscale, vcross, vdot. cbn. ring. Qed.

Lemma avx_same x1 x2 x3 x4 v1 v2 v3 v4 : times_coplanar_avx x1 x2 x3 x4 v1 v2 v3 v4 = times_coplanar x1 x2 x3 x4 v1 v2 v3 v4.
Proof.
  unfold times_coplanar_avx, times_coplanar. cbv zeta. set (a := vsub x2 x1). set (b := vsub x3 x1). set (c := vsub x4 x1). set (d := vsub v2 v1). set (e := vsub v3 v1). set (f := vsub v4 v1).
  assert (E1 : forall u1 u2 u3, avx_d u1 u2 u3 = coef3 u1 u2 u3) by (intros; unfold avx_d, coef3; ring).
  rewrite !E1. replace (avx_a a b c d e f) with (coef2 a b c d e f) by (unfold avx_a, coef2; ring). replace (avx_b a b c d e f) with (coef1 a b c d e f) by (unfold avx_b, coef1; ring). reflexivity.
Qed.
