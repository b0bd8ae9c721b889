(** Lemmas for C105 and C106. *)

From Coq Require Import Bool Reals List Arith Lia Lra Psatz.
From Verif Require Import Prelude LinAlg Rbool R3 Euler_model Euler_spec.
Import ListNotations.
Local Open Scope R_scope.

Lemma Rltb_t x y : x < y -> Rltb x y = true. Proof. intros H. apply Rltb_true, H. Qed.
Lemma Rltb_f x y : y <= x -> Rltb x y = false. Proof. intros H. apply Rltb_false, H. Qed.

(** ** atan2 *)

Lemma sq_sum_pos x y : x <> 0 \/ y <> 0 -> 0 < x * x + y * y.
Proof. intros [H|H]; [pose proof (Rsqr_pos_lt x H)|pose proof (Rsqr_pos_lt y H)]; unfold Rsqr in *; pose proof (Rle_0_sqr x); pose proof (Rle_0_sqr y); unfold Rsqr in *; lra. Qed.

Lemma atan_parts x y r : 0 < x -> 0 < r -> r * r = x * x + y * y -> cos (atan (y / x)) = x / r /\ sin (atan (y / x)) = y / r.
Proof.
  intros Hx Hr E.
  assert (S : sqrt (1 + (y / x)²) = r / x).
  { replace (1 + (y / x)²) with (r / x * (r / x)) by (unfold Rsqr; replace (r / x * (r / x)) with (r * r / (x * x)) by (field; lra); rewrite E; field; lra).
    apply sqrt_square. apply Rlt_le, Rdiv_lt_0_compat; lra. }
  split; [rewrite cos_atan|rewrite sin_atan]; rewrite S; field; lra.
Qed.

Lemma atan2_parts x y r : 0 < r -> r * r = x * x + y * y -> cos (atan2 y x) = x / r /\ sin (atan2 y x) = y / r.
Proof.
  intros Hr E. unfold atan2. destruct (Rltb_spec 0 x) as [P|P]; [apply atan_parts; assumption|].
  destruct (Rltb_spec x 0) as [N|N].
  - destruct (atan_parts (- x) (- y) r ltac:(lra) Hr ltac:(lra)) as [C S].
    replace (- y / - x) with (y / x) in * by (field; lra).
    destruct (Rltb_spec y 0).
    + replace (atan (y / x) - PI) with (- (PI - atan (y / x))) by ring. rewrite cos_neg, sin_neg.
      replace (PI - atan (y / x)) with (- atan (y / x) + PI) by ring. rewrite neg_cos, neg_sin, cos_neg, sin_neg, C, S. split; field; lra.
    + rewrite neg_cos, neg_sin, C, S. split; field; lra.
  - assert (x = 0) by lra. subst x. destruct (Rltb_spec 0 y).
    + assert (r = y) by nra. subst r. rewrite cos_PI2, sin_PI2. split; field; lra.
    + destruct (Rltb_spec y 0); [|assert (y = 0) by lra; subst; nra].
      assert (r = - y) by nra. subst r. rewrite cos_neg, sin_neg, cos_PI2, sin_PI2. split; field; lra.
Qed.

Lemma atan2_turn y x : turn (atan2 y x).
Proof.
  unfold turn, atan2. pose proof PI_RGT_0. destruct (Rltb_spec 0 x); [pose proof (atan_bound (y / x)); lra|].
  destruct (Rltb_spec x 0).
  - destruct (Rltb_spec y 0).
    + pose proof (atan_bound (y / x)). assert (0 < atan (y / x)); [|lra]. rewrite <- atan_0. apply atan_increasing.
      replace (y / x) with (- y / - x) by (field; lra). apply Rdiv_lt_0_compat; lra.
    + pose proof (atan_bound (y / x)). assert (atan (y / x) <= 0); [|lra].
      destruct (Req_dec y 0) as [-> |]; [replace (0 / x) with 0 by (field; lra); rewrite atan_0; lra|].
      rewrite <- atan_0. apply Rlt_le, atan_increasing. replace (y / x) with (- (y / - x)) by (field; lra). assert (0 < y / - x) by (apply Rdiv_lt_0_compat; lra). lra.
  - destruct (Rltb_spec 0 y); [lra|]. destruct (Rltb_spec y 0); lra.
Qed.

(** An angle in the range is known by its cosine and sine. *)
Lemma turn_unique a b : turn a -> turn b -> cos a = cos b -> sin a = sin b -> a = b.
Proof.
  unfold turn. intros A B C S.
  assert (D : cos (a - b) = 1). { rewrite cos_minus, C, S. pose proof (sin2_cos2 b) as Q. unfold Rsqr in Q. lra. }
  assert (H : sin ((a - b) / 2) = 0).
  { replace (a - b) with (2 * ((a - b) / 2)) in D by field. rewrite cos_2a_sin in D. nra. }
  pose proof PI_RGT_0. assert (R1 : - PI < (a - b) / 2 < PI) by lra.
  destruct (Rtotal_order ((a - b) / 2) 0) as [L|[Q|G]]; [|lra|].
  - assert (0 < sin (- ((a - b) / 2))) by (apply sin_gt_0; lra). rewrite sin_neg in *. lra.
  - assert (0 < sin ((a - b) / 2)) by (apply sin_gt_0; lra). lra.
Qed.

Lemma atan2_polar r t : 0 < r -> turn t -> atan2 (r * sin t) (r * cos t) = t.
Proof.
  intros Hr T. destruct (atan2_parts (r * cos t) (r * sin t) r Hr) as [C S].
  { pose proof (sin2_cos2 t) as Q. unfold Rsqr in Q. replace (r * cos t * (r * cos t) + r * sin t * (r * sin t)) with (r * r * (sin t * sin t + cos t * cos t)) by ring. rewrite Q. ring. }
  apply turn_unique; [apply atan2_turn|exact T|rewrite C; field; lra|rewrite S; field; lra].
Qed.

(** ** Rotation matrices *)

(** The columns as cross products and the rows as unit vectors. *)
Lemma rotation_facts m : rotation m ->
  let a := vx (col0 m) in let b := vx (col1 m) in let c := vx (col2 m) in
  let d := vy (col0 m) in let e := vy (col1 m) in let f := vy (col2 m) in
  let g := vz (col0 m) in let h := vz (col1 m) in let i := vz (col2 m) in
  (a = e * i - h * f /\ d = h * c - b * i /\ g = b * f - e * c) /\
  (b = f * g - i * d /\ e = i * a - c * g /\ h = c * d - f * a) /\
  (c = d * h - g * e /\ f = g * b - a * h /\ i = a * e - d * b) /\
  (a * a + b * b + c * c = 1 /\ d * d + e * e + f * f = 1 /\ g * g + h * h + i * i = 1) /\
  (a * a + d * d + g * g = 1 /\ b * b + e * e + h * h = 1 /\ c * c + f * f + i * i = 1).
Proof.
  destruct m as [[a d g] [b e h] [c f i]]. unfold rotation, vnorm2, vdot, vcross. cbn. intros (N0 & N1 & O & C). injection C as -> -> ->.
  assert (E0 : a = e * (a * e - d * b) - h * (g * b - a * h)).
  { transitivity (a * (e * e + h * h + b * b) - b * (a * b + d * e + g * h)); [|ring]. rewrite O. replace (e * e + h * h + b * b) with 1 by lra. ring. }
  assert (E1 : d = h * (d * h - g * e) - b * (a * e - d * b)).
  { transitivity (d * (e * e + h * h + b * b) - e * (a * b + d * e + g * h)); [|ring]. rewrite O. replace (e * e + h * h + b * b) with 1 by lra. ring. }
  assert (E2 : g = b * (g * b - a * h) - e * (d * h - g * e)).
  { transitivity (g * (e * e + h * h + b * b) - h * (a * b + d * e + g * h)); [|ring]. rewrite O. replace (e * e + h * h + b * b) with 1 by lra. ring. }
  assert (F0 : b = (g * b - a * h) * g - (a * e - d * b) * d).
  { transitivity (b * (a * a + d * d + g * g) - a * (a * b + d * e + g * h)); [|ring]. rewrite O. replace (a * a + d * d + g * g) with 1 by lra. ring. }
  assert (F1 : e = (a * e - d * b) * a - (d * h - g * e) * g).
  { transitivity (e * (a * a + d * d + g * g) - d * (a * b + d * e + g * h)); [|ring]. rewrite O. replace (a * a + d * d + g * g) with 1 by lra. ring. }
  assert (F2 : h = (d * h - g * e) * d - (g * b - a * h) * a).
  { transitivity (h * (a * a + d * d + g * g) - g * (a * b + d * e + g * h)); [|ring]. rewrite O. replace (a * a + d * d + g * g) with 1 by lra. ring. }
  assert (C2 : (d * h - g * e) * (d * h - g * e) + (g * b - a * h) * (g * b - a * h) + (a * e - d * b) * (a * e - d * b) = 1).
  { transitivity ((a * a + d * d + g * g) * (b * b + e * e + h * h) - (a * b + d * e + g * h) * (a * b + d * e + g * h)); [ring|]. rewrite N0, N1, O. ring. }
  split; [auto|]. split; [auto|]. split; [auto|]. split; [|auto].
  assert (G : forall x y z x' y' z', x = x' -> y = y' -> z = z' -> x * x + y * y + z * z = x * x' + y * y' + z * z') by (intros; subst; reflexivity).
  split; [|split].
  - rewrite (G _ _ _ _ _ _ E0 F0 eq_refl). rewrite <- C2. ring.
  - rewrite (G _ _ _ _ _ _ E1 F1 eq_refl). rewrite <- C2. ring.
  - rewrite (G _ _ _ _ _ _ E2 F2 eq_refl). rewrite <- C2. ring.
Qed.

Lemma entry_bound m : rotation m -> -1 <= vx (col2 m) <= 1 /\ -1 <= vz (col0 m) <= 1.
Proof.
  intros R. pose proof (rotation_facts m R) as F. cbv zeta in F. destruct F as (_ & _ & _ & (R0 & _ & R2) & _).
  pose proof (Rle_0_sqr (vx (col0 m))). pose proof (Rle_0_sqr (vx (col1 m))). pose proof (Rle_0_sqr (vz (col1 m))). pose proof (Rle_0_sqr (vz (col2 m))).
  unfold Rsqr in *. split; nra.
Qed.

Lemma cos_asin' x : -1 <= x <= 1 -> 0 <= cos (asin x) /\ cos (asin x) * cos (asin x) = 1 - x * x.
Proof.
  intros H. rewrite cos_asin by exact H. split; [apply sqrt_pos|]. rewrite sqrt_sqrt; [unfold Rsqr; ring|]. unfold Rsqr. nra.
Qed.

(** The result where the cosine of the middle angle is not small. *)
Lemma xyz_regular m : rotation m -> -1 < vx (col2 m) < 1 ->
  xyz_to_matrix (V3 (atan2 (- vy (col2 m)) (vz (col2 m))) (asin (vx (col2 m))) (atan2 (- vx (col1 m)) (vx (col0 m)))) = m.
Proof.
  intros R B. pose proof (rotation_facts m R) as F. destruct m as [[a d g] [b e h] [c f i]]. cbn in *.
  destruct F as ((A0 & A1 & A2) & (B0 & B1 & B2) & (C0 & C1 & C2) & (R0 & R1 & R2) & (K0 & K1 & K2)).
  destruct (cos_asin' c ltac:(lra)) as [P Q]. set (y := cos (asin c)) in *. assert (0 < y). { assert (0 < 1 - c * c) by nra. nra. }
  destruct (atan2_parts i (- f) y H ltac:(lra)) as [X1 X2]. destruct (atan2_parts a (- b) y H ltac:(lra)) as [Z1 Z2].
  unfold xyz_to_matrix; cbn. fold y. rewrite X1, X2, Z1, Z2, (sin_asin c) by lra.
  assert (Y2 : y * y <> 0) by nra.
  f_equal; f_equal; try (field; lra).
  - replace (i / y * (- b / y) + a / y * (- f / y) * c) with ((- (i * b) - a * f * c) / (y * y)) by (field; lra).
    apply (Rmult_eq_reg_r (y * y)); [|exact Y2]. unfold Rdiv. rewrite Rmult_assoc, Rinv_l, Rmult_1_r by exact Y2. rewrite Q.
    transitivity ((h * c - b * i) - c * (c * d) + c * (c * d - f * a - h) ); [ring|]. rewrite <- A1, <- B2. ring.
  - replace (- f / y * (- b / y) - i / y * (a / y) * c) with ((f * b - i * a * c) / (y * y)) by (field; lra).
    apply (Rmult_eq_reg_r (y * y)); [|exact Y2]. unfold Rdiv. rewrite Rmult_assoc, Rinv_l, Rmult_1_r by exact Y2. rewrite Q.
    transitivity ((b * f - e * c) - c * (c * g) - c * (i * a - c * g - e)); [ring|]. rewrite <- A2, <- B1. ring.
  - replace (i / y * (a / y) - - f / y * c * (- b / y)) with ((i * a - f * c * b) / (y * y)) by (field; lra).
    apply (Rmult_eq_reg_r (y * y)); [|exact Y2]. unfold Rdiv. rewrite Rmult_assoc, Rinv_l, Rmult_1_r by exact Y2. rewrite Q.
    transitivity ((i * a - c * g) - c * (e * c) - c * (b * f - e * c - g)); [ring|]. rewrite <- A2, <- B1. ring.
  - replace (a / y * (- f / y) + i / y * c * (- b / y)) with ((- (a * f) - i * c * b) / (y * y)) by (field; lra).
    apply (Rmult_eq_reg_r (y * y)); [|exact Y2]. unfold Rdiv. rewrite Rmult_assoc, Rinv_l, Rmult_1_r by exact Y2. rewrite Q.
    transitivity ((c * d - f * a) - c * (h * c) + c * (h * c - b * i - d)); [ring|]. rewrite <- A1, <- B2. ring.
Qed.

Lemma zyx_regular m : rotation m -> -1 < vz (col0 m) < 1 ->
  zyx_to_matrix (V3 (atan2 (vy (col0 m)) (vx (col0 m))) (asin (- vz (col0 m))) (atan2 (vz (col1 m)) (vz (col2 m)))) = m.
Proof.
  intros R B. pose proof (rotation_facts m R) as F. destruct m as [[a d g] [b e h] [c f i]]. cbn in *.
  destruct F as ((A0 & A1 & A2) & (B0 & B1 & B2) & (C0 & C1 & C2) & (R0 & R1 & R2) & (K0 & K1 & K2)).
  destruct (cos_asin' (- g) ltac:(lra)) as [P Q]. set (y := cos (asin (- g))) in *. assert (0 < y). { assert (0 < 1 - g * g) by nra. nra. }
  destruct (atan2_parts a d y H ltac:(lra)) as [X1 X2]. destruct (atan2_parts i h y H ltac:(lra)) as [Z1 Z2].
  unfold zyx_to_matrix; cbn. fold y. rewrite X1, X2, Z1, Z2, (sin_asin (- g)) by lra.
  assert (Y2 : y * y <> 0) by nra.
  f_equal; f_equal; try (field; lra).
  - replace (a / y * - g * (h / y) - d / y * (i / y)) with ((- (a * g * h) - d * i) / (y * y)) by (field; lra).
    apply (Rmult_eq_reg_r (y * y)); [|exact Y2]. unfold Rdiv. rewrite Rmult_assoc, Rinv_l, Rmult_1_r by exact Y2. rewrite Q.
    transitivity ((f * g - i * d) - g * (g * b) + g * (g * b - a * h - f)); [ring|]. rewrite <- B0, <- C1. ring.
  - replace (d / y * - g * (h / y) + a / y * (i / y)) with ((a * i - d * g * h) / (y * y)) by (field; lra).
    apply (Rmult_eq_reg_r (y * y)); [|exact Y2]. unfold Rdiv. rewrite Rmult_assoc, Rinv_l, Rmult_1_r by exact Y2. rewrite Q.
    transitivity ((i * a - c * g) - g * (g * e) - g * (d * h - g * e - c)); [ring|]. rewrite <- B1, <- C0. ring.
  - replace (a / y * - g * (i / y) + d / y * (h / y)) with ((d * h - a * g * i) / (y * y)) by (field; lra).
    apply (Rmult_eq_reg_r (y * y)); [|exact Y2]. unfold Rdiv. rewrite Rmult_assoc, Rinv_l, Rmult_1_r by exact Y2. rewrite Q.
    transitivity ((d * h - g * e) - g * (g * c) - g * (i * a - c * g - e)); [ring|]. rewrite <- B1, <- C0. ring.
  - replace (d / y * - g * (i / y) - a / y * (h / y)) with ((- (d * g * i) - a * h) / (y * y)) by (field; lra).
    apply (Rmult_eq_reg_r (y * y)); [|exact Y2]. unfold Rdiv. rewrite Rmult_assoc, Rinv_l, Rmult_1_r by exact Y2. rewrite Q.
    transitivity ((g * b - a * h) - g * (g * f) + g * (f * g - i * d - b)); [ring|]. rewrite <- B0, <- C1. ring.
Qed.

(** ** Near the poles *)

Lemma sqr_abs x : x * x = Rabs x * Rabs x.
Proof. rewrite <- Rabs_mult. symmetry. apply Rabs_right, Rle_ge, Rle_0_sqr. Qed.
Lemma abs_le_sq x s : 0 <= s -> x * x <= s * s -> Rabs x <= s.
Proof. intros H E. rewrite sqr_abs in E. pose proof (Rabs_pos x). nra. Qed.
Lemma abs_prod_le x y k : x * x <= k -> y * y <= k -> Rabs (x * y) <= k.
Proof. intros. apply Rabs_le. pose proof (Rle_0_sqr (x - y)). pose proof (Rle_0_sqr (x + y)). unfold Rsqr in *. lra. Qed.

(** A component of a nearly planar unit vector, normalised in the plane. *)
Lemma plane_near p q t r k : 0 < r -> r * r = p * p + q * q -> p * p + q * q + t * t = 1 -> t * t <= k -> Rabs (p - p / r) <= k.
Proof.
  intros Hr E U K. assert (r <= 1) by nra. assert (1 - r <= k) by nra.
  replace (p - p / r) with (- (p / r) * (1 - r)) by (field; lra). rewrite Rabs_mult, (Rabs_right (1 - r)) by lra. rewrite Rabs_Ropp.
  assert (Rabs (p / r) <= 1).
  { apply abs_le_sq; [lra|]. replace (p / r * (p / r)) with (p * p / (r * r)) by (field; lra). rewrite E.
    apply (Rmult_le_reg_r (p * p + q * q)); [nra|]. unfold Rdiv. rewrite Rmult_assoc, Rinv_l by nra. nra. }
  pose proof (Rabs_pos (p / r)). nra.
Qed.

Lemma cos_half_pi : cos (PI * (1 / 2)) = 0. Proof. replace (PI * (1 / 2)) with (PI / 2) by field. apply cos_PI2. Qed.
Lemma sin_half_pi : sin (PI * (1 / 2)) = 1. Proof. replace (PI * (1 / 2)) with (PI / 2) by field. apply sin_PI2. Qed.
Lemma cos_half_mpi : cos (- PI * (1 / 2)) = 0. Proof. replace (- PI * (1 / 2)) with (- (PI / 2)) by field. rewrite cos_neg. apply cos_PI2. Qed.
Lemma sin_half_mpi : sin (- PI * (1 / 2)) = -1. Proof. replace (- PI * (1 / 2)) with (- (PI / 2)) by field. rewrite sin_neg, sin_PI2. ring. Qed.

(** [x] is one of the four entries that carry the angle, [p]/[r] what the angle gives. *)
Lemma near_entry x p q t r k y z s : 0 < r -> r * r = p * p + q * q -> p * p + q * q + t * t = 1 ->
  t * t <= 2 * k -> y * y <= 2 * k -> z * z <= 2 * k -> 0 <= k -> -1 <= s <= 1 -> -1 <= p <= 1 ->
  Rabs (1 - s) <= k -> x = p * s + y * z -> Rabs (x - p / r) <= 5 * k.
Proof.
  intros Hr E U T Y Z K S P1 D ->.
  replace (p * s + y * z - p / r) with ((p - p / r) + (y * z + (- p) * (1 - s))) by ring.
  eapply Rle_trans; [apply Rabs_triang|]. pose proof (plane_near p q t r (2 * k) Hr E U T).
  pose proof (Rabs_triang (y * z) (- p * (1 - s))). pose proof (abs_prod_le y z (2 * k) Y Z).
  assert (Rabs (- p * (1 - s)) <= k).
  { rewrite Rabs_mult. assert (Rabs (- p) <= 1) by (apply Rabs_le; lra). pose proof (Rabs_pos (- p)). pose proof (Rabs_pos (1 - s)). nra. }
  lra.
Qed.

Lemma root_facts k : 0 <= k <= 2 / 25 -> 0 <= sqrt (2 * k) /\ sqrt (2 * k) * sqrt (2 * k) = 2 * k /\ 5 * k <= sqrt (2 * k).
Proof.
  intros H. pose proof (sqrt_pos (2 * k)) as P. pose proof (sqrt_sqrt (2 * k) ltac:(lra)) as Q. split; [exact P|]. split; [exact Q|]. nra.
Qed.

Ltac near_close := cbn; unfold mclose, vclose; cbn.

Lemma xyz_pole_up k m : 0 <= k <= 2 / 25 -> rotation m -> 1 - k <= vx (col2 m) ->
  mclose (sqrt (2 * k)) (xyz_to_matrix (V3 0 (PI * (1 / 2)) (atan2 (vy (col0 m)) (vy (col1 m))))) m.
Proof.
  intros K R B. pose proof (rotation_facts m R) as F. pose proof (entry_bound m R) as [EB _]. destruct m as [[a d g] [b e h] [c f i]]. cbn in *.
  destruct F as ((A0 & A1 & A2) & (B0 & B1 & B2) & (C0 & C1 & C2) & (R0 & R1 & R2) & (K0 & K1 & K2)).
  destruct (root_facts k K) as (S0 & S1 & S2). set (s := sqrt (2 * k)) in *.
  assert (CC : 1 - c * c <= 2 * k) by nra.
  pose proof (Rle_0_sqr a) as Pa. pose proof (Rle_0_sqr b) as Pb. pose proof (Rle_0_sqr f) as Pf. pose proof (Rle_0_sqr i) as Pi. unfold Rsqr in *.
  assert (D : 0 < d * d + e * e) by lra. set (r := sqrt (d * d + e * e)). assert (Hr : 0 < r) by (apply sqrt_lt_R0, D).
  assert (E : r * r = d * d + e * e) by (apply sqrt_sqrt; lra).
  destruct (atan2_parts e d r Hr ltac:(lra)) as [X Y].
  assert (Bd : -1 <= d <= 1 /\ -1 <= e <= 1). { pose proof (Rle_0_sqr d). pose proof (Rle_0_sqr e). unfold Rsqr in *. split; nra. }
  assert (O : Rabs (1 - c) <= k) by (apply Rabs_le; lra).
  unfold xyz_to_matrix; near_close. rewrite X, Y, cos_half_pi, sin_half_pi, cos_0, sin_0.
  assert (Nd := plane_near d e f r (2 * k) Hr E ltac:(lra) ltac:(lra)).
  assert (Ne := plane_near e d f r (2 * k) Hr ltac:(lra) ltac:(lra) ltac:(lra)).
  assert (Ng := near_entry (- g) e d f r k (- b) f c Hr ltac:(lra) ltac:(lra) ltac:(lra) ltac:(lra) ltac:(lra) (proj1 K) ltac:(lra) (proj2 Bd) O ltac:(rewrite A2; ring)).
  assert (Nh := near_entry h d e f r k (- a) f c Hr ltac:(lra) ltac:(lra) ltac:(lra) ltac:(lra) ltac:(lra) (proj1 K) ltac:(lra) (proj1 Bd) O ltac:(rewrite B2; ring)).
  repeat split.
  - replace (0 * (e / r) - a) with (- a) by ring. rewrite Rabs_Ropp. apply abs_le_sq; lra.
  - replace (1 * (d / r) + e / r * 0 * 1 - d) with (- (d - d / r)) by ring. rewrite Rabs_Ropp. lra.
  - replace (0 * (d / r) - 1 * (e / r) * 1 - g) with (- g - e / r) by ring. lra.
  - replace (- 0 * (d / r) - b) with (- b) by ring. rewrite Rabs_Ropp. apply abs_le_sq; lra.
  - replace (1 * (e / r) - 0 * 1 * (d / r) - e) with (- (e - e / r)) by ring. rewrite Rabs_Ropp. lra.
  - replace (e / r * 0 + 1 * 1 * (d / r) - h) with (- (h - d / r)) by ring. rewrite Rabs_Ropp. lra.
  - lra.
  - replace (- 0 * 0 - f) with (- f) by ring. rewrite Rabs_Ropp. apply abs_le_sq; lra.
  - replace (1 * 0 - i) with (- i) by ring. rewrite Rabs_Ropp. apply abs_le_sq; lra.
Qed.

Lemma xyz_pole_down k m : 0 <= k <= 2 / 25 -> rotation m -> vx (col2 m) <= -1 + k ->
  mclose (sqrt (2 * k)) (xyz_to_matrix (V3 0 (- PI * (1 / 2)) (atan2 (vy (col0 m)) (vy (col1 m))))) m.
Proof.
  intros K R B. pose proof (rotation_facts m R) as F. pose proof (entry_bound m R) as [EB _]. destruct m as [[a d g] [b e h] [c f i]]. cbn in *.
  destruct F as ((A0 & A1 & A2) & (B0 & B1 & B2) & (C0 & C1 & C2) & (R0 & R1 & R2) & (K0 & K1 & K2)).
  destruct (root_facts k K) as (S0 & S1 & S2). set (s := sqrt (2 * k)) in *.
  assert (CC : 1 - c * c <= 2 * k) by nra.
  pose proof (Rle_0_sqr a) as Pa. pose proof (Rle_0_sqr b) as Pb. pose proof (Rle_0_sqr f) as Pf. pose proof (Rle_0_sqr i) as Pi. unfold Rsqr in *.
  assert (D : 0 < d * d + e * e) by lra. set (r := sqrt (d * d + e * e)). assert (Hr : 0 < r) by (apply sqrt_lt_R0, D).
  assert (E : r * r = d * d + e * e) by (apply sqrt_sqrt; lra).
  destruct (atan2_parts e d r Hr ltac:(lra)) as [X Y].
  assert (Bd : -1 <= d <= 1 /\ -1 <= e <= 1). { pose proof (Rle_0_sqr d). pose proof (Rle_0_sqr e). unfold Rsqr in *. split; nra. }
  assert (O : Rabs (1 - - c) <= k) by (apply Rabs_le; lra).
  unfold xyz_to_matrix; near_close. rewrite X, Y, cos_half_mpi, sin_half_mpi, cos_0, sin_0.
  assert (Nd := plane_near d e f r (2 * k) Hr E ltac:(lra) ltac:(lra)).
  assert (Ne := plane_near e d f r (2 * k) Hr ltac:(lra) ltac:(lra) ltac:(lra)).
  assert (Ng := near_entry g e d f r k b f (- c) Hr ltac:(lra) ltac:(lra) ltac:(lra) ltac:(lra) ltac:(lra) (proj1 K) ltac:(lra) (proj2 Bd) O ltac:(rewrite A2; ring)).
  assert (Nh := near_entry (- h) d e f r k a f (- c) Hr ltac:(lra) ltac:(lra) ltac:(lra) ltac:(lra) ltac:(lra) (proj1 K) ltac:(lra) (proj1 Bd) O ltac:(rewrite B2; ring)).
  repeat split.
  - replace (0 * (e / r) - a) with (- a) by ring. rewrite Rabs_Ropp. apply abs_le_sq; lra.
  - replace (1 * (d / r) + e / r * 0 * -1 - d) with (- (d - d / r)) by ring. rewrite Rabs_Ropp. lra.
  - replace (0 * (d / r) - 1 * (e / r) * -1 - g) with (- (g - e / r)) by ring. rewrite Rabs_Ropp. lra.
  - replace (- 0 * (d / r) - b) with (- b) by ring. rewrite Rabs_Ropp. apply abs_le_sq; lra.
  - replace (1 * (e / r) - 0 * -1 * (d / r) - e) with (- (e - e / r)) by ring. rewrite Rabs_Ropp. lra.
  - replace (e / r * 0 + 1 * -1 * (d / r) - h) with (- h - d / r) by ring. lra.
  - replace (-1 - c) with (- (1 - - c)) by ring. rewrite Rabs_Ropp. lra.
  - replace (- 0 * 0 - f) with (- f) by ring. rewrite Rabs_Ropp. apply abs_le_sq; lra.
  - replace (1 * 0 - i) with (- i) by ring. rewrite Rabs_Ropp. apply abs_le_sq; lra.
Qed.

Lemma zyx_pole_up k m : 0 <= k <= 2 / 25 -> rotation m -> vz (col0 m) <= -1 + k ->
  mclose (sqrt (2 * k)) (zyx_to_matrix (V3 0 (PI * (1 / 2)) (atan2 (vx (col1 m)) (vx (col2 m))))) m.
Proof.
  intros K R B. pose proof (rotation_facts m R) as F. pose proof (entry_bound m R) as [_ EB]. destruct m as [[a d g] [b e h] [c f i]]. cbn in *.
  destruct F as ((A0 & A1 & A2) & (B0 & B1 & B2) & (C0 & C1 & C2) & (R0 & R1 & R2) & (K0 & K1 & K2)).
  destruct (root_facts k K) as (S0 & S1 & S2). set (s := sqrt (2 * k)) in *.
  assert (CC : 1 - g * g <= 2 * k) by nra.
  pose proof (Rle_0_sqr a) as Pa. pose proof (Rle_0_sqr d) as Pd. pose proof (Rle_0_sqr h) as Ph. pose proof (Rle_0_sqr i) as Pi. unfold Rsqr in *.
  assert (D : 0 < b * b + c * c) by lra. set (r := sqrt (b * b + c * c)). assert (Hr : 0 < r) by (apply sqrt_lt_R0, D).
  assert (E : r * r = b * b + c * c) by (apply sqrt_sqrt; lra).
  destruct (atan2_parts c b r Hr ltac:(lra)) as [X Y].
  assert (Bd : -1 <= b <= 1 /\ -1 <= c <= 1). { pose proof (Rle_0_sqr b). pose proof (Rle_0_sqr c). unfold Rsqr in *. split; nra. }
  assert (O : Rabs (1 - - g) <= k) by (apply Rabs_le; lra).
  unfold zyx_to_matrix; near_close. rewrite X, Y, cos_half_pi, sin_half_pi, cos_0, sin_0.
  assert (Nb := plane_near b c a r (2 * k) Hr ltac:(lra) ltac:(lra) ltac:(lra)).
  assert (Nc := plane_near c b a r (2 * k) Hr ltac:(lra) ltac:(lra) ltac:(lra)).
  assert (Ne := near_entry e c b a r k i a (- g) Hr ltac:(lra) ltac:(lra) ltac:(lra) ltac:(lra) ltac:(lra) (proj1 K) ltac:(lra) (proj2 Bd) O ltac:(rewrite B1; ring)).
  assert (Nf := near_entry (- f) b c a r k a h (- g) Hr ltac:(lra) ltac:(lra) ltac:(lra) ltac:(lra) ltac:(lra) (proj1 K) ltac:(lra) (proj1 Bd) O ltac:(rewrite C1; ring)).
  repeat split.
  - replace (1 * 0 - a) with (- a) by ring. rewrite Rabs_Ropp. apply abs_le_sq; lra.
  - replace (0 * 0 - d) with (- d) by ring. rewrite Rabs_Ropp. apply abs_le_sq; lra.
  - replace (- (1) - g) with (- (1 - - g)) by ring. rewrite Rabs_Ropp. lra.
  - replace (1 * 1 * (b / r) - 0 * (c / r) - b) with (- (b - b / r)) by ring. rewrite Rabs_Ropp. lra.
  - replace (0 * 1 * (b / r) + 1 * (c / r) - e) with (- (e - c / r)) by ring. rewrite Rabs_Ropp. lra.
  - replace (0 * (b / r) - h) with (- h) by ring. rewrite Rabs_Ropp. apply abs_le_sq; lra.
  - replace (1 * 1 * (c / r) + 0 * (b / r) - c) with (- (c - c / r)) by ring. rewrite Rabs_Ropp. lra.
  - replace (0 * 1 * (c / r) - 1 * (b / r) - f) with (- f - b / r) by ring. lra.
  - replace (0 * (c / r) - i) with (- i) by ring. rewrite Rabs_Ropp. apply abs_le_sq; lra.
Qed.

Lemma zyx_pole_down k m : 0 <= k <= 2 / 25 -> rotation m -> 1 - k <= vz (col0 m) ->
  mclose (sqrt (2 * k)) (zyx_to_matrix (V3 0 (- PI * (1 / 2)) (atan2 (- vx (col1 m)) (- vx (col2 m))))) m.
Proof.
  intros K R B. pose proof (rotation_facts m R) as F. pose proof (entry_bound m R) as [_ EB]. destruct m as [[a d g] [b e h] [c f i]]. cbn in *.
  destruct F as ((A0 & A1 & A2) & (B0 & B1 & B2) & (C0 & C1 & C2) & (R0 & R1 & R2) & (K0 & K1 & K2)).
  destruct (root_facts k K) as (S0 & S1 & S2). set (s := sqrt (2 * k)) in *.
  assert (CC : 1 - g * g <= 2 * k) by nra.
  pose proof (Rle_0_sqr a) as Pa. pose proof (Rle_0_sqr d) as Pd. pose proof (Rle_0_sqr h) as Ph. pose proof (Rle_0_sqr i) as Pi. unfold Rsqr in *.
  assert (D : 0 < b * b + c * c) by lra. set (r := sqrt (b * b + c * c)). assert (Hr : 0 < r) by (apply sqrt_lt_R0, D).
  assert (E : r * r = b * b + c * c) by (apply sqrt_sqrt; lra).
  destruct (atan2_parts (- c) (- b) r Hr ltac:(lra)) as [X Y].
  assert (Bd : -1 <= b <= 1 /\ -1 <= c <= 1). { pose proof (Rle_0_sqr b). pose proof (Rle_0_sqr c). unfold Rsqr in *. split; nra. }
  assert (O : Rabs (1 - g) <= k) by (apply Rabs_le; lra).
  unfold zyx_to_matrix; near_close. rewrite X, Y, cos_half_mpi, sin_half_mpi, cos_0, sin_0.
  assert (Nb := plane_near b c a r (2 * k) Hr ltac:(lra) ltac:(lra) ltac:(lra)).
  assert (Nc := plane_near c b a r (2 * k) Hr ltac:(lra) ltac:(lra) ltac:(lra)).
  assert (Ne := near_entry (- e) c b a r k (- i) a g Hr ltac:(lra) ltac:(lra) ltac:(lra) ltac:(lra) ltac:(lra) (proj1 K) ltac:(lra) (proj2 Bd) O ltac:(rewrite B1; ring)).
  assert (Nf := near_entry f b c a r k (- a) h g Hr ltac:(lra) ltac:(lra) ltac:(lra) ltac:(lra) ltac:(lra) (proj1 K) ltac:(lra) (proj1 Bd) O ltac:(rewrite C1; ring)).
  replace (- c / r) with (- (c / r)) by (field; lra). replace (- b / r) with (- (b / r)) by (field; lra).
  repeat split.
  - replace (1 * 0 - a) with (- a) by ring. rewrite Rabs_Ropp. apply abs_le_sq; lra.
  - replace (0 * 0 - d) with (- d) by ring. rewrite Rabs_Ropp. apply abs_le_sq; lra.
  - replace (- -1 - g) with (1 - g) by ring. lra.
  - replace (1 * -1 * - (b / r) - 0 * - (c / r) - b) with (- (b - b / r)) by ring. rewrite Rabs_Ropp. lra.
  - replace (0 * -1 * - (b / r) + 1 * - (c / r) - e) with (- e - c / r) by ring. lra.
  - replace (0 * - (b / r) - h) with (- h) by ring. rewrite Rabs_Ropp. apply abs_le_sq; lra.
  - replace (1 * -1 * - (c / r) + 0 * - (b / r) - c) with (- (c - c / r)) by ring. rewrite Rabs_Ropp. lra.
  - replace (0 * -1 * - (c / r) - 1 * - (b / r) - f) with (- (f - b / r)) by ring. rewrite Rabs_Ropp. lra.
  - replace (0 * - (c / r) - i) with (- i) by ring. rewrite Rabs_Ropp. apply abs_le_sq; lra.
Qed.

Lemma mclose_0 m n : mclose 0 m n -> m = n.
Proof.
  assert (Z : forall x y, Rabs (x - y) <= 0 -> x = y). { intros x y H. pose proof (Rabs_pos (x - y)). assert (E : Rabs (x - y) = 0) by lra. destruct (Req_dec (x - y) 0) as [|N]; [lra|]. apply Rabs_no_R0 in N. contradiction. }
  destruct m as [[? ? ?] [? ? ?] [? ? ?]], n as [[? ? ?] [? ? ?] [? ? ?]]. unfold mclose, vclose; cbn. intros ((?&?&?)&(?&?&?)&?&?&?).
  f_equal; f_equal; apply Z; assumption.
Qed.
Lemma mclose_00 m n : mclose (sqrt (2 * 0)) m n -> m = n.
Proof. intros H. apply mclose_0. rewrite Rmult_0_r, sqrt_0 in H. exact H. Qed.
Lemma mclose_refl d m : 0 <= d -> mclose d m m.
Proof. intros H. unfold mclose, vclose. rewrite !Rminus_diag_eq by reflexivity. rewrite Rabs_R0. repeat split; exact H. Qed.

(** ** The matrices of the angles *)

Lemma xyz_product a : xyz_to_matrix a = mmul (rot_x (vx a)) (mmul (rot_y (vy a)) (rot_z (vz a))).
Proof. destruct a as [x y z]. unfold xyz_to_matrix, rot_x, rot_y, rot_z. vec_unfold. f_equal; f_equal; ring. Qed.
Lemma zyx_product a : zyx_to_matrix a = mmul (rot_z (vx a)) (mmul (rot_y (vy a)) (rot_x (vz a))).
Proof. destruct a as [x y z]. unfold zyx_to_matrix, rot_x, rot_y, rot_z. vec_unfold. f_equal; f_equal; ring. Qed.

Lemma mat_ext m n : (forall v, mvec m v = mvec n v) -> m = n.
Proof.
  assert (A : forall m, m = M3 (mvec m ex) (mvec m ey) (mvec m ez)) by (intros; vec_ring).
  intros H. rewrite (A m), (A n), !H. reflexivity.
Qed.
Lemma qmat_mul p q : qunit p -> qunit q -> qmat (qmul p q) = mmul (qmat p) (qmat q).
Proof. intros P Q. apply mat_ext. intros v. rewrite mmul_vec, !qmat_vec. apply qrot_mul; assumption. Qed.

Lemma axis_matrix i u a : unit_axis i = Ok u -> vnorm2 u = 1 /\ qmat (qaxis a u) = rot_axis i a.
Proof.
  destruct i as [|[|[|i]]]; cbn [unit_axis]; intros [= <-]; (split; [vec_unfold; ring|]); apply mat_ext; intros v; rewrite qmat_vec.
  - rewrite qrot_axis_x. unfold rot_axis, rot_x. destruct v. vec_unfold. f_equal; ring.
  - rewrite qrot_axis_y. unfold rot_axis, rot_y. destruct v. vec_unfold. f_equal; ring.
  - rewrite qrot_axis_z. unfold rot_axis, rot_z. destruct v. vec_unfold. f_equal; ring.
Qed.
Lemma unit_axis_ok i : (i < 3)%nat -> exists u, unit_axis i = Ok u.
Proof. intros H. destruct i as [|[|[|i]]]; [eexists; reflexivity..|lia]. Qed.

Lemma to_quaternion_ok a a0 a1 a2 : (a0 < 3)%nat -> (a1 < 3)%nat -> (a2 < 3)%nat ->
  exists q, to_quaternion a a0 a1 a2 = Ok q /\ qunit q /\ qmat q = mmul (rot_axis a0 (vx a)) (mmul (rot_axis a1 (vy a)) (rot_axis a2 (vz a))).
Proof.
  intros H0 H1 H2. destruct (unit_axis_ok _ H0) as [u0 E0], (unit_axis_ok _ H1) as [u1 E1], (unit_axis_ok _ H2) as [u2 E2].
  unfold to_quaternion. rewrite E0, E1, E2. cbn [obind]. eexists. split; [reflexivity|].
  destruct (axis_matrix _ _ (vx a) E0) as [N0 M0], (axis_matrix _ _ (vy a) E1) as [N1 M1], (axis_matrix _ _ (vz a) E2) as [N2 M2].
  pose proof (qaxis_unit (vx a) u0 N0) as U0. pose proof (qaxis_unit (vy a) u1 N1) as U1. pose proof (qaxis_unit (vz a) u2 N2) as U2.
  split; [repeat apply qunit_mul; assumption|].
  rewrite <- qmul_assoc, !qmat_mul, M0, M1, M2 by (try apply qunit_mul; assumption). reflexivity.
Qed.
Lemma rotation_qmat q : qunit q -> rotation (qmat q).
Proof.
  intros U. unfold rotation, vnorm2. rewrite qmat_col0, qmat_col1, qmat_col2, !qrot_dot, <- qrot_cross by exact U.
  repeat split; try (vec_unfold; ring). f_equal. vec_unfold. f_equal; ring.
Qed.
Lemma mmul_assoc a b c : mmul a (mmul b c) = mmul (mmul a b) c. Proof. vec_ring. Qed.

(** ** Angles from a matrix made of angles *)

Lemma xyz_back tol a : 0 < tol -> turn (vx a) -> turn (vz a) -> - (PI / 2) < vy a < PI / 2 -> -1 + tol < sin (vy a) < 1 - tol ->
  matrix_to_xyz tol (xyz_to_matrix a) = a.
Proof.
  destruct a as [x y z]; cbn. intros HT X Z Y S. unfold matrix_to_xyz, xyz_to_matrix; cbn. rewrite !Rltb_t by lra.
  assert (C : 0 < cos y) by (apply cos_gt_0; lra).
  f_equal.
  - replace (- (- cos y * sin x)) with (cos y * sin x) by ring. rewrite (Rmult_comm (cos x)). apply atan2_polar; assumption.
  - apply asin_sin. lra.
  - replace (- (- cos y * sin z)) with (cos y * sin z) by ring. apply atan2_polar; assumption.
Qed.
Lemma zyx_back tol a : 0 < tol -> turn (vx a) -> turn (vz a) -> - (PI / 2) < vy a < PI / 2 -> -1 + tol < sin (vy a) < 1 - tol ->
  matrix_to_zyx tol (zyx_to_matrix a) = a.
Proof.
  destruct a as [x y z]; cbn. intros HT X Z Y S. unfold matrix_to_zyx, zyx_to_matrix; cbn. rewrite !Rltb_t by lra.
  assert (C : 0 < cos y) by (apply cos_gt_0; lra).
  f_equal.
  - rewrite (Rmult_comm (sin x)), (Rmult_comm (cos x)). apply atan2_polar; assumption.
  - replace (- - sin y) with (sin y) by ring. apply asin_sin. lra.
  - apply atan2_polar; assumption.
Qed.

Lemma quarter_asin x : quarter (asin x).
Proof. unfold quarter. pose proof (asin_bound x). lra. Qed.
Lemma turn_0 : turn 0. Proof. unfold turn. pose proof PI_RGT_0. lra. Qed.

(** ** Rotation vectors *)

Lemma acos_facts w : -1 < w < 1 -> 0 < sqrt (1 - w * w) /\ sin (acos w) = sqrt (1 - w * w) /\ cos (acos w) = w /\ 0 <= acos w <= PI.
Proof.
  intros H. split; [apply sqrt_lt_R0; nra|]. split; [|split; [apply cos_acos; lra|apply acos_bound]]. rewrite sin_acos by lra. reflexivity.
Qed.
Lemma acos_sign w : -1 <= w <= 1 -> (0 <= w -> acos w <= PI / 2) /\ (w < 0 -> PI / 2 < acos w).
Proof.
  intros H. pose proof (acos_bound w) as B. pose proof (cos_acos w H) as C. pose proof PI_RGT_0. split; intros W.
  - destruct (Rle_lt_dec (acos w) (PI / 2)) as [|L]; [assumption|]. pose proof (cos_lt_0 (acos w) L ltac:(lra)). lra.
  - destruct (Rle_lt_dec (acos w) (PI / 2)) as [L|]; [|assumption]. pose proof (cos_ge_0 (acos w) ltac:(lra) L). lra.
Qed.
Lemma sin_le_x x : 0 <= x -> sin x <= x.
Proof. intros [H|H]; [apply Rlt_le, sin_lt_x, H|subst; rewrite sin_0; lra]. Qed.

Lemma root_of_eps : / 2 * / 100000 < sqrt (/ 8388608).
Proof. apply Rsqr_incrst_0; [|lra|apply sqrt_pos]. rewrite Rsqr_sqrt by lra. unfold Rsqr. lra. Qed.

Lemma norm_scaled k v s : 0 <= s -> vnorm2 v = s * s -> sqrt (vnorm2 (vscale k v)) = Rabs k * s.
Proof.
  intros S N. replace (vnorm2 (vscale k v)) with ((Rabs k * s) * (Rabs k * s)).
  - apply sqrt_square. pose proof (Rabs_pos k). nra.
  - replace (Rabs k * s * (Rabs k * s)) with (Rabs k * Rabs k * (s * s)) by ring. rewrite <- sqr_abs, <- N. destruct v. vec_unfold. ring.
Qed.

(** What the rotation vector of a quaternion is: twice the angle whose cosine is |w|, along the axis. *)
Lemma rotvec_cases q : qunit q -> qw q * qw q <= 1 - / 8388608 ->
  let s := sqrt (1 - qw q * qw q) in
  0 < s /\ s * s = vnorm2 (qvec q) /\ sqrt (/ 8388608) <= s /\
  exists h, 0 < h <= PI / 2 /\ s <= h /\ sin h = s /\
  ((0 <= qw q /\ cos h = qw q /\ quat_to_rotvec q = vscale (2 * h / s) (qvec q)) \/
   (qw q < 0 /\ cos h = - qw q /\ quat_to_rotvec q = vscale (- (2 * h / s)) (qvec q))).
Proof.
  intros U W s. unfold qunit, qnorm2 in U. assert (B : -1 < qw q < 1) by nra.
  destruct (acos_facts _ B) as (S0 & S1 & C0 & [A0 A1]). fold s in S0, S1. destruct (acos_sign (qw q) ltac:(lra)) as [SP SN].
  assert (SS : s * s = 1 - qw q * qw q) by (apply sqrt_sqrt; lra).
  split; [exact S0|]. split; [rewrite SS; unfold vnorm2, vdot, qvec; cbn; lra|]. split; [apply sqrt_le_1_alt; lra|].
  pose proof PI_RGT_0 as PP. set (t := acos (qw q)) in *. assert (T0 : 0 < t). { destruct A0 as [|E]; [assumption|]. rewrite <- E, sin_0 in S1. lra. }
  assert (T1 : t < PI). { destruct A1 as [|E]; [assumption|]. rewrite E, sin_PI in S1. lra. }
  unfold quat_to_rotvec. fold t. rewrite (Rltb_f (1 - / 8388608)) by exact W. fold s. rewrite (Rltb_f (2 * t)) by lra.
  destruct (Rlt_le_dec (qw q) 0) as [N|P].
  - specialize (SN N). rewrite Rltb_t by lra. exists (PI - t).
    assert (SH : sin (PI - t) = s) by (rewrite sin_PI_x; exact S1).
    split; [lra|]. split; [rewrite <- SH; apply sin_le_x; lra|]. split; [exact SH|]. right. split; [exact N|].
    split; [replace (PI - t) with (- t + PI) by ring; rewrite neg_cos, cos_neg; lra|].
    unfold qvec. f_equal. field. lra.
  - specialize (SP P). rewrite Rltb_f by lra. exists t.
    split; [lra|]. split; [rewrite <- S1 at 1; apply sin_le_x; lra|]. split; [exact S1|]. left. split; [exact P|]. split; [exact C0|].
    unfold qvec. f_equal. field. lra.
Qed.

Lemma rotvec_long q : qunit q -> qw q * qw q <= 1 - / 8388608 -> / 100000 <= sqrt (vnorm2 (quat_to_rotvec q)) <= PI.
Proof.
  intros U W. destruct (rotvec_cases q U W) as (S0 & N & E & h & H & HS & _ & D). set (s := sqrt (1 - qw q * qw q)) in *.
  assert (L : sqrt (vnorm2 (quat_to_rotvec q)) = 2 * h).
  { assert (P : 0 <= 2 * h / s) by (apply Rlt_le, Rdiv_lt_0_compat; lra).
    destruct D as [(_ & _ & ->)|(_ & _ & ->)]; rewrite (norm_scaled _ _ s) by lra; [|rewrite Rabs_Ropp]; rewrite Rabs_right by lra; field; lra. }
  rewrite L. pose proof root_of_eps. lra.
Qed.

Lemma rotvec_quat q : qunit q -> qw q * qw q <= 1 - / 8388608 ->
  rotvec_to_quat (quat_to_rotvec q) = if Rltb (qw q) 0 then qneg q else q.
Proof.
  intros U W. pose proof (rotvec_long q U W) as [LL _]. unfold rotvec_to_quat. rewrite Rltb_f by exact LL.
  destruct (rotvec_cases q U W) as (S0 & N & E & h & H & HS & SH & D). set (s := sqrt (1 - qw q * qw q)) in *.
  assert (P : 0 <= 2 * h / s) by (apply Rlt_le, Rdiv_lt_0_compat; lra).
  assert (L : sqrt (vnorm2 (quat_to_rotvec q)) = 2 * h).
  { destruct D as [(_ & _ & ->)|(_ & _ & ->)]; rewrite (norm_scaled _ _ s) by lra; [|rewrite Rabs_Ropp]; rewrite Rabs_right by lra; field; lra. }
  rewrite L. unfold qaxis. replace (2 * h / 2) with h by field. rewrite SH.
  destruct D as [(Sg & C & ->)|(Sg & C & ->)]; rewrite C.
  - rewrite Rltb_f by exact Sg. destruct q as [w x y z]. unfold qvec; cbn. cbn in *. f_equal; field; lra.
  - rewrite Rltb_t by exact Sg. destruct q as [w x y z]. unfold qvec, qneg; cbn. cbn in *. f_equal; field; lra.
Qed.

Lemma quat_rotvec v : sqrt (vnorm2 v) <= PI -> / 8388608 <= sin (sqrt (vnorm2 v) / 2) * sin (sqrt (vnorm2 v) / 2) ->
  quat_to_rotvec (rotvec_to_quat v) = v.
Proof.
  intros L S. set (t := sqrt (vnorm2 v)) in *. pose proof PI_RGT_0 as PP.
  assert (N0 : 0 <= vnorm2 v) by (destruct v; unfold vnorm2, vdot; cbn; nra).
  assert (T0 : 0 <= t) by apply sqrt_pos. assert (TT : t * t = vnorm2 v) by (apply sqrt_sqrt, N0).
  assert (SG : 0 <= sin (t / 2)) by (apply sin_ge_0; lra).
  assert (SL : sqrt (/ 8388608) <= sin (t / 2)). { rewrite <- (sqrt_square (sin (t / 2))) by exact SG. apply sqrt_le_1_alt, S. }
  pose proof root_of_eps as RE. pose proof (sin_le_x (t / 2) ltac:(lra)).
  unfold rotvec_to_quat. fold t. rewrite Rltb_f by lra. unfold quat_to_rotvec, qaxis; cbn.
  rewrite acos_cos by lra. pose proof (sin2_cos2 (t / 2)) as Q. unfold Rsqr in Q.
  rewrite (Rltb_f (1 - / 8388608)) by lra. rewrite (Rltb_f (2 * (t / 2)) (- PI)), (Rltb_f PI) by lra.
  replace (1 - cos (t / 2) * cos (t / 2)) with (sin (t / 2) * sin (t / 2)) by lra. rewrite sqrt_square by exact SG.
  destruct v as [x y z]; unfold vscale; cbn. assert (sin (t / 2) <> 0) by lra. assert (t <> 0) by lra. f_equal; field; split; assumption.
Qed.

Lemma rotvec_turns v : / 100000 <= sqrt (vnorm2 v) -> qunit (rotvec_to_quat v) /\
  forall x, qrot (rotvec_to_quat v) x = rodrigues v (sqrt (vnorm2 v)) x.
Proof.
  intros L. unfold rotvec_to_quat. rewrite Rltb_f by exact L. set (t := sqrt (vnorm2 v)) in *.
  assert (N0 : 0 <= vnorm2 v) by (destruct v; unfold vnorm2, vdot; cbn; nra). assert (TT : t * t = vnorm2 v) by (apply sqrt_sqrt, N0).
  assert (T : t <> 0) by lra. set (u := vscale (/ t) v).
  assert (UN : vnorm2 u = 1). { transitivity (/ t * / t * vnorm2 v); [unfold u; destruct v; vec_unfold; ring|]. rewrite <- TT. field. exact T. }
  split; [apply qaxis_unit, UN|]. intros x.
  assert (V : v = vscale t u). { unfold u. rewrite vscale_scale, Rinv_r, vscale_1 by exact T. reflexivity. }
  unfold rodrigues. rewrite V. replace (vdot (vscale t u) x) with (t * vdot u x) by (destruct u, x; vec_unfold; ring).
  replace (vcross (vscale t u) x) with (vscale t (vcross u x)) by (destruct u, x; vec_unfold; f_equal; ring).
  rewrite !vscale_scale. replace (sin t / t * t) with (sin t) by (field; exact T).
  replace ((1 - cos t) / (t * t) * (t * vdot u x) * t) with ((1 - cos t) * vdot u x) by (field; exact T).
  destruct (half_angles t) as (-> & -> & E). clearbody u. clear V TT N0 L. unfold qaxis. set (c := cos (t / 2)) in *. set (s := sin (t / 2)) in *. clearbody c s.
  destruct u as [a b d], x as [x y z]. unfold vnorm2, vdot in UN. vec_unfold.
  assert (E2 : a * a = 1 - b * b - d * d) by lra. f_equal; ring [E E2].
Qed.

(** ** The average *)

Lemma quad_outer Q c s x : square4 Q -> length c = 4%nat -> length x = 4%nat -> square4 (outer_add Q c s) /\
  quad (outer_add Q c s) x = quad Q x + (s * rsum (map (fun p => fst p * snd p) (combine c x))) * (s * rsum (map (fun p => fst p * snd p) (combine c x))).
Proof.
  intros [LQ FQ] LC LX.
  destruct Q as [|r0 [|r1 [|r2 [|r3 [|]]]]]; try discriminate.
  inversion FQ as [|? ? F0 FQ1]; subst. inversion FQ1 as [|? ? F1 FQ2]; subst. inversion FQ2 as [|? ? F2 FQ3]; subst. inversion FQ3 as [|? ? F3 _]; subst.
  destruct r0 as [|? [|? [|? [|? [|]]]]]; try discriminate. destruct r1 as [|? [|? [|? [|? [|]]]]]; try discriminate.
  destruct r2 as [|? [|? [|? [|? [|]]]]]; try discriminate. destruct r3 as [|? [|? [|? [|? [|]]]]]; try discriminate.
  destruct c as [|? [|? [|? [|? [|]]]]]; try discriminate. destruct x as [|? [|? [|? [|? [|]]]]]; try discriminate.
  split; [split; [reflexivity|repeat constructor]|]. unfold quad, at4, outer_add, rsum; cbn. ring.
Qed.
Lemma outer_symmetric Q c s : symmetric4 Q -> length c = 4%nat -> symmetric4 (outer_add Q c s).
Proof.
  intros [[LQ FQ] S] LC. split; [apply (quad_outer Q c s (repeat 0 4)); [split; assumption|exact LC|reflexivity]|].
  destruct Q as [|r0 [|r1 [|r2 [|r3 [|]]]]]; try discriminate.
  inversion FQ as [|? ? F0 FQ1]; subst. inversion FQ1 as [|? ? F1 FQ2]; subst. inversion FQ2 as [|? ? F2 FQ3]; subst. inversion FQ3 as [|? ? F3 _]; subst.
  destruct r0 as [|? [|? [|? [|? [|]]]]]; try discriminate. destruct r1 as [|? [|? [|? [|? [|]]]]]; try discriminate.
  destruct r2 as [|? [|? [|? [|? [|]]]]]; try discriminate. destruct r3 as [|? [|? [|? [|? [|]]]]]; try discriminate.
  destruct c as [|? [|? [|? [|? [|]]]]]; try discriminate. clear FQ FQ1 FQ2 FQ3 LQ LC F0 F1 F2 F3.
  intros i j Hi Hj. specialize (S i j Hi Hj).
  destruct i as [|[|[|[|i]]]]; try lia; destruct j as [|[|[|[|j]]]]; try lia; unfold at4, outer_add in *; cbn in *; try reflexivity; rewrite S; ring.
Qed.

Lemma agreement_cons x q w p : agreement (x :: q) w p = (weight_at w 0 * qdot x p) * (weight_at w 0 * qdot x p) + agreement q (tl w) p.
Proof.
  unfold agreement. cbn [length seq map]. unfold rsum; cbn [fold_right nth]. f_equal. rewrite <- seq_shift, map_map. f_equal. apply map_ext. intros i. cbn [nth].
  replace (weight_at w (S i)) with (weight_at (tl w) i); [reflexivity|]. unfold weight_at. destruct w; cbn; [destruct i|]; reflexivity.
Qed.
Lemma average_form q : forall w Q p, symmetric4 Q -> symmetric4 (average_matrix Q q w) /\ quad (average_matrix Q q w) (coeffs p) = quad Q (coeffs p) + agreement q w p.
Proof.
  induction q as [|x q IH]; intros w Q p S; cbn [average_matrix].
  - split; [exact S|]. unfold agreement, rsum; cbn [length seq map fold_right]. ring.
  - set (s := match w with [] => 1 | s :: _ => s end). destruct (IH (tl w) (outer_add Q (coeffs x) s) p (outer_symmetric Q (coeffs x) s S eq_refl)) as [S' E].
    split; [exact S'|]. rewrite E, agreement_cons. destruct (quad_outer Q (coeffs x) s (coeffs p) (proj1 S) eq_refl eq_refl) as [_ ->].
    replace (weight_at w 0) with s by (unfold s, weight_at; destruct w; reflexivity).
    assert (D : rsum (map (fun p0 => fst p0 * snd p0) (combine (coeffs x) (coeffs p))) = qdot x p) by (unfold qdot, rsum, coeffs; cbn; ring).
    rewrite D. ring.
Qed.
Lemma outer_flip Q c s : outer_add Q (map Ropp c) s = outer_add Q c s.
Proof.
  unfold outer_add. generalize c at 2 4. intros c'. revert Q. induction c' as [|a c' IH]; intros Q; [reflexivity|]. destruct Q as [|r Q]; [reflexivity|]. cbn [map combine]. f_equal; [|apply IH]. cbn [fst snd].
  clear IH Q. revert r. induction c as [|b c IHc]; intros r; [reflexivity|]. destruct r as [|t r]; [reflexivity|]. cbn [map combine fst snd]. f_equal; [ring|apply IHc].
Qed.
Lemma outer_flip_weight Q c s : outer_add Q c (- s) = outer_add Q c s.
Proof. unfold outer_add. apply map_ext. intros [a r]. cbn [fst snd]. apply map_ext. intros [b t]. cbn [fst snd]. ring. Qed.
Lemma outer_entry Q c s i j : square4 Q -> length c = 4%nat -> (i < 4)%nat -> (j < 4)%nat ->
  at4 (outer_add Q c s) i j = at4 Q i j + (s * nth i c 0) * (s * nth j c 0).
Proof.
  intros [LQ FQ] LC Hi Hj.
  destruct Q as [|r0 [|r1 [|r2 [|r3 [|]]]]]; try discriminate.
  inversion FQ as [|? ? F0 FQ1]; subst. inversion FQ1 as [|? ? F1 FQ2]; subst. inversion FQ2 as [|? ? F2 FQ3]; subst. inversion FQ3 as [|? ? F3 _]; subst.
  destruct r0 as [|? [|? [|? [|? [|]]]]]; try discriminate. destruct r1 as [|? [|? [|? [|? [|]]]]]; try discriminate.
  destruct r2 as [|? [|? [|? [|? [|]]]]]; try discriminate. destruct r3 as [|? [|? [|? [|? [|]]]]]; try discriminate.
  destruct c as [|? [|? [|? [|? [|]]]]]; try discriminate.
  destruct i as [|[|[|[|i]]]]; try lia; destruct j as [|[|[|[|j]]]]; try lia; unfold at4, outer_add; cbn; ring.
Qed.
Lemma moment_cons x q w i j : moment (x :: q) w i j = (weight_at w 0 * coeff i x) * (weight_at w 0 * coeff j x) + moment q (tl w) i j.
Proof.
  unfold moment. cbn [length seq map]. unfold rsum; cbn [fold_right nth]. f_equal. rewrite <- seq_shift, map_map. f_equal. apply map_ext. intros k. cbn [nth].
  replace (weight_at w (S k)) with (weight_at (tl w) k); [reflexivity|]. unfold weight_at. destruct w; cbn; [destruct k|]; reflexivity.
Qed.
Lemma average_entries q : forall w Q i j, symmetric4 Q -> (i < 4)%nat -> (j < 4)%nat -> at4 (average_matrix Q q w) i j = at4 Q i j + moment q w i j.
Proof.
  induction q as [|x q IH]; intros w Q i j S Hi Hj; cbn [average_matrix].
  - unfold moment, rsum; cbn [length seq map fold_right]. ring.
  - set (s := match w with [] => 1 | s :: _ => s end). rewrite (IH (tl w) _ i j (outer_symmetric Q (coeffs x) s S eq_refl) Hi Hj).
    rewrite moment_cons, (outer_entry Q (coeffs x) s i j (proj1 S) eq_refl Hi Hj).
    replace (weight_at w 0) with s by (unfold s, weight_at; destruct w; reflexivity). unfold coeff, coeffs. ring.
Qed.
Lemma zero_symmetric : symmetric4 (repeat (repeat 0 4) 4).
Proof.
  split; [split; [reflexivity|repeat constructor]|]. intros i j Hi Hj.
  destruct i as [|[|[|[|i]]]]; try lia; destruct j as [|[|[|[|j]]]]; try lia; reflexivity.
Qed.
Lemma quad_zero x : length x = 4%nat -> quad (repeat (repeat 0 4) 4) x = 0.
Proof. intros L. destruct x as [|? [|? [|? [|? [|]]]]]; try discriminate. unfold quad, at4, rsum; cbn. ring. Qed.
