(** The squared distance of two segments that move: its derivative is that with the parameters of the
    closest points held. *)

From Coq Require Import Bool Reals Lra Psatz.
From Coquelicot Require Import Coquelicot.
From Verif Require Import Rbool R3 Seg_model Seg_spec Seg_proofs.
Local Open Scope R_scope.

(** ** Derivatives between two functions *)
Lemma derive_bound f x l : is_derive f x l <->
  forall eps, 0 < eps -> exists delta, 0 < delta /\ forall h, Rabs h < delta -> Rabs (f (x + h) - f x - l * h) <= eps * Rabs h.
Proof.
  rewrite is_derive_Reals. split.
  - intros H eps E. destruct (H eps E) as [delta Hd]. exists delta. split; [apply cond_pos|]. intros h Hh.
    destruct (Req_dec h 0) as [->|N].
    + rewrite Rplus_0_r, Rmult_0_r, Rminus_eq_0, Rminus_eq_0, Rabs_R0. lra.
    + specialize (Hd h N Hh). replace (f (x + h) - f x - l * h) with (((f (x + h) - f x) / h - l) * h) by (field; exact N).
      rewrite Rabs_mult. apply Rmult_le_compat_r; [apply Rabs_pos|lra].
  - intros H eps E. destruct (H (eps / 2) ltac:(lra)) as (delta & D & Hd). exists (mkposreal delta D). intros h N Hh. cbn in Hh.
    specialize (Hd h Hh). replace ((f (x + h) - f x) / h - l) with ((f (x + h) - f x - l * h) * / h) by (field; exact N).
    rewrite Rabs_mult, Rabs_inv. pose proof (Rabs_pos_lt h N) as P.
    apply (Rle_lt_trans _ (eps / 2 * Rabs h * / Rabs h)).
    + apply Rmult_le_compat_r; [apply Rlt_le, Rinv_0_lt_compat, P|exact Hd].
    + rewrite Rmult_assoc, Rinv_r by lra. lra.
Qed.
Lemma locally_ball x (P : R -> Prop) : locally x P <-> exists delta, 0 < delta /\ forall h, Rabs h < delta -> P (x + h).
Proof.
  split.
  - intros [delta H]. exists delta. split; [apply cond_pos|]. intros h Hh. apply H. unfold ball; cbn. unfold AbsRing_ball, abs, minus, plus, opp; cbn.
    replace (x + h + - x) with h by ring. exact Hh.
  - intros (delta & D & H). exists (mkposreal delta D). intros y Hy. unfold ball in Hy; cbn in Hy. unfold AbsRing_ball, abs, minus, plus, opp in Hy; cbn in Hy.
    replace y with (x + (y + - x)) by ring. apply H, Hy.
Qed.
Lemma derive_between f g h x l : is_derive f x l -> is_derive h x l -> f x = g x -> h x = g x ->
  locally x (fun y => f y <= g y <= h y) -> is_derive g x l.
Proof.
  intros F H E1 E2 L. apply derive_bound. intros eps E. rewrite derive_bound in F, H. apply locally_ball in L as (d3 & D3 & L).
  destruct (F eps E) as (d1 & D1 & F'). destruct (H eps E) as (d2 & D2 & H').
  exists (Rmin d1 (Rmin d2 d3)). split; [repeat apply Rmin_glb_lt; assumption|]. intros y Hy.
  assert (Y1 : Rabs y < d1) by (eapply Rlt_le_trans; [exact Hy|apply Rmin_l]).
  assert (Y2 : Rabs y < d2) by (eapply Rlt_le_trans; [exact Hy|eapply Rle_trans; [apply Rmin_r|apply Rmin_l]]).
  assert (Y3 : Rabs y < d3) by (eapply Rlt_le_trans; [exact Hy|eapply Rle_trans; [apply Rmin_r|apply Rmin_r]]).
  specialize (F' y Y1). specialize (H' y Y2). specialize (L y Y3). apply Rabs_le_between in F'. apply Rabs_le_between in H'.
  apply Rabs_le_between. lra.
Qed.
Lemma locally_above f x l c : is_derive f x l -> c < f x -> locally x (fun y => c < f y).
Proof.
  intros D H. assert (C : continuous f x) by (apply ex_derive_continuous; exists l; exact D).
  apply (C (fun z => c < z)). apply (open_gt c (f x) H).
Qed.
Lemma locally_below f x l c : is_derive f x l -> f x < c -> locally x (fun y => f y < c).
Proof.
  intros D H. assert (C : continuous f x) by (apply ex_derive_continuous; exists l; exact D).
  apply (C (fun z => z < c)). apply (open_lt c (f x) H).
Qed.

Lemma derive_eq (f : R -> R) (x l l' : R) : is_derive f x l -> l = l' -> is_derive f x l'.
Proof. intros H <-. exact H. Qed.
Lemma derive_lin (f : R -> R) x l u : is_derive f x l -> is_derive (fun y => f y * u) x (l * u).
Proof. intros H. apply (is_derive_scal_l f x l u H). Qed.
Lemma derive_add (f g : R -> R) x l m : is_derive f x l -> is_derive g x m -> is_derive (fun y => f y + g y) x (l + m).
Proof. intros H1 H2. apply (is_derive_plus f g x l m H1 H2). Qed.
Lemma derive_sub (f g : R -> R) x l m : is_derive f x l -> is_derive g x m -> is_derive (fun y => f y - g y) x (l - m).
Proof. intros H1 H2. apply (is_derive_minus f g x l m H1 H2). Qed.
Lemma derive_sq0 (f : R -> R) x l : is_derive f x l -> is_derive (fun y => (f y - f x) * (f y - f x)) x 0.
Proof.
  intros H. assert (H' : is_derive (fun y => f y - f x) x l).
  { eapply derive_eq; [apply (derive_sub f (fun _ => f x) x l 0 H)|ring]. apply (is_derive_const (f x) x). }
  eapply derive_eq; [apply (is_derive_mult _ _ x l l H' H')|].
  - intros; apply Rmult_comm.
  - unfold plus, mult; cbn. ring.
Qed.

(** ** A quadratic whose coefficients change *)
Section Moving.
Context (a b c d e k : R -> R) (a' b' c' d' e' k' x0 s0 t0 : R)
  (Da : is_derive a x0 a') (Db : is_derive b x0 b') (Dc : is_derive c x0 c') (Dd : is_derive d x0 d')
  (De : is_derive e x0 e') (Dk : is_derive k x0 k').
Context (PA : 0 < a x0) (PC : 0 < c x0) (PD : 0 < a x0 * c x0 - b x0 * b x0) (I1 : in_unit s0) (I2 : in_unit t0)
  (O1 : opt s0 (a x0 * s0 - b x0 * t0 + d x0)) (O2 : opt t0 (c x0 * t0 - b x0 * s0 - e x0)).
Local Notation f x s t := (quad (a x) (b x) (c x) (d x) (e x) (k x) s t).
Local Notation sq z := (z * z).

Definition drift (x : R) : R :=
  sq (a x - a x0) + sq (b x - b x0) + sq (c x - c x0) + sq (d x - d x0) + sq (e x - e x0) + sq (k x - k x0).
Lemma drift_pos x : 0 <= drift x.
Proof.
  unfold drift. pose proof (sq_pos (a x - a x0)). pose proof (sq_pos (b x - b x0)). pose proof (sq_pos (c x - c x0)).
  pose proof (sq_pos (d x - d x0)). pose proof (sq_pos (e x - e x0)). pose proof (sq_pos (k x - k x0)). lra.
Qed.
Lemma drift_0 : drift x0 = 0.
Proof. unfold drift. ring. Qed.
Lemma drift_derive : is_derive drift x0 0.
Proof.
  unfold drift. pose proof (derive_sq0 a x0 a' Da) as Q1. pose proof (derive_sq0 b x0 b' Db) as Q2. pose proof (derive_sq0 c x0 c' Dc) as Q3.
  pose proof (derive_sq0 d x0 d' Dd) as Q4. pose proof (derive_sq0 e x0 e' De) as Q5. pose proof (derive_sq0 k x0 k' Dk) as Q6.
  eapply derive_eq; [exact (derive_add _ _ _ _ _ (derive_add _ _ _ _ _ (derive_add _ _ _ _ _ (derive_add _ _ _ _ _ (derive_add _ _ _ _ _ Q1 Q2) Q3) Q4) Q5) Q6)|ring].
Qed.
Lemma f_derive s t : is_derive (fun x => f x s t) x0 (quad a' b' c' d' e' k' s t).
Proof.
  assert (E : forall x, a x * (s * s) + c x * (t * t) - b x * (2 * (s * t)) + d x * (2 * s) - e x * (2 * t) + k x = f x s t) by (intros x; unfold quad; ring).
  eapply is_derive_ext; [exact E|].
  eapply derive_eq; [exact (derive_add _ _ _ _ _ (derive_sub _ _ _ _ _ (derive_add _ _ _ _ _ (derive_sub _ _ _ _ _
     (derive_add _ _ _ _ _ (derive_lin _ _ _ _ Da) (derive_lin _ _ _ _ Dc)) (derive_lin _ _ _ _ Db)) (derive_lin _ _ _ _ Dd)) (derive_lin _ _ _ _ De)) Dk)|].
  unfold quad. ring.
Qed.

Definition modulus : R := (a x0 * c x0 - b x0 * b x0) / (a x0 + c x0).
Lemma modulus_pos : 0 < modulus.
Proof. unfold modulus. apply Rdiv_lt_0_compat; lra. Qed.
Lemma quad_modulus u v : modulus * (u * u + v * v) <= a x0 * (u * u) + c x0 * (v * v) - 2 * b x0 * (u * v).
Proof.
  apply (Rmult_le_reg_l (a x0 + c x0)); [lra|].
  replace ((a x0 + c x0) * (modulus * (u * u + v * v))) with ((a x0 * c x0 - b x0 * b x0) * (u * u + v * v)) by (unfold modulus; field; lra).
  pose proof (sq_pos (a x0 * u - b x0 * v)). pose proof (sq_pos (c x0 * v - b x0 * u)).
  replace ((a x0 + c x0) * (a x0 * (u * u) + c x0 * (v * v) - 2 * b x0 * (u * v)))
    with ((a x0 * c x0 - b x0 * b x0) * (u * u + v * v) + (a x0 * u - b x0 * v) * (a x0 * u - b x0 * v) + (c x0 * v - b x0 * u) * (c x0 * v - b x0 * u)) by ring. lra.
Qed.

Lemma young m x y : 0 < m -> - (x * x / (4 * m)) - m * (y * y) <= x * y.
Proof.
  intros M. pose proof (sq_pos (x / (2 * sqrt m) + sqrt m * y)) as Q. pose proof (sqrt_lt_R0 m M) as S.
  replace ((x / (2 * sqrt m) + sqrt m * y) * (x / (2 * sqrt m) + sqrt m * y))
    with (x * x / (4 * (sqrt m * sqrt m)) + sqrt m * sqrt m * (y * y) + x * y) in Q by (field; lra).
  rewrite sqrt_sqrt in Q by lra. lra.
Qed.

(** Away from the minimum at [x0] the function grows faster than the coefficients can lower it. *)
Lemma growth x s t : in_unit s -> in_unit t ->
  f x s0 t0 + modulus / 2 * ((s - s0) * (s - s0) + (t - t0) * (t - t0)) - 12 / modulus * drift x <= f x s t.
Proof.
  intros J1 J2. pose proof modulus_pos as M.
  set (m := modulus) in *. set (u := s - s0) in *. set (v := t - t0) in *.
  set (m1 := u * (s + s0)). set (m2 := v * (t + t0)). set (m3 := s * v + t0 * u).
  assert (E : f x s t - f x s0 t0 = (f x0 s t - f x0 s0 t0) +
     ((a x - a x0) * m1 + (c x - c x0) * m2 + (b x - b x0) * (- 2 * m3) + (d x - d x0) * (2 * u) + (e x - e x0) * (- 2 * v))).
  { unfold quad, m1, m2, m3, u, v. ring. }
  pose proof (quad_diff (a x0) (b x0) (c x0) (d x0) (e x0) (k x0) s0 t0 s t) as Q. fold u v in Q.
  pose proof (opt_step _ _ s O1 J1) as Q1. pose proof (opt_step _ _ t O2 J2) as Q2. fold u v in Q1, Q2.
  pose proof (quad_modulus u v) as Q3. fold m in Q3.
  assert (M1 : m1 * m1 <= 4 * (u * u)).
  { unfold m1. replace (u * (s + s0) * (u * (s + s0))) with ((u * u) * ((s + s0) * (s + s0))) by ring. pose proof (sq_pos u).
    assert ((s + s0) * (s + s0) <= 4) by (unfold in_unit in *; nra). rewrite (Rmult_comm 4). apply Rmult_le_compat_l; assumption. }
  assert (M2 : m2 * m2 <= 4 * (v * v)).
  { unfold m2. replace (v * (t + t0) * (v * (t + t0))) with ((v * v) * ((t + t0) * (t + t0))) by ring. pose proof (sq_pos v).
    assert ((t + t0) * (t + t0) <= 4) by (unfold in_unit in *; nra). rewrite (Rmult_comm 4). apply Rmult_le_compat_l; assumption. }
  assert (M3 : m3 * m3 <= 2 * (u * u + v * v)).
  { unfold m3. pose proof (sq_pos (s * v - t0 * u)).
    assert (S1 : s * s <= 1) by (unfold in_unit in *; nra). assert (S2 : t0 * t0 <= 1) by (unfold in_unit in *; nra).
    pose proof (Rmult_le_compat_l (v * v) _ _ (sq_pos v) S1). pose proof (Rmult_le_compat_l (u * u) _ _ (sq_pos u) S2). lra. }
  assert (MM : 0 < m / 48) by lra.
  pose proof (young (m / 48) (a x - a x0) m1 MM) as Y1. pose proof (young (m / 48) (c x - c x0) m2 MM) as Y2.
  pose proof (young (m / 48) (b x - b x0) (- 2 * m3) MM) as Y3. pose proof (young (m / 48) (d x - d x0) (2 * u) MM) as Y4.
  pose proof (young (m / 48) (e x - e x0) (- 2 * v) MM) as Y5.
  assert (DR : (a x - a x0) * (a x - a x0) / (4 * (m / 48)) + (c x - c x0) * (c x - c x0) / (4 * (m / 48)) + (b x - b x0) * (b x - b x0) / (4 * (m / 48)) +
     (d x - d x0) * (d x - d x0) / (4 * (m / 48)) + (e x - e x0) * (e x - e x0) / (4 * (m / 48)) <= 12 / m * drift x).
  { assert (K : forall z, z / (4 * (m / 48)) = 12 / m * z) by (intros; field; lra). rewrite !K. rewrite <- !Rmult_plus_distr_l.
    apply Rmult_le_compat_l; [apply Rlt_le, Rdiv_lt_0_compat; lra|]. unfold drift. pose proof (sq_pos (k x - k x0)). lra. }
  assert (SM : m / 48 * (m1 * m1) + m / 48 * (m2 * m2) + m / 48 * (- 2 * m3 * (- 2 * m3)) + m / 48 * (2 * u * (2 * u)) + m / 48 * (- 2 * v * (- 2 * v)) <= m / 2 * (u * u + v * v)).
  { replace (m / 2 * (u * u + v * v)) with (m / 48 * (24 * (u * u + v * v))) by field. rewrite <- !Rmult_plus_distr_l.
    apply Rmult_le_compat_l; [lra|]. pose proof (sq_pos u). pose proof (sq_pos v). lra. }
  lra.
Qed.

Lemma near_min x s t : in_unit s -> in_unit t -> f x s t <= f x s0 t0 ->
  (s - s0) * (s - s0) + (t - t0) * (t - t0) <= 24 / (modulus * modulus) * drift x.
Proof.
  intros J1 J2 H. pose proof (growth x s t J1 J2) as G. pose proof modulus_pos as M.
  apply (Rmult_le_reg_l (modulus / 2)); [lra|].
  replace (modulus / 2 * (24 / (modulus * modulus) * drift x)) with (12 / modulus * drift x) by (field; lra). lra.
Qed.

(** The derivative of the value at points that are nearly the minimum. *)
Lemma moving_derive (S T : R -> R) K : (forall x, in_unit (S x)) -> (forall x, in_unit (T x)) ->
  locally x0 (fun x => f x (S x) (T x) <= f x s0 t0 + K * drift x) ->
  is_derive (fun x => f x (S x) (T x)) x0 (quad a' b' c' d' e' k' s0 t0).
Proof.
  intros U1 U2 L. pose proof modulus_pos as M.
  assert (LB : forall x, f x s0 t0 - drift x * (12 / modulus) <= f x (S x) (T x)).
  { intros x. pose proof (growth x (S x) (T x) (U1 x) (U2 x)) as G. pose proof (sq_pos (S x - s0)). pose proof (sq_pos (T x - t0)).
    assert (0 <= modulus / 2 * ((S x - s0) * (S x - s0) + (T x - t0) * (T x - t0))) by (apply Rmult_le_pos; lra). lra. }
  assert (E0 : f x0 s0 t0 = f x0 (S x0) (T x0)).
  { apply Rle_antisym; [specialize (LB x0); rewrite drift_0 in LB; lra|]. apply locally_singleton in L. rewrite drift_0 in L. lra. }
  apply (derive_between (fun x => f x s0 t0 - drift x * (12 / modulus)) _ (fun x => f x s0 t0 + drift x * K)).
  - eapply derive_eq; [exact (derive_sub _ _ _ _ _ (f_derive s0 t0) (derive_lin _ _ _ (12 / modulus) drift_derive))|ring].
  - eapply derive_eq; [exact (derive_add _ _ _ _ _ (f_derive s0 t0) (derive_lin _ _ _ K drift_derive))|ring].
  - rewrite drift_0, E0. rewrite Rmult_0_l. apply Rminus_0_r.
  - rewrite drift_0, E0. rewrite Rmult_0_l. apply Rplus_0_r.
  - eapply filter_imp; [|exact L]. intros x Hx. cbv beta in *. split; [apply LB|lra].
Qed.
End Moving.

(** ** What the algorithm reports *)
Definition exact_q (a b c d e : R) : R * R * R * R := seg_edges a b d (first_step a b c d e).
Definition rep_s (q : R * R * R * R) : R := let '(sN, sD, _, _) := q in seg_param sN sD.
Definition rep_t (q : R * R * R * R) : R := let '(_, _, tN, tD) := q in seg_param tN tD.

Lemma first_unit a b c d e : 0 <= a * c - b * b -> 0 <= c -> unit_q (first_step a b c d e).
Proof.
  intros H1 H2. unfold first_step. destruct (Rltb_spec (b * e - c * d) 0) as [L|L]; [cbn; lra|].
  destruct (Rltb_spec (a * c - b * b) (b * e - c * d)) as [L'|L']; cbn; lra.
Qed.
Lemma rep_unit a b c d e : 0 <= a -> 0 <= c -> 0 <= a * c - b * b ->
  in_unit (rep_s (exact_q a b c d e)) /\ in_unit (rep_t (exact_q a b c d e)).
Proof.
  intros H1 H2 H3. destruct (exact_q a b c d e) as [[[sN sD] tN] tD] eqn:E. cbn [rep_s rep_t].
  exact (edges_unit _ _ _ _ _ _ _ _ H1 (first_unit a b c d e H3 H2) E).
Qed.

(** The parameter is the first end of the segment, or its numerator is above 1e-7. *)
Definition well_clear (s len2 area2 : R) : Prop := s = 0 \/ (kSegEps < s * len2 /\ kSegEps < s * area2).

(** A reported parameter is the exact one, or it is 0 and so was the one at [x0]. *)
Lemma snap_cases n m s0 g s1 : 0 < m -> 0 <= n <= m -> opt (n / m) g ->
  (s0 = 0 /\ n / m < 1) \/ (s1 <= n / m /\ kSegEps < s1 * m) ->
  seg_param n m = n / m \/ (seg_param n m = 0 /\ s0 = 0 /\ g = 0).
Proof.
  intros M H O [[Z L]|[L1 L2]].
  - unfold seg_param. destruct (Rltb (Rabs n) kSegEps) eqn:Q; [|left; reflexivity].
    destruct O as [G|[[G _]|[G _]]]; [right; auto|left; rewrite G; reflexivity|lra].
  - left. apply param_exact; [exact M|]. right. apply (Rmult_le_compat_r m _ _ (Rlt_le _ _ M)) in L1.
    unfold Rdiv in L1. rewrite Rmult_assoc, Rinv_l in L1 by lra. lra.
Qed.

(** Taking a parameter for 0 costs little. *)
Lemma snap_cost a b c d e k s t S T s0 t0 : 0 < a -> 0 < c -> 0 < a * c - b * b ->
  S = s \/ (S = 0 /\ s0 = 0 /\ a * s - b * t + d = 0) ->
  T = t \/ (T = 0 /\ t0 = 0 /\ c * t - b * s - e = 0) ->
  quad a b c d e k S T <= quad a b c d e k s t + 2 * (a + c) * ((s - s0) * (s - s0) + (t - t0) * (t - t0)).
Proof.
  intros PA PC PD H1 H2. pose proof (quad_diff a b c d e k s t S T) as Q.
  set (u := S - s) in *. set (v := T - t) in *.
  pose proof (quad_pos a b c PA PD u (- v)) as P.
  assert (U : u * u <= (s - s0) * (s - s0) /\ (a * s - b * t + d) * u = 0).
  { destruct H1 as [E|(E1 & E2 & E3)].
    - assert (Z : u = 0) by (unfold u; lra). rewrite Z. pose proof (sq_pos (s - s0)). split; lra.
    - rewrite E3. split; [|ring]. unfold u. rewrite E1, E2. right. ring. }
  assert (W : v * v <= (t - t0) * (t - t0) /\ (c * t - b * s - e) * v = 0).
  { destruct H2 as [E|(E1 & E2 & E3)].
    - assert (Z : v = 0) by (unfold v; lra). rewrite Z. pose proof (sq_pos (t - t0)). split; lra.
    - rewrite E3. split; [|ring]. unfold v. rewrite E1, E2. right. ring. }
  destruct U as [U1 U2]. destruct W as [W1 W2].
  pose proof (sq_pos (s - s0)) as B1. pose proof (sq_pos (t - t0)) as B2.
  pose proof (Rmult_le_compat_l a _ _ (Rlt_le _ _ PA) U1). pose proof (Rmult_le_compat_l c _ _ (Rlt_le _ _ PC) W1).
  pose proof (Rmult_le_pos _ _ (Rlt_le _ _ PA) B2). pose proof (Rmult_le_pos _ _ (Rlt_le _ _ PC) B1). lra.
Qed.

Section Reported.
Context (a b c d e k : R -> R) (a' b' c' d' e' k' x0 s0 t0 : R)
  (Da : is_derive a x0 a') (Db : is_derive b x0 b') (Dc : is_derive c x0 c') (Dd : is_derive d x0 d')
  (De : is_derive e x0 e') (Dk : is_derive k x0 k').
Context (GA : forall x, 0 <= a x) (GC : forall x, 0 <= c x) (GD : forall x, 0 <= a x * c x - b x * b x)
  (PD : kSegEps < a x0 * c x0 - b x0 * b x0) (I1 : in_unit s0) (I2 : in_unit t0)
  (MIN : forall s t, in_unit s -> in_unit t ->
     quad (a x0) (b x0) (c x0) (d x0) (e x0) (k x0) s0 t0 <= quad (a x0) (b x0) (c x0) (d x0) (e x0) (k x0) s t)
  (C1 : well_clear s0 (a x0) (a x0 * c x0 - b x0 * b x0)) (C2 : well_clear t0 (c x0) (a x0 * c x0 - b x0 * b x0)).
Local Notation f x s t := (quad (a x) (b x) (c x) (d x) (e x) (k x) s t).
Local Notation D x := (a x * c x - b x * b x).

Lemma pos_ac x : 0 < D x -> 0 < a x /\ 0 < c x.
Proof.
  clear - GA GC. intros P. pose proof (sq_pos (b x)) as B. destruct (GA x) as [A|A]; [|rewrite <- A in P; lra].
  destruct (GC x) as [C|C]; [|rewrite <- C in P; lra]. split; assumption.
Qed.
Lemma area_derive : is_derive (fun x => D x) x0 (a' * c x0 + a x0 * c' - (b' * b x0 + b x0 * b')).
Proof.
  apply derive_sub.
  - apply (is_derive_mult a c x0 a' c' Da Dc). intros; apply Rmult_comm.
  - apply (is_derive_mult b b x0 b' b' Db Db). intros; apply Rmult_comm.
Qed.

Lemma exact_at x : 0 < D x -> exists sN sD tN tD,
  exact_q (a x) (b x) (c x) (d x) (e x) = (sN, sD, tN, tD) /\ (sD = D x \/ sD = a x) /\ (tD = D x \/ tD = c x) /\
  0 < sD /\ 0 < tD /\ 0 <= sN <= sD /\ 0 <= tN <= tD /\
  opt (sN / sD) (a x * (sN / sD) - b x * (tN / tD) + d x) /\ opt (tN / tD) (c x * (tN / tD) - b x * (sN / sD) - e x).
Proof.
  intros P. destruct (pos_ac x P) as [A C].
  pose proof (edges_ok (a x) (b x) (c x) (d x) (e x) A C P _ (first_step_ok (a x) (b x) (c x) (d x) (e x) C P)) as G. unfold exact_q.
  destruct (seg_edges _ _ _ _) as [[[sN sD] tN] tD] eqn:E. destruct G as (G1 & G2 & G3 & G4 & G5 & G6).
  exists sN, sD, tN, tD. split; [reflexivity|]. split; [exact G1|]. split; [exact G2|].
  split; [destruct G1 as [-> | ->]; assumption|]. split; [destruct G2 as [-> | ->]; assumption|]. auto.
Qed.

Lemma opt_x0 : opt s0 (a x0 * s0 - b x0 * t0 + d x0) /\ opt t0 (c x0 * t0 - b x0 * s0 - e x0).
Proof.
  assert (P : 0 < D x0) by (unfold kSegEps in PD; lra). destruct (pos_ac x0 P) as [A C].
  destruct (exact_at x0 P) as (sN & sD & tN & tD & _ & _ & _ & P1 & P2 & H1 & H2 & O1 & O2).
  destruct (opt_unique (a x0) (b x0) (c x0) (d x0) (e x0) (k x0) A P _ _ s0 t0 O1 O2 I1 I2) as [E1 E2].
  - apply MIN; apply div_unit; assumption.
  - rewrite <- E1, <- E2 in O1, O2. split; assumption.
Qed.

(** Near [x0] the parameter stays clear. *)
Lemma stays_clear (z : R) (w : R -> R) w' K : is_derive w x0 w' ->
  well_clear z (w x0) (D x0) -> in_unit z ->
  exists s1, locally x0 (fun x => forall y, (y - z) * (y - z) <= K * drift a b c d e k x0 x ->
    (z = 0 /\ y < 1) \/ (s1 <= y /\ kSegEps < s1 * w x /\ kSegEps < s1 * D x)).
Proof.
  intros Dw W IZ. pose proof (drift_derive a b c d e k a' b' c' d' e' k' x0 Da Db Dc Dd De Dk) as DD.
  assert (SM : forall r, 0 < r -> locally x0 (fun x => K * drift a b c d e k x0 x < r * r)).
  { intros r Hr. eapply filter_imp; [|apply (locally_below (fun x => drift a b c d e k x0 x * K) x0 (0 * K) (r * r) (derive_lin _ _ _ K DD))].
    - intros x Hx. cbv beta in Hx. lra.
    - rewrite drift_0, Rmult_0_l. apply Rmult_lt_0_compat; assumption. }
  destruct W as [Z|[W1 W2]].
  - exists 0. eapply filter_imp; [|apply (SM 1 ltac:(lra))]. intros x Hx y Hy. left. split; [exact Z|]. cbv beta in Hx. subst z.
    rewrite Rminus_0_r in Hy. destruct (Rlt_le_dec y 1) as [L|L]; [exact L|]. pose proof (Rmult_le_compat 1 y 1 y ltac:(lra) ltac:(lra) L L). lra.
  - assert (ZP : 0 < z). { destruct IZ as [[H|H] _]; [exact H|]. rewrite <- H in W1. unfold kSegEps in W1. lra. }
    assert (PW : 0 < w x0). { apply (pos_div z); [exact ZP|]. unfold kSegEps in W1. lra. }
    assert (PDD : 0 < D x0) by (unfold kSegEps in PD; lra).
    set (m := Rmax (kSegEps / w x0) (kSegEps / D x0)).
    assert (M1 : m < z).
    { unfold m. apply Rmax_lub_lt.
      - apply (Rmult_lt_reg_r (w x0)); [exact PW|]. unfold Rdiv. rewrite Rmult_assoc, Rinv_l; lra.
      - apply (Rmult_lt_reg_r (D x0)); [exact PDD|]. unfold Rdiv. rewrite Rmult_assoc, Rinv_l; lra. }
    set (s1 := (m + z) / 2). exists s1.
    assert (S1 : kSegEps / w x0 < s1) by (unfold s1; pose proof (Rmax_l (kSegEps / w x0) (kSegEps / D x0)); fold m in H; lra).
    assert (S2 : kSegEps / D x0 < s1) by (unfold s1; pose proof (Rmax_r (kSegEps / w x0) (kSegEps / D x0)); fold m in H; lra).
    assert (T1 : kSegEps < w x0 * s1).
    { apply (Rmult_lt_compat_r (w x0) _ _ PW) in S1. unfold Rdiv in S1. rewrite Rmult_assoc, Rinv_l in S1; lra. }
    assert (T2 : kSegEps < D x0 * s1).
    { apply (Rmult_lt_compat_r (D x0) _ _ PDD) in S2. unfold Rdiv in S2. rewrite Rmult_assoc, Rinv_l in S2; lra. }
    assert (R0 : 0 < z - s1) by (unfold s1; lra).
    pose proof (locally_above _ x0 _ kSegEps (derive_lin _ _ _ s1 Dw) T1) as L1.
    pose proof (locally_above _ x0 _ kSegEps (derive_lin _ _ _ s1 area_derive) T2) as L2.
    pose proof (filter_and _ _ (SM _ R0) (filter_and _ _ L1 L2)) as L. eapply filter_imp; [|exact L].
    intros x (X1 & X2 & X3) y Hy. cbv beta in *. right. split; [|split; lra].
    destruct (Rle_lt_dec s1 y) as [G|G]; [exact G|]. exfalso.
    pose proof (Rmult_le_compat (z - s1) (z - y) (z - s1) (z - y) ltac:(lra) ltac:(lra) ltac:(lra) ltac:(lra)). lra.
Qed.

Lemma reported_derive : is_derive (fun x => let q := exact_q (a x) (b x) (c x) (d x) (e x) in f x (rep_s q) (rep_t q)) x0 (quad a' b' c' d' e' k' s0 t0).
Proof.
  assert (P0 : 0 < D x0) by (unfold kSegEps in PD; lra). destruct (pos_ac x0 P0) as [A0 C0].
  destruct opt_x0 as [O1 O2].
  set (K1 := 24 / (modulus a b c x0 * modulus a b c x0)).
  destruct (stays_clear s0 a a' K1 Da C1 I1) as (s1 & L1). destruct (stays_clear t0 c c' K1 Dc C2 I2) as (t1 & L2).
  pose proof (locally_above _ x0 _ kSegEps area_derive PD) as L3.
  pose proof (locally_below _ x0 _ (a x0 + c x0 + 1) (derive_add _ _ _ _ _ Da Dc) ltac:(lra)) as L4.
  apply (moving_derive a b c d e k a' b' c' d' e' k' x0 s0 t0 Da Db Dc Dd De Dk A0 C0 P0 I1 I2 O1 O2
    (fun x => rep_s (exact_q (a x) (b x) (c x) (d x) (e x))) (fun x => rep_t (exact_q (a x) (b x) (c x) (d x) (e x))) (2 * (a x0 + c x0 + 1) * K1)).
  - intros x. apply rep_unit; [apply GA|apply GC|apply GD].
  - intros x. apply rep_unit; [apply GA|apply GC|apply GD].
  - pose proof (filter_and _ _ L1 (filter_and _ _ L2 (filter_and _ _ L3 L4))) as L. eapply filter_imp; [|exact L].
    intros x (X1 & X2 & X3 & X4). cbv beta in *. assert (P : 0 < D x) by (unfold kSegEps in X3; lra). destruct (pos_ac x P) as [A C].
    destruct (exact_at x P) as (sN & sD & tN & tD & E & G1 & G2 & P1 & P2 & H1 & H2 & Q1 & Q2). rewrite E. cbn [rep_s rep_t].
    pose proof (opt_min (a x) (b x) (c x) (d x) (e x) (k x) A P _ _ s0 t0 Q1 Q2 I1 I2) as MN.
    pose proof (near_min a b c d e k x0 s0 t0 A0 C0 P0 I1 I2 O1 O2 x _ _ (div_unit _ _ P1 H1) (div_unit _ _ P2 H2) MN) as NM. fold K1 in NM.
    assert (N1 : (sN / sD - s0) * (sN / sD - s0) <= K1 * drift a b c d e k x0 x) by (pose proof (sq_pos (tN / tD - t0)); lra).
    assert (N2 : (tN / tD - t0) * (tN / tD - t0) <= K1 * drift a b c d e k x0 x) by (pose proof (sq_pos (sN / sD - s0)); lra).
    assert (B1 : seg_param sN sD = sN / sD \/ (seg_param sN sD = 0 /\ s0 = 0 /\ a x * (sN / sD) - b x * (tN / tD) + d x = 0)).
    { apply (snap_cases sN sD s0 _ s1 P1 H1 Q1). destruct (X1 _ N1) as [?|(Y1 & Y2 & Y3)]; [left; assumption|right]. split; [exact Y1|]. destruct G1 as [-> | ->]; assumption. }
    assert (B2 : seg_param tN tD = tN / tD \/ (seg_param tN tD = 0 /\ t0 = 0 /\ c x * (tN / tD) - b x * (sN / sD) - e x = 0)).
    { apply (snap_cases tN tD t0 _ t1 P2 H2 Q2). destruct (X2 _ N2) as [?|(Y1 & Y2 & Y3)]; [left; assumption|right]. split; [exact Y1|]. destruct G2 as [-> | ->]; assumption. }
    pose proof (snap_cost (a x) (b x) (c x) (d x) (e x) (k x) _ _ _ _ s0 t0 A C P B1 B2) as SC.
    set (z := (sN / sD - s0) * (sN / sD - s0) + (tN / tD - t0) * (tN / tD - t0)) in *.
    assert (Z0 : 0 <= z) by (unfold z; pose proof (sq_pos (sN / sD - s0)); pose proof (sq_pos (tN / tD - t0)); lra).
    assert (Z1 : 2 * (a x + c x) * z <= 2 * (a x0 + c x0 + 1) * (K1 * drift a b c d e k x0 x)).
    { apply Rmult_le_compat; lra. }
    lra.
Qed.
End Reported.
