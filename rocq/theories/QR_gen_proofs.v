(** Facts shared by the three online QR solvers. *)

From Coq Require Import Reals List Arith Bool Lia Lra.
From Verif Require Import LinAlg Rbool QR_model QR_spec.
Import ListNotations.
Local Open Scope R_scope.

(** ** Householder reflections *)

Lemma sumn_sq_nonneg m x : 0 <= sumn m (fun k => x k * x k).
Proof. apply sumn_nonneg. intros. nra. Qed.

Lemma sumn_sq_zero m x :
  sumn m (fun k => x k * x k) = 0 -> forall k, (k < m)%nat -> x k = 0.
Proof.
  intros H k Hk. unfold sumn in H.
  rewrite rsum_zero_iff in H by (intros; nra).
  specialize (H k). rewrite in_seq in H. specialize (H ltac:(lia)). cbn in H. nra.
Qed.

(** The facts about (beta, mu, v) everything else rests on. *)
Lemma hh_vec_facts x1 m x beta mu v :
  hh_vec x1 m x = (beta, mu, v) ->
  beta * (beta * (1 + sumn m (fun k => v k * v k)) - 2) = 0 /\
  mu * mu = x1 * x1 + sumn m (fun k => x k * x k) /\
  x1 - (x1 + sumn m (fun k => v k * x k)) * beta = mu /\
  (forall k, (k < m)%nat -> x k - (x1 + sumn m (fun k => v k * x k)) * beta * v k = 0).
Proof.
  unfold hh_vec. set (sigma := sumn m (fun k => x k * x k)).
  assert (Hs : 0 <= sigma) by apply sumn_sq_nonneg.
  destruct (Reqb_spec sigma 0) as [E|N]; intros H.
  - injection H as <- <- <-. repeat split.
    + ring.
    + rewrite E. ring.
    + ring.
    + intros k Hk. unfold sigma in E. rewrite (sumn_sq_zero _ _ E k Hk). ring.
  - injection H as <- <- <-.
    set (mu := sqrt (x1 * x1 + sigma)).
    assert (Hmu : mu * mu = x1 * x1 + sigma) by (apply sqrt_sqrt; nra).
    assert (Hmu0 : 0 < mu) by (apply sqrt_lt_R0; nra).
    set (v1 := if Rleb x1 0 then x1 - mu else - sigma / (x1 + mu)).
    assert (Hv1 : v1 = x1 - mu).
    { unfold v1. destruct (Rleb_spec x1 0) as [L|G]; [reflexivity|].
      assert (x1 + mu <> 0) by lra.
      apply (Rmult_eq_reg_r (x1 + mu)); [|assumption]. field_simplify; [|assumption]. nra. }
    assert (Hv0 : v1 <> 0) by (rewrite Hv1; nra).
    assert (Hd : sigma + v1 * v1 <> 0) by nra.
    assert (Evv : sumn m (fun k => x k / v1 * (x k / v1)) = sigma / (v1 * v1)).
    { unfold sigma, Rdiv. rewrite <- sumn_scal_r. apply sumn_ext. intros. field. assumption. }
    assert (Evx : sumn m (fun k => x k / v1 * x k) = sigma / v1).
    { unfold sigma, Rdiv. rewrite <- sumn_scal_r. apply sumn_ext. intros. ring. }
    rewrite Evv, Evx.
    assert (Edot : (x1 + sigma / v1) * (2 * (v1 * v1) / (sigma + v1 * v1)) = v1).
    { assert (E2 : 2 * (x1 * v1 + sigma) = sigma + v1 * v1).
      { rewrite Hv1. nra. }
      replace ((x1 + sigma / v1) * (2 * (v1 * v1) / (sigma + v1 * v1)))
        with ((2 * (x1 * v1 + sigma)) * v1 / (sigma + v1 * v1)) by (field; auto).
      rewrite E2. field. assumption. }
    repeat split.
    + assert (E1 : 2 * (v1 * v1) / (sigma + v1 * v1) * (1 + sigma / (v1 * v1)) = 2) by (field; auto).
      rewrite E1. ring.
    + assumption.
    + rewrite Edot. rewrite Hv1. ring.
    + intros k Hk. rewrite Edot. field. assumption.
Qed.

(** A reflection preserves inner products. *)
Lemma hh_pair beta m v p x q z :
  beta * (beta * (1 + sumn m (fun k => v k * v k)) - 2) = 0 ->
  let s := (p + sumn m (fun k => v k * x k)) * beta in
  let t := (q + sumn m (fun k => v k * z k)) * beta in
  (p - s) * (q - t) + sumn m (fun k => (x k - s * v k) * (z k - t * v k)) =
  p * q + sumn m (fun k => x k * z k).
Proof.
  intros Hb s t.
  assert (E : sumn m (fun k => (x k - s * v k) * (z k - t * v k)) =
              sumn m (fun k => x k * z k) - t * sumn m (fun k => v k * x k)
              - s * sumn m (fun k => v k * z k) + s * t * sumn m (fun k => v k * v k)).
  { rewrite <- !sumn_scal, <- !sumn_minus, <- sumn_plus. apply sumn_ext. intros; ring. }
  rewrite E. clear E. unfold s, t.
  set (a := sumn m (fun k => v k * x k)). set (c := sumn m (fun k => v k * z k)).
  set (n2 := sumn m (fun k => v k * v k)) in *.
  transitivity (p * q + sumn m (fun k => x k * z k)
    + (p + a) * (q + c) * (beta * (beta * (1 + n2) - 2))); [ring|rewrite Hb; ring].
Qed.

(** ** One elimination, seen on the rows and columns it touches

    [r] is the pivot row of R and [A] the pending rows, over any set of columns; [i] is the pivot
    column.  The right-hand side counts as one more column. *)
Definition row_step (m i : nat) (r : vec) (A : mat) (r' : vec) (A' : mat) (P : nat -> Prop) : Prop :=
  let '(beta, mu, v) := hh_vec (r i) m (col A i) in
  r' i = mu /\ (forall k, (k < m)%nat -> A' k i = 0) /\
  (forall c, P c -> c <> i ->
     r' c = r c - (r c + sumn m (fun k => v k * A k c)) * beta /\
     forall k, (k < m)%nat -> A' k c = A k c - (r c + sumn m (fun k => v k * A k c)) * beta * v k).

Lemma row_step_pair m i r A r' A' P c d :
  row_step m i r A r' A' P -> (P c \/ c = i) -> (P d \/ d = i) ->
  r' c * r' d + sumn m (fun k => A' k c * A' k d) =
  r c * r d + sumn m (fun k => A k c * A k d).
Proof.
  unfold row_step. destruct (hh_vec (r i) m (col A i)) as [[beta mu] v] eqn:E.
  destruct (hh_vec_facts _ _ _ _ _ _ E) as (Hb & _ & Hp & Hz). unfold col in Hp, Hz.
  intros (H1 & H2 & H3) Hc Hd.
  assert (F : forall c, P c \/ c = i ->
     r' c = r c - (r c + sumn m (fun k => v k * A k c)) * beta /\
     forall k, (k < m)%nat -> A' k c = A k c - (r c + sumn m (fun k => v k * A k c)) * beta * v k).
  { intros e He. destruct (Nat.eq_dec e i) as [->|Ne].
    - split.
      + rewrite H1. symmetry. exact Hp.
      + intros k Hk. rewrite (H2 k Hk). symmetry. apply Hz. exact Hk.
    - apply H3; [|assumption]. destruct He; [assumption|contradiction]. }
  destruct (F c Hc) as [Fc1 Fc2]. destruct (F d Hd) as [Fd1 Fd2].
  rewrite Fc1, Fd1.
  rewrite (sumn_ext m (fun k => A' k c * A' k d)
    (fun k => (A k c - (r c + sumn m (fun k => v k * A k c)) * beta * v k) *
              (A k d - (r d + sumn m (fun k => v k * A k d)) * beta * v k))).
  - apply (hh_pair beta m v (r c) (fun k => A k c) (r d) (fun k => A k d) Hb).
  - intros k Hk. rewrite Fc2, Fd2 by assumption. reflexivity.
Qed.

Lemma row_step_pivot m i r A r' A' P :
  row_step m i r A r' A' P -> r i * r i <= r' i * r' i.
Proof.
  unfold row_step. destruct (hh_vec (r i) m (col A i)) as [[beta mu] v] eqn:E.
  destruct (hh_vec_facts _ _ _ _ _ _ E) as (_ & Hm & _ & _).
  intros (H1 & _). rewrite H1, Hm. pose proof (sumn_sq_nonneg m (col A i)). lra.
Qed.

(** ** Dense elimination: what every solver does, seen on an N x N factor

    Column N stands for the right-hand side. *)
Definition aug (N : nat) (M : mat) (y : vec) : mat := fun r c => if (c =? N)%nat then y r else M r c.

Definition total (N m : nat) (M A : mat) (c d : nat) : R :=
  sumn N (fun r => M r c * M r d) + sumn m (fun k => A k c * A k d).

Lemma total_step N m i M A M' A' c d :
  (i < N)%nat -> (c <= N)%nat -> (d <= N)%nat ->
  (forall r e, (r < N)%nat -> (e <= N)%nat -> r <> i -> M' r e = M r e) ->
  row_step m i (M i) A (M' i) A' (fun e => (e <= N)%nat) ->
  total N m M' A' c d = total N m M A c d.
Proof.
  intros Hi Hc Hd Ho Hr. unfold total.
  pose proof (row_step_pair _ _ _ _ _ _ _ c d Hr (or_introl Hc) (or_introl Hd)) as E.
  assert (S : sumn N (fun r => M' r c * M' r d) - M' i c * M' i d =
              sumn N (fun r => M r c * M r d) - M i c * M i d).
  { assert (G : forall f g : nat -> R, (forall r, (r < N)%nat -> r <> i -> f r = g r) ->
       sumn N f - f i = sumn N g - g i).
    { intros f g Hfg.
      assert (X : sumn N (fun r => f r - g r) = f i - g i).
      { apply (sumn_single N i (fun r => f r - g r)); [assumption|].
        intros r Hr' Hn. rewrite Hfg by assumption. ring. }
      rewrite sumn_minus in X. lra. }
    apply (G (fun r => M' r c * M' r d) (fun r => M r c * M r d)).
    intros r Hr' Hn. rewrite !Ho by assumption. reflexivity. }
  lra.
Qed.

(** ** The column loop *)

Lemma upd_same v i x : upd v i x i = x.
Proof. unfold upd. rewrite Nat.eqb_refl. reflexivity. Qed.
Lemma upd_other v i j x : j <> i -> upd v i x j = v j.
Proof. intros H. unfold upd. apply Nat.eqb_neq in H. rewrite H. reflexivity. Qed.
Lemma upd_col_same M j v k : upd_col M j v k j = v k.
Proof. unfold upd_col. rewrite Nat.eqb_refl. reflexivity. Qed.
Lemma upd_col_other M j c v k : c <> j -> upd_col M j v k c = M k c.
Proof. intros H. unfold upd_col. apply Nat.eqb_neq in H. rewrite H. reflexivity. Qed.
Lemma upd_row_same M i v c : upd_row M i v i c = v c.
Proof. unfold upd_row. rewrite Nat.eqb_refl. reflexivity. Qed.
Lemma upd_row_other M i r v c : r <> i -> upd_row M i v r c = M r c.
Proof. intros H. unfold upd_row. apply Nat.eqb_neq in H. rewrite H. reflexivity. Qed.
Lemma upd_at_same M i j x : upd_at M i j x i j = x.
Proof. unfold upd_at. rewrite !Nat.eqb_refl. reflexivity. Qed.
Lemma upd_at_other M i j x r c : r <> i \/ c <> j -> upd_at M i j x r c = M r c.
Proof.
  intros H. unfold upd_at.
  destruct (Nat.eqb_spec r i), (Nat.eqb_spec c j); cbn; try reflexivity. lia.
Qed.

Lemma apply_cols_spec beta m v js : NoDup js -> forall r A r' A',
  apply_cols beta m v js r A = (r', A') ->
  forall c,
    (In c js ->
       r' c = r c - (r c + sumn m (fun k => v k * A k c)) * beta /\
       forall k, A' k c = A k c - (r c + sumn m (fun k => v k * A k c)) * beta * v k) /\
    (~ In c js -> r' c = r c /\ forall k, A' k c = A k c).
Proof.
  induction js as [|j js IH]; intros Hnd r A r' A' H c.
  - cbn in H. injection H as <- <-. split; [contradiction|auto].
  - inversion Hnd as [|j0 js0 Hj Hnd']; subst j0 js0.
    change (apply_cols beta m v js
      (upd r j (r j - (r j + sumn m (fun k => v k * col A j k)) * beta))
      (upd_col A j (fun k => col A j k - (r j + sumn m (fun k => v k * col A j k)) * beta * v k))
      = (r', A')) in H.
    destruct (IH Hnd' _ _ r' A' H c) as [I1 I2]. clear H IH.
    split.
    + intros [->|Hin].
      * destruct (I2 Hj) as [E1 E2]. rewrite E1, upd_same. split; [reflexivity|].
        intros k. rewrite E2, upd_col_same. reflexivity.
      * assert (c <> j) by (intros ->; contradiction).
        destruct (I1 Hin) as [E1 E2]. rewrite upd_other in E1, E2 by assumption.
        assert (Es : sumn m (fun k => v k *
           upd_col A j (fun k => col A j k - (r j + sumn m (fun k => v k * col A j k)) * beta * v k) k c)
           = sumn m (fun k => v k * A k c)).
        { apply sumn_ext. intros. rewrite upd_col_other by assumption. reflexivity. }
        rewrite Es in E1, E2. split; [exact E1|].
        intros k. rewrite E2, upd_col_other by assumption. reflexivity.
    + intros Hn. assert (c <> j) by (intros ->; apply Hn; left; reflexivity).
      destruct (I2 (fun h => Hn (or_intror h))) as [E1 E2].
      rewrite E1, upd_other by assumption. split; [reflexivity|].
      intros k. rewrite E2, upd_col_other by assumption. reflexivity.
Qed.

(** ** Back substitution *)

Lemma tri_solve_spec n U y :
  (forall i, (i < n)%nat -> U i i <> 0) ->
  forall i, (i < n)%nat ->
  rsum (map (fun j => U i j * tri_solve n U y j) (seq i (n - i))) = y i.
Proof.
  intros Hd. unfold tri_solve.
  set (f := fun x i => upd x i ((y i - rsum (map (fun j => U i j * x j) (seq (S i) (n - S i)))) / U i i)).
  assert (G : forall k, (k <= n)%nat -> forall x,
     (forall i, (n - k <= i < n)%nat ->
        rsum (map (fun j => U i j * x j) (seq i (n - i))) = y i) ->
     forall i, (i < n)%nat ->
       rsum (map (fun j => U i j * fold_left f (rev (seq 0 (n - k))) x j) (seq i (n - i))) = y i).
  { intros k Hk. remember (n - k)%nat as p eqn:Ep.
    assert (Hp : (p <= n)%nat) by lia. clear k Hk Ep. induction p as [|p IH]; intros x Hx i Hi.
    - cbn. apply Hx. lia.
    - rewrite seq_S, rev_app_distr. cbn [rev app fold_left Nat.add].
      apply IH; [lia| |assumption].
      intros j Hj. unfold f.
      destruct (Nat.eq_dec j p) as [->|Nj].
      + replace (n - p)%nat with (S (n - S p)) by lia. cbn [seq map rsum].
        rewrite upd_same. set (w := (y p - _) / U p p).
        rewrite (rsum_map_ext (fun q => U p q * upd x p w q) (fun q => U p q * x q) (seq (S p) (n - S p))).
        * unfold w. field. apply Hd. lia.
        * intros q Hq. apply in_seq in Hq. rewrite upd_other by lia. reflexivity.
      + set (w := (y p - _) / U p p).
        rewrite (rsum_map_ext (fun q => U j q * upd x p w q) (fun q => U j q * x q)).
        * apply Hx. lia.
        * intros q Hq. apply in_seq in Hq. rewrite upd_other by lia. reflexivity. }
  intros i Hi. specialize (G 0%nat ltac:(lia) (fun _ => 0)).
  rewrite Nat.sub_0_r in G. apply G; [|assumption]. intros. lia.
Qed.

Lemma rsum_seq_tail n i (f : nat -> R) : (i <= n)%nat ->
  (forall j, (j < i)%nat -> f j = 0) -> rsum (map f (seq i (n - i))) = sumn n f.
Proof.
  intros Hi Hz. unfold sumn. replace n with (i + (n - i))%nat at 2 by lia.
  rewrite seq_app, map_app, rsum_app, (rsum_map_zero _ (seq 0 i)).
  - cbn. ring.
  - intros x Hx. apply in_seq in Hx. apply Hz. lia.
Qed.

Lemma tri_solve_eqs n U y :
  (forall i, (i < n)%nat -> U i i <> 0) ->
  (forall i j, (i < n)%nat -> (j < i)%nat -> U i j = 0) ->
  forall i, (i < n)%nat -> sumn n (fun j => U i j * tri_solve n U y j) = y i.
Proof.
  intros Hd Hu i Hi. rewrite <- (tri_solve_spec n U y Hd i Hi).
  symmetry. apply rsum_seq_tail; [lia|]. intros j Hj. rewrite Hu by assumption. ring.
Qed.

(** ** From a factorisation to the minimiser *)

Lemma objective_expand n lambda Bs x :
  objective n lambda Bs x =
  sumn n (fun i => sumn n (fun j => gram lambda Bs i j * x i * x j))
  - 2 * sumn n (fun i => rhs Bs i * x i)
  + rsum (map (fun B => sumn (lb_rows B) (fun k => lb_b B k * lb_b B k)) Bs).
Proof.
  unfold objective, gram, rhs.
  assert (E1 : lambda * lambda * sumn n (fun j => x j * x j) =
    sumn n (fun i => sumn n (fun j => (if (i =? j)%nat then lambda * lambda else 0) * x i * x j))).
  { rewrite <- sumn_scal. apply sumn_ext. intros i Hi.
    rewrite (sumn_single n i); [rewrite Nat.eqb_refl; ring|assumption|].
    intros j Hj Hn. destruct (Nat.eqb_spec i j); [subst; contradiction|ring]. }
  assert (E2 : forall B, sumn (lb_rows B) (fun k =>
      (sumn n (fun j => lb_A B k j * x j) - lb_b B k) * (sumn n (fun j => lb_A B k j * x j) - lb_b B k))
    = sumn n (fun i => sumn n (fun j => sumn (lb_rows B) (fun k => lb_A B k i * lb_A B k j) * x i * x j))
      - 2 * sumn n (fun i => sumn (lb_rows B) (fun k => lb_A B k i * lb_b B k) * x i)
      + sumn (lb_rows B) (fun k => lb_b B k * lb_b B k)).
  { intros B.
    assert (X1 : sumn n (fun i => sumn n (fun j =>
                   sumn (lb_rows B) (fun k => lb_A B k i * lb_A B k j) * x i * x j))
               = sumn (lb_rows B) (fun k => sumn n (fun i => lb_A B k i * x i) * sumn n (fun j => lb_A B k j * x j))).
    { transitivity (sumn n (fun i => sumn (lb_rows B) (fun k =>
        lb_A B k i * x i * sumn n (fun j => lb_A B k j * x j)))).
      - apply sumn_ext. intros i Hi.
        transitivity (sumn n (fun j => sumn (lb_rows B) (fun k => lb_A B k i * x i * (lb_A B k j * x j)))).
        + apply sumn_ext. intros j Hj. rewrite <- !sumn_scal_r. apply sumn_ext. intros; ring.
        + rewrite sumn_swap. apply sumn_ext. intros k Hk. apply sumn_scal.
      - rewrite sumn_swap. apply sumn_ext. intros k Hk. apply sumn_scal_r. }
    assert (X2 : sumn n (fun i => sumn (lb_rows B) (fun k => lb_A B k i * lb_b B k) * x i)
               = sumn (lb_rows B) (fun k => sumn n (fun i => lb_A B k i * x i) * lb_b B k)).
    { transitivity (sumn n (fun i => sumn (lb_rows B) (fun k => lb_A B k i * x i * lb_b B k))).
      - apply sumn_ext. intros i Hi. rewrite <- sumn_scal_r. apply sumn_ext. intros; ring.
      - rewrite sumn_swap. apply sumn_ext. intros k Hk. apply sumn_scal_r. }
    rewrite X1, X2, <- sumn_scal, <- sumn_minus, <- sumn_plus. apply sumn_ext. intros; ring. }
  induction Bs as [|B Bs IH].
  - cbn [map rsum]. rewrite E1.
    rewrite (sumn_zero n (fun i => 0 * x i)) by (intros; ring).
    assert (X : forall i j, ((if (i =? j)%nat then lambda * lambda else 0) + 0) * x i * x j =
                 (if (i =? j)%nat then lambda * lambda else 0) * x i * x j) by (intros; ring).
    rewrite (sumn_ext n (fun i => sumn n (fun j => ((if (i =? j)%nat then lambda * lambda else 0) + 0) * x i * x j))
       (fun i => sumn n (fun j => (if (i =? j)%nat then lambda * lambda else 0) * x i * x j)))
       by (intros; apply sumn_ext; intros; apply X).
    ring.
  - cbn [map rsum]. rewrite E2.
    assert (Y1 : sumn n (fun i => sumn n (fun j =>
       ((if (i =? j)%nat then lambda * lambda else 0) +
        (sumn (lb_rows B) (fun k => lb_A B k i * lb_A B k j) +
         rsum (map (fun B => sumn (lb_rows B) (fun k => lb_A B k i * lb_A B k j)) Bs))) * x i * x j))
     = sumn n (fun i => sumn n (fun j => sumn (lb_rows B) (fun k => lb_A B k i * lb_A B k j) * x i * x j))
     + sumn n (fun i => sumn n (fun j =>
       ((if (i =? j)%nat then lambda * lambda else 0) +
         rsum (map (fun B => sumn (lb_rows B) (fun k => lb_A B k i * lb_A B k j)) Bs)) * x i * x j))).
    { rewrite <- sumn_plus. apply sumn_ext. intros i Hi. rewrite <- sumn_plus.
      apply sumn_ext. intros; ring. }
    assert (Y2 : sumn n (fun i => (sumn (lb_rows B) (fun k => lb_A B k i * lb_b B k) +
         rsum (map (fun B => sumn (lb_rows B) (fun k => lb_A B k i * lb_b B k)) Bs)) * x i)
      = sumn n (fun i => sumn (lb_rows B) (fun k => lb_A B k i * lb_b B k) * x i)
      + sumn n (fun i => rsum (map (fun B => sumn (lb_rows B) (fun k => lb_A B k i * lb_b B k)) Bs) * x i)).
    { rewrite <- sumn_plus. apply sumn_ext. intros; ring. }
    rewrite Y1, Y2. lra.
Qed.

(** If U is upper triangular with nonzero diagonal, U^T U is the Gram matrix and U^T y the
    right-hand side, then the solution of U x = y is the unique minimiser. *)
Lemma factor_minimises n lambda Bs U y x :
  (forall i j, (i < n)%nat -> (j < n)%nat ->
     sumn n (fun r => U r i * U r j) = gram lambda Bs i j) ->
  (forall i, (i < n)%nat -> sumn n (fun r => U r i * y r) = rhs Bs i) ->
  (forall i, (i < n)%nat -> U i i <> 0) ->
  (forall i j, (i < n)%nat -> (j < i)%nat -> U i j = 0) ->
  (forall i, (i < n)%nat -> sumn n (fun j => U i j * x j) = y i) ->
  unique_minimiser n (objective n lambda Bs) x.
Proof.
  intros HG Hr Hd Hu Hx z.
  assert (E : forall w, objective n lambda Bs w =
     sumn n (fun r => (sumn n (fun j => U r j * w j) - y r) * (sumn n (fun j => U r j * w j) - y r))
     - sumn n (fun r => y r * y r)
     + rsum (map (fun B => sumn (lb_rows B) (fun k => lb_b B k * lb_b B k)) Bs)).
  { intros w. rewrite objective_expand.
    pose proof (objective_expand n 0 [{| lb_rows := n; lb_A := U; lb_b := y |}] w) as X.
    unfold objective at 1 in X. cbn [map rsum lb_rows lb_A lb_b] in X.
    assert (Y1 : sumn n (fun i => sumn n (fun j => gram 0 [{| lb_rows := n; lb_A := U; lb_b := y |}] i j * w i * w j))
      = sumn n (fun i => sumn n (fun j => gram lambda Bs i j * w i * w j))).
    { apply sumn_ext. intros i Hi. apply sumn_ext. intros j Hj. rewrite <- HG by assumption.
      unfold gram. cbn [map rsum lb_rows lb_A lb_b]. destruct (i =? j)%nat; ring. }
    assert (Y2 : sumn n (fun i => rhs [{| lb_rows := n; lb_A := U; lb_b := y |}] i * w i)
      = sumn n (fun i => rhs Bs i * w i)).
    { apply sumn_ext. intros i Hi. rewrite <- Hr by assumption.
      unfold rhs. cbn [map rsum lb_rows lb_A lb_b]. ring. }
    rewrite Y1, Y2 in X. lra. }
  rewrite !E.
  rewrite (sumn_zero n (fun r => (sumn n (fun j => U r j * x j) - y r) * (sumn n (fun j => U r j * x j) - y r)))
    by (intros i Hi; rewrite Hx by assumption; ring).
  pose proof (sumn_sq_nonneg n (fun r => sumn n (fun j => U r j * z j) - y r)) as Hn. cbv beta in Hn.
  split; [lra|]. intros Heq.
  assert (Hz0 : sumn n (fun r => (sumn n (fun j => U r j * z j) - y r) * (sumn n (fun j => U r j * z j) - y r)) = 0)
    by lra.
  pose proof (sumn_sq_zero n (fun r => sumn n (fun j => U r j * z j) - y r) Hz0) as Hz. cbv beta in Hz.
  assert (Hw : forall i, (i < n)%nat -> sumn n (fun j => U i j * (z j - x j)) = 0).
  { intros i Hi.
    transitivity (sumn n (fun j => U i j * z j) - sumn n (fun j => U i j * x j)).
    - rewrite <- sumn_minus. apply sumn_ext. intros; ring.
    - rewrite Hx by assumption. specialize (Hz i Hi). lra. }
  assert (HS : forall p, forall j, (j < n)%nat -> (n <= j + p)%nat -> z j - x j = 0).
  { induction p as [|p IH]; intros j Hj Hp; [lia|].
    specialize (Hw j Hj).
    rewrite (sumn_single n j) in Hw; [|assumption|].
    - specialize (Hd j Hj). apply Rmult_integral in Hw. destruct Hw; [contradiction|assumption].
    - intros q Hq Hne. destruct (Nat.lt_ge_cases q j) as [L|G].
      + rewrite Hu by assumption. ring.
      + rewrite IH by lia. ring. }
  intros j Hj. specialize (HS n j Hj ltac:(lia)). lra.
Qed.
