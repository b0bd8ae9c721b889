(** Normal equations, and a solver of positive definite systems (elimination), which shows that
    the contract asked of Eigen's LLT can be met. *)

From Coq Require Import Reals List Arith Bool Lia Lra Psatz.
From Verif Require Import ListUtil LinAlg Rbool Solver_spec.
Import ListNotations.
Local Open Scope R_scope.

Fixpoint gsolve (n : nat) (H : nat -> nat -> R) (g : nat -> R) : nat -> R :=
  match n with
  | O => fun _ => 0
  | S n' =>
      let y := gsolve n' (fun i j => H (S i) (S j) - H (S i) 0%nat * H 0%nat (S j) / H 0%nat 0%nat)
                         (fun i => g (S i) - H (S i) 0%nat * g 0%nat / H 0%nat 0%nat) in
      fun i => match i with
               | O => (g 0%nat - sumn n' (fun j => H 0%nat (S j) * y j)) / H 0%nat 0%nat
               | S i' => y i'
               end
  end.

Lemma quad_shift n H x :
  quad (S n) H x =
  H 0%nat 0%nat * x 0%nat * x 0%nat +
  x 0%nat * sumn n (fun j => H 0%nat (S j) * x (S j)) +
  x 0%nat * sumn n (fun i => H (S i) 0%nat * x (S i)) +
  quad n (fun i j => H (S i) (S j)) (fun i => x (S i)).
Proof.
  unfold quad. rewrite sumn_shift. cbv beta. rewrite (sumn_shift n (fun j => H 0%nat j * x j)).
  rewrite (sumn_ext n (fun i => x (S i) * sumn (S n) (fun j => H (S i) j * x j))
     (fun i => x 0%nat * (H (S i) 0%nat * x (S i)) +
     x (S i) * sumn n (fun j => H (S i) (S j) * x (S j)))).
  2:{ intros i Hi. rewrite sumn_shift. ring. }
  rewrite sumn_plus, sumn_scal. ring.
Qed.

Lemma gsolve_ok : solves_spd gsolve.
Proof.
  intros n. induction n as [|n IH]; intros H g Hs Hp i Hi; [lia|].
  assert (Ha : 0 < H 0%nat 0%nat).
  { specialize (Hp (fun i => match i with O => 1 | _ => 0 end)).
    rewrite quad_shift in Hp. cbn beta iota in Hp.
    rewrite (sumn_zero n (fun j => H 0%nat (S j) * 0)) in Hp by (intros; ring).
    rewrite (sumn_zero n (fun j => H (S j) 0%nat * 0)) in Hp by (intros; ring).
    unfold quad in Hp. rewrite (sumn_zero n (fun i => 0 * _)) in Hp by (intros; ring).
    assert (0 < H 0%nat 0%nat * 1 * 1 + 1 * 0 + 1 * 0 + 0).
    { apply Hp. exists 0%nat. split; [lia|lra]. }
    lra. }
  set (C := fun i j => H (S i) (S j) - H (S i) 0%nat * H 0%nat (S j) / H 0%nat 0%nat).
  set (c := fun i => g (S i) - H (S i) 0%nat * g 0%nat / H 0%nat 0%nat).
  assert (Cs : symmetric n C).
  { intros a b La Lb. unfold C. rewrite (Hs (S a) (S b)), (Hs (S a) 0%nat), (Hs 0%nat (S b)) by lia.
    unfold Rdiv. ring. }
  assert (Cp : positive_definite n C).
  { intros x (k & Hk & Hx).
    set (s := sumn n (fun j => H 0%nat (S j) * x j)).
    set (X := fun i => match i with O => - s / H 0%nat 0%nat | S i' => x i' end).
    assert (E : quad n C x = quad (S n) H X).
    { rewrite quad_shift.
      assert (E0 : sumn n (fun i => H (S i) 0%nat * X (S i)) = s).
      { unfold s. apply sumn_ext. intros j Hj. rewrite (Hs (S j) 0%nat) by lia. reflexivity. }
      rewrite E0. change (sumn n (fun j => H 0%nat (S j) * X (S j))) with s.
      change (X 0%nat) with (- s / H 0%nat 0%nat).
      change (fun i => X (S i)) with x.
      unfold quad.
      rewrite (sumn_ext n (fun i => x i * sumn n (fun j => C i j * x j))
         (fun i => x i * sumn n (fun j => H (S i) (S j) * x j) - (s / H 0%nat 0%nat) * (H 0%nat (S i) * x i))).
      2:{ intros j Hj. unfold C.
          rewrite (sumn_ext n _ (fun j0 => H (S j) (S j0) * x j0 -
                 (H (S j) 0%nat / H 0%nat 0%nat) * (H 0%nat (S j0) * x j0))) by (intros; unfold Rdiv; ring).
          rewrite sumn_minus, sumn_scal. fold s. rewrite (Hs (S j) 0%nat) by lia. unfold Rdiv. ring. }
      rewrite sumn_minus, sumn_scal. fold s. field. lra. }
    rewrite E. apply Hp. exists (S k). split; [lia|exact Hx]. }
  pose proof (IH C c Cs Cp) as Hy. fold C c in Hy.
  rewrite sumn_shift. cbn [gsolve]. fold C c.
  set (y := gsolve n C c) in *.
  destruct i as [|i].
  - cbn beta iota. field. lra.
  - specialize (Hy i ltac:(lia)).
    assert (E : sumn n (fun j => H (S i) (S j) * y j) =
                c i + H (S i) 0%nat / H 0%nat 0%nat * sumn n (fun j => H 0%nat (S j) * y j)).
    { rewrite <- Hy, <- sumn_scal, <- sumn_plus. apply sumn_ext. intros j Hj. unfold C, Rdiv. ring. }
    cbn beta iota. rewrite E. unfold c. field. lra.
Qed.

(** ** The normal matrix *)

Lemma normal_symmetric n rows alpha : symmetric n (normal_matrix rows alpha).
Proof.
  intros i j _ _. unfold normal_matrix. rewrite Nat.eqb_sym. f_equal.
  apply rsum_map_ext. intros; ring.
Qed.

Lemma quad_normal n rows alpha x :
  quad n (normal_matrix rows alpha) x =
  rsum (map (fun row => sumn n (fun j => nth j (fst row) 0 * x j) *
                        sumn n (fun j => nth j (fst row) 0 * x j)) rows) +
  alpha * sumn n (fun j => x j * x j).
Proof.
  unfold quad.
  rewrite (sumn_ext n _ (fun i =>
     rsum (map (fun row => (x i * nth i (fst row) 0) * sumn n (fun j => nth j (fst row) 0 * x j)) rows)
     + alpha * (x i * x i))).
  2:{ intros i Hi. unfold normal_matrix.
      rewrite (sumn_ext n _ (fun j =>
        rsum (map (fun row => (nth i (fst row) 0) * (nth j (fst row) 0 * x j)) rows) +
        (if (i =? j)%nat then alpha else 0) * x j)).
      2:{ intros j Hj. rewrite Rmult_plus_distr_r. f_equal.
          rewrite Rmult_comm, <- rsum_map_scal. apply rsum_map_ext. intros; ring. }
      rewrite sumn_plus, Rmult_plus_distr_l. f_equal.
      - rewrite sumn_rsum_swap, <- rsum_map_scal. apply rsum_map_ext. intros row _.
        rewrite sumn_scal. ring.
      - rewrite (sumn_single n i); [rewrite Nat.eqb_refl; ring|exact Hi|].
        intros j Hj Hne. destruct (Nat.eqb_spec i j); [lia|ring]. }
  rewrite sumn_plus, sumn_scal. f_equal.
  rewrite sumn_rsum_swap. apply rsum_map_ext. intros row _.
  rewrite <- sumn_scal_r. apply sumn_ext. intros; ring.
Qed.

Lemma sumsq_pos n x : (exists i, (i < n)%nat /\ x i <> 0) -> 0 < sumn n (fun j => x j * x j).
Proof.
  intros (i & Hi & Hx).
  assert (0 <= sumn n (fun j => x j * x j)) by (apply sumn_nonneg; intros; nra).
  destruct (Req_dec (sumn n (fun j => x j * x j)) 0) as [E|N]; [|lra].
  exfalso. apply Hx. unfold sumn in E.
  assert (Hz : forall j, In j (seq 0 n) -> x j * x j = 0) by (apply rsum_zero_iff; [intros; nra|exact E]).
  specialize (Hz i). assert (x i * x i = 0) by (apply Hz; apply in_seq; lia). nra.
Qed.

Lemma normal_posdef n rows alpha : 0 < alpha -> positive_definite n (normal_matrix rows alpha).
Proof.
  intros Ha x Hx. rewrite quad_normal. pose proof (sumsq_pos n x Hx).
  assert (0 <= rsum (map (fun row => sumn n (fun j => nth j (fst row) 0 * x j) *
                        sumn n (fun j => nth j (fst row) 0 * x j)) rows))
    by (apply rsum_nonneg; intros; nra).
  nra.
Qed.

(** ** What a solved step is worth *)

Lemma step_inner rows alpha active n delta :
  step_solves rows alpha active n delta ->
  sumn n (fun i => normal_rhs rows i * nth i delta 0) =
  rsum (map (fun row => sumn n (fun j => nth j (fst row) 0 * nth j delta 0) *
                        sumn n (fun j => nth j (fst row) 0 * nth j delta 0)) rows) +
  alpha * sumn n (fun j => nth j delta 0 * nth j delta 0).
Proof.
  intros (_ & H0 & H1). rewrite <- (quad_normal n rows alpha (fun j => nth j delta 0)).
  unfold quad. apply sumn_ext. intros i Hi. destruct (active i) eqn:E.
  - rewrite (H1 i Hi E). ring.
  - rewrite (H0 i Hi E). ring.
Qed.
