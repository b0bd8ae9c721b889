(** The dense online QR solver: factorisation invariant and minimisation. *)

From Coq Require Import Reals List Arith Bool Lia Lra.
From Verif Require Import LinAlg Rbool QR_model QR_spec QR_gen_proofs.
Import ListNotations.
Local Open Scope R_scope.

Definition pend (i : nat) (A : mat) : mat := fun k c => if (c <? i)%nat then 0 else A k c.

Definition upper (n : nat) (U : mat) : Prop := forall r c, (r < n)%nat -> (c < r)%nat -> U r c = 0.

Lemma qr_step_spec n m i Rm y A b Rm' y' A' b' :
  (i < n)%nat -> upper n Rm ->
  qr_step n m (Rm, y, A, b) i = (Rm', y', A', b') ->
  (forall r e, (r < n)%nat -> (e <= n)%nat -> r <> i -> aug n Rm' y' r e = aug n Rm y r e) /\
  row_step m i (aug n Rm y i) (aug n (pend i A) b) (aug n Rm' y' i) (aug n (pend (S i) A') b')
    (fun e => (e <= n)%nat) /\
  upper n Rm'.
Proof.
  intros Hi Hu H. unfold qr_step in H.
  assert (Ein : (i =? n)%nat = false) by (apply Nat.eqb_neq; lia).
  assert (Ep : col (aug n (pend i A) b) i = fun k => A k i).
  { unfold col, aug, pend. rewrite Ein, Nat.ltb_irrefl. reflexivity. }
  assert (Epi : aug n Rm y i i = Rm i i) by (unfold aug; rewrite Ein; reflexivity).
  unfold row_step. rewrite Ep, Epi. fold (col A i).
  destruct (hh_vec (Rm i i) m (col A i)) as [[beta mu] v] eqn:E.
  destruct (hh_vec_facts _ _ _ _ _ _ E) as (Hb & Hm & Hp & Hz). unfold col in Hp, Hz.
  destruct (Reqb_spec beta 0) as [B0|B0].
  - (* nothing to eliminate *)
    injection H as <- <- <- <-. subst beta.
    split; [reflexivity|]. split; [|assumption].
    split; [unfold aug; rewrite Ein; lra|]. split.
    + intros k Hk. unfold aug, pend. rewrite Ein.
      replace (i <? S i)%nat with true by (symmetry; apply Nat.ltb_lt; lia). reflexivity.
    + intros c Hc Nc. split; [ring|]. intros k Hk.
      unfold aug, pend. destruct (Nat.eqb_spec c n); [ring|].
      rewrite upd_col_other by assumption.
      destruct (Nat.ltb_spec c (S i)), (Nat.ltb_spec c i); try lia; ring.
  - destruct (apply_cols beta m v (seq (S i) (n - S i)) (upd_at Rm i i mu i) (upd_col A i v))
      as [r A1] eqn:EA.
    cbn [hh_apply] in H. injection H as <- <- <- <-.
    pose proof (apply_cols_spec beta m v _ (seq_NoDup (n - S i) (S i)) _ _ _ _ EA) as HA.
    assert (Hlt : forall c, (c <= i)%nat -> ~ In c (seq (S i) (n - S i)))
      by (intros c Hc Hin; apply in_seq in Hin; lia).
    split; [|split].
    + intros q e Hq He Nq. unfold aug. destruct (Nat.eqb_spec e n).
      * apply upd_other. assumption.
      * rewrite upd_row_other by assumption. apply upd_at_other. left; assumption.
    + split; [|split].
      * unfold aug. rewrite Ein, upd_row_same.
        destruct (HA i) as [_ H2]. destruct (H2 (Hlt i (le_n i))) as [-> _]. apply upd_at_same.
      * intros k Hk. unfold aug, pend. rewrite Ein.
        replace (i <? S i)%nat with true by (symmetry; apply Nat.ltb_lt; lia). reflexivity.
      * intros c Hc Nc. destruct (Nat.eq_dec c n) as [->|Ncn].
        { unfold aug, pend. rewrite Nat.eqb_refl, upd_same. split; reflexivity. }
        destruct (Nat.lt_ge_cases c i) as [L|G].
        { (* columns to the left: already zero *)
          assert (F1 : aug n Rm y i c = 0).
          { unfold aug. destruct (Nat.eqb_spec c n); [contradiction|]. apply Hu; assumption. }
          assert (F2 : forall k, aug n (pend i A) b k c = 0).
          { intros k. unfold aug, pend. destruct (Nat.eqb_spec c n); [contradiction|].
            destruct (Nat.ltb_spec c i); [reflexivity|lia]. }
          rewrite F1. rewrite (sumn_zero m (fun k => v k * aug n (pend i A) b k c)) by (intros; rewrite F2; ring).
          split.
          - unfold aug. destruct (Nat.eqb_spec c n); [contradiction|]. rewrite upd_row_same.
            destruct (HA c) as [_ H2]. destruct (H2 (Hlt c ltac:(lia))) as [-> _].
            rewrite upd_at_other by (right; assumption). rewrite Hu by assumption. ring.
          - intros k Hk. rewrite F2. unfold aug, pend. destruct (Nat.eqb_spec c n); [contradiction|].
            destruct (Nat.ltb_spec c (S i)); [ring|lia]. }
        { assert (Hin : In c (seq (S i) (n - S i))) by (apply in_seq; lia).
          destruct (HA c) as [H1 _]. destruct (H1 Hin) as [E1 E2]. clear H1.
          rewrite upd_at_other in E1, E2 by (right; assumption).
          assert (F0 : forall k, upd_col A i v k c = A k c)
            by (intros; apply upd_col_other; assumption).
          assert (Es : sumn m (fun k => v k * upd_col A i v k c) = sumn m (fun k => v k * A k c))
            by (apply sumn_ext; intros; rewrite F0; reflexivity).
          rewrite Es in E1, E2.
          assert (F3 : forall k, aug n (pend i A) b k c = A k c).
          { intros k. unfold aug, pend. destruct (Nat.eqb_spec c n); [contradiction|].
            destruct (Nat.ltb_spec c i); [lia|reflexivity]. }
          assert (F4 : aug n Rm y i c = Rm i c)
            by (unfold aug; destruct (Nat.eqb_spec c n); [contradiction|reflexivity]).
          assert (Es2 : sumn m (fun k => v k * aug n (pend i A) b k c) = sumn m (fun k => v k * A k c))
            by (apply sumn_ext; intros; rewrite F3; reflexivity).
          rewrite F4, Es2. split.
          - unfold aug. destruct (Nat.eqb_spec c n); [contradiction|]. rewrite upd_row_same. exact E1.
          - intros k Hk. rewrite F3. unfold aug, pend. destruct (Nat.eqb_spec c n); [contradiction|].
            destruct (Nat.ltb_spec c (S i)); [lia|]. rewrite E2, F0. reflexivity. }
    + intros q c Hq Hc. destruct (Nat.eq_dec q i) as [->|Nq].
      * rewrite upd_row_same.
        destruct (HA c) as [_ H2]. destruct (H2 (Hlt c ltac:(lia))) as [-> _].
        rewrite upd_at_other by (right; lia). apply Hu; assumption.
      * rewrite upd_row_other by assumption. rewrite upd_at_other by (left; assumption).
        apply Hu; assumption.
Qed.

(** The invariant of the loop over the columns. *)
Lemma qr_loop_spec n m : forall len i Rm y A b Rm' y' A' b',
  (i + len = n)%nat -> upper n Rm ->
  fold_left (qr_step n m) (seq i len) (Rm, y, A, b) = (Rm', y', A', b') ->
  upper n Rm' /\
  (forall c d, (c <= n)%nat -> (d <= n)%nat ->
     total n m (aug n Rm' y') (aug n (pend n A') b') c d =
     total n m (aug n Rm y) (aug n (pend i A) b) c d) /\
  (forall r, (r < n)%nat -> Rm r r * Rm r r <= Rm' r r * Rm' r r).
Proof.
  induction len as [|len IH]; intros i Rm y A b Rm' y' A' b' Hil Hu H.
  - cbn in H. injection H as <- <- <- <-. replace i with n by lia.
    repeat split; auto; intros; lra.
  - cbn [seq fold_left] in H.
    destruct (qr_step n m (Rm, y, A, b) i) as [[[R1 y1] A1] b1] eqn:E.
    destruct (qr_step_spec n m i Rm y A b R1 y1 A1 b1 ltac:(lia) Hu E) as (Ho & Hr & Hu1).
    destruct (IH (S i) R1 y1 A1 b1 Rm' y' A' b' ltac:(lia) Hu1 H) as (I1 & I2 & I3).
    split; [assumption|]. split.
    + intros c d Hc Hd. rewrite I2 by assumption.
      apply (total_step n m i); auto; lia.
    + intros r Hr'. specialize (I3 r Hr').
      destruct (Nat.eq_dec r i) as [->|Nr].
      * pose proof (row_step_pivot _ _ _ _ _ _ _ Hr) as Hp.
        unfold aug in Hp. destruct (Nat.eqb_spec i n); [lia|]. lra.
      * specialize (Ho r r Hr' ltac:(lia) Nr). unfold aug in Ho.
        destruct (Nat.eqb_spec r n); [lia|]. rewrite Ho in I3. assumption.
Qed.

Lemma qr_add_spec q m A b :
  upper (q_n q) (q_R q) ->
  let q' := qr_add q m A b in
  q_n q' = q_n q /\ upper (q_n q) (q_R q') /\
  (forall c d, (c < q_n q)%nat -> (d < q_n q)%nat ->
     sumn (q_n q) (fun r => q_R q' r c * q_R q' r d) =
     sumn (q_n q) (fun r => q_R q r c * q_R q r d) + sumn m (fun k => A k c * A k d)) /\
  (forall c, (c < q_n q)%nat ->
     sumn (q_n q) (fun r => q_R q' r c * q_y q' r) =
     sumn (q_n q) (fun r => q_R q r c * q_y q r) + sumn m (fun k => A k c * b k)) /\
  (forall r, (r < q_n q)%nat -> q_R q r r * q_R q r r <= q_R q' r r * q_R q' r r).
Proof.
  intros Hu. cbv zeta. unfold qr_add, qr_add_mutating.
  destruct (fold_left (qr_step (q_n q) m) (seq 0 (q_n q)) (q_R q, q_y q, A, b))
    as [[[Rm' y'] A'] b'] eqn:E.
  cbn [fst q_n q_R q_y]. set (n := q_n q) in *.
  destruct (qr_loop_spec n m n 0 _ _ _ _ _ _ _ _ ltac:(lia) Hu E) as (I1 & I2 & I3).
  split; [reflexivity|]. split; [assumption|].
  assert (Ea : forall M (z : vec) r c, (c < n)%nat -> aug n M z r c = M r c)
    by (intros M z r c Hc; unfold aug; destruct (Nat.eqb_spec c n); [lia|reflexivity]).
  assert (En : forall M (z : vec) r, aug n M z r n = z r)
    by (intros M z r; unfold aug; rewrite Nat.eqb_refl; reflexivity).
  assert (Ep0 : forall k c, pend 0 A k c = A k c) by reflexivity.
  assert (Epn : forall k c, (c < n)%nat -> pend n A' k c = 0)
    by (intros k c Hc; unfold pend; destruct (Nat.ltb_spec c n); [reflexivity|lia]).
  split; [|split; [|assumption]].
  - intros c d Hc Hd. specialize (I2 c d ltac:(lia) ltac:(lia)). unfold total in I2.
    rewrite (sumn_ext n (fun r => aug n Rm' y' r c * aug n Rm' y' r d) (fun r => Rm' r c * Rm' r d)) in I2
      by (intros; rewrite !Ea by assumption; reflexivity).
    rewrite (sumn_zero m (fun k => aug n (pend n A') b' k c * aug n (pend n A') b' k d)) in I2
      by (intros; rewrite Ea, Epn by assumption; ring).
    rewrite (sumn_ext n (fun r => aug n (q_R q) (q_y q) r c * aug n (q_R q) (q_y q) r d)
      (fun r => q_R q r c * q_R q r d)) in I2 by (intros; rewrite !Ea by assumption; reflexivity).
    rewrite (sumn_ext m (fun k => aug n (pend 0 A) b k c * aug n (pend 0 A) b k d) (fun k => A k c * A k d)) in I2
      by (intros; rewrite !Ea by assumption; reflexivity).
    lra.
  - intros c Hc. specialize (I2 c n ltac:(lia) ltac:(lia)). unfold total in I2.
    rewrite (sumn_ext n (fun r => aug n Rm' y' r c * aug n Rm' y' r n) (fun r => Rm' r c * y' r)) in I2
      by (intros; rewrite Ea, En by assumption; reflexivity).
    rewrite (sumn_zero m (fun k => aug n (pend n A') b' k c * aug n (pend n A') b' k n)) in I2
      by (intros; rewrite Ea, Epn by assumption; ring).
    rewrite (sumn_ext n (fun r => aug n (q_R q) (q_y q) r c * aug n (q_R q) (q_y q) r n)
      (fun r => q_R q r c * q_y q r)) in I2 by (intros; rewrite Ea, En by assumption; reflexivity).
    rewrite (sumn_ext m (fun k => aug n (pend 0 A) b k c * aug n (pend 0 A) b k n) (fun k => A k c * b k)) in I2
      by (intros; rewrite Ea, En by assumption; reflexivity).
    lra.
Qed.


Lemma gram_snoc lambda Bs B i j :
  gram lambda (Bs ++ [B]) i j =
  gram lambda Bs i j + sumn (lb_rows B) (fun k => lb_A B k i * lb_A B k j).
Proof. unfold gram. rewrite map_app, rsum_app. cbn. ring. Qed.
Lemma rhs_snoc Bs B i :
  rhs (Bs ++ [B]) i = rhs Bs i + sumn (lb_rows B) (fun k => lb_A B k i * lb_b B k).
Proof. unfold rhs. rewrite map_app, rsum_app. cbn. ring. Qed.

Lemma qr_run_spec n lambda Bs :
  let q := qr_run n lambda Bs in
  q_n q = n /\ upper n (q_R q) /\
  (forall i j, (i < n)%nat -> (j < n)%nat ->
     sumn n (fun r => q_R q r i * q_R q r j) = gram lambda Bs i j) /\
  (forall i, (i < n)%nat -> sumn n (fun r => q_R q r i * q_y q r) = rhs Bs i) /\
  (forall r, (r < n)%nat -> lambda * lambda <= q_R q r r * q_R q r r).
Proof.
  cbv zeta. unfold qr_run. induction Bs as [|B Bs IH] using rev_ind.
  - cbn [fold_left qr_reset q_n q_R q_y].
    split; [reflexivity|]. split; [|split; [|split]].
    + intros r c Hr Hc. destruct (Nat.eqb_spec r c); [lia|reflexivity].
    + intros i j Hi Hj. unfold gram. cbn [map rsum].
      rewrite (sumn_single n i); [|assumption|].
      * rewrite Nat.eqb_refl. destruct (i =? j)%nat; ring.
      * intros r Hr Hn. destruct (Nat.eqb_spec r i); [contradiction|ring].
    + intros i Hi. unfold rhs. cbn [map rsum]. apply sumn_zero. intros; ring.
    + intros r Hr. rewrite Nat.eqb_refl. lra.
  - rewrite fold_left_app. cbn [fold_left].
    set (q := fold_left _ Bs (qr_reset n lambda)) in *.
    destruct IH as (En & Hu & HG & Hr & Hd).
    rewrite <- En in Hu.
    destruct (qr_add_spec q (lb_rows B) (lb_A B) (lb_b B) Hu) as (S0 & S1 & S2 & S3 & S4).
    rewrite En in *.
    split; [assumption|]. split; [assumption|]. split; [|split].
    + intros i j Hi Hj. rewrite S2, gram_snoc, HG by assumption. reflexivity.
    + intros i Hi. rewrite S3, rhs_snoc, Hr by assumption. reflexivity.
    + intros r Hr'. specialize (S4 r Hr'). specialize (Hd r Hr'). lra.
Qed.

Lemma qr_result_minimises_diag n lambda Bs :
  (forall r, (r < n)%nat -> q_R (qr_run n lambda Bs) r r <> 0) ->
  unique_minimiser n (objective n lambda Bs) (qr_result (qr_run n lambda Bs)).
Proof.
  intros Hd. destruct (qr_run_spec n lambda Bs) as (En & Hu & HG & Hr & _).
  set (q := qr_run n lambda Bs) in *. unfold qr_result. rewrite En.
  apply (factor_minimises n lambda Bs (q_R q) (q_y q)); auto.
  apply tri_solve_eqs; auto.
Qed.

Lemma qr_result_minimises n lambda Bs :
  lambda <> 0 ->
  unique_minimiser n (objective n lambda Bs) (qr_result (qr_run n lambda Bs)).
Proof.
  intros Hl. apply qr_result_minimises_diag. intros r Hr.
  destruct (qr_run_spec n lambda Bs) as (_ & _ & _ & _ & Hd).
  specialize (Hd r Hr). intros E. rewrite E in Hd. nra.
Qed.

Lemma qr_At_times_b_spec n lambda Bs :
  qr_At_times_b (qr_run n lambda Bs) = map (rhs Bs) (seq 0 n).
Proof.
  destruct (qr_run_spec n lambda Bs) as (En & _ & _ & Hr & _).
  unfold qr_At_times_b. rewrite En. apply map_ext_in. intros i Hi. apply in_seq in Hi.
  apply Hr. lia.
Qed.

(** ** Householder statements *)

Lemma hh_apply_self x1 m x beta mu v :
  hh_vec x1 m x = (beta, mu, v) ->
  fst (hh_apply beta m v x1 x) = mu /\
  (forall k, (k < m)%nat -> snd (hh_apply beta m v x1 x) k = 0) /\
  mu * mu = x1 * x1 + sumn m (fun k => x k * x k).
Proof.
  intros E. destruct (hh_vec_facts _ _ _ _ _ _ E) as (_ & Hm & Hp & Hz).
  unfold hh_apply. cbn [fst snd]. repeat split; assumption.
Qed.

Lemma hh_apply_isometry x1 m x beta mu v p a q c :
  hh_vec x1 m x = (beta, mu, v) ->
  let '(p', a') := hh_apply beta m v p a in
  let '(q', c') := hh_apply beta m v q c in
  dot_split m p' a' q' c' = dot_split m p a q c.
Proof.
  intros E. destruct (hh_vec_facts _ _ _ _ _ _ E) as (Hb & _).
  unfold hh_apply, dot_split. apply (hh_pair beta m v p a q c Hb).
Qed.

Lemma hh_mu_nonneg x1 m x beta mu v :
  hh_vec x1 m x = (beta, mu, v) ->
  (exists k, (k < m)%nat /\ x k <> 0) -> 0 < mu.
Proof.
  unfold hh_vec. intros H (k & Hk & Hx).
  destruct (Reqb_spec (sumn m (fun k => x k * x k)) 0) as [E|N].
  - exfalso. apply Hx. apply (sumn_sq_zero _ _ E k Hk).
  - injection H as _ <- _. apply sqrt_lt_R0. pose proof (sumn_sq_nonneg m x). nra.
Qed.

(** ** transpose_times *)

Lemma cim_transpose_times_all a b :
  cim_idx a = None ->
  cim_transpose_times a b =
  map (fun c => sumn (cim_rows a) (fun k => cim_view a k c * b k)) (seq 0 (cim_cols a)).
Proof.
  intros E. unfold cim_transpose_times, cim_cols, cim_view, cim_phys. rewrite E. reflexivity.
Qed.

Lemma cim_transpose_times_prefix a b p :
  cim_idx a = Some (seq 0 p) ->
  cim_transpose_times a b =
  map (fun c => sumn (cim_rows a) (fun k => cim_view a k c * b k)) (seq 0 (cim_cols a)).
Proof.
  intros E. unfold cim_transpose_times, cim_cols, cim_view, cim_phys. rewrite E.
  rewrite seq_length. apply map_ext_in. intros c Hc. apply in_seq in Hc.
  rewrite seq_nth by lia. reflexivity.
Qed.

(** ** Histories with resets *)

Lemma qr_history_live ops : forall n lambda Bs,
  fold_left qr_do ops (qr_run n lambda Bs) =
  (let '(n', l', Bs') := fold_left live_step ops (n, lambda, Bs) in qr_run n' l' Bs').
Proof.
  induction ops as [|o ops IH]; intros n lambda Bs; [reflexivity|].
  cbn [fold_left]. destruct o as [n' l'| |B]; cbn [qr_do live_step].
  - apply (IH n' l' []).
  - unfold qr_reset_same. destruct (qr_run_spec n lambda Bs) as (-> & _). apply (IH n 0 []).
  - rewrite <- IH. f_equal. unfold qr_run. rewrite fold_left_app. reflexivity.
Qed.
