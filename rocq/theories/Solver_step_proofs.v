(** Proofs about single iterations: line search, Gauss-Newton and subset steps. *)

From Coq Require Import Reals List Arith Bool Lia Lra Psatz.
From Verif Require Import ListUtil LinAlg Rbool Solver_spec Solver_model Solver_proofs Solver_lin_proofs.
Import ListNotations.
Local Open Scope R_scope.

Lemma lsub_length p d : length d = length p -> length (lsub p d) = length p.
Proof. intros H. unfold lsub. rewrite map_length, combine_length. lia. Qed.
Lemma lsub_nth p d i :
  length d = length p -> (i < length p)%nat -> nth i (lsub p d) 0 = nth i p 0 - nth i d 0.
Proof.
  intros H Hi. unfold lsub.
  rewrite (nth_map_gen _ _ i (0, 0)) by (rewrite combine_length; lia).
  rewrite combine_nth by lia. reflexivity.
Qed.
Lemma lscale_nth c d i : nth i (lscale c d) 0 = c * nth i d 0.
Proof.
  unfold lscale. rewrite <- (map_nth (fun x => c * x) d 0 i). f_equal. ring.
Qed.
Lemma lscale_length c d : length (lscale c d) = length d.
Proof. apply map_length. Qed.

Lemma moved_lsub p d t : length d = length p -> moved p d t (lsub p (lscale t d)).
Proof.
  intros H. split; [apply lsub_length; rewrite lscale_length; exact H|].
  intros i Hi. rewrite lsub_nth by (rewrite ?lscale_length; auto). rewrite lscale_nth. reflexivity.
Qed.
Lemma moved_one p d : length d = length p -> moved p d 1 (lsub p d).
Proof.
  intros H. split; [apply lsub_length; exact H|].
  intros i Hi. rewrite lsub_nth by auto. ring.
Qed.
Lemma moved_unique p d t q q' : moved p d t q -> moved p d t q' -> q = q'.
Proof.
  intros (L & H) (L' & H'). apply (nth_ext q q' 0 0); [congruence|].
  intros i Hi. rewrite H, H' by lia. reflexivity.
Qed.

(** ** Line search *)

Lemma line_search_spec f accept p0 delta : forall fuel scale cur,
  (0 < fuel)%nat ->
  exists k, (k < fuel)%nat /\
    line_search f accept p0 delta fuel scale cur = lsub p0 (lscale (scale * (1 / 2) ^ k) delta) /\
    (forall j, (j < k)%nat -> accept (scale * (1 / 2) ^ j) (f (lsub p0 (lscale (scale * (1 / 2) ^ j) delta))) = false) /\
    (accept (scale * (1 / 2) ^ k) (f (lsub p0 (lscale (scale * (1 / 2) ^ k) delta))) = true \/ S k = fuel).
Proof.
  induction fuel as [|fuel IH]; intros scale cur Hf; [lia|].
  assert (E0 : scale * (1 / 2) ^ 0 = scale) by (cbn; ring).
  cbn [line_search]. destruct (accept scale (f (lsub p0 (lscale scale delta)))) eqn:E.
  - exists 0%nat. rewrite E0. split; [lia|]. split; [reflexivity|]. split; [intros; lia|]. left. exact E.
  - destruct fuel as [|fuel].
    + exists 0%nat. rewrite E0. cbn [line_search]. split; [lia|]. split; [reflexivity|].
      split; [intros; lia|]. right. reflexivity.
    + destruct (IH (scale * (1 / 2)) (lsub p0 (lscale scale delta)) ltac:(lia)) as (k & Hk & Hr & Hj & Ha).
      assert (ES : forall j, scale * (1 / 2) ^ S j = scale * (1 / 2) * (1 / 2) ^ j) by (intros; cbn; ring).
      exists (S k). rewrite ES. split; [lia|]. split; [exact Hr|]. split.
      * intros [|j] Hlt; [rewrite E0; exact E|]. rewrite ES. apply Hj. lia.
      * destruct Ha as [Ha|Ha]; [left; exact Ha|right; lia].
Qed.

Lemma pow_half_pos k : 0 < (1 / 2) ^ k.
Proof. apply pow_lt. lra. Qed.
Lemma pow_half_le1 k : (1 / 2) ^ k <= 1.
Proof. induction k as [|k IH]; cbn [pow]; [lra|]. pose proof (pow_half_pos k). lra. Qed.

(** ** Gauss-Newton *)

Lemma from_lower_eq n H i j :
  symmetric n H -> (i < n)%nat -> (j < n)%nat -> from_lower H i j = H i j.
Proof. intros Hs Hi Hj. unfold from_lower. destruct (Nat.leb_spec j i); [reflexivity|apply Hs; lia]. Qed.

Lemma solves_ext lin n H H' g :
  solves_spd lin -> symmetric n H -> positive_definite n H ->
  (forall i j, (i < n)%nat -> (j < n)%nat -> H' i j = H i j) ->
  forall i, (i < n)%nat -> sumn n (fun j => H i j * lin n H' g j) = g i.
Proof.
  intros Hl Hs Hp He i Hi.
  rewrite <- (Hl n H' g) with (i := i).
  - apply sumn_ext. intros j Hj. rewrite He by assumption. reflexivity.
  - intros a b La Lb. rewrite !He by assumption. apply Hs; assumption.
  - intros x Hx. assert (E : quad n H' x = quad n H x).
    { unfold quad. apply sumn_ext. intros a La. f_equal. apply sumn_ext. intros b Lb.
      rewrite He by assumption. reflexivity. }
    rewrite E. apply Hp. exact Hx.
  - exact Hi.
Qed.

Lemma gn_delta_solves lin alpha n actual rows :
  solves_spd lin -> 0 < alpha -> (actual <= n)%nat ->
  step_solves rows alpha (fun i => (i <? actual)%nat) n (gn_delta lin alpha n actual rows).
Proof.
  intros Hl Ha Hn. unfold step_solves. split; [unfold gn_delta; rewrite map_length, seq_length; reflexivity|].
  assert (En : forall i, (i < n)%nat -> nth i (gn_delta lin alpha n actual rows) 0 =
     if (i <? actual)%nat then lin actual (from_lower (normal_matrix rows alpha)) (normal_rhs rows) i else 0).
  { intros i Hi. unfold gn_delta. rewrite nth_map_seq by exact Hi. reflexivity. }
  split.
  - intros i Hi E. rewrite En by exact Hi. rewrite E. reflexivity.
  - intros i Hi E. apply Nat.ltb_lt in E.
    replace n with (actual + (n - actual))%nat by lia. rewrite sumn_split.
    rewrite (sumn_zero (n - actual) (fun i0 => normal_matrix rows alpha i (actual + i0)%nat * nth (actual + i0)%nat (gn_delta lin alpha (actual + (n - actual)) actual rows) 0)).
    2:{ intros j Hj. replace (actual + (n - actual))%nat with n by lia. rewrite En by lia.
        destruct (Nat.ltb_spec (actual + j) actual); [lia|ring]. }
    replace (actual + (n - actual))%nat with n by lia.
    rewrite Rplus_0_r.
    rewrite <- (solves_ext lin actual (normal_matrix rows alpha) (from_lower (normal_matrix rows alpha))
                 (normal_rhs rows) Hl (normal_symmetric _ _ _) (normal_posdef _ _ _ Ha)) with (i := i).
    + apply sumn_ext. intros j Hj. rewrite En by lia.
      destruct (Nat.ltb_spec j actual); [reflexivity|lia].
    + intros a b La Lb. apply (from_lower_eq actual); auto. apply normal_symmetric.
    + exact E.
Qed.

Lemma gn_delta_length lin alpha n actual rows : length (gn_delta lin alpha n actual rows) = n.
Proof. unfold gn_delta. rewrite map_length, seq_length. reflexivity. Qed.

Lemma gn_update_moved f search err p delta :
  length delta = length p ->
  exists k, (k < 10)%nat /\ (search = false -> k = 0%nat) /\
    moved p delta ((1 / 2) ^ k) (gn_update f search err p delta) /\
    (search = true -> (forall j, (j < k)%nat -> forall q, moved p delta ((1 / 2) ^ j) q ->
        err - ob_error f q < (1 / 2) ^ j * (1 / 1000 * err))) /\
    (search = true -> S k = 10%nat \/
        (1 / 2) ^ k * (1 / 1000 * err) <= err - ob_error f (gn_update f search err p delta)).
Proof.
  intros Hl. unfold gn_update. destruct search.
  - destruct (line_search_spec (ob_error f)
      (fun scale errNew => Rleb (scale * (1 / 1000 * err)) (err - errNew)) p delta 10 1 p ltac:(lia))
      as (k & Hk & Hr & Hj & Ha).
    exists k. rewrite Hr. rewrite !Rmult_1_l in *.
    split; [exact Hk|]. split; [discriminate|]. split; [apply moved_lsub; exact Hl|]. split.
    + intros _ j Hlt q Hq. specialize (Hj j Hlt). rewrite Rmult_1_l in Hj. apply Rleb_false in Hj.
      rewrite (moved_unique _ _ _ _ _ Hq (moved_lsub p delta ((1 / 2) ^ j) Hl)). exact Hj.
    + intros _. destruct Ha as [Ha|Ha]; [right; apply Rleb_true in Ha; exact Ha|left; exact Ha].
  - exists 0%nat. split; [lia|]. split; [reflexivity|]. split; [|split; discriminate].
    cbn [pow]. apply moved_one. exact Hl.
Qed.

(** ** Enabled indices *)

Lemma filter_seq_nth_ge (en : nat -> bool) : forall n a k,
  (k < length (filter en (seq a n)))%nat -> (a + k <= nth k (filter en (seq a n)) 0)%nat.
Proof.
  induction n as [|n IH]; intros a k Hk; cbn in *; [lia|].
  destruct (en a).
  - destruct k as [|k]; cbn in *; [lia|]. specialize (IH (S a) k ltac:(lia)). lia.
  - specialize (IH (S a) k Hk). lia.
Qed.
Lemma enabled_in n en i : In i (enabled_indices n en) <-> (i < n)%nat /\ en i = true.
Proof. unfold enabled_indices. rewrite filter_In, in_seq. intuition lia. Qed.
Lemma enabled_NoDup n en : NoDup (enabled_indices n en).
Proof. apply NoDup_filter, seq_NoDup. Qed.
Lemma enabled_nth n en k :
  (k < length (enabled_indices n en))%nat ->
  (k <= nth k (enabled_indices n en) 0 < n)%nat /\ en (nth k (enabled_indices n en) 0%nat) = true.
Proof.
  intros Hk. pose proof (filter_seq_nth_ge en n 0 k Hk) as H1.
  pose proof (nth_In _ 0%nat Hk) as H2. apply enabled_in in H2. destruct H2 as [H2 H3].
  unfold enabled_indices in *. split; [lia|exact H3].
Qed.

Lemma compact_row_spec n en row :
  length row = n ->
  length (compact_row (enabled_indices n en) row) = n /\
  forall k, (k < length (enabled_indices n en))%nat ->
    nth k (compact_row (enabled_indices n en) row) 0 = nth (nth k (enabled_indices n en) 0%nat) row 0.
Proof.
  intros Hl. set (E := enabled_indices n en). unfold compact_row.
  assert (G : forall m, (m <= length E)%nat ->
    let r := fold_left (fun r k => let i := nth k E 0%nat in
                if (k <? i)%nat then store r k (nth i r 0) else r) (seq 0 m) row in
    length r = n /\ (forall k, (k < m)%nat -> nth k r 0 = nth (nth k E 0%nat) row 0) /\
    (forall k, (m <= k)%nat -> nth k r 0 = nth k row 0)).
  { induction m as [|m IH]; intros Hm; cbv zeta.
    - cbn. split; [exact Hl|]. split; [intros; lia|reflexivity].
    - rewrite seq_S, fold_left_app. cbn [fold_left]. rewrite Nat.add_0_l.
      destruct (IH ltac:(lia)) as (L & A & B).
      set (r := fold_left _ (seq 0 m) row) in *.
      destruct (enabled_nth n en m Hm) as [[G1 G2] _]. fold E in G1, G2. cbv zeta.
      destruct (Nat.ltb_spec m (nth m E 0%nat)) as [Hlt|Hge].
      + rewrite store_length. split; [exact L|]. split.
        * intros k Hk. destruct (Nat.eq_dec k m) as [->|N].
          -- rewrite store_nth_same by lia. apply B. lia.
          -- rewrite store_nth_other by lia. apply A. lia.
        * intros k Hk. rewrite store_nth_other by lia. apply B. lia.
      + split; [exact L|]. split.
        * intros k Hk. destruct (Nat.eq_dec k m) as [->|N]; [|apply A; lia].
          rewrite B by lia. f_equal. lia.
        * intros k Hk. apply B. lia. }
  destruct (G (length E) (le_n _)) as (A & B & _). split; [exact A|exact B].
Qed.

Lemma scatter_spec (E : list nat) (sub : nat -> R) (d : list R) :
  NoDup E -> (forall i, In i E -> (i < length d)%nat) ->
  let d' := fold_left (fun d k => store d (nth k E 0%nat) (sub k)) (seq 0 (length E)) d in
  length d' = length d /\
  (forall k, (k < length E)%nat -> nth (nth k E 0%nat) d' 0 = sub k) /\
  (forall i, ~ In i E -> nth i d' 0 = nth i d 0).
Proof.
  intros Hnd Hin.
  assert (G : forall m, (m <= length E)%nat ->
    let d' := fold_left (fun d k => store d (nth k E 0%nat) (sub k)) (seq 0 m) d in
    length d' = length d /\
    (forall k, (k < m)%nat -> nth (nth k E 0%nat) d' 0 = sub k) /\
    (forall i, ~ In i E -> nth i d' 0 = nth i d 0)).
  { induction m as [|m IH]; intros Hm; cbv zeta.
    - cbn. split; [reflexivity|]. split; [intros; lia|reflexivity].
    - rewrite seq_S, fold_left_app. cbn [fold_left]. rewrite Nat.add_0_l.
      destruct (IH ltac:(lia)) as (L & A & B).
      set (r := fold_left _ (seq 0 m) d) in *.
      assert (Im : In (nth m E 0%nat) E) by (apply nth_In; lia).
      rewrite store_length. split; [exact L|]. split.
      + intros k Hk. destruct (Nat.eq_dec k m) as [->|N].
        * apply store_nth_same. rewrite L. apply Hin, Im.
        * rewrite store_nth_other; [apply A; lia|].
          intros Heq. apply N. apply (proj1 (NoDup_nth E 0%nat) Hnd); [lia|lia|exact Heq].
      + intros i Hi. rewrite store_nth_other; [apply B; exact Hi|]. intros ->. contradiction. }
  apply (G (length E) (le_n _)).
Qed.

Lemma rsum_as_sumn (F : nat -> R) (l : list nat) :
  rsum (map F l) = sumn (length l) (fun b => F (nth b l 0%nat)).
Proof.
  induction l as [|x l IH]; [reflexivity|].
  cbn [length map rsum]. rewrite sumn_shift, IH. reflexivity.
Qed.

(** ** The subset solver *)

Definition sub_inv (f : objfn) (en : nat -> bool) (s : sstate) : Prop :=
  length (s_params s) = ob_n f /\ length (s_delta s) = ob_n f /\
  s_enabled s = enabled_indices (ob_n f) en /\
  forall i, (i < ob_n f)%nat -> en i = false -> nth i (s_delta s) 0 = 0.

Lemma sub_iterate_spec lin f reg search en s :
  obj_wf f -> sub_inv f en s ->
  let s' := sub_iterate lin f reg search s in
  let rows := snd (ob_jacobian f (s_params s)) in
  sub_inv f en s' /\
  s_error s' = fst (ob_jacobian f (s_params s)) /\
  (solves_spd lin -> 0 < reg -> step_solves rows reg en (ob_n f) (s_delta s')) /\
  exists k, (k < 10)%nat /\ (search = false -> k = 0%nat) /\
    moved (s_params s) (s_delta s') ((1 / 2) ^ k) (s_params s') /\
    (search = true -> forall g, g = sumn (ob_n f) (fun i => if en i then normal_rhs rows i * nth i (s_delta s') 0 else 0) ->
      (forall j, (j < k)%nat -> forall q, moved (s_params s) (s_delta s') ((1 / 2) ^ j) q ->
        s_error s' - ob_error f q < 1 / 10000 * (1 / 2) ^ j * g) /\
      (S k = 10%nat \/ 1 / 10000 * (1 / 2) ^ k * g <= s_error s' - ob_error f (s_params s'))).
Proof.
  intros (Hac & Hwf) (Lp & Ld & He & Hz). cbv zeta. unfold sub_iterate.
  destruct (ob_jacobian f (s_params s)) as [e rows] eqn:EJ. cbn [fst snd]. cbv zeta.
  specialize (Hwf (s_params s) Lp). rewrite EJ in Hwf. cbn [snd] in Hwf. destruct Hwf as [_ Hrow].
  set (n := ob_n f) in *. rewrite He. set (E := enabled_indices n en) in *.
  set (m := length E).
  set (crows := map (fun row : list R * R => (compact_row E (fst row), snd row)) rows).
  set (grad := fun a => rsum (map (fun row : list R * R => nth a (fst row) 0 * snd row) crows)).
  set (hess := fun a b => rsum (map (fun row : list R * R => nth a (fst row) 0 * nth b (fst row) 0) crows) +
                          (if (a =? b)%nat then reg else 0)).
  set (sub := lin m (from_lower hess) grad).
  assert (Hg : forall a, (a < m)%nat -> grad a = normal_rhs rows (nth a E 0%nat)).
  { intros a Ha. unfold grad, normal_rhs, crows. rewrite map_map. apply rsum_map_ext.
    intros row Hr. cbn [fst snd]. pose proof (compact_row_spec n en (fst row) (Hrow row Hr)) as (_ & C).
    fold E in C. rewrite (C a Ha). reflexivity. }
  assert (Hnth : forall a b, (a < m)%nat -> (b < m)%nat -> (nth a E 0%nat =? nth b E 0%nat)%nat = (a =? b)%nat).
  { intros a b Ha Hb. destruct (Nat.eqb_spec a b) as [->|N]; [apply Nat.eqb_refl|].
    apply Nat.eqb_neq. intros Q. apply N.
    apply (proj1 (NoDup_nth E 0%nat) (enabled_NoDup n en)); auto. }
  assert (Hh : forall a b, (a < m)%nat -> (b < m)%nat ->
     hess a b = normal_matrix rows reg (nth a E 0%nat) (nth b E 0%nat)).
  { intros a b Ha Hb. unfold hess, normal_matrix, crows. rewrite Hnth by assumption. f_equal.
    rewrite map_map. apply rsum_map_ext. intros row Hr. cbn [fst snd].
    pose proof (compact_row_spec n en (fst row) (Hrow row Hr)) as (_ & C).
    fold E in C. rewrite (C a Ha), (C b Hb). reflexivity. }
  assert (Hin : forall i, In i E -> (i < length (s_delta s))%nat).
  { intros i Hi. rewrite Ld. apply enabled_in in Hi. apply Hi. }
  destruct (scatter_spec E sub (s_delta s) (enabled_NoDup n en) Hin) as (Sl & Ss & So).
  fold m in Sl, Ss, So |- *.
  set (delta := fold_left (fun d k => store d (nth k E 0%nat) (sub k)) (seq 0 m) (s_delta s)) in *.
  assert (Hout : forall i, (i < n)%nat -> en i = false -> nth i delta 0 = 0).
  { intros i Hi Hf. rewrite So; [apply Hz; assumption|]. intros Hx. apply enabled_in in Hx. destruct Hx; congruence. }
  assert (Ldel : length delta = length (s_params s)) by lia.
  assert (Hinner : sumn m (fun k => grad k * sub k) =
     sumn n (fun i => if en i then normal_rhs rows i * nth i delta 0 else 0)).
  { transitivity (rsum (map (fun i => normal_rhs rows i * nth i delta 0) E)).
    - rewrite rsum_as_sumn. apply sumn_ext. intros k Hk. rewrite Hg, Ss by assumption. reflexivity.
    - unfold E, enabled_indices. rewrite rsum_filter. reflexivity. }
  cbn [s_params s_delta s_enabled s_error].
  assert (K : exists k, (k < 10)%nat /\ (search = false -> k = 0%nat) /\
    moved (s_params s) delta ((1 / 2) ^ k)
      (if search then line_search (ob_error f) (fun alpha errNew => Rleb (1 / 10000 * alpha * sumn m (fun k => grad k * sub k)) (e - errNew))
              (s_params s) delta 10 1 (s_params s) else lsub (s_params s) delta) /\
    (search = true -> forall g, g = sumn n (fun i => if en i then normal_rhs rows i * nth i delta 0 else 0) ->
      (forall j, (j < k)%nat -> forall q, moved (s_params s) delta ((1 / 2) ^ j) q ->
        e - ob_error f q < 1 / 10000 * (1 / 2) ^ j * g) /\
      (S k = 10%nat \/ 1 / 10000 * (1 / 2) ^ k * g <= e - ob_error f
       (if search then line_search (ob_error f) (fun alpha errNew => Rleb (1 / 10000 * alpha * sumn m (fun k => grad k * sub k)) (e - errNew))
              (s_params s) delta 10 1 (s_params s) else lsub (s_params s) delta)))).
  { destruct search.
    - rewrite Hinner.
      set (g0 := sumn n (fun i => if en i then normal_rhs rows i * nth i delta 0 else 0)) in *.
      destruct (line_search_spec (ob_error f)
        (fun alpha errNew => Rleb (1 / 10000 * alpha * g0) (e - errNew)) (s_params s) delta 10 1 (s_params s) ltac:(lia))
        as (k & Hk & Hr & Hj & Ha).
      exists k. rewrite Hr. rewrite !Rmult_1_l in *. split; [exact Hk|]. split; [discriminate|].
      split; [apply moved_lsub; exact Ldel|].
      intros _ g ->. split.
      + intros j Hlt q Hq. specialize (Hj j Hlt). rewrite Rmult_1_l in Hj. apply Rleb_false in Hj.
        rewrite (moved_unique _ _ _ _ _ Hq (moved_lsub _ delta ((1 / 2) ^ j) Ldel)). exact Hj.
      + destruct Ha as [Ha|Ha]; [right; apply Rleb_true in Ha; exact Ha|left; exact Ha].
    - exists 0%nat. split; [lia|]. split; [reflexivity|]. split; [cbn [pow]; apply moved_one; exact Ldel|discriminate]. }
  split.
  { unfold sub_inv. cbn [s_params s_delta s_enabled s_error]. fold n. split.
    { destruct K as (k & _ & _ & (L & _) & _). exact (eq_trans L Lp). }
    split; [lia|]. split; [reflexivity|exact Hout]. }
  split; [reflexivity|]. split; [|exact K].
  intros Hl Hreg. split; [lia|]. split; [exact Hout|].
  intros i Hi Hi1.
  assert (Ii : In i E) by (apply enabled_in; auto).
  destruct (In_nth E i 0%nat Ii) as (a & Ha & Hai). fold m in Ha. subst i.
  rewrite <- (Hg a Ha).
  transitivity (sumn m (fun b => normal_matrix rows reg (nth a E 0%nat) (nth b E 0%nat) * sub b)).
  - transitivity (rsum (map (fun j => normal_matrix rows reg (nth a E 0%nat) j * nth j delta 0) E)).
    + unfold E at 3, enabled_indices. rewrite rsum_filter. unfold sumn. apply rsum_map_ext.
      intros j Hj. apply in_seq in Hj. destruct (en j) eqn:Ej; [reflexivity|].
      rewrite Hout by (auto; lia). ring.
    + rewrite rsum_as_sumn. apply sumn_ext. intros b Hb. rewrite Ss by exact Hb. reflexivity.
  - set (H := fun a b => normal_matrix rows reg (nth a E 0%nat) (nth b E 0%nat)).
    change (sumn m (fun b => H a b * sub b) = grad a). unfold sub.
    apply (solves_ext lin m H (from_lower hess) grad Hl).
    + intros x y _ _. unfold H. apply (normal_symmetric (S (nth x E 0%nat + nth y E 0%nat))); lia.
    + intros x (k & Hk & Hx).
      set (crows' := crows).
      assert (Eq : quad m H x = quad m (normal_matrix crows reg) x).
      { unfold quad. apply sumn_ext. intros i Hi2. f_equal. apply sumn_ext. intros j Hj2.
        unfold H. rewrite <- Hh by assumption. reflexivity. }
      rewrite Eq. apply normal_posdef; [exact Hreg|]. exists k. auto.
    + intros x y Hx Hy. unfold from_lower. destruct (Nat.leb_spec y x).
      * apply Hh; assumption.
      * rewrite Hh by assumption. unfold H. apply (normal_symmetric (S (nth x E 0%nat + nth y E 0%nat))); lia.
    + exact Ha.
Qed.
