(** C119: skin weights are stored as given. *)

From Coq Require Import Reals List Arith NArith Bool Lia Lra.
From Verif Require Import Prelude LinAlg Loops Rbool R3 Transform_model Skin_spec SkinW_model SkinW_spec.
Import ListNotations.
Local Open Scope outcome_scope.
Local Open Scope R_scope.

Lemma sw_row_ok ind wgt row : length row = 8%nat -> (Nat.min (length ind) 8 <= length wgt)%nat ->
  exists r, sw_row ind wgt row = Ok r /\ length r = 8%nat /\
    forall j, nth_error r j = if (j <? Nat.min (length ind) 8)%nat
      then match nth_error ind j, nth_error wgt j with Some k, Some w => Some ((k mod 2 ^ 32)%N, w) | _, _ => None end
      else nth_error row j.
Proof.
  intros L Hw. unfold sw_row. change kMaxSkinJoints with 8%nat.
  match goal with |- context [ofold ?b _ _] => destruct (ofold_seq_inv b
    (fun n r => length r = 8%nat /\ forall j, nth_error r j = if (j <? n)%nat
      then match nth_error ind j, nth_error wgt j with Some k, Some w => Some ((k mod 2 ^ 32)%N, w) | _, _ => None end
      else nth_error row j) (Nat.min (length ind) 8) row) as (r & E & Lr & A) end.
  - split; [exact L|]. intros j. reflexivity.
  - intros n r Hn (Lr & A).
    destruct (nth_error ind n) as [k|] eqn:Ek; [|apply nth_error_None in Ek; lia].
    destruct (nth_error wgt n) as [w|] eqn:Ew; [|apply nth_error_None in Ew; lia].
    rewrite (rd_some _ _ _ Ek), (rd_some _ _ _ Ew). cbn [obind].
    destruct (wr_ok r n (narrow_u32 k, w) ltac:(lia)) as (r' & E' & L' & N' & O').
    exists r'. split; [exact E'|]. split; [congruence|]. intros j. destruct (Nat.eq_dec j n) as [->|D].
    + rewrite N', Ek, Ew. assert (H : (n <? S n)%nat = true) by (apply Nat.ltb_lt; lia). rewrite H. reflexivity.
    + rewrite O', A by exact D. assert (H : (j <? S n)%nat = (j <? n)%nat) by (destruct (Nat.ltb_spec j (S n)), (Nat.ltb_spec j n); try reflexivity; lia).
      rewrite H. reflexivity.
  - exists r. auto.
Qed.

(** The first eight influences of every vertex are stored, and zeros after them. *)
Theorem skin_weights_stored ind wgt : length ind = length wgt ->
  (forall i ks ws, given ind wgt i ks ws -> (Nat.min (length ks) 8 <= length ws)%nat) ->
  exists t, sw_set ind wgt = Ok t /\ length t = length ind /\ table t /\
    forall i ks ws row, given ind wgt i ks ws -> nth_error t i = Some row ->
      (forall j k w, (j < 8)%nat -> nth_error ks j = Some k -> nth_error ws j = Some w -> nth_error row j = Some ((k mod 2 ^ 32)%N, w)) /\
      (forall j, (length ks <= j < 8)%nat -> nth_error row j = Some (0%N, 0)).
Proof.
  intros L H. unfold sw_set. rewrite L, Nat.eqb_refl. cbn [negb].
  set (row_is := fun i row => forall ks ws, given ind wgt i ks ws ->
      (forall j k w, (j < 8)%nat -> nth_error ks j = Some k -> nth_error ws j = Some w -> nth_error row j = Some ((k mod 2 ^ 32)%N, w)) /\
      (forall j, (length ks <= j < 8)%nat -> nth_error row j = Some (0%N, 0))).
  match goal with |- context [ofold ?b _ ?z] => destruct (ofold_seq_inv b
    (fun n t => length t = length wgt /\ table t /\ forall i row, nth_error t i = Some row -> if (i <? n)%nat then row_is i row else row = repeat (0%N, 0) 8)
    (length wgt) z) as (t & E & Lt & T & A) end.
  - split; [apply repeat_length|]. split.
    + intros row Hr. apply repeat_spec in Hr. subst row. reflexivity.
    + intros i row Er. apply nth_error_In, repeat_spec in Er. subst row. reflexivity.
  - intros n t Hn (Lt & T & A).
    destruct (nth_error ind n) as [ks|] eqn:Ek; [|apply nth_error_None in Ek; lia].
    destruct (nth_error wgt n) as [ws|] eqn:Ew; [|apply nth_error_None in Ew; lia].
    destruct (nth_error t n) as [r0|] eqn:Er; [|apply nth_error_None in Er; lia].
    rewrite (rd_some _ _ _ Ek), (rd_some _ _ _ Ew), (rd_some _ _ _ Er). cbn [obind].
    pose proof (A n r0 Er) as Z. rewrite Nat.ltb_irrefl in Z. subst r0.
    destruct (sw_row_ok ks ws (repeat (0%N, 0) 8) eq_refl (H n ks ws (conj Ek Ew))) as (r & E1 & L1 & A1). rewrite E1. cbn [obind].
    destruct (wr_ok t n r ltac:(lia)) as (t' & E' & L' & N' & O').
    exists t'. split; [exact E'|]. split; [congruence|]. split.
    + intros row Hr. apply In_nth_error in Hr. destruct Hr as (i & Hi). destruct (Nat.eq_dec i n) as [->|D].
      * rewrite N' in Hi. injection Hi as <-. exact L1.
      * rewrite O' in Hi by exact D. apply T. eapply nth_error_In. exact Hi.
    + intros i row Hi. destruct (Nat.eq_dec i n) as [->|D].
      * rewrite N' in Hi. injection Hi as <-. assert (Hs : (n <? S n)%nat = true) by (apply Nat.ltb_lt; lia). rewrite Hs.
        intros ks' ws' [Gk Gw]. rewrite Ek in Gk. rewrite Ew in Gw. injection Gk as <-. injection Gw as <-. split.
        -- intros j k w Hj Hk Hw. rewrite A1. assert (Hlt : (j < length ks)%nat) by (apply nth_error_Some; congruence).
           assert (Hb : (j <? Nat.min (length ks) 8)%nat = true) by (apply Nat.ltb_lt; lia). rewrite Hb, Hk, Hw. reflexivity.
        -- intros j Hj. rewrite A1. assert (Hb : (j <? Nat.min (length ks) 8)%nat = false) by (apply Nat.ltb_ge; lia). rewrite Hb.
           rewrite (nth_error_nth' _ (0%N, 0)) by (rewrite repeat_length; lia). rewrite nth_repeat. reflexivity.
      * rewrite O' in Hi by exact D. specialize (A i row Hi). assert (Hs : (i <? S n)%nat = (i <? n)%nat) by (destruct (Nat.ltb_spec i (S n)), (Nat.ltb_spec i n); try reflexivity; lia).
        rewrite Hs. exact A.
  - exists t. split; [exact E|]. split; [congruence|]. split; [exact T|]. intros i ks ws row G Er. specialize (A i row Er).
    assert (Hi : (i < length wgt)%nat) by (rewrite <- Lt; apply nth_error_Some; congruence). apply Nat.ltb_lt in Hi. rewrite Hi in A. exact (A ks ws G).
Qed.
Print Assumptions skin_weights_stored.

Lemma influences_zeros n : influences (repeat (0%N, 0) n) = repeat (0%nat, 0) n.
Proof. unfold influences. induction n as [|n IH]; [reflexivity|]. cbn [repeat map]. rewrite IH. reflexivity. Qed.
Lemma total_zeros n : rsum (map snd (repeat (0%nat, 0) n)) = 0.
Proof. induction n as [|n IH]; [reflexivity|]. cbn [repeat map rsum snd]. rewrite IH. ring. Qed.
Lemma weight_zeros k n : weight_of k (repeat (0%nat, 0) n) = 0.
Proof. unfold weight_of. induction n as [|n IH]; [reflexivity|]. cbn [repeat map rsum fst snd]. rewrite IH. destruct (Nat.eqb 0 k); ring. Qed.
Lemma adds_zeros worlds inv p n : Forall2 (adds worlds inv p) (repeat (0%nat, 0) n) (repeat vzero n).
Proof. induction n as [|n IH]; cbn [repeat]; constructor; [left; auto|exact IH]. Qed.
Lemma vsum_zeros n : fold_right vadd vzero (repeat vzero n) = vzero.
Proof. induction n as [|n IH]; [reflexivity|]. cbn [repeat fold_right]. rewrite IH. apply vadd_0_l. Qed.
(** With at most eight influences per vertex, and joints that 32 bits can count, every vertex keeps its influences: it has the same total
    weight and the same weight for every joint, and skinning moves it in the same way. *)
Theorem skin_weights_kept_partial ind wgt t i ks ws row : sw_set ind wgt = Ok t -> given ind wgt i ks ws -> nth_error t i = Some row ->
  length ind = length wgt -> (forall i ks ws, given ind wgt i ks ws -> (Nat.min (length ks) 8 <= length ws)%nat) ->
  (length ks <= 8)%nat -> length ws = length ks -> (forall k, In k ks -> (k < 2 ^ 32)%N) ->
  influences row = influences (combine ks ws) ++ repeat (0%nat, 0) (8 - length ks) /\
  total (influences row) = total (influences (combine ks ws)) /\
  (forall k, weight_of k (influences row) = weight_of k (influences (combine ks ws))) /\
  (forall worlds inv p v, skinned worlds inv (influences (combine ks ws)) p v -> skinned worlds inv (influences row) p v).
Proof.
  intros E G Er L H L8 Lw Hk. destruct (skin_weights_stored ind wgt L H) as (t' & E' & _ & T & A). rewrite E in E'. injection E' as <-.
  destruct (A i ks ws row G Er) as [A1 A2]. pose proof (T row (nth_error_In _ _ Er)) as Lr.
  assert (R1 : row = combine ks ws ++ repeat (0%N, 0) (8 - length ks)).
  { apply nth_ext with (d := (0%N, 0)) (d' := (0%N, 0)); [rewrite app_length, combine_length, repeat_length; lia|]. intros j Hj. rewrite Lr in Hj.
    destruct (Nat.lt_ge_cases j (length ks)) as [C|C].
    - destruct (nth_error ks j) as [k|] eqn:Ek; [|apply nth_error_None in Ek; lia]. destruct (nth_error ws j) as [w|] eqn:Ew; [|apply nth_error_None in Ew; lia].
      rewrite (nth_error_nth _ _ _ (A1 j k w Hj Ek Ew)). rewrite N.mod_small by (apply Hk; eapply nth_error_In; exact Ek).
      rewrite app_nth1 by (rewrite combine_length; lia). rewrite combine_nth by (symmetry; exact Lw).
      rewrite (nth_error_nth _ _ _ Ek), (nth_error_nth _ _ _ Ew). reflexivity.
    - rewrite (nth_error_nth _ _ _ (A2 j (conj C Hj))). rewrite app_nth2 by (rewrite combine_length; lia). symmetry. apply nth_repeat. }
  assert (R2 : influences row = influences (combine ks ws) ++ repeat (0%nat, 0) (8 - length ks)).
  { rewrite R1, <- influences_zeros. unfold influences. apply map_app. }
  split; [exact R2|]. rewrite R2. split.
  - unfold total. rewrite map_app, rsum_app, total_zeros. ring.
  - split.
    { intros k. pose proof (weight_zeros k (8 - length ks)) as Z. unfold weight_of in *. rewrite map_app, rsum_app, Z. ring. }
    intros worlds inv p v (vs & F & ->). exists (vs ++ repeat vzero (8 - length ks)). split.
    + apply Forall2_app; [exact F|apply adds_zeros].
    + unfold vsum. rewrite fold_right_app, vsum_zeros. reflexivity.
Qed.
Print Assumptions skin_weights_kept_partial.

(** Sizes that differ are noticed, and fewer weights than joints are read past their end. *)
Theorem skin_weights_sizes ind wgt : length ind <> length wgt -> sw_set ind wgt = CheckFail.
Proof. intros H. unfold sw_set. apply Nat.eqb_neq in H. rewrite H. reflexivity. Qed.
Print Assumptions skin_weights_sizes.
Theorem skin_weights_short_refuted : exists ind wgt, length ind = length wgt /\ sw_set ind wgt = UB.
Proof. exists [[0%N; 1%N]], [[1]]. split; reflexivity. Qed.
Print Assumptions skin_weights_short_refuted.

(** The ninth influence is lost, even if it is the only one with weight. *)
Theorem skin_weights_ninth_refuted : exists ind wgt t row ks ws, sw_set ind wgt = Ok t /\ given ind wgt 0 ks ws /\ length ks = length ws /\
  nth_error t 0 = Some row /\ total (influences (combine ks ws)) = 1 /\ total (influences row) = 0.
Proof.
  exists [[0; 1; 2; 3; 4; 5; 6; 7; 8]%N], [[0; 0; 0; 0; 0; 0; 0; 0; 1]]. do 4 eexists. split; [reflexivity|].
  split; [split; reflexivity|]. split; [reflexivity|]. split; [reflexivity|]. unfold total. cbn. split; ring.
Qed.
Print Assumptions skin_weights_ninth_refuted.

(** A joint that 32 bits cannot count becomes another joint. *)
Theorem skin_weights_index_refuted : exists ind wgt t row, sw_set ind wgt = Ok t /\ ind = [[(2 ^ 32)%N]] /\ nth_error t 0 = Some row /\ nth_error row 0 = Some (0%N, 1).
Proof. exists [[(2 ^ 32)%N]], [[1]]. do 2 eexists. split; [reflexivity|]. split; [reflexivity|]. split; reflexivity. Qed.
Print Assumptions skin_weights_index_refuted.

(** ** Equality *)

Lemma sq_norm_nonneg l : 0 <= sq_norm l.
Proof. unfold sq_norm. apply rsum_nonneg. intros x _. pose proof (Rle_0_sqr x) as H. unfold Rsqr in H. exact H. Qed.

(** A table equals itself, and the order of the two does not matter. *)
Theorem skin_weights_equal_self eps t : sw_eq eps t t = Ok true.
Proof.
  unfold sw_eq. rewrite Nat.eqb_refl. cbn [negb]. f_equal. apply andb_true_iff. split.
  - induction (concat t) as [|x l IH]; [reflexivity|]. cbn [combine forallb]. rewrite N.eqb_refl. exact IH.
  - assert (Z : sq_norm (map (fun '(x, y) => x - y) (combine (map snd (concat t)) (map snd (concat t)))) = 0).
    { induction (map snd (concat t)) as [|x l IH]; [reflexivity|]. unfold sq_norm in *. cbn [combine map rsum]. rewrite IH. ring. }
    rewrite Z. destruct (Rleb_spec 0 (eps * eps * Rmin (sq_norm (map snd (concat t))) (sq_norm (map snd (concat t))))) as [|C]; [reflexivity|].
    exfalso. pose proof (sq_norm_nonneg (map snd (concat t))) as P. rewrite Rmin_left in C by lra.
    pose proof (Rle_0_sqr eps) as Q. unfold Rsqr in Q. pose proof (Rmult_le_pos _ _ Q P). lra.
Qed.
Print Assumptions skin_weights_equal_self.
Theorem skin_weights_equal_swap eps a b : sw_eq eps a b = sw_eq eps b a.
Proof.
  unfold sw_eq. rewrite (Nat.eqb_sym (length a)). destruct (length b =? length a)%nat; cbn [negb]; [|reflexivity]. f_equal. f_equal.
  - generalize (concat a) as l, (concat b) as l'. induction l as [|x l IH]; intros [|y l']; try reflexivity. cbn [combine forallb]. rewrite N.eqb_sym, IH. reflexivity.
  - rewrite Rmin_comm. f_equal. generalize (map snd (concat a)) as l, (map snd (concat b)) as l'. unfold sq_norm.
    induction l as [|x l IH]; intros [|y l']; try reflexivity. cbn [combine map rsum]. rewrite IH. ring.
Qed.
Print Assumptions skin_weights_equal_swap.

Lemma forallb_fst (la lb : list (N * R)) : length la = length lb -> forallb (fun '(x, y) => (fst x =? fst y)%N) (combine la lb) = true -> map fst la = map fst lb.
Proof.
  revert lb. induction la as [|x la IH]; intros [|y lb] L H; try discriminate L; [reflexivity|]. cbn [combine forallb] in H. apply andb_true_iff in H.
  destruct H as [Hx H]. apply N.eqb_eq in Hx. cbn [map]. rewrite Hx. apply (f_equal2 cons); [reflexivity|]. apply IH; [cbn in L; lia|exact H].
Qed.
Lemma sq_norm_entry l k x : nth_error l k = Some x -> x * x <= sq_norm l.
Proof.
  revert k. induction l as [|a l IH]; intros [|k] H; try discriminate H; unfold sq_norm; cbn [map rsum]; fold (sq_norm l).
  - injection H as ->. pose proof (sq_norm_nonneg l). lra.
  - specialize (IH k H). pose proof (Rle_0_sqr a) as Q. unfold Rsqr in Q. lra.
Qed.
Lemma nth_error_diff (la lb : list (N * R)) k x y : nth_error la k = Some x -> nth_error lb k = Some y ->
  nth_error (map (fun '(x, y) => x - y) (combine (map snd la) (map snd lb))) k = Some (snd x - snd y).
Proof.
  revert lb k. induction la as [|a la IH]; intros [|b lb] [|k] H1 H2; try discriminate H1; try discriminate H2.
  - injection H1 as ->. injection H2 as ->. reflexivity.
  - cbn [combine map nth_error] in *. apply IH; assumption.
Qed.

(** Equal tables have the same joints everywhere, and no weight differs by more than eps times the norm of all weights of either table. *)
Theorem skin_weights_equal_close eps a b : 0 <= eps -> table a -> table b -> sw_eq eps a b = Ok true ->
  length a = length b /\ map fst (concat a) = map fst (concat b) /\
  forall k x y, nth_error (concat a) k = Some x -> nth_error (concat b) k = Some y ->
    Rabs (snd x - snd y) <= eps * sqrt (rsum (map (fun z => snd z * snd z) (concat a))) /\
    Rabs (snd x - snd y) <= eps * sqrt (rsum (map (fun z => snd z * snd z) (concat b))).
Proof.
  intros He Ta Tb H. unfold sw_eq in H. destruct (Nat.eqb_spec (length a) (length b)) as [L|]; [|discriminate H]. cbn [negb] in H.
  assert (H' : forall u v : bool, Ok u = Ok v -> u = v) by (intros u v Huv; injection Huv; auto). apply H' in H. clear H'.
  apply andb_true_iff in H. destruct H as [H1 H2]. split; [exact L|].
  assert (Lc : forall t, table t -> length (concat t) = (8 * length t)%nat).
  { induction t as [|r t IH]; intros T; [reflexivity|]. cbn [concat length]. rewrite app_length, (T r (or_introl eq_refl)), IH by (intros x Hx; apply T; right; exact Hx). lia. }
  assert (L2 : length (concat a) = length (concat b)) by (rewrite !Lc by assumption; lia).
  split; [apply forallb_fst; assumption|]. intros k x y Hx Hy.
  apply Rleb_true in H2. pose proof (sq_norm_entry _ _ _ (nth_error_diff _ _ _ _ _ Hx Hy)) as Q.
  assert (Q1 : (snd x - snd y) * (snd x - snd y) <= eps * eps * Rmin (sq_norm (map snd (concat a))) (sq_norm (map snd (concat b)))) by lra.
  assert (K : forall l : list (N * R), Rmin (sq_norm (map snd (concat a))) (sq_norm (map snd (concat b))) <= sq_norm (map snd l) ->
    Rabs (snd x - snd y) <= eps * sqrt (rsum (map (fun z => snd z * snd z) l))).
  { intros l Hl. assert (En : rsum (map (fun z : N * R => snd z * snd z) l) = sq_norm (map snd l)) by (unfold sq_norm; rewrite map_map; reflexivity). rewrite En.
    pose proof (sq_norm_nonneg (map snd l)) as P. apply Rsqr_incr_0_var; [|apply Rmult_le_pos; [exact He|apply sqrt_pos]].
    rewrite <- Rsqr_abs. unfold Rsqr. replace (eps * sqrt (sq_norm (map snd l)) * (eps * sqrt (sq_norm (map snd l)))) with (eps * eps * (sqrt (sq_norm (map snd l)) * sqrt (sq_norm (map snd l)))) by ring.
    rewrite sqrt_sqrt by exact P. pose proof (Rle_0_sqr eps) as Qe. unfold Rsqr in Qe. pose proof (Rmult_le_compat_l _ _ _ Qe Hl). lra. }
  split; apply K; [apply Rmin_l|apply Rmin_r].
Qed.
Print Assumptions skin_weights_equal_close.

(** Equality is not transitive: small differences add up. *)
Theorem skin_weights_equal_transitive_refuted : forall eps, 0 < eps -> exists a b c, table a /\ table b /\ table c /\
  sw_eq eps a b = Ok true /\ sw_eq eps b c = Ok true /\ sw_eq eps a c = Ok false.
Proof.
  intros eps He. set (row := fun w : R => [(0%N, w); (0%N, 0); (0%N, 0); (0%N, 0); (0%N, 0); (0%N, 0); (0%N, 0); (0%N, 0)]).
  assert (T : forall w, table [row w]) by (intros w r [<- | []]; reflexivity).
  assert (E : forall u v, 0 < u -> u < v -> sw_eq eps [row u] [row v] = Ok (Rleb ((u - v) * (u - v)) (eps * eps * (u * u)))).
  { intros u v Hu Huv. unfold sw_eq. cbn [length Nat.eqb negb row concat app combine forallb fst snd map N.eqb andb]. unfold sq_norm. cbn [map rsum]. f_equal. f_equal; [ring|].
    rewrite Rmin_left; [ring|]. pose proof (Rmult_le_0_lt_compat u v u v ltac:(lra) ltac:(lra) Huv Huv). lra. }
  exists [row 1], [row (1 + eps)], [row ((1 + eps) * (1 + eps))]. split; [apply T|]. split; [apply T|]. split; [apply T|].
  assert (P : 0 < eps * eps) by (apply Rmult_lt_0_compat; exact He). assert (P3 : 0 < eps * eps * eps) by (apply Rmult_lt_0_compat; assumption).
  rewrite !E by lra. split; [|split]; f_equal.
  - apply Rleb_true. lra.
  - apply Rleb_true. lra.
  - apply Rleb_false. assert (0 < eps * eps * (eps * eps)) by (apply Rmult_lt_0_compat; assumption). lra.
Qed.
Print Assumptions skin_weights_equal_transitive_refuted.

(** Two vertices, one on two joints and one on one. *)
Example skin_weights_case : exists t, sw_set [[3; 1]; [2]]%N [[1/4; 3/4]; [1]] = Ok t /\
  (forall i ks ws, given [[3; 1]; [2]]%N [[1/4; 3/4]; [1]] i ks ws -> (Nat.min (length ks) 8 <= length ws)%nat) /\ nth_error t 0 = Some ((3%N, 1/4) :: (1%N, 3/4) :: repeat (0%N, 0) 6).
Proof.
  eexists. split; [reflexivity|]. split; [|reflexivity]. intros [|[|[|i]]] ks ws [H1 H2]; cbn in H1, H2; try discriminate H1; injection H1 as <-; injection H2 as <-; cbn; lia.
Qed.
