(** C118: extrapolated parameters. *)

From Coq Require Import Reals List Arith Bool Lia Lra ZArith.
From Verif Require Import Prelude Loops Rbool Extrap_model Extrap_spec.
Import ListNotations.
Local Open Scope outcome_scope.
Local Open Scope R_scope.

Lemma clamp_limited m d : 0 <= m -> limited m d (Rmax (Rmin d m) (- m)).
Proof.
  intros H. unfold limited, Rmax, Rmin. destruct (Rle_dec d m); destruct (Rle_dec _ (- m)).
  - destruct (Req_dec d (- m)); [left; lra|right; right; lra].
  - left. lra.
  - destruct (Req_dec d m); [lra|right; left; lra].
  - right. left. lra.
Qed.
Lemma limited_unique m d e e' : 0 <= m -> limited m d e -> limited m d e' -> e = e'.
Proof. unfold limited. intros. lra. Qed.

(** Every parameter moves on by its last change, limited and scaled. *)
Theorem extrapolate_each previous current factor m : 0 <= m -> length current = length previous ->
  length (extrapolate previous current factor m) = length current /\
  forall i x, nth_error (extrapolate previous current factor m) i = Some x ->
    exists p c, nth_error previous i = Some p /\ nth_error current i = Some c /\ guess factor m p c x.
Proof.
  intros Hm L. unfold extrapolate. rewrite L, Nat.eqb_refl. cbn [negb]. split; [rewrite map_length, combine_length; lia|].
  clear L. revert previous. induction current as [|c cur IH]; intros [|p prev] [|i] x; cbn; try discriminate.
  - intros E. injection E as <-. exists p, c. split; [reflexivity|]. split; [reflexivity|]. exists (Rmax (Rmin (c - p) m) (- m)). split; [apply clamp_limited; exact Hm|ring].
  - apply IH.
Qed.
Print Assumptions extrapolate_each.

(** Without poses of the same size the current one is kept. *)
Theorem extrapolate_sizes previous current factor m : length current <> length previous ->
  extrapolate previous current factor m = current /\ forall active, extrapolate_active previous current active factor m = Ok current.
Proof. intros H. unfold extrapolate, extrapolate_active. apply Nat.eqb_neq in H. rewrite H. auto. Qed.
Print Assumptions extrapolate_sizes.

(** With a set of active parameters these are extrapolated and all others kept. *)
Theorem extrapolate_active_each previous current active factor m : 0 <= m -> length current = length previous ->
  (length current <= N.to_nat 2048)%nat ->
  exists r, extrapolate_active previous current active factor m = Ok r /\ length r = length current /\
    forall i, (i < length current)%nat ->
      nth_error r i = if active i then nth_error (extrapolate previous current factor m) i else nth_error current i.
Proof.
  intros Hm L Mx. unfold extrapolate_active. rewrite L, Nat.eqb_refl. cbn [negb]. rewrite <- L.
  match goal with |- context [ofold ?b _ _] => destruct (ofold_seq_inv b
    (fun k r => length r = length current /\ forall i, (i < length current)%nat ->
       nth_error r i = if ((i <? k)%nat && active i)%bool then nth_error (extrapolate previous current factor m) i else nth_error current i)
    (length current) current) as (r & E & Lr & A) end.
  - split; [reflexivity|]. intros i Hi. reflexivity.
  - intros k r Hk (Lr & A). assert (Hk2 : (k <? kMaxModelParams)%nat = true) by (apply Nat.ltb_lt; unfold kMaxModelParams; lia). rewrite Hk2.
    assert (Next : forall i, (i <> k)%nat -> (i <? S k)%nat = (i <? k)%nat).
    { intros i D. destruct (Nat.ltb_spec i (S k)), (Nat.ltb_spec i k); try reflexivity; lia. }
    destruct (active k) eqn:Ak.
    + destruct (nth_error current k) as [c|] eqn:Ec; [|apply nth_error_None in Ec; lia].
      destruct (nth_error previous k) as [p|] eqn:Ep; [|apply nth_error_None in Ep; lia].
      rewrite (rd_some _ _ _ Ec), (rd_some _ _ _ Ep). cbn [obind]. unfold std_clamp.
      destruct (Rltb_spec m (- m)); [lra|]. cbn [obind].
      destruct (wr_ok r k (c + factor * (if Rltb (c - p) (- m) then - m else if Rltb m (c - p) then m else c - p)) ltac:(lia)) as (r' & E' & L' & N' & O').
      exists r'. split; [exact E'|]. split; [congruence|]. intros i Hi. destruct (Nat.eq_dec i k) as [->|D].
      * rewrite N', Ak. assert (Sk : (k <? S k)%nat = true) by (apply Nat.ltb_lt; lia). rewrite Sk. cbn [andb].
        assert (Eg : nth_error (extrapolate previous current factor m) k = Some (c + Rmax (Rmin (c - p) m) (- m) * factor)).
        { unfold extrapolate. rewrite L, Nat.eqb_refl. cbn [negb]. rewrite nth_error_map.
          assert (nth_error (combine current previous) k = Some (c, p)) as ->; [|reflexivity].
          clear - Ec Ep. revert previous k Ec Ep. induction current as [|a l IH]; intros [|b l'] [|k] H1 H2; try discriminate; cbn in *; [congruence|]. apply IH; assumption. }
        rewrite Eg. f_equal. rewrite <- (limited_unique m (c - p) (if Rltb (c - p) (- m) then - m else if Rltb m (c - p) then m else c - p) (Rmax (Rmin (c - p) m) (- m)) Hm); [ring| |apply clamp_limited; exact Hm].
        unfold limited. destruct (Rltb_spec (c - p) (- m)); [lra|]. destruct (Rltb_spec m (c - p)); lra.
      * rewrite O' by exact D. rewrite A by exact Hi. rewrite Next by exact D. reflexivity.
    + exists r. split; [reflexivity|]. split; [exact Lr|]. intros i Hi. rewrite A by exact Hi. destruct (Nat.eq_dec i k) as [->|D]; [rewrite Ak, !andb_false_r; reflexivity|].
      rewrite Next by exact D. reflexivity.
  - exists r. split; [exact E|]. split; [exact Lr|]. intros i Hi. rewrite A by exact Hi. assert (Hi2 : (i <? length current)%nat = true) by (apply Nat.ltb_lt; exact Hi). rewrite Hi2. reflexivity.
Qed.
Print Assumptions extrapolate_active_each.

(** No parameter moves further than the limit allows, and extrapolating again and again stays close: the changes die out. *)
Lemma guess_step factor m p c x : 0 <= factor -> 0 <= m -> guess factor m p c x -> Rabs (x - c) <= factor * Rabs (c - p) /\ Rabs (x - c) <= factor * m.
Proof.
  intros Hf Hm (e & He & ->). replace (c + factor * e - c) with (factor * e) by ring. rewrite Rabs_mult, (Rabs_right factor) by lra.
  assert (B : Rabs e <= Rabs (c - p) /\ Rabs e <= m).
  { destruct He as [[[H1 H2] ->]|[[H ->]|[H ->]]].
    - split; [lra|]. apply Rabs_le. lra.
    - rewrite (Rabs_right m) by lra. split; [|lra]. rewrite Rabs_right by lra. lra.
    - rewrite Rabs_Ropp, (Rabs_right m) by lra. split; [|lra]. rewrite Rabs_left1 by lra. lra. }
  split; apply Rmult_le_compat_l; tauto.
Qed.
Theorem extrapolate_stays_close previous current factor m n : 0 <= factor < 1 -> 0 <= m -> length current = length previous ->
  forall i c x, nth_error current i = Some c ->
    nth_error (snd (guessed (fun p c => extrapolate p c factor m) n previous current)) i = Some x ->
    Rabs (x - c) <= factor * m / (1 - factor).
Proof.
  intros Hf Hm L.
  assert (P : 0 < 1 - factor) by lra. assert (I1 : 0 < / (1 - factor)) by (apply Rinv_0_lt_compat; exact P).
  (* with a last change of at most [d], the distance is at most d factor / (1 - factor) *)
  assert (G : forall n prev cur d, length cur = length prev -> 0 <= d ->
     (forall i p c, nth_error prev i = Some p -> nth_error cur i = Some c -> Rabs (c - p) <= d) ->
     forall i c x, nth_error cur i = Some c -> nth_error (snd (guessed (fun p c => extrapolate p c factor m) n prev cur)) i = Some x ->
     Rabs (x - c) <= factor * d / (1 - factor)).
  { clear n previous current L. induction n as [|n IH]; intros prev cur d L Hd B i c x Ec Ex; cbn [guessed snd] in Ex.
    - rewrite Ec in Ex. injection Ex as <-. replace (c - c) with 0 by ring. rewrite Rabs_R0. unfold Rdiv. apply Rmult_le_pos; [apply Rmult_le_pos|]; lra.
    - destruct (extrapolate_each prev cur factor m Hm L) as [L1 E1].
      destruct (nth_error (extrapolate prev cur factor m) i) as [y|] eqn:Ey.
      2: { apply nth_error_None in Ey. assert (i < length cur)%nat by (apply nth_error_Some; congruence). lia. }
      assert (S1 : forall j a b, nth_error cur j = Some a -> nth_error (extrapolate prev cur factor m) j = Some b -> Rabs (b - a) <= factor * d).
      { intros j a b Ha Hb. destruct (E1 j b Hb) as (p & c' & Hp & Hc & Hg). rewrite Ha in Hc. injection Hc as <-.
        destruct (guess_step factor m p a b ltac:(lra) Hm Hg) as [H1 _]. eapply Rle_trans; [exact H1|]. apply Rmult_le_compat_l; [lra|]. exact (B j p a Hp Ha). }
      assert (T : Rabs (x - y) <= factor * (factor * d) / (1 - factor)).
      { apply (IH cur (extrapolate prev cur factor m) (factor * d) L1 ltac:(apply Rmult_le_pos; lra) S1 i y x Ey Ex). }
      pose proof (S1 i c y Ec Ey) as S2. replace (x - c) with ((x - y) + (y - c)) by ring.
      eapply Rle_trans; [apply Rabs_triang|]. apply (Rle_trans _ (factor * (factor * d) / (1 - factor) + factor * d)); [lra|].
      apply Req_le. field. lra. }
  intros i c x Ec Ex. destruct n as [|n].
  - cbn [guessed snd] in Ex. rewrite Ec in Ex. injection Ex as <-. replace (c - c) with 0 by ring. rewrite Rabs_R0. unfold Rdiv. apply Rmult_le_pos; [apply Rmult_le_pos|]; lra.
  - cbn [guessed] in Ex. destruct (extrapolate_each previous current factor m Hm L) as [L1 E1].
    destruct (nth_error (extrapolate previous current factor m) i) as [y|] eqn:Ey.
    2: { apply nth_error_None in Ey. assert (i < length current)%nat by (apply nth_error_Some; congruence). lia. }
    assert (S1 : forall j a b, nth_error current j = Some a -> nth_error (extrapolate previous current factor m) j = Some b -> Rabs (b - a) <= factor * m).
    { intros j a b Ha Hb. destruct (E1 j b Hb) as (p & c' & Hp & Hc & Hg). rewrite Ha in Hc. injection Hc as <-.
      destruct (guess_step factor m p a b ltac:(lra) Hm Hg) as [_ H1]. exact H1. }
    pose proof (G n current _ (factor * m) L1 ltac:(apply Rmult_le_pos; lra) S1 i y x Ey Ex) as T.
    pose proof (S1 i c y Ec Ey) as S2. replace (x - c) with ((x - y) + (y - c)) by ring.
    eapply Rle_trans; [apply Rabs_triang|]. apply (Rle_trans _ (factor * (factor * m) / (1 - factor) + factor * m)); [lra|].
    apply Req_le. field. lra.
Qed.
Print Assumptions extrapolate_stays_close.

(** The version with active parameters throws if there are more parameters than a parameter set can hold, whatever is active. *)
Theorem extrapolate_active_many_refuted previous current factor m : 0 <= m -> length current = length previous -> (N.to_nat 2048 < length current)%nat ->
  extrapolate_active previous current (fun _ => false) factor m = Throw.
Proof.
  intros Hm L Mx. unfold extrapolate_active. rewrite L, Nat.eqb_refl. cbn [negb]. rewrite <- L.
  replace (length current) with (kMaxModelParams + S (length current - kMaxModelParams - 1))%nat by (unfold kMaxModelParams; lia).
  rewrite seq_app, ofold_app. cbn [Nat.add seq ofold].
  assert (F : forall k n, (k + n <= kMaxModelParams)%nat -> ofold (fun i (result : list R) => if (i <? kMaxModelParams)%nat then Ok result else Throw) (seq k n) current = Ok current).
  { intros k n. revert k. induction n as [|n IH]; intros k H; [reflexivity|]. cbn [seq ofold]. assert (Hk : (k <? kMaxModelParams)%nat = true) by (apply Nat.ltb_lt; lia). rewrite Hk. cbn [obind]. apply IH. lia. }
  change (fun i result => if (i <? kMaxModelParams)%nat then if false then _ else Ok result else Throw) with (fun (i : nat) (result : list R) => if (i <? kMaxModelParams)%nat then Ok result else Throw).
  rewrite F by lia. cbn [obind]. rewrite Nat.ltb_irrefl. reflexivity.
Qed.
Print Assumptions extrapolate_active_many_refuted.

(** With a negative limit the two versions part: one moves by the limit itself, the other has undefined behaviour. *)
Theorem extrapolate_negative_limit_refuted :
  exists previous current factor m, length current = length previous /\
    extrapolate previous current factor m = [7] /\ extrapolate_active previous current (fun _ => true) factor m = UB.
Proof.
  exists [5], [5], 1, (-2). split; [reflexivity|]. split.
  - unfold extrapolate. cbn. f_equal. unfold Rmax, Rmin. destruct (Rle_dec (5 - 5) (-2)); [lra|]. destruct (Rle_dec (-2) (- -2)); lra.
  - unfold extrapolate_active. cbn [length Nat.eqb negb seq ofold]. assert (H : (0 <? kMaxModelParams)%nat = true) by (apply Nat.ltb_lt; unfold kMaxModelParams; lia). rewrite H.
    cbn [rd nth_error obind]. unfold std_clamp. destruct (Rltb_spec (-2) (- -2)); [reflexivity|lra].
Qed.
Print Assumptions extrapolate_negative_limit_refuted.

(** The default factor and limit, with one parameter that is limited and one that is not. *)
Example extrapolate_case : 0 <= 8 / 10 < 1 /\ 0 <= 4 / 10 /\ guess (8 / 10) (4 / 10) 1 2 (2 + 8 / 10 * (4 / 10)) /\ guess (8 / 10) (4 / 10) 1 (11 / 10) (118 / 100) /\
  length [2; 11 / 10] = length [1; 1].
Proof.
  split; [lra|]. split; [lra|]. split; [exists (4 / 10); split; [right; left; lra|reflexivity]|].
  split; [exists (1 / 10); split; [left; lra|lra]|]. reflexivity.
Qed.
Example extrapolate_many_case : length (repeat 0 (S (N.to_nat 2048))) = length (repeat 1 (S (N.to_nat 2048))) /\ (N.to_nat 2048 < length (repeat 0 (S (N.to_nat 2048))))%nat.
Proof. rewrite !repeat_length. lia. Qed.
