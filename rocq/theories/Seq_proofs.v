(** Proofs about joined parameter vectors. *)

From Coq Require Import Bool List Arith Lia Reals.
From Verif Require Import Prelude Loops Seq_spec Seq_model.
Import ListNotations.
Local Open Scope outcome_scope.

(** ** Ranks *)

Lemma rank_S P i : rank P (S i) = rank P i + (if P i then 1 else 0).
Proof.
  unfold rank. rewrite seq_S, filter_app, app_length. cbn [filter Nat.add].
  destruct (P i); reflexivity.
Qed.
Lemma rank_le P i j : i <= j -> rank P i <= rank P j.
Proof. induction 1; [lia|]. rewrite rank_S. lia. Qed.
Lemma rank_lt P i j : i < j -> P i = true -> rank P i < rank P j.
Proof. intros H E. pose proof (rank_le P (S i) j H) as L. rewrite rank_S, E in L. lia. Qed.
Lemma rank_inj P i j : P i = true -> P j = true -> rank P i = rank P j -> i = j.
Proof.
  intros Hi Hj E. destruct (Nat.lt_trichotomy i j) as [L|[L|L]]; [|exact L|].
  - pose proof (rank_lt P i j L Hi). lia.
  - pose proof (rank_lt P j i L Hj). lia.
Qed.
Lemma rank_onto P n k : k < rank P n -> exists i, i < n /\ P i = true /\ rank P i = k.
Proof.
  induction n as [|n IH]; [cbn; lia|]. rewrite rank_S. intros H.
  destruct (Nat.lt_ge_cases k (rank P n)) as [L|L].
  - destruct (IH L) as (i & Hi & R). exists i. split; [lia|exact R].
  - destruct (P n) eqn:E; [|lia]. exists n. repeat split; auto; lia.
Qed.
Lemma rank_nth P n i : i < n -> P i = true -> nth_error (filter P (seq 0 n)) (rank P i) = Some i.
Proof.
  intros H E. replace n with (i + S (n - i - 1)) by lia.
  rewrite seq_app, filter_app, nth_error_app2 by (unfold rank; lia).
  cbn [Nat.add seq filter]. rewrite E. unfold rank. rewrite Nat.sub_diag. reflexivity.
Qed.
Lemma rank_nth_inv P n k : k < rank P n ->
  exists i, nth_error (filter P (seq 0 n)) k = Some i /\ i < n /\ P i = true /\ rank P i = k.
Proof.
  intros H. destruct (rank_onto P n k H) as (i & Hi & E & <-).
  exists i. repeat split; auto. apply rank_nth; auto.
Qed.

(** ** Slots *)

Section Slots.
Context (np : nat) (univ en : nat -> bool) (nF : nat).
Let per := per_frame univ en.
Let sh := shared univ en.

Lemma per_true i : en i = true -> univ i = false -> per i = true.
Proof. intros A B. unfold per, per_frame. rewrite A, B. reflexivity. Qed.
Lemma sh_true i : en i = true -> univ i = true -> sh i = true.
Proof. intros A B. unfold sh, shared. rewrite A, B. reflexivity. Qed.
Lemma per_inv i : per i = true -> en i = true /\ univ i = false.
Proof. unfold per, per_frame. destruct (en i), (univ i); cbn; auto. Qed.
Lemma sh_inv i : sh i = true -> en i = true /\ univ i = true.
Proof. unfold sh, shared. destruct (en i), (univ i); cbn; auto. Qed.

Lemma slot_bound f i : f < nF -> i < np -> en i = true ->
  slot np univ en nF f i < joined_size np univ en nF.
Proof.
  intros Hf Hi He. unfold slot, joined_size. destruct (univ i) eqn:E.
  - pose proof (rank_lt sh i np Hi (sh_true i He E)). unfold sh in *. lia.
  - pose proof (rank_lt per i np Hi (per_true i He E)). unfold per in *. nia.
Qed.

Lemma slot_onto s : 0 < nF -> s < joined_size np univ en nF ->
  exists f i, f < nF /\ i < np /\ en i = true /\ slot np univ en nF f i = s.
Proof.
  intros HF Hs. unfold joined_size in Hs. fold per sh in Hs.
  destruct (Nat.lt_ge_cases s (rank per np * nF)) as [L|L].
  - assert (0 < rank per np) as P by nia.
    destruct (rank_onto per np (s mod rank per np)) as (i & Hi & E & R);
      [apply Nat.mod_upper_bound; lia|].
    exists (s / rank per np), i. destruct (per_inv i E) as [E1 E2].
    repeat split; auto; [apply Nat.div_lt_upper_bound; lia|].
    unfold slot. rewrite E2. fold per. rewrite R.
    rewrite (Nat.div_mod s (rank per np)) at 3 by lia. reflexivity.
  - destruct (rank_onto sh np (s - rank per np * nF)) as (i & Hi & E & R); [lia|].
    exists 0, i. destruct (sh_inv i E) as [E1 E2]. repeat split; auto.
    unfold slot. rewrite E2. fold per sh. lia.
Qed.

Lemma slot_inj f i f' i' : f < nF -> f' < nF -> i < np -> i' < np -> en i = true -> en i' = true ->
  slot np univ en nF f i = slot np univ en nF f' i' ->
  i = i' /\ (univ i = false -> f = f').
Proof.
  intros Hf Hf' Hi Hi' He He'. unfold slot. fold per sh.
  destruct (univ i) eqn:E, (univ i') eqn:E'; intros Q.
  - split; [|discriminate]. apply (rank_inj sh); [apply sh_true|apply sh_true|lia]; auto.
  - pose proof (rank_lt per i' np Hi' (per_true i' He' E')). nia.
  - pose proof (rank_lt per i np Hi (per_true i He E)). nia.
  - pose proof (rank_lt per i' np Hi' (per_true i' He' E')).
    pose proof (rank_lt per i np Hi (per_true i He E)).
    assert (f = f') as <- by nia. split; [|auto].
    apply (rank_inj per); [apply per_true|apply per_true|lia]; auto.
Qed.
End Slots.

(** ** The index lists *)

Lemma split_filter univ en l : forall per unv,
  fold_left (split_step univ en) l (per, unv) =
  (per ++ filter (per_frame univ en) l, unv ++ filter (shared univ en) l).
Proof.
  induction l as [|i l IH]; intros per unv; cbn; [rewrite !app_nil_r; reflexivity|].
  assert (per_frame univ en i = en i && negb (univ i)) as -> by reflexivity.
  assert (shared univ en i = en i && univ i) as -> by reflexivity.
  destruct (en i), (univ i); cbn; rewrite IH, ?app_assoc_reverse; reflexivity.
Qed.

Record seq_wf (np : nat) (univ : nat -> bool) (nF : nat) (en : nat -> bool) (s : seqfn) : Prop := {
  w_np : sq_np s = np;
  w_univ : sq_univ s = univ;
  w_nF : length (sq_frames s) = nF;
  w_len : forall f x, nth_error (sq_frames s) f = Some x -> length x = np;
  w_per : sq_per s = filter (per_frame univ en) (seq 0 np);
  w_unv : sq_unv s = filter (shared univ en) (seq 0 np);
  w_num : sq_num s = joined_size np univ en nF
}.

Lemma update_wf np univ nF en en' s : seq_wf np univ nF en' s \/
  (sq_np s = np /\ sq_univ s = univ /\ length (sq_frames s) = nF /\
   forall f x, nth_error (sq_frames s) f = Some x -> length x = np) ->
  seq_wf np univ nF en (seq_update_sets s en).
Proof.
  intros H.
  assert (sq_np s = np /\ sq_univ s = univ /\ length (sq_frames s) = nF /\
   forall f x, nth_error (sq_frames s) f = Some x -> length x = np) as (A & B & C & D).
  { destruct H as [[]|H]; auto. }
  unfold seq_update_sets. rewrite A, B, split_filter. cbn.
  constructor; cbn; auto. rewrite C. reflexivity.
Qed.

Lemma init_frames_len np nF f x :
  nth_error (repeat (repeat 0%R np) nF) f = Some x -> length x = np.
Proof.
  intros H. apply nth_error_In, repeat_spec in H. subst. apply repeat_length.
Qed.

Lemma init_wf np univ nF : seq_wf np univ nF (fun _ => true) (seq_init np univ nF).
Proof.
  unfold seq_init. eapply update_wf. right. cbn.
  repeat split; [apply repeat_length|apply init_frames_len].
  Unshelve. exact (fun _ => true).
Qed.

Lemma per_length np univ nF en s : seq_wf np univ nF en s ->
  length (sq_per s) = rank (per_frame univ en) np.
Proof. intros W. rewrite (w_per _ _ _ _ _ W). reflexivity. Qed.
Lemma unv_length np univ nF en s : seq_wf np univ nF en s ->
  length (sq_unv s) = rank (shared univ en) np.
Proof. intros W. rewrite (w_unv _ _ _ _ _ W). reflexivity. Qed.

Lemma per_get np univ nF en s k : seq_wf np univ nF en s -> k < length (sq_per s) ->
  exists i, nth_error (sq_per s) k = Some i /\ i < np /\ en i = true /\ univ i = false /\
    rank (per_frame univ en) i = k.
Proof.
  intros W H. rewrite (per_length _ _ _ _ _ W) in H.
  destruct (rank_nth_inv _ _ _ H) as (i & N & Hi & E & R).
  destruct (per_inv univ en i E). exists i. rewrite (w_per _ _ _ _ _ W). auto.
Qed.
Lemma unv_get np univ nF en s k : seq_wf np univ nF en s -> k < length (sq_unv s) ->
  exists i, nth_error (sq_unv s) k = Some i /\ i < np /\ en i = true /\ univ i = true /\
    rank (shared univ en) i = k.
Proof.
  intros W H. rewrite (unv_length _ _ _ _ _ W) in H.
  destruct (rank_nth_inv _ _ _ H) as (i & N & Hi & E & R).
  destruct (sh_inv univ en i E). exists i. rewrite (w_unv _ _ _ _ _ W). auto.
Qed.

(** ** setFrameParametersFromJoinedParameterVector *)

Definition def0 (o : option R) : R := match o with Some x => x | None => 0%R end.
Lemma nth_def0 (l : list R) i : i < length l -> nth_error l i = Some (def0 (nth_error l i)).
Proof. intros H. destruct (nth_error_lt l i H) as [x E]. rewrite E. reflexivity. Qed.

Lemma scatter_frame np univ nF en s (v : list R) f (x : list R) : seq_wf np univ nF en s ->
  length v = joined_size np univ en nF -> f < nF -> length x = np ->
  exists x',
    (let* x1 := ofold (fun k x =>
        let* i := rd (sq_per s) k in
        let* y := rd v (length (sq_per s) * f + k) in
        wr x i y) (seq 0 (length (sq_per s))) x in
     ofold (fun k x =>
        let* i := rd (sq_unv s) k in
        let* y := rd v (length (sq_per s) * nF + k) in
        wr x i y) (seq 0 (length (sq_unv s))) x1) = Ok x' /\ length x' = np /\
    forall i, i < np ->
      nth_error x' i = if en i then nth_error v (slot np univ en nF f i) else nth_error x i.
Proof.
  intros W Lv Hf Lx.
  set (nPer := length (sq_per s)).
  assert (nPer = rank (per_frame univ en) np) as EP by (apply (per_length _ _ _ _ _ W)).
  assert (length (sq_unv s) = rank (shared univ en) np) as EU by (apply (unv_length _ _ _ _ _ W)).
  set (posP := fun k => nth k (sq_per s) 0).
  set (posU := fun k => nth k (sq_unv s) 0).
  assert (forall k, k < nPer -> nth_error (sq_per s) k = Some (posP k) /\ posP k < np /\
            en (posP k) = true /\ univ (posP k) = false /\ rank (per_frame univ en) (posP k) = k) as GP.
  { intros k Hk. destruct (per_get _ _ _ _ _ k W Hk) as (i & N & R).
    assert (posP k = i) as -> by (unfold posP; erewrite nth_error_nth; eauto). auto. }
  assert (forall k, k < length (sq_unv s) -> nth_error (sq_unv s) k = Some (posU k) /\ posU k < np /\
            en (posU k) = true /\ univ (posU k) = true /\ rank (shared univ en) (posU k) = k) as GU.
  { intros k Hk. destruct (unv_get _ _ _ _ _ k W Hk) as (i & N & R).
    assert (posU k = i) as -> by (unfold posU; erewrite nth_error_nth; eauto). auto. }
  destruct (copy_loop (fun k x => let* i := rd (sq_per s) k in
        let* y := rd v (nPer * f + k) in wr x i y) posP
        (fun k => def0 (nth_error v (nPer * f + k))) (seq 0 nPer) x) as (x1 & E1 & L1 & S1 & O1).
  { intros k r Hk _. apply in_seq in Hk. destruct (GP k) as (N & _); [lia|].
    rewrite (rd_some _ _ _ N). cbn [obind].
    rewrite (rd_some _ _ _ (nth_def0 v (nPer * f + k) ltac:(rewrite Lv; unfold joined_size; nia))).
    reflexivity. }
  { intros k Hk. apply in_seq in Hk. destruct (GP k) as (_ & N & _); lia. }
  { intros k k' Hk Hk' E. apply in_seq in Hk, Hk'.
    destruct (GP k) as (_ & _ & _ & _ & R); [lia|]. destruct (GP k') as (_ & _ & _ & _ & R'); [lia|].
    rewrite E in R. congruence. }
  rewrite E1. cbn [obind].
  destruct (copy_loop (fun k x => let* i := rd (sq_unv s) k in
        let* y := rd v (nPer * nF + k) in wr x i y) posU
        (fun k => def0 (nth_error v (nPer * nF + k))) (seq 0 (length (sq_unv s))) x1)
    as (x2 & E2 & L2 & S2 & O2).
  { intros k r Hk _. apply in_seq in Hk. destruct (GU k) as (N & _); [lia|].
    rewrite (rd_some _ _ _ N). cbn [obind].
    rewrite (rd_some _ _ _ (nth_def0 v (nPer * nF + k) ltac:(rewrite Lv; unfold joined_size; nia))).
    reflexivity. }
  { intros k Hk. apply in_seq in Hk. destruct (GU k) as (_ & N & _); lia. }
  { intros k k' Hk Hk' E. apply in_seq in Hk, Hk'.
    destruct (GU k) as (_ & _ & _ & _ & R); [lia|]. destruct (GU k') as (_ & _ & _ & _ & R'); [lia|].
    rewrite E in R. congruence. }
  exists x2. split; [exact E2|]. split; [congruence|].
  intros i Hi. destruct (en i) eqn:He.
  - assert (slot np univ en nF f i < length v) as SB by (rewrite Lv; apply slot_bound; auto).
    rewrite (nth_def0 v _ SB). unfold slot in *. rewrite <- EP in *.
    destruct (univ i) eqn:Hu.
    + assert (rank (shared univ en) i < length (sq_unv s)) as Hk
        by (rewrite EU; apply rank_lt; auto; apply sh_true; auto).
      destruct (GU _ Hk) as (_ & _ & A & B & R).
      assert (posU (rank (shared univ en) i) = i) as P.
      { apply (rank_inj (shared univ en)); [apply sh_true; auto|apply sh_true; auto|exact R]. }
      rewrite <- P at 1. apply (S2 (rank (shared univ en) i)). apply in_seq. lia.
    + assert (rank (per_frame univ en) i < nPer) as Hk
        by (rewrite EP; apply rank_lt; auto; apply per_true; auto).
      destruct (GP _ Hk) as (_ & _ & A & B & R).
      assert (posP (rank (per_frame univ en) i) = i) as P.
      { apply (rank_inj (per_frame univ en)); [apply per_true; auto|apply per_true; auto|exact R]. }
      rewrite O2.
      * rewrite <- P at 1. apply (S1 (rank (per_frame univ en) i)). apply in_seq. lia.
      * intros k Hk' Q. apply in_seq in Hk'. destruct (GU k) as (_ & _ & _ & Q' & _); [lia|]. congruence.
  - rewrite O2, O1; auto.
    + intros k Hk Q. apply in_seq in Hk. destruct (GP k) as (_ & _ & Q' & _); [lia|]. congruence.
    + intros k Hk Q. apply in_seq in Hk. destruct (GU k) as (_ & _ & Q' & _); [lia|]. congruence.
Qed.

Lemma obind_assoc {A B C} (x : outcome A) (f : A -> outcome B) (g : B -> outcome C) :
  obind (obind x f) g = obind x (fun a => obind (f a) g).
Proof. destruct x; reflexivity. Qed.

(** A loop over the frames, each of which rewrites its own frame. *)
Lemma frames_loop (body : nat -> list R -> outcome (list R)) (Q : nat -> list R -> list R -> Prop) nF np fr0 :
  length fr0 = nF -> (forall f x, nth_error fr0 f = Some x -> length x = np) ->
  (forall f x, f < nF -> length x = np -> exists x', body f x = Ok x' /\ length x' = np /\ Q f x x') ->
  exists fr, ofold (fun f fr => let* x := rd fr f in let* x' := body f x in wr fr f x')
      (seq 0 nF) fr0 = Ok fr /\ length fr = nF /\
    forall f x, nth_error fr0 f = Some x -> exists x', nth_error fr f = Some x' /\ length x' = np /\ Q f x x'.
Proof.
  intros L0 N0 HB.
  destruct (ofold_seq_inv (fun f fr => let* x := rd fr f in let* x' := body f x in wr fr f x')
    (fun k fr => length fr = nF /\
       (forall f x, f < k -> nth_error fr0 f = Some x -> exists x', nth_error fr f = Some x' /\ length x' = np /\ Q f x x') /\
       (forall f, k <= f -> nth_error fr f = nth_error fr0 f)) nF fr0) as (fr & E & L & A & _).
  - repeat split; auto. intros; lia.
  - intros k fr Hk (L & A & B).
    destruct (nth_error_lt fr0 k) as [x Ex]; [lia|].
    rewrite (rd_some fr k x) by (rewrite B; auto). cbn [obind].
    destruct (HB k x Hk (N0 _ _ Ex)) as (x' & Eb & Lx' & Qx). rewrite Eb. cbn [obind].
    destruct (wr_ok fr k x') as (fr' & E' & L' & S' & O'); [lia|].
    exists fr'. split; [exact E'|]. repeat split; [lia| |].
    + intros f y Hf Ey. destruct (Nat.eq_dec f k) as [->|D].
      * rewrite Ex in Ey. injection Ey as <-. exists x'. auto.
      * rewrite O' by exact D. apply A; [lia|exact Ey].
    + intros f Hf. rewrite O' by lia. apply B. lia.
  - exists fr. repeat split; auto. intros f x Ex. apply A; auto. apply nth_error_len in Ex. lia.
Qed.

Lemma ofold_ext {B S} (f g : B -> S -> outcome S) l : (forall b s, f b s = g b s) ->
  forall s, ofold f l s = ofold g l s.
Proof.
  intros H. induction l as [|b l IH]; intros s; cbn; [reflexivity|].
  rewrite H. destruct (g b s); cbn; auto.
Qed.

Lemma set_joined_spec np univ nF en s v : seq_wf np univ nF en s ->
  length v = joined_size np univ en nF ->
  exists s', seq_set_joined s v = Ok s' /\ seq_wf np univ nF en s' /\
    (exists fr, s' = with_frames s fr) /\
    forall f i, f < nF -> i < np ->
      value_at (sq_frames s') f i =
      if en i then nth_error v (slot np univ en nF f i) else value_at (sq_frames s) f i.
Proof.
  intros W Lv. unfold seq_set_joined.
  rewrite (w_num _ _ _ _ _ W), Lv, Nat.eqb_refl. cbn [negb].
  rewrite (w_nF _ _ _ _ _ W).
  set (body := fun f x => let* x1 := ofold (fun k x =>
        let* i := rd (sq_per s) k in
        let* y := rd v (length (sq_per s) * f + k) in
        wr x i y) (seq 0 (length (sq_per s))) x in
     ofold (fun k x =>
        let* i := rd (sq_unv s) k in
        let* y := rd v (length (sq_per s) * nF + k) in
        wr x i y) (seq 0 (length (sq_unv s))) x1).
  destruct (frames_loop body (fun f x x' => forall i, i < np ->
      nth_error x' i = if en i then nth_error v (slot np univ en nF f i) else nth_error x i)
      nF np (sq_frames s) (w_nF _ _ _ _ _ W) (w_len _ _ _ _ _ W)) as (fr & E & L & A).
  { intros f x Hf Lx. exact (scatter_frame np univ nF en s v f x W Lv Hf Lx). }
  rewrite (ofold_ext _ (fun f fr => let* x := rd fr f in let* x' := body f x in wr fr f x')).
  2:{ intros f fr'. destruct (rd fr' f); cbn [obind]; auto. unfold body. rewrite obind_assoc. reflexivity. }
  rewrite E. cbn [obind]. eexists. split; [reflexivity|]. split; [|split; [eauto|]].
  - destruct W. constructor; cbn; auto.
    intros f x Ex. destruct (nth_error_lt (sq_frames s) f) as [y Ey]; [apply nth_error_len in Ex; lia|].
    destruct (A f y Ey) as (x' & Ex' & Lx' & _). congruence.
  - intros f i Hf Hi. cbn. unfold value_at.
    destruct (nth_error_lt (sq_frames s) f) as [x Ex]; [rewrite (w_nF _ _ _ _ _ W); exact Hf|].
    destruct (A f x Ex) as (x' & Ex' & _ & Q). rewrite Ex', Ex. apply Q. exact Hi.
Qed.

(** ** Histories *)

Lemma set_frame_wf np univ nF en s f p s' : seq_wf np univ nF en s ->
  seq_set_frame s f p = Ok s' -> seq_wf np univ nF en s'.
Proof.
  intros W. unfold seq_set_frame.
  destruct (Nat.ltb_spec f (length (sq_frames s))); [|discriminate].
  destruct (Nat.eqb_spec (length p) (sq_np s)) as [Lp|]; [|discriminate]. cbn.
  destruct (wr_ok (sq_frames s) f p) as (fr & E & L & S & O); [lia|].
  rewrite E. cbn. intros Q. injection Q as <-. destruct W. constructor; cbn; auto; [lia|].
  intros g x Ex. destruct (Nat.eq_dec g f) as [->|D]; [congruence|].
  rewrite O in Ex by exact D. eauto.
Qed.

Lemma run_wf_gen np univ nF ops : forall s en s', seq_wf np univ nF en s ->
  ofold (fun o s => seq_do s o) ops s = Ok s' ->
  seq_wf np univ nF (fold_left (fun e o => match o with SetEnabled en => en | _ => e end) ops en) s'.
Proof.
  induction ops as [|o ops IH]; intros s en s' W; cbn [ofold].
  - intros E. injection E as <-. exact W.
  - destruct (seq_do s o) as [s1| | | |] eqn:E1; try discriminate. cbn [obind]. intros E.
    cbn [fold_left]. apply IH with (s := s1); [|exact E].
    destruct o as [en'|f p|v]; cbn in E1.
    + injection E1 as <-. eapply update_wf. left. exact W.
    + eapply set_frame_wf; eauto.
    + destruct (Nat.eq_dec (length v) (joined_size np univ en nF)) as [Lv|D].
      * destruct (set_joined_spec _ _ _ _ _ v W Lv) as (s2 & E2 & W2 & _). congruence.
      * exfalso. unfold seq_set_joined in E1. rewrite (w_num _ _ _ _ _ W) in E1.
        apply Nat.eqb_neq in D. rewrite D in E1. discriminate.
Qed.

Lemma run_wf np univ nF ops s : seq_run np univ nF ops = Ok s ->
  seq_wf np univ nF (enabled_after ops) s.
Proof. intros H. eapply run_wf_gen; [apply init_wf|exact H]. Qed.

(** ** getJoinedParameterVector *)

Lemma join_spec np univ nF en s : seq_wf np univ nF en s -> 0 < nF ->
  exists v, seq_join s = Ok v /\ length v = joined_size np univ en nF /\
    forall f i, f < nF -> i < np -> en i = true ->
      nth_error v (slot np univ en nF f i) = value_at (sq_frames s) (if univ i then 0 else f) i.
Proof.
  intros W HF. unfold seq_join. rewrite (w_nF _ _ _ _ _ W).
  set (nPer := length (sq_per s)).
  assert (nPer = rank (per_frame univ en) np) as EP by (apply (per_length _ _ _ _ _ W)).
  assert (length (sq_unv s) = rank (shared univ en) np) as EU by (apply (unv_length _ _ _ _ _ W)).
  assert (sq_num s = nPer * nF + length (sq_unv s)) as EN.
  { rewrite (w_num _ _ _ _ _ W), EP, EU. reflexivity. }
  assert (forall k, k < nPer -> exists i, nth_error (sq_per s) k = Some i /\ i < np) as GP.
  { intros k Hk. destruct (per_get _ _ _ _ _ k W Hk) as (i & N & R & _). eauto. }
  assert (forall k, k < length (sq_unv s) -> exists i, nth_error (sq_unv s) k = Some i /\ i < np) as GU.
  { intros k Hk. destruct (unv_get _ _ _ _ _ k W Hk) as (i & N & R & _). eauto. }
  assert (forall f, f < nF -> exists x, nth_error (sq_frames s) f = Some x /\ length x = np) as GF.
  { intros f Hf. destruct (nth_error_lt (sq_frames s) f) as [x Ex]; [rewrite (w_nF _ _ _ _ _ W); exact Hf|].
    exists x. split; auto. eapply w_len; eauto. }
  destruct (ofold_seq_inv (fun f res =>
      let* x := rd (sq_frames s) f in
      ofold (fun k res =>
        let* i := rd (sq_per s) k in
        let* y := rd x i in
        wr res (nPer * f + k) y) (seq 0 nPer) res)
    (fun n res => length res = sq_num s /\
       forall f k i, f < n -> k < nPer -> nth_error (sq_per s) k = Some i ->
         nth_error res (nPer * f + k) = value_at (sq_frames s) f i) nF (repeat 0%R (sq_num s)))
    as (res & E1 & L1 & A1).
  { split; [apply repeat_length|]. intros; lia. }
  { intros n res Hn (L & A). destruct (GF n Hn) as (x & Ex & Lx). rewrite (rd_some _ _ _ Ex). cbn [obind].
    destruct (copy_loop (fun k res => let* i := rd (sq_per s) k in
        let* y := rd x i in wr res (nPer * n + k) y) (fun k => nPer * n + k)
        (fun k => def0 (nth_error x (nth k (sq_per s) 0))) (seq 0 nPer) res) as (r' & E' & L' & S' & O').
    - intros k r Hk _. apply in_seq in Hk. destruct (GP k) as (i & N & Hi); [lia|].
      rewrite (rd_some _ _ _ N). cbn [obind]. rewrite (nth_error_nth _ _ 0 N).
      rewrite (rd_some x i _ (nth_def0 x i ltac:(lia))). reflexivity.
    - intros k Hk. apply in_seq in Hk. rewrite L, EN. nia.
    - intros k k' _ _ E. replace k' with k by lia. reflexivity.
    - exists r'. split; [exact E'|]. split; [lia|].
      intros f k i Hf Hk N. destruct (Nat.eq_dec f n) as [->|D].
      + rewrite (S' k) by (apply in_seq; lia). rewrite (nth_error_nth _ _ 0 N).
        unfold value_at. rewrite Ex. symmetry. apply nth_def0.
        destruct (GP k Hk) as (i' & N' & Hi'). rewrite N in N'. injection N' as <-. lia.
      + rewrite O'; [apply A; auto; lia|]. intros k' Hk' Q. apply in_seq in Hk'. nia. }
  rewrite E1. cbn [obind].
  destruct (GF 0 HF) as (x & Ex & Lx).
  destruct (copy_loop (fun k res => let* x := rd (sq_frames s) 0 in let* i := rd (sq_unv s) k in
        let* y := rd x i in wr res (nPer * nF + k) y) (fun k => nPer * nF + k)
        (fun k => def0 (nth_error x (nth k (sq_unv s) 0))) (seq 0 (length (sq_unv s))) res)
    as (r' & E' & L' & S' & O').
  { intros k r Hk _. apply in_seq in Hk. destruct (GU k) as (i & N & Hi); [lia|].
    rewrite (rd_some _ _ _ Ex). cbn [obind].
    rewrite (rd_some _ _ _ N). cbn [obind]. rewrite (nth_error_nth _ _ 0 N).
    rewrite (rd_some x i _ (nth_def0 x i ltac:(lia))). reflexivity. }
  { intros k Hk. apply in_seq in Hk. rewrite L1, EN. lia. }
  { intros k k' _ _ E. replace k' with k by lia. reflexivity. }
  exists r'. split; [exact E'|]. split; [rewrite L', L1; apply (w_num _ _ _ _ _ W)|].
  intros f i Hf Hi He. unfold slot. rewrite <- EP. destruct (univ i) eqn:Hu.
  - assert (rank (shared univ en) i < length (sq_unv s)) as Hk
      by (rewrite EU; apply rank_lt; auto; apply sh_true; auto).
    rewrite (S' (rank (shared univ en) i)) by (apply in_seq; lia).
    assert (nth_error (sq_unv s) (rank (shared univ en) i) = Some i) as N.
    { rewrite (w_unv _ _ _ _ _ W). apply rank_nth; auto. apply sh_true; auto. }
    rewrite (nth_error_nth _ _ 0 N). unfold value_at. rewrite Ex. symmetry. apply nth_def0. lia.
  - assert (rank (per_frame univ en) i < nPer) as Hk
      by (rewrite EP; apply rank_lt; auto; apply per_true; auto).
    rewrite O' by (intros k Hk' Q; apply in_seq in Hk'; nia).
    apply A1; auto. rewrite (w_per _ _ _ _ _ W). apply rank_nth; auto. apply per_true; auto.
Qed.

Lemma join_after_set np univ nF en s v s' : seq_wf np univ nF en s -> 0 < nF ->
  seq_set_joined s v = Ok s' -> seq_join s' = Ok v.
Proof.
  intros W HF E.
  destruct (Nat.eq_dec (length v) (joined_size np univ en nF)) as [Lv|D].
  2:{ exfalso. unfold seq_set_joined in E. rewrite (w_num _ _ _ _ _ W) in E.
      apply Nat.eqb_neq in D. rewrite D in E. discriminate. }
  destruct (set_joined_spec _ _ _ _ _ v W Lv) as (s2 & E2 & W2 & _ & V).
  rewrite E in E2. injection E2 as <-.
  destruct (join_spec _ _ _ _ _ W2 HF) as (v' & Ev & Lv' & A).
  rewrite Ev. f_equal. apply nth_error_ext_len; [congruence|].
  intros p Hp. rewrite Lv' in Hp.
  destruct (slot_onto np univ en nF p HF Hp) as (f & i & Hf & Hi & He & <-).
  rewrite A by auto. rewrite V by (auto; destruct (univ i); auto). rewrite He.
  unfold slot. destruct (univ i); reflexivity.
Qed.

Lemma frames_ext np nF (a b : list (list R)) : length a = nF -> length b = nF ->
  (forall f x, nth_error a f = Some x -> length x = np) ->
  (forall f x, nth_error b f = Some x -> length x = np) ->
  (forall f i, f < nF -> i < np -> value_at a f i = value_at b f i) -> a = b.
Proof.
  intros La Lb Na Nb H. apply nth_error_ext_len; [congruence|]. intros f Hf.
  destruct (nth_error_lt a f) as [x Ex]; [exact Hf|].
  destruct (nth_error_lt b f) as [y Ey]; [lia|]. rewrite Ex, Ey. f_equal.
  pose proof (Na _ _ Ex). pose proof (Nb _ _ Ey).
  apply nth_error_ext_len; [congruence|]. intros i Hi.
  specialize (H f i ltac:(lia) ltac:(lia)). unfold value_at in H. rewrite Ex, Ey in H. exact H.
Qed.

Lemma set_after_join np univ nF en s v : seq_wf np univ nF en s -> 0 < nF ->
  shared_agree np univ en (sq_frames s) -> seq_join s = Ok v -> seq_set_joined s v = Ok s.
Proof.
  intros W HF SA E.
  destruct (join_spec _ _ _ _ _ W HF) as (v' & Ev & Lv & A). rewrite E in Ev. injection Ev as <-.
  destruct (set_joined_spec _ _ _ _ _ v W Lv) as (s2 & E2 & W2 & (fr & ->) & V).
  rewrite E2. f_equal. transitivity (with_frames s (sq_frames s)); [|destruct s; reflexivity].
  f_equal. apply (frames_ext np nF); [apply (w_nF _ _ _ _ _ W2)|apply (w_nF _ _ _ _ _ W)
    |apply (w_len _ _ _ _ _ W2)|apply (w_len _ _ _ _ _ W)|].
  intros f i Hf Hi. specialize (V f i Hf Hi). cbn in V. rewrite V.
  destruct (en i) eqn:He; [|reflexivity]. rewrite A by auto.
  destruct (univ i) eqn:Hu; [|reflexivity]. symmetry. apply SA; auto. rewrite (w_nF _ _ _ _ _ W). exact Hf.
Qed.

(** ** getUniversalParameters *)

Lemma universal_spec np univ nF en s : seq_wf np univ nF en s -> 0 < nF ->
  exists u, seq_universal s = Ok u /\ length u = np /\
    forall i, i < np -> nth_error u i = if univ i then value_at (sq_frames s) 0 i else Some 0%R.
Proof.
  intros W HF. unfold seq_universal. rewrite (w_np _ _ _ _ _ W), (w_univ _ _ _ _ _ W).
  destruct (nth_error_lt (sq_frames s) 0) as [x Ex]; [rewrite (w_nF _ _ _ _ _ W); exact HF|].
  pose proof (w_len _ _ _ _ _ W _ _ Ex) as Lx.
  destruct (ofold_seq_inv (fun i r =>
    if univ i then
      let* x := rd (sq_frames s) 0 in let* y := rd x i in wr r i y
    else Ok r) (fun n u => length u = np /\
      (forall i, i < n -> nth_error u i = if univ i then value_at (sq_frames s) 0 i else Some 0%R) /\
      (forall i, n <= i < np -> nth_error u i = Some 0%R)) np (repeat 0%R np)) as (u & E & L & A & _).
  - split; [apply repeat_length|]. split; [intros; lia|].
    intros i Hi. apply nth_error_repeat. lia.
  - intros k u Hk (L & A & B). destruct (univ k) eqn:Hu.
    + rewrite (rd_some _ _ _ Ex). cbn [obind].
      rewrite (rd_some x k _ (nth_def0 x k ltac:(lia))). cbn [obind].
      destruct (wr_ok u k (def0 (nth_error x k))) as (u' & E' & L' & S' & O'); [lia|].
      exists u'. split; [exact E'|]. split; [lia|]. split.
      * intros i Hi. destruct (Nat.eq_dec i k) as [->|D].
        -- rewrite Hu, S'. unfold value_at. rewrite Ex. symmetry. apply nth_def0. lia.
        -- rewrite O' by exact D. apply A. lia.
      * intros i Hi. rewrite O' by lia. apply B. lia.
    + exists u. split; [reflexivity|]. split; [exact L|]. split.
      * intros i Hi. destruct (Nat.eq_dec i k) as [->|D]; [rewrite Hu; apply B; lia|apply A; lia].
      * intros i Hi. apply B. lia.
  - exists u. auto.
Qed.
