(** The parallel pass never deadlocks and every schedule ends. *)

From Coq Require Import Reals List Arith Bool Lia.
From Verif Require Import LinAlg Rbool ListUtil QR_spec QRBanded_spec QR_model QRBanded_model
  SeqPar_model SeqPar_mem SeqPar_inv SeqPar_proofs.
Import ListNotations.

Section Live.
Context (I : inputs).
Local Notation nF := (in_frames I).
Local Notation w := (in_per I).
Local Notation nc := (in_univ I).

Definition can_move (a : system) (t : nat) : Prop :=
  exists p, nth_error (sys_tasks a) t = Some p /\ task_step I t (sys_sh a) p <> [].

Lemma can_move_step a t : can_move a t -> exists b, sys_step I a b.
Proof.
  intros (p & Hp & Hn). destruct (task_step I t (sys_sh a) p) as [|[s' p'] l] eqn:E; [congruence|].
  eexists. exists t, p, s', p'. split; [exact Hp|]. rewrite E. split; [left; reflexivity|reflexivity].
Qed.

Lemma owned_pc holds m ts t : owned holds m ts -> m = Some t ->
  exists p, nth_error ts t = Some p /\ holds p = true.
Proof.
  intros (H1 & H2) E. specialize (H2 t E). destruct (nth_error ts t) as [p|] eqn:Ep.
  - exists p. split; [reflexivity|]. apply (H1 t p Ep). exact E.
  - apply nth_error_None in Ep. lia.
Qed.

Lemma progress_lemma a : schedule I (start_system I) a -> ~ all_done a -> exists b, sys_step I a b.
Proof.
  intros HS HD. destruct (reach_inv I a HS) as (d & M & H).
  assert (HX : exists t, can_move a t).
  { destruct (m_ready (sys_sh a)) as [t|] eqn:E1.
    { destruct (owned_pc _ _ _ _ (i_ly _ _ _ _ _ H) E1) as (p & Hp & Hh). exists t, p. split; [exact Hp|].
      destruct p; try discriminate Hh; cbn [task_step]; try discriminate.
      - destruct (reorder_owner _ _ _ _ _ _ _ H Hp eq_refl) as (_ & _ & l & El). rewrite El. discriminate.
      - destruct (sh_ready (sys_sh a)); discriminate. }
    destruct (m_reorder (sys_sh a)) as [t|] eqn:E2.
    { destruct (owned_pc _ _ _ _ (i_lr _ _ _ _ _ H) E2) as (p & Hp & Hh). exists t, p. split; [exact Hp|].
      destruct p; try discriminate Hh; cbn [task_step]; try discriminate.
      - destruct (extract_min (sh_reorder (sys_sh a))) as [[x l]|]; [|discriminate].
        destruct (it_frame x =? sh_next (sys_sh a)); discriminate.
      - rewrite E1. discriminate.
      - destruct (reorder_owner _ _ _ _ _ _ _ H Hp eq_refl) as (_ & _ & l & El). rewrite El. discriminate.
      - destruct (reorder_owner _ _ _ _ _ _ _ H Hp eq_refl) as (_ & _ & l & El). rewrite El. discriminate. }
    destruct (m_qr (sys_sh a)) as [t|] eqn:E3.
    { destruct (owned_pc _ _ _ _ (i_lq _ _ _ _ _ H) E3) as (p & Hp & Hh). exists t, p. split; [exact Hp|].
      destruct p; try discriminate Hh; cbn [task_step]; try discriminate.
      - rewrite E1. discriminate.
      - destruct (sh_ready (sys_sh a)); discriminate.
      - cbv zeta. destruct (k <? bq_nc (sh_qr (sys_sh a))); [|discriminate].
        destruct (common_step _ _ _ _ _) as [[[? ?] ?] ?]. discriminate. }
    assert (HE : exists t p, nth_error (sys_tasks a) t = Some p /\ p <> Done).
    { unfold all_done in HD. destruct (Forall_Exists_dec (fun p => p = Done)
        (fun p => ltac:(destruct p; (left; reflexivity) || (right; discriminate))) (sys_tasks a)) as [F|F]; [contradiction|].
      apply Exists_exists in F. destruct F as (p & Hp & Hn). apply In_nth_error in Hp. destruct Hp as (t & Hp). eauto. }
    destruct HE as (t & p & Hp & Hn). exists t, p. split; [exact Hp|].
    pose proof (proj1 (i_lr _ _ _ _ _ H) t p Hp) as K1. rewrite E2 in K1.
    pose proof (proj1 (i_lq _ _ _ _ _ H) t p Hp) as K3. rewrite E3 in K3.
    destruct p; cbn [task_step holds_reorder holds_qr] in *; try congruence; try discriminate;
      try (exfalso; destruct K1 as [K1 _]; specialize (K1 eq_refl); discriminate);
      try (exfalso; destruct K3 as [K3 _]; specialize (K3 eq_refl); discriminate).
    - destruct (k <? w); discriminate.
    - rewrite E2. discriminate. }
  destruct HX as (t & Ht). exact (can_move_step a t Ht).
Qed.

(** ** A measure that every step decreases *)
Definition cost_ready : nat := nc + 5.
Definition cost_reorder : nat := nc + 10.
Definition cost_testing : nat := nc + 15.
Definition cost (p : pc) : nat :=
  match p with
  | Zeroing k _ _ _ => cost_testing + cost_reorder + 3 + (w - k)
  | WantReorder _ => cost_testing + cost_reorder + 2
  | Pushing _ => cost_testing + cost_reorder + 1
  | Testing => cost_testing
  | WantReady => cost_testing - 1
  | Moving => cost_testing - 2
  | ReleasingReady => 7
  | Popping => 6
  | ReleasingReorder => 6
  | TryingQr => 5
  | DrainWantReady => 4
  | DrainTaking => 3
  | DrainReleasing (Some _) => 7 + nc
  | DrainReleasing None => 2
  | Adding _ k _ _ => 6 + (nc - k)
  | Counting _ => 5
  | ReleasingQr => 1
  | Done => 0
  end.
Definition measure (a : system) : nat :=
  list_sum (map cost (sys_tasks a)) + cost_reorder * length (sh_reorder (sys_sh a)) +
  cost_ready * length (sh_ready (sys_sh a)).

Lemma sum_store ts t p p' : nth_error ts t = Some p ->
  list_sum (map cost (store ts t p')) + cost p = list_sum (map cost ts) + cost p'.
Proof.
  revert t. induction ts as [|x ts IH]; intros [|t] H; cbn in H; try discriminate.
  - injection H as ->. unfold list_sum. cbn. lia.
  - specialize (IH t H). unfold list_sum in *. cbn. lia.
Qed.

Lemma measure_step a b : schedule I (start_system I) a -> sys_step I a b -> measure b < measure a.
Proof.
  intros HS (t & p & s' & p' & Hp & Hin & ->). destruct (reach_inv I a HS) as (d & M & H).
  unfold measure. cbn [sys_tasks sys_sh].
  pose proof (sum_store (sys_tasks a) t p p' Hp) as HC.
  set (X := list_sum (map cost (store (sys_tasks a) t p'))) in *.
  set (Y := list_sum (map cost (sys_tasks a))) in *.
  destruct p; cbn [task_step] in Hin.
  - destruct (Nat.ltb_spec k w); destruct Hin as [[= <- <-]|[]]; cbn [cost set_mem sh_reorder sh_ready] in HC |- *; lia.
  - destruct (m_reorder (sys_sh a)); [destruct Hin|]. destruct Hin as [[= <- <-]|[]].
    cbn [cost lock_reorder set_locks sh_reorder sh_ready] in HC |- *. lia.
  - destruct Hin as [[= <- <-]|[]]. cbn [cost set_reorder sh_reorder sh_ready length] in HC |- *. lia.
  - assert (E : s' = sys_sh a /\ (p' = WantReady \/ p' = ReleasingReorder)).
    { destruct (extract_min (sh_reorder (sys_sh a))) as [[x l]|].
      - destruct (it_frame x =? sh_next (sys_sh a)); destruct Hin as [[= <- <-]|[]]; auto.
      - destruct Hin as [[= <- <-]|[]]; auto. }
    destruct E as (-> & [-> | ->]); cbn [cost] in HC; unfold cost_testing in HC; lia.
  - destruct (m_ready (sys_sh a)); [destruct Hin|]. destruct Hin as [[= <- <-]|[]].
    cbn [cost lock_ready set_locks sh_reorder sh_ready] in HC |- *. unfold cost_testing in HC. lia.
  - destruct (extract_min (sh_reorder (sys_sh a))) as [[x l]|]; [|destruct Hin]. destruct Hin as [[= <- <-]|[]].
    cbn [cost set_ready sh_reorder sh_ready] in HC |- *. rewrite app_length. cbn [length].
    unfold cost_testing in HC. unfold cost_ready, cost_reorder. lia.
  - destruct Hin as [[= <- <-]|[]]. cbn [cost lock_ready set_locks sh_reorder sh_ready] in HC |- *. lia.
  - destruct (extract_min (sh_reorder (sys_sh a))) as [[x l]|] eqn:Ex; [|destruct Hin]. destruct Hin as [[= <- <-]|[]].
    destruct (extract_min_in _ _ _ Ex) as (_ & _ & _ & EL).
    cbn [cost set_reorder sh_reorder sh_ready] in HC |- *. rewrite EL. unfold cost_testing in HC. unfold cost_reorder. lia.
  - destruct Hin as [[= <- <-]|[]]. cbn [cost lock_reorder set_locks sh_reorder sh_ready] in HC |- *. lia.
  - destruct Hin as [[= <- <-]|Hin]; [cbn [cost] in HC; lia|].
    destruct (m_qr (sys_sh a)); [destruct Hin|]. destruct Hin as [[= <- <-]|[]].
    cbn [cost lock_qr set_locks sh_reorder sh_ready] in HC |- *. lia.
  - destruct (m_ready (sys_sh a)); [destruct Hin|]. destruct Hin as [[= <- <-]|[]].
    cbn [cost lock_ready set_locks sh_reorder sh_ready] in HC |- *. lia.
  - destruct (sh_ready (sys_sh a)) as [|x l] eqn:Ey; destruct Hin as [[= <- <-]|[]].
    + rewrite Ey. cbn [cost] in HC. lia.
    + cbn [cost set_ready sh_reorder sh_ready length] in HC |- *. unfold cost_ready. lia.
  - destruct Hin as [[= <- <-]|[]]. destruct o; cbn [cost lock_ready set_locks sh_reorder sh_ready] in HC |- *; lia.
  - cbv zeta in Hin. destruct (i_dims _ _ _ _ _ H) as (_ & D2 & _). rewrite D2 in Hin.
    destruct (Nat.ltb_spec k nc).
    + destruct (common_step _ _ _ _ _) as [[[? ?] ?] ?]. destruct Hin as [[= <- <-]|[]].
      cbn [cost set_mem sh_reorder sh_ready] in HC |- *. lia.
    + destruct Hin as [[= <- <-]|[]]. cbn [cost] in HC. lia.
  - destruct Hin as [[= <- <-]|[]]. cbn [cost set_counts sh_reorder sh_ready] in HC |- *. lia.
  - destruct Hin as [[= <- <-]|[]]. cbn [cost lock_qr set_locks sh_reorder sh_ready] in HC |- *. lia.
  - destruct Hin.
Qed.

Lemma no_endless_run (run : nat -> system) : run 0%nat = start_system I -> ~ (forall n, sys_step I (run n) (run (S n))).
Proof.
  intros H0 HR.
  assert (HS : forall n, schedule I (start_system I) (run n)).
  { induction n as [|n IH]; [rewrite H0; constructor|]. econstructor; [exact IH | apply HR]. }
  assert (HM : forall n, measure (run n) + n <= measure (run 0%nat)).
  { induction n as [|n IH]; [lia|]. pose proof (measure_step _ _ (HS n) (HR n)). lia. }
  specialize (HM (S (measure (run 0%nat)))). lia.
Qed.

Lemma log_prefix a : schedule I (start_system I) a -> exists d, sh_log (sys_sh a) = seq 0 d /\ d <= nF.
Proof.
  intros HS. destruct (reach_inv I a HS) as (d & M & H). exists d. split; [exact (i_log _ _ _ _ _ H)|].
  destruct (i_ready _ _ _ _ _ H) as (Y & _).
  destruct (i_has _ _ _ _ _ H) as (_ & N2 & N3).
  assert (Hget : forall f p, nth_error (sys_tasks a) f = Some p -> f < nF).
  { intros f p Hf. rewrite <- (i_len _ _ _ _ _ H). apply nth_error_Some. congruence. }
  assert (Hn : sh_next (sys_sh a) <= nF).
  { destruct (Nat.le_gt_cases (sh_next (sys_sh a)) nF) as [L|L]; [exact L|].
    destruct (N3 nF L) as (p & Hp & _). apply Hget in Hp. lia. }
  assert (HM : M <= nF); [|lia].
  pose proof (i_reorder _ _ _ _ _ H) as HR. unfold reorder_ok in HR.
  assert (HZ : forall l, extract_min (sh_reorder (sys_sh a)) = Some (itm I (sh_next (sys_sh a)), l) -> S (sh_next (sys_sh a)) <= nF).
  { intros l El. destruct (extract_min_in _ _ _ El) as (I1 & _).
    assert (Hx : In (itm I (sh_next (sys_sh a))) (sh_reorder (sys_sh a))) by (apply I1; left; reflexivity).
    apply N2 in Hx. destruct Hx as (f & q & Hf & _ & Hle & Ef).
    assert (it_frame (itm I (sh_next (sys_sh a))) = it_frame (itm I f)) by (rewrite Ef; reflexivity). cbn in *.
    apply Hget in Hf. lia. }
  destruct (owner_pc (m_reorder (sys_sh a)) (sys_tasks a)) as [[]|]; try lia;
    destruct HR as (-> & l & El); try lia; exact (HZ l El).
Qed.
End Live.
