(** C31: the multithreaded pass of the sequence solver does not depend on the schedule. *)

From Coq Require Import Reals List Arith Bool Lia Lra.
From Verif Require Import LinAlg Rbool ListUtil QR_spec QRBanded_spec QR_model QRBanded_model QRBanded_proofs
  SeqPar_model SeqPar_mem SeqPar_inv SeqPar_proofs SeqPar_live.
Import ListNotations.
Local Open Scope R_scope.

(** Whatever the interleaving, when all tasks are done and the queues have been drained, the
    solver, the error and the progress count are those of the serial loop, and every frame has
    been folded into the shared unknowns exactly once, in increasing order. *)
Theorem parallel_schedule_independent (I : inputs) (a : system) :
  schedule I (start_system I) a -> all_done a ->
  let s := final_drain (sys_sh a) in
  {| t_qr := sh_qr s; t_error := sh_error s; t_progress := sh_progress s |} = serial_pass I /\
  sh_log s = seq 0 (in_frames I) /\ sh_reorder s = [] /\ sh_ready s = [].
Proof. exact (parallel_equals_serial I a). Qed.
Print Assumptions parallel_schedule_independent.

(** At every moment the frames folded in so far are the first ones, in order. *)
Theorem parallel_folds_in_order (I : inputs) (a : system) :
  schedule I (start_system I) a -> exists d, sh_log (sys_sh a) = seq 0 d /\ (d <= in_frames I)%nat.
Proof. exact (log_prefix I a). Qed.
Print Assumptions parallel_folds_in_order.

(** Until every task is done some task can move ... *)
Theorem parallel_never_deadlocks (I : inputs) (a : system) :
  schedule I (start_system I) a -> ~ all_done a -> exists b, sys_step I a b.
Proof. exact (progress_lemma I a). Qed.
Print Assumptions parallel_never_deadlocks.

(** ... and no schedule goes on for ever. *)
Theorem parallel_always_ends (I : inputs) (run : nat -> system) :
  run 0%nat = start_system I -> ~ (forall n, sys_step I (run n) (run (S n))).
Proof. exact (no_endless_run I run). Qed.
Print Assumptions parallel_always_ends.

(** So the hypotheses of [parallel_schedule_independent] are met, for every input. *)
Theorem parallel_can_finish (I : inputs) : exists a, schedule I (start_system I) a /\ all_done a.
Proof.
  assert (G : forall n a, (measure I a <= n)%nat -> schedule I (start_system I) a ->
     exists b, schedule I (start_system I) b /\ all_done b).
  { induction n as [|n IH]; intros a Hm HS.
    - destruct (Forall_Exists_dec (fun p => p = Done)
        (fun p => ltac:(destruct p; (left; reflexivity) || (right; discriminate))) (sys_tasks a)) as [F|F]; [exists a; auto|].
      exfalso. assert (~ all_done a) as HN.
      { unfold all_done. intros HF. apply Exists_exists in F. destruct F as (p & Hp & Hn). rewrite Forall_forall in HF. auto. }
      destruct (progress_lemma I a HS HN) as (b & Hb). pose proof (measure_step I a b HS Hb). lia.
    - destruct (Forall_Exists_dec (fun p => p = Done)
        (fun p => ltac:(destruct p; (left; reflexivity) || (right; discriminate))) (sys_tasks a)) as [F|F]; [exists a; auto|].
      assert (~ all_done a) as HN.
      { unfold all_done. intros HF. apply Exists_exists in F. destruct F as (p & Hp & Hn). rewrite Forall_forall in HF. auto. }
      destruct (progress_lemma I a HS HN) as (b & Hb). pose proof (measure_step I a b HS Hb).
      apply (IH b); [lia|]. econstructor; eassumption. }
  apply (G (measure I (start_system I)) (start_system I)); [lia|constructor].
Qed.
Print Assumptions parallel_can_finish.

Lemma frame_blocks_ok I : (0 < in_band I)%nat ->
  List.Forall (block_fits (in_frames I * in_per I) (in_band I * in_per I)) (map (frame_block I) (seq 0 (in_frames I))).
Proof.
  intros Hb. apply Forall_forall. intros B HB. apply in_map_iff in HB. destruct HB as (f & <- & Hf). apply in_seq in Hf.
  split; cbn [frame_block bb_w bb_off]; [nia|]. pose proof (mul_lt I f (in_frames I)). lia.
Qed.
Lemma frame_blocks_ordered I n : windows_ordered (map (frame_block I) (seq 0 n)).
Proof.
  intros l1 B1 l2 B2 l3 E.
  assert (E1 : nth_error (map (frame_block I) (seq 0 n)) (length l1) = Some B1).
  { rewrite E, nth_error_app2, Nat.sub_diag by lia. reflexivity. }
  assert (E2 : nth_error (map (frame_block I) (seq 0 n)) (length l1 + S (length l2)) = Some B2).
  { rewrite E, nth_error_app2 by lia. replace (length l1 + S (length l2) - length l1)%nat with (S (length l2)) by lia.
    cbn. rewrite nth_error_app2, Nat.sub_diag by lia. reflexivity. }
  assert (G : forall k B, nth_error (map (frame_block I) (seq 0 n)) k = Some B -> B = frame_block I k).
  { intros k B Hk. rewrite nth_error_map in Hk. destruct (nth_error (seq 0 n) k) as [g|] eqn:Eg; [|discriminate].
    cbn in Hk. injection Hk as <-.
    assert (k < n)%nat by (rewrite <- (seq_length n 0); apply nth_error_Some; congruence).
    apply (nth_error_nth _ _ 0%nat) in Eg. rewrite seq_nth in Eg by assumption. cbn in Eg. subst g. reflexivity. }
  rewrite (G _ _ E1), (G _ _ E2). unfold covers_earlier. cbn [frame_block bb_off bb_w]. right. left. nia.
Qed.

(** What the multithreaded pass computes: the step it leaves in the solver is the one minimiser
    of the regularised least-squares problem of all the frames. *)
Theorem parallel_step_minimises (I : inputs) (a : system) :
  (0 < in_band I)%nat -> (0 < in_per I)%nat -> in_lambda I <> 0 ->
  schedule I (start_system I) a -> all_done a ->
  unique_minimiser (in_frames I * in_per I + in_univ I)
    (objective (in_frames I * in_per I + in_univ I) (in_lambda I)
       (map (fun f => full_block (in_frames I * in_per I) (frame_block I f)) (seq 0 (in_frames I))))
    (bq_x_dense (sh_qr (final_drain (sys_sh a)))).
Proof.
  intros Hb Hp Hl HS HD.
  destruct (parallel_equals_serial I a HS HD) as (E & _).
  assert (EQ : sh_qr (final_drain (sys_sh a)) = bq_run (in_frames I * in_per I) (in_univ I) (in_band I * in_per I)
      (in_lambda I) (map (frame_block I) (seq 0 (in_frames I)))).
  { change (sh_qr (final_drain (sys_sh a))) with (t_qr {| t_qr := sh_qr (final_drain (sys_sh a));
      t_error := sh_error (final_drain (sys_sh a)); t_progress := sh_progress (final_drain (sys_sh a)) |}).
    rewrite E. destruct (serial_spec I (in_frames I) (le_n _)) as (_ & E2 & _). exact E2. }
  rewrite EQ, <- (map_map (frame_block I) (full_block (in_frames I * in_per I))).
  apply bq_x_dense_minimises; [nia | exact Hl | apply frame_blocks_ok; exact Hb | apply frame_blocks_ordered].
Qed.
Print Assumptions parallel_step_minimises.

(** Two frames, one per-frame and one universal unknown each, two equations per frame. *)
Definition two_frames : inputs :=
  {| in_frames := 2; in_per := 1; in_univ := 1; in_band := 1; in_lambda := 1 / 2;
     in_data := fun f => {| fd_rows := 2; fd_A := fun k _ => INR (f + k); fd_C := fun k _ => INR (f * k);
                            fd_b := fun k => INR (f + 1); fd_error := INR f; fd_functions := f |} |}.
Example two_frames_finish : exists a, schedule two_frames (start_system two_frames) a /\ all_done a /\
  sh_log (final_drain (sys_sh a)) = [0; 1]%nat.
Proof.
  destruct (parallel_can_finish two_frames) as (a & HS & HD). exists a. split; [exact HS|]. split; [exact HD|].
  apply (parallel_schedule_independent two_frames a HS HD).
Qed.

(** The reordering matters: frame 1 may be queued before frame 0 has started its elimination. *)
Example late_frame_waits : exists a, schedule two_frames (start_system two_frames) a /\
  map it_frame (sh_reorder (sys_sh a)) = [1%nat] /\ sh_log (sys_sh a) = [] /\
  nth_error (sys_tasks a) 1 = Some TryingQr.
Proof.
  assert (One : forall a p s' p', schedule two_frames (start_system two_frames) a ->
     nth_error (sys_tasks a) 1 = Some p -> In (s', p') (task_step two_frames 1 (sys_sh a) p) ->
     schedule two_frames (start_system two_frames) {| sys_sh := s'; sys_tasks := store (sys_tasks a) 1 p' |}).
  { intros a p s' p' HS Hp Hin. econstructor; [exact HS|]. exists 1%nat, p, s', p'. auto. }
  pose proof (sched_stop two_frames (start_system two_frames)) as H0.
  pose proof (One _ _ _ _ H0 eq_refl (or_introl eq_refl)) as H1.
  pose proof (One _ _ _ _ H1 eq_refl (or_introl eq_refl)) as H2.
  pose proof (One _ _ _ _ H2 eq_refl (or_introl eq_refl)) as H3.
  pose proof (One _ _ _ _ H3 eq_refl (or_introl eq_refl)) as H4.
  pose proof (One _ _ _ _ H4 eq_refl (or_introl eq_refl)) as H5.
  pose proof (One _ _ _ _ H5 eq_refl (or_introl eq_refl)) as H6.
  eexists. split; [exact H6|].
  split; [reflexivity|]. split; reflexivity.
Qed.
