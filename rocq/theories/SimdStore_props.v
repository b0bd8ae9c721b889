(** C98: the constraint stores of the SIMD error functions, for every history of
    calls and every interleaving of calls made in parallel. *)

From Coq Require Import Bool Reals List Arith Lia.
From Verif Require Import Prelude Loops SimdStore_model SimdStore_spec SimdStore_proofs.
Import ListNotations.
Local Open Scope nat_scope.

(** ** One thread *)

(** A position or plane store used from one thread: after any history of
    addConstraint and clearConstraints every joint has the constraints added since
    the last clear, in order, up to the capacity; the unused slots have weight 0;
    getNumConstraints returns the numbers. *)
Theorem simd_store_history : forall D raw n os,
  sdim_ok D -> n <= d_joints D -> List.length raw = d_joints D ->
  (forall o, In o os -> sop_ok D n o) ->
  exists st0 st, ss_new D raw n = Ok st0 /\ ofold (run_op D) os st0 = Ok st /\ ss_n st = n /\
    shows D st (expected (d_cap D) os) /\
    ss_num st = Ok (map (fun j => List.length (expected (d_cap D) os j)) (seq 0 n)).
Proof.
  intros D raw n os DO Hn Lr HO. destruct (ss_new_shows D raw n DO Hn Lr) as (st0 & E0 & N0 & S0).
  destruct (run_history D os DO st0 _ S0) as (st & E & N & S); [intros o Ho; rewrite N0; apply HO, Ho|].
  exists st0, st. split; [exact E0|]. split; [exact E|]. split; [congruence|]. split; [exact S|].
  rewrite (ss_num_shows D st _ S). f_equal. f_equal. congruence.
Qed.
Print Assumptions simd_store_history.

(** C98. A store for more joints than the build allows is refused, for every kind of constraint. *)
Theorem simd_store_refuses : forall D raw n, (d_joints D < n)%nat ->
  ss_new D raw n = CheckFail /\ ss_new_normal D raw n = CheckFail.
Proof.
  intros D raw n H. unfold ss_new, ss_new_normal, ss_alloc. rewrite (proj2 (Nat.leb_gt n (d_joints D)) H). split; reflexivity.
Qed.
Print Assumptions simd_store_refuses.

(** The same for a normal store once clearConstraints has been called. *)
Theorem simd_normal_store_history : forall D raw n os,
  sdim_ok D -> n <= d_joints D -> List.length raw = d_joints D ->
  (forall o, In o os -> sop_ok D n o) ->
  exists st0 st, ss_new_normal D raw n = Ok st0 /\ ofold (run_op_normal D) (SClear :: os) st0 = Ok st /\
    ss_n st = n /\ shows D st (expected (d_cap D) os) /\
    ss_num st = Ok (map (fun j => List.length (expected (d_cap D) os j)) (seq 0 n)).
Proof.
  intros D raw n os DO Hn Lr HO. unfold ss_new_normal. rewrite (ss_alloc_ok D raw n DO Hn).
  eexists. cbn [ofold run_op_normal].
  destruct (ss_clear_shows D (SS n (repeat 0%R (d_cap D * n * d_blocks D)) raw) DO) as (st1 & E1 & N1 & S1);
    cbn [ss_n ss_data ss_count]; [exact Hn|apply repeat_length|exact Lr|].
  destruct (run_history_normal D os DO st1 _ S1) as (st & E & N & S); [intros o Ho; rewrite N1; apply HO, Ho|].
  exists st. split; [reflexivity|]. rewrite E1. cbn [obind]. split; [exact E|]. cbn [ss_n] in N1. split; [congruence|].
  split; [exact S|]. rewrite (ss_num_shows D st _ S). f_equal. f_equal. congruence.
Qed.
Print Assumptions simd_normal_store_history.

(** addConstraint of a normal store says whether there was room. *)
Theorem simd_normal_add_result : forall D st lists j vals,
  sdim_ok D -> shows D st lists -> j < ss_n st -> List.length vals = d_blocks D ->
  exists st' r, ss_add_normal D st j vals = Ok (st', r) /\
    (r = true <-> List.length (lists j) < d_cap D).
Proof.
  intros D st lists j vals DO SH Hj Lv. destruct (ss_add_normal_shows D st lists j vals DO SH Hj Lv) as (st' & E & _).
  exists st', (Nat.ltb (List.length (lists j)) (d_cap D)). split; [exact E|]. apply Nat.ltb_lt.
Qed.
Print Assumptions simd_normal_add_result.

(** ** Calls in parallel *)

(** addConstraint of a position or plane store called in parallel, for every
    interleaving of the calls' steps: no step goes out of bounds; once all calls
    have returned, as many constraints were added as fit, each complete and in a
    slot of its own, and nothing else changed. *)
Theorem simd_add_any_schedule : forall D st0 calls sched,
  sdim_ok D -> store_ok D st0 ->
  (forall c, In c calls -> c_joint c < ss_n st0 /\ List.length (c_vals c) = d_blocks D) ->
  exists st ts, run_fetch D sched (st0, started calls) = Ok (st, ts) /\
    (all_done ts -> exists placed, added D st0 st calls placed).
Proof.
  intros D st0 calls sched DO SO HC. destruct (run_fetch_inv D DO st0 SO calls HC sched) as (st & ts & E & I & _).
  exists st, ts. split; [exact E|]. intros AD. exists (result_of ts). apply pinv_added; assumption.
Qed.
Print Assumptions simd_add_any_schedule.

(** Each call returns after at most one step per stored number and one more,
    whatever the other calls do in between. *)
Theorem simd_add_returns : forall D st0 calls sched st ts i c,
  sdim_ok D -> store_ok D st0 ->
  (forall c, In c calls -> c_joint c < ss_n st0 /\ List.length (c_vals c) = d_blocks D) ->
  run_fetch D sched (st0, started calls) = Ok (st, ts) ->
  nth_error calls i = Some c -> d_blocks D + 1 <= count_occ Nat.eq_dec sched i ->
  exists r, nth_error ts i = Some (c, PDone r).
Proof.
  intros D st0 calls sched st ts i c DO SO HC E Hc HN.
  destruct (run_fetch_left D sched (sd_blocks D DO) st0 (started calls) st ts i c PStart E) as [p [Hp L]].
  { unfold started. rewrite nth_error_map, Hc. reflexivity. }
  destruct (run_fetch_inv D DO st0 SO calls HC sched) as (st' & ts' & E' & I & NT).
  rewrite E in E'. injection E' as <- <-. cbn [left] in L.
  destruct p as [|x|s b| |r]; cbn [left] in L; try (exfalso; lia).
  - exfalso. eapply NT. eapply nth_error_In. exact Hp.
  - exfalso. pose proof (proj1 (pi_store D st0 calls st ts I i c s b Hp)). lia.
  - exists r. exact Hp.
Qed.
Print Assumptions simd_add_returns.

(** addConstraint of a normal store called in parallel: the same for every
    interleaving and every spurious failure of compare_exchange_weak, and the
    calls that return true are those whose constraint was added. *)
Theorem simd_normal_add_any_schedule : forall D st0 calls sched,
  sdim_ok D -> store_ok D st0 ->
  (forall c, In c calls -> c_joint c < ss_n st0 /\ List.length (c_vals c) = d_blocks D) ->
  exists st ts, run_cas D sched (st0, started calls) = Ok (st, ts) /\
    (all_done ts -> exists placed, added D st0 st calls placed /\
       forall i c r, nth_error ts i = Some (c, PDone r) -> (r <> None <-> placed i <> None)).
Proof.
  intros D st0 calls sched DO SO HC. destruct (run_cas_inv D DO st0 SO calls HC sched) as (st & ts & E & I & _).
  exists st, ts. split; [exact E|]. intros AD. exists (result_of ts). split; [apply pinv_added; assumption|].
  intros i c r Hi. unfold result_of. rewrite Hi. reflexivity.
Qed.
Print Assumptions simd_normal_add_any_schedule.

(** The counts of a normal store never exceed the capacity, at any point of any
    interleaving. *)
Theorem simd_normal_count_bounded : forall D st0 calls sched,
  sdim_ok D -> store_ok D st0 ->
  (forall c, In c calls -> c_joint c < ss_n st0 /\ List.length (c_vals c) = d_blocks D) ->
  exists st ts, run_cas D sched (st0, started calls) = Ok (st, ts) /\ store_ok D st.
Proof.
  intros D st0 calls sched DO SO HC. destruct (run_cas_inv D DO st0 SO calls HC sched) as (st & ts & E & I & ND).
  exists st, ts. split; [exact E|]. constructor.
  - rewrite (pi_n D st0 calls st ts I). apply (so_joints D st0 SO).
  - rewrite (pi_n D st0 calls st ts I), (pi_len_d D st0 calls st ts I). apply (so_data D st0 SO).
  - rewrite (pi_len_c D st0 calls st ts I). apply (so_count D st0 SO).
  - intros j c Hj Hc. rewrite (pi_n D st0 calls st ts I) in Hj. destruct (count_some D st0 j SO Hj) as [c0 Hc0].
    rewrite (pi_count D st0 calls st ts I j c0 Hj Hc0) in Hc. injection Hc as <-.
    assert (Z : cnt (w_dec j) ts = 0).
    { destruct (cnt (w_dec j) ts) as [|m] eqn:Em; [reflexivity|exfalso].
      destruct (cnt_pos (w_dec j) ts) as [i [[k q] [H1 H2]]]; [lia|].
      unfold w_dec in H2. cbn [fst snd] in H2. destruct (Nat.eqb (c_joint k) j); [|lia].
      destruct q; try lia. eapply ND. eapply nth_error_In. exact H1. }
    pose proof (pi_cap D st0 calls st ts I j c0 Hj Hc0). lia.
Qed.
Print Assumptions simd_normal_count_bounded.

(** ** What fails *)

(** addConstraint tests the joint index against the size of constraintCount, not
    against the skeleton: with a joint the skeleton does not have it writes past the
    end of the allocation (or drops the constraint silently, depending on what the
    counter of that joint happened to hold). *)
Theorem simd_add_unknown_joint_refuted : forall D st j vals c,
  sdim_ok D -> store_ok D st -> ss_n st <= j < d_joints D -> nth_error (ss_count st) j = Some c ->
  (c < d_cap D -> ss_add D st j vals = UB /\ ss_add_normal D st j vals = UB) /\
  (d_cap D <= c -> exists st', ss_add D st j vals = Ok st').
Proof.
  intros D st j vals c DO SO [H1 H2] Hc. unfold ss_add, ss_add_normal.
  destruct (Nat.ltb_spec j (d_joints D)) as [_|]; [|lia]. rewrite (rd_some _ _ _ Hc). cbn [obind].
  assert (L : j < List.length (ss_count st)) by (rewrite (so_count D st SO); exact H2).
  destruct (wr_ok (ss_count st) j (c + 1) L) as (c1 & E1 & L1 & M1 & _). rewrite E1. cbn [obind]. split.
  - intros Hlt. destruct (Nat.ltb_spec c (d_cap D)); [|lia]. destruct (Nat.eqb_spec c (d_cap D)); [lia|].
    rewrite (write_lane_bad D (ss_n st) j c vals (ss_data st) (sd_blocks D DO) (so_data D st SO) H1). auto.
  - intros Hge. destruct (Nat.ltb_spec c (d_cap D)); [lia|]. rewrite (rd_some _ _ _ M1). cbn [obind].
    destruct (wr_ok c1 j (c + 1 - 1)) as (c2 & E2 & _); [lia|]. rewrite E2. cbn [obind]. eauto.
Qed.
Print Assumptions simd_add_unknown_joint_refuted.

(** A normal store that was not cleared reports what its memory held. *)
Theorem simd_normal_fresh_refuted : forall D raw n,
  sdim_ok D -> n <= d_joints D -> List.length raw = d_joints D ->
  exists st, ss_new_normal D raw n = Ok st /\ ss_num st = Ok (firstn n raw).
Proof.
  intros D raw n DO Hn Lr. unfold ss_new_normal. rewrite (ss_alloc_ok D raw n DO Hn). eexists. split; [reflexivity|].
  unfold ss_num. cbn [ss_count ss_n].
  rewrite (read_counts_ok raw (fun j => nth j raw 0)).
  - f_equal. apply nth_error_ext_len.
    + rewrite map_length, seq_length, firstn_length. lia.
    + intros i Hi. rewrite map_length, seq_length in Hi. rewrite nth_error_map.
      rewrite (nth_error_nth' (seq 0 n) 0) by (rewrite seq_length; exact Hi). rewrite seq_nth by exact Hi. cbn [option_map].
      rewrite <- (firstn_skipn n raw) at 1. rewrite app_nth1 by (rewrite firstn_length; lia).
      symmetry. apply nth_error_nth'. rewrite firstn_length. lia.
  - intros j Hj. apply in_seq in Hj. apply nth_error_nth'. lia.
Qed.
Print Assumptions simd_normal_fresh_refuted.

(** While a call of addConstraint on a full joint of a position or plane store is
    in progress, the count is above the capacity for everyone else. *)
Theorem simd_count_overshoot_refuted : forall D st j vals,
  store_ok D st -> j < ss_n st -> nth_error (ss_count st) j = Some (d_cap D) ->
  exists st' ts, run_fetch D [0] (st, started [Call j vals]) = Ok (st', ts) /\
    nth_error (ss_count st') j = Some (d_cap D + 1).
Proof.
  intros D st j vals SO Hj Hc. unfold run_fetch. cbn [ofold started map]. unfold step_at. cbn [snd nth_error fst step_fetch c_joint].
  pose proof (so_joints D st SO).
  destruct (Nat.ltb_spec j (d_joints D)) as [_|]; [|lia]. rewrite (rd_some _ _ _ Hc). cbn [obind].
  destruct (wr_ok (ss_count st) j (d_cap D + 1)) as (c1 & E1 & _ & M1 & _); [eapply nth_error_len; exact Hc|].
  rewrite E1. cbn [obind]. unfold wr. cbn [upd]. eexists _, _. split; [reflexivity|]. exact M1.
Qed.
Print Assumptions simd_count_overshoot_refuted.

(** ** A concrete case: room for four constraints of two numbers per joint *)
Definition exs_D : sdim := SDim 4 3 1 2.
Example exs_D_ok : sdim_ok exs_D.
Proof. constructor; cbn; try lia. exists 1. reflexivity. Qed.
Definition exs_call (j : nat) (x : R) : call := Call j [x; 1%R].
(** Two joints; joint 1 has three constraints already and gets three more in
    parallel, joint 0 one: on joint 1 one fits. *)
Definition exs_st : sstore := SS 2 [0;0;0;0; 5;6;7;0; 0;0;0;0; 1;1;1;0]%R [0; 3; 9].
Example exs_ok : store_ok exs_D exs_st.
Proof.
  constructor; cbn; try lia. intros [|[|j]] c Hj Hc; cbn in *; try lia; injection Hc as <-; lia.
Qed.
Definition exs_calls : list call := [exs_call 1 10; exs_call 0 20; exs_call 1 30; exs_call 1 40].
Example exs_run : exists ts,
  run_fetch exs_D [0; 2; 3; 1; 3; 0; 1; 2; 1; 0; 0; 2] (exs_st, started exs_calls) =
    Ok (SS 2 [20;0;0;0; 5;6;7;10; 1;0;0;0; 1;1;1;1]%R [1; 4; 9], ts) /\ all_done ts.
Proof.
  eexists. split; [reflexivity|]. intros c p H. cbn in H.
  repeat (destruct H as [H|H]; [injection H as _ <-; eauto|]). destruct H.
Qed.
Example exs_run_cas : exists ts,
  run_cas exs_D [(0, false); (2, false); (2, false); (0, false); (0, false); (1, false); (1, true); (1, false);
                 (1, false); (2, false); (1, false); (2, false); (1, false); (3, false)] (exs_st, started exs_calls) =
    Ok (SS 2 [20;0;0;0; 5;6;7;30; 1;0;0;0; 1;1;1;1]%R [1; 4; 9], ts) /\ all_done ts.
Proof.
  eexists. split; [reflexivity|]. intros c p H. cbn in H.
  repeat (destruct H as [H|H]; [injection H as _ <-; eauto|]). destruct H.
Qed.
Example exs_history : exists st0 st,
  ss_new exs_D [7; 8; 9] 2 = Ok st0 /\
  ofold (run_op exs_D) [SAdd 1 [1; 2]%R; SClear; SAdd 1 [3; 4]%R; SAdd 0 [5; 6]%R; SAdd 1 [7; 8]%R] st0 = Ok st /\
  st = SS 2 [5;0;0;0; 3;7;0;0; 6;0;0;0; 4;8;0;0]%R [1; 2; 9].
Proof. eexists _, _. split; [reflexivity|]. split; reflexivity. Qed.
