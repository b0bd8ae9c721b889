(** C30 and C32: joined parameter vectors. *)

From Coq Require Import Bool List Arith Lia Reals.
From Verif Require Import Prelude Loops Seq_spec Seq_model Seq_proofs Seq_multi_proofs.
Import ListNotations.

(** ** The layout is one-to-one *)

Theorem slots_cover_the_vector np univ en nF : 0 < nF ->
  (forall f i, f < nF -> i < np -> en i = true ->
     slot np univ en nF f i < joined_size np univ en nF) /\
  (forall p, p < joined_size np univ en nF ->
     exists f i, f < nF /\ i < np /\ en i = true /\ slot np univ en nF f i = p) /\
  (forall f i f' i', f < nF -> f' < nF -> i < np -> i' < np -> en i = true -> en i' = true ->
     (slot np univ en nF f i = slot np univ en nF f' i' <->
      i = i' /\ (univ i = true \/ f = f'))).
Proof.
  intros HF. split; [|split].
  - intros. apply slot_bound; auto.
  - intros. apply slot_onto; auto.
  - intros f i f' i' Hf Hf' Hi Hi' He He'. split.
    + intros E. destruct (slot_inj np univ en nF f i f' i') as [A B]; auto.
      split; [exact A|]. destruct (univ i); auto.
    + intros (-> & D). destruct D as [U | ->]; [|reflexivity]. unfold slot. rewrite U. reflexivity.
Qed.
Print Assumptions slots_cover_the_vector.

(** ** C30: SequenceSolverFunction *)

(** After any history, setting from a joined vector gives every enabled parameter of every frame
    the value in its slot and leaves the others alone. *)
Theorem sequence_set_joined np univ nF ops s v :
  seq_run np univ nF ops = Ok s ->
  length v = joined_size np univ (enabled_after ops) nF ->
  exists s', seq_set_joined s v = Ok s' /\
    forall f i, f < nF -> i < np ->
      value_at (sq_frames s') f i =
      if enabled_after ops i then nth_error v (slot np univ (enabled_after ops) nF f i)
      else value_at (sq_frames s) f i.
Proof.
  intros H L. destruct (set_joined_spec _ _ _ _ _ v (run_wf _ _ _ _ _ H) L) as (s' & E & _ & _ & A).
  exists s'. split; [exact E|exact A].
Qed.
Print Assumptions sequence_set_joined.

(** Joining puts every enabled parameter in its slot; shared ones are taken from the first
    frame. *)
Theorem sequence_join np univ nF ops s :
  seq_run np univ nF ops = Ok s -> 0 < nF ->
  exists v, seq_join s = Ok v /\ length v = joined_size np univ (enabled_after ops) nF /\
    forall f i, f < nF -> i < np -> enabled_after ops i = true ->
      nth_error v (slot np univ (enabled_after ops) nF f i) =
      value_at (sq_frames s) (if univ i then 0 else f) i.
Proof. intros H. exact (join_spec _ _ _ _ _ (run_wf _ _ _ _ _ H)). Qed.
Print Assumptions sequence_join.

Theorem sequence_join_after_set np univ nF ops s v s' :
  seq_run np univ nF ops = Ok s -> 0 < nF ->
  seq_set_joined s v = Ok s' -> seq_join s' = Ok v.
Proof. intros H. exact (join_after_set _ _ _ _ _ _ _ (run_wf _ _ _ _ _ H)). Qed.
Print Assumptions sequence_join_after_set.

Theorem sequence_set_after_join np univ nF ops s v :
  seq_run np univ nF ops = Ok s -> 0 < nF ->
  shared_agree np univ (enabled_after ops) (sq_frames s) ->
  seq_join s = Ok v -> seq_set_joined s v = Ok s.
Proof. intros H. exact (set_after_join _ _ _ _ _ _ (run_wf _ _ _ _ _ H)). Qed.
Print Assumptions sequence_set_after_join.

(** getUniversalParameters: the first frame's shared parameters, zero elsewhere. *)
Theorem sequence_universal np univ nF ops s :
  seq_run np univ nF ops = Ok s -> 0 < nF ->
  exists u, seq_universal s = Ok u /\ length u = np /\
    forall i, i < np -> nth_error u i = if univ i then value_at (sq_frames s) 0 i else Some 0%R.
Proof. intros H. exact (universal_spec _ _ _ _ _ (run_wf _ _ _ _ _ H)). Qed.
Print Assumptions sequence_universal.

(** Three parameters, the second universal and the third disabled, two frames. *)
Definition ex_univ (i : nat) : bool := i =? 1.
Definition ex_ops : list seq_op :=
  [SetFrame 1 [5; 6; 7]%R; SetEnabled (fun i => i <? 2); SetJoined [1; 2; 3]%R].
Example sequence_history : exists s, seq_run 3 ex_univ 2 ex_ops = Ok s /\
  sq_frames s = [[1; 3; 0]; [2; 3; 7]]%R /\ seq_join s = Ok [1; 2; 3]%R /\
  shared_agree 3 ex_univ (enabled_after ex_ops) (sq_frames s).
Proof.
  eexists. split; [reflexivity|]. split; [reflexivity|]. split; [reflexivity|].
  intros f i Hf Hi _ Hu. apply Nat.eqb_eq in Hu. subst i. cbn in Hf.
  destruct f as [|[|f]]; [reflexivity|reflexivity|lia].
Qed.

(** With no frame at all, asking for the joined vector reads a frame that does not exist as soon
    as one parameter is universal: the round trip needs at least one frame. *)
Theorem sequence_join_no_frames_refuted : exists np univ ops s v s',
  seq_run np univ 0 ops = Ok s /\ seq_set_joined s v = Ok s' /\ seq_join s' = UB.
Proof.
  exists 1, (fun _ => true), [], (seq_init 1 (fun _ => true) 0), [4%R], (seq_init 1 (fun _ => true) 0).
  repeat split.
Qed.
Print Assumptions sequence_join_no_frames_refuted.

(** ** C30: MultiposeSolverFunction *)

Theorem multipose_set_joined universal nF ops s v :
  mp_run universal nF ops = Ok s ->
  length v = joined_size (length universal) (uset universal) all_on nF ->
  exists s', mp_set_joined s v = Ok s' /\
    forall f i, f < nF -> i < length universal ->
      value_at (mp_frames s') f i =
      nth_error v (slot (length universal) (uset universal) all_on nF f i).
Proof.
  intros H L. destruct (mp_set_joined_spec _ _ _ (mp_run_wf _ _ _ _ H) v L) as (s' & E & _ & _ & A).
  exists s'. split; [exact E|exact A].
Qed.
Print Assumptions multipose_set_joined.

(** Joining: unlike SequenceSolverFunction, shared parameters are taken from the LAST frame.
    [junk] is what the fresh, uninitialised vector happened to contain. *)
Theorem multipose_join universal nF ops s junk :
  mp_run universal nF ops = Ok s -> 0 < nF ->
  length junk = joined_size (length universal) (uset universal) all_on nF ->
  exists v, mp_join s junk = Ok v /\
    length v = joined_size (length universal) (uset universal) all_on nF /\
    forall f i, f < nF -> i < length universal ->
      nth_error v (slot (length universal) (uset universal) all_on nF f i) =
      value_at (mp_frames s) (if uset universal i then nF - 1 else f) i.
Proof. intros H. exact (mp_join_spec _ _ _ (mp_run_wf _ _ _ _ H) junk). Qed.
Print Assumptions multipose_join.

Theorem multipose_join_after_set universal nF ops s v s' junk :
  mp_run universal nF ops = Ok s -> 0 < nF ->
  length v = joined_size (length universal) (uset universal) all_on nF ->
  length junk = length v ->
  mp_set_joined s v = Ok s' -> mp_join s' junk = Ok v.
Proof. intros H. exact (mp_join_after_set _ _ _ _ _ _ (mp_run_wf _ _ _ _ H)). Qed.
Print Assumptions multipose_join_after_set.

Theorem multipose_set_after_join universal nF ops s v junk :
  mp_run universal nF ops = Ok s -> 0 < nF ->
  length junk = joined_size (length universal) (uset universal) all_on nF ->
  shared_agree (length universal) (uset universal) all_on (mp_frames s) ->
  mp_join s junk = Ok v -> mp_set_joined s v = Ok s.
Proof. intros H. exact (mp_set_after_join _ _ _ _ _ (mp_run_wf _ _ _ _ H)). Qed.
Print Assumptions multipose_set_after_join.

(** With no frame the returned universal parameters are uninitialised memory. *)
Theorem multipose_join_no_frames_refuted : exists universal s v junk s',
  mp_run universal 0 [] = Ok s /\ length junk = length v /\
  mp_set_joined s v = Ok s' /\ mp_join s' junk = Ok junk /\ junk <> v.
Proof.
  exists [true], (mp_init [true] 0), [4%R], [5%R], (mp_init [true] 0).
  repeat split; auto. intros E. injection E as E. revert E. apply Rgt_not_eq, IZR_lt. reflexivity.
Qed.
Print Assumptions multipose_join_no_frames_refuted.

Example multipose_history : exists s,
  mp_run [false; true; false] 2
    [SetFrame 1 [5; 6; 7]%R; SetEnabled (fun i => i <? 2)] = Ok s /\
  mp_join s (repeat 9%R 5) = Ok [0; 0; 5; 7; 6]%R /\
  (exists s', mp_set_joined s [1; 2; 3; 4; 8]%R = Ok s' /\ mp_frames s' = [[1; 8; 2]; [3; 8; 4]]%R /\
     shared_agree 3 (uset [false; true; false]) all_on (mp_frames s')).
Proof.
  eexists. split; [reflexivity|]. split; [reflexivity|]. eexists. split; [reflexivity|].
  split; [reflexivity|]. intros f i Hf Hi _ Hu. cbn in Hf.
  destruct i as [|[|[|i]]]; try discriminate; [|lia].
  destruct f as [|[|f]]; [reflexivity|reflexivity|lia].
Qed.

(** ** C32: enabled parameters are part of the solve *)

(** Exactly when the number of solved parameters reaches the slot of every enabled parameter:
    some parameter other than parameter 0 is enabled at or after each enabled one, and if a
    universal parameter is enabled then the last enabled parameter is universal. *)
Theorem multipose_enabled_iff universal nF ops s en s' :
  mp_run universal nF ops = Ok s -> 0 < nF -> mp_set_enabled s en = Ok s' ->
  (forall f i, f < nF -> i < length universal -> en i = true ->
     slot (length universal) (uset universal) all_on nF f i < mp_actual s') <->
  (forall i, i < length universal -> en i = true ->
     (exists j, 0 < j < length universal /\ i <= j /\ en j = true) /\
     (uset universal i = true ->
        exists j, i <= j < length universal /\ en j = true /\ uset universal j = true /\
          forall k, j < k < length universal -> en k = false)).
Proof. intros H. exact (enabled_iff _ _ _ _ _ (mp_run_wf _ _ _ _ H)). Qed.
Print Assumptions multipose_enabled_iff.

(** The part of C32 that holds: a parameter that is not parameter 0 is enabled, and no universal
    parameter is, or the last enabled one is universal. *)
Theorem multipose_enabled_partial universal nF ops s en s' top :
  mp_run universal nF ops = Ok s -> 0 < nF -> mp_set_enabled s en = Ok s' ->
  0 < top < length universal -> en top = true ->
  (forall k, top < k < length universal -> en k = false) ->
  (uset universal top = true \/
   forall i, i < length universal -> en i = true -> uset universal i = false) ->
  forall f i, f < nF -> i < length universal -> en i = true ->
     slot (length universal) (uset universal) all_on nF f i < mp_actual s'.
Proof.
  intros H HF E Ht Het Hlast Hu.
  apply (proj2 (multipose_enabled_iff _ _ _ _ _ _ H HF E)).
  intros i Hi He.
  assert (i <= top) as Hit.
  { destruct (Nat.le_gt_cases i top) as [|C]; [assumption|]. rewrite (Hlast i) in He by lia. discriminate. }
  split; [exists top; auto|]. intros Hui. exists top. repeat split; try lia; auto.
  destruct Hu as [Hu|Hu]; [exact Hu|]. rewrite (Hu i Hi He) in Hui. discriminate.
Qed.
Print Assumptions multipose_enabled_partial.

Example multipose_enabled_case :
  let universal := [false; true; false; true] in
  let en := fun i => (i =? 0) || (i =? 3) in
  exists s', mp_set_enabled (mp_init universal 3) en = Ok s' /\ mp_actual s' = 8 /\
    slot 4 (uset universal) all_on 3 2 0 = 4 /\ slot 4 (uset universal) all_on 3 2 3 = 7.
Proof. eexists. split; [reflexivity|]. repeat split. Qed.

(** Enabling parameter 0 alone solves for nothing, and an enabled universal parameter followed by
    an enabled per-frame one is left out. *)
Theorem multipose_enabled_refuted :
  (exists universal nF en s', 0 < nF /\ mp_set_enabled (mp_init universal nF) en = Ok s' /\
     en 0 = true /\ mp_actual s' = 0) /\
  (exists universal nF en s' i, 0 < nF /\ mp_set_enabled (mp_init universal nF) en = Ok s' /\
     i < length universal /\ en i = true /\
     mp_actual s' <= slot (length universal) (uset universal) all_on nF 0 i).
Proof.
  split.
  - exists [false; false], 2, (fun i => i =? 0). eexists. repeat split. lia.
  - exists [true; false], 2, (fun _ => true). eexists. exists 0. repeat split; cbn; lia.
Qed.
Print Assumptions multipose_enabled_refuted.
