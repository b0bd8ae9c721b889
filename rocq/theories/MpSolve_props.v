(** C116: one iteration of MultiposeSolver. *)

From Coq Require Import Bool List Arith Lia Reals Lra.
From Coquelicot Require Import Coquelicot.
From Verif Require Import Prelude LinAlg Rbool ListUtil Loops Seq_spec Seq_model Seq_proofs Seq_multi_proofs
  SeqFn_model SeqFn_spec SeqFn_proofs SeqFn_props MpFn_model MpFn_spec MpFn_proofs QR_model BlockQR_spec BlockQR_model BlockQR_runs_spec
  BlockQR_proofs BlockQR_inv_proofs BlockQR_props MpSolve_model MpSolve_spec MpSolve_proofs.
Import ListNotations.
Local Open Scope outcome_scope.
Local Open Scope nat_scope.
Local Open Scope R_scope.

(** The iteration subtracts the one minimiser of the Gauss-Newton objective of all poses from the parameters, and stores
    the poses of the result; the error is the one before the step.  Partial: no small column may be taken for zero. *)
Theorem multipose_solver_step_partial eps reg universal nF ops o v :
  mo_run universal nF ops = Ok o -> length v = total_size universal nF -> 0 < reg ->
  rows_ok o (pose universal nF v) -> every_frame nF o ->
  run_exact eps (oq_new (length (common universal)) (sqrt reg)) (solver_rows universal o (pose universal nF v)) ->
  exists d v' o', one_minimum (total_size universal nF) (step_objective universal nF reg o (pose universal nF v)) d /\
    mps_iteration eps reg o v = Ok (rsum (map (fun c => se_jerror (snd c) [pose universal nF v (fst c)]) (mcalls o)), v', o') /\
    length v' = length v /\ (forall p, (p < length v)%nat -> nth p v' 0 = nth p v 0 - d p) /\
    mp_frames (mo_fn o') = map (pose universal nF v') (seq 0 nF) /\ mo_per o' = mo_per o.
Proof.
  intros Run Lv Hr Rok Ev Ex. pose proof (mo_run_wf _ _ _ _ Run) as W. pose proof (mo_run_lists _ _ _ _ Run) as Ls.
  destruct (mo_set_spec universal nF o v W Lv) as (s & Es & Ws & Fr).
  unfold mo_set in Es. destruct (negb _); [discriminate Es|].
  assert (Lss : lists_ok universal s).
  { destruct (mp_set_joined_lists _ _ _ Es) as [A B]. destruct Ls. split; congruence. }
  assert (Hl : sqrt reg <> 0) by (apply Rgt_not_eq, sqrt_lt_R0; exact Hr).
  assert (Eb : every_block nF (solver_rows universal o (pose universal nF v))).
  { intros f Hf. destruct (Ev f Hf) as (e & He). eexists. split; [unfold solver_rows; apply in_map; exact He|reflexivity]. }
  destruct (block_qr_minimises_partial eps nF (fun _ => length (own universal)) (length (common universal)) (sqrt reg) _ Hl
    (solver_rows_fit universal nF o _ (proj2 W)) Eb Ex) as (q & x & z & Eq & M & Ed & _ & _).
  set (dl := pack nF (fun _ => length (own universal)) (length (common universal)) x z) in *.
  assert (Ld : length dl = length v) by (unfold dl; rewrite pack_length, Lv, total_size_eq; reflexivity).
  exists (fun p => nth p dl 0). unfold mps_iteration. rewrite Es. cbn [obind].
  rewrite (assemble_ok eps reg universal nF o v s W Ws Lss Fr Rok), Eq. cbn [obind fst snd]. rewrite Ed. cbn [obind].
  unfold mo_update. rewrite Ld, Nat.eqb_refl. cbn [negb mo_fn mo_per]. set (v' := map _ _).
  assert (L' : length v' = length v) by (unfold v'; rewrite map_length, combine_length; lia).
  assert (Ws' : mo_wf universal nF {| mo_fn := s; mo_per := mo_per o |}) by (split; [exact Ws|exact (proj2 W)]).
  destruct (mo_set_spec universal nF _ v' Ws' ltac:(congruence)) as (s' & E' & _ & Fr'). unfold mo_set in E'.
  destruct (negb _); [discriminate E'|]. cbn [mo_fn] in E'. rewrite E'. cbn [obind fst snd].
  do 2 eexists. split; [apply packed_minimum; [lra|exact (proj2 W)|exact Rok|exact M]|].
  split; [reflexivity|]. split; [exact L'|]. split; [|split; [exact Fr'|reflexivity]].
  unfold v'. clear - Ld. clearbody dl. revert dl Ld. induction v as [|a v IH]; intros [|b g] Lg p Hp; try discriminate Lg; [cbn in Hp; lia|].
  destruct p as [|p]; [reflexivity|]. cbn. apply IH; cbn in *; lia.
Qed.
Print Assumptions multipose_solver_step_partial.

(** With an exact test for zero columns nothing else is needed. *)
Theorem multipose_solver_step_exact reg universal nF ops o v :
  mo_run universal nF ops = Ok o -> length v = total_size universal nF -> 0 < reg ->
  rows_ok o (pose universal nF v) -> every_frame nF o ->
  exists d v' o', one_minimum (total_size universal nF) (step_objective universal nF reg o (pose universal nF v)) d /\
    mps_iteration 0 reg o v = Ok (rsum (map (fun c => se_jerror (snd c) [pose universal nF v (fst c)]) (mcalls o)), v', o') /\
    length v' = length v /\ (forall p, (p < length v)%nat -> nth p v' 0 = nth p v 0 - d p) /\
    mp_frames (mo_fn o') = map (pose universal nF v') (seq 0 nF) /\ mo_per o' = mo_per o.
Proof. intros Run Lv Hr Rok Ev. exact (multipose_solver_step_partial 0 reg universal nF ops o v Run Lv Hr Rok Ev (block_qr_exact_test _ _ _)). Qed.
Print Assumptions multipose_solver_step_exact.

(** A parameter that no function in use depends on keeps its value. *)
Lemma minimum_unused universal nF reg o X d f i : 0 < reg -> (f < nF)%nat -> (i < length universal)%nat -> unused universal o X f i ->
  one_minimum (total_size universal nF) (step_objective universal nF reg o X) d -> length (mo_per o) = nF -> d (place universal nF f i) = 0.
Proof.
  intros Hr Hf Hi Un M Lo. set (p := place universal nF f i).
  set (d' := fun k => if (k =? p)%nat then 0 else d k).
  destruct (M d') as [M1 _].
  assert (Hp : (p < total_size universal nF)%nat) by (apply place_bound; assumption).
  assert (E : step_objective universal nF reg o X d = step_objective universal nF reg o X d' + reg * (d p * d p)).
  { unfold step_objective.
    assert (E1 : sumn (total_size universal nF) (fun k => d k * d k) = sumn (total_size universal nF) (fun k => d' k * d' k) + d p * d p).
    { pose proof (sumn_single (total_size universal nF) p (fun k => if (k =? p)%nat then d p * d p else 0) Hp) as Sg.
      cbv beta in Sg. rewrite Nat.eqb_refl in Sg. rewrite <- Sg by (intros k N; destruct (Nat.eqb_spec k p); [contradiction|reflexivity]).
      rewrite <- sumn_plus. apply sumn_ext. intros k _. unfold d'. destruct (Nat.eqb_spec k p) as [->|]; ring. }
    rewrite E1.
    assert (E2 : rsum (map (fun c => rsum (map (fun row =>
      (sumn (length universal) (fun i => fst row i * d (place universal nF (fst c) i)) - snd row) *
      (sumn (length universal) (fun i => fst row i * d (place universal nF (fst c) i)) - snd row))
      (se_rows (snd c) [X (fst c)]))) (mcalls o)) =
     rsum (map (fun c => rsum (map (fun row =>
      (sumn (length universal) (fun i => fst row i * d' (place universal nF (fst c) i)) - snd row) *
      (sumn (length universal) (fun i => fst row i * d' (place universal nF (fst c) i)) - snd row))
      (se_rows (snd c) [X (fst c)]))) (mcalls o))).
    { apply rsum_map_ext. intros c Hc. apply rsum_map_ext. intros row Hrow.
      assert (E3 : sumn (length universal) (fun i => fst row i * d (place universal nF (fst c) i)) =
                   sumn (length universal) (fun i => fst row i * d' (place universal nF (fst c) i))); [|rewrite E3; reflexivity].
      apply sumn_ext. intros k Hk. unfold d'. pose proof (mcalls_at o c Hc) as Hc2. rewrite Lo in Hc2.
      unfold p. rewrite place_eqb by assumption. destruct (Nat.eqb_spec k i) as [->|]; [|reflexivity].
      destruct (uset universal i || (fst c =? f))%bool eqn:B; cbn [andb]; [|reflexivity].
      rewrite (Un c row Hc); [ring| |exact Hrow]. apply orb_true_iff in B. destruct B as [B|B]; [right; exact B|left; apply Nat.eqb_eq; exact B]. }
    rewrite E2. ring. }
  rewrite E in M1. assert (S0 : reg * (d p * d p) <= 0) by lra.
  pose proof (Rle_0_sqr (d p)) as S1. unfold Rsqr in S1.
  destruct (Req_dec (d p) 0) as [Z|N]; [exact Z|]. pose proof (Rsqr_pos_lt _ N) as S2. unfold Rsqr in S2.
  pose proof (Rmult_lt_0_compat _ _ Hr S2). lra.
Qed.
Theorem multipose_solver_unused_partial eps reg universal nF ops o v f i :
  mo_run universal nF ops = Ok o -> length v = total_size universal nF -> 0 < reg ->
  rows_ok o (pose universal nF v) -> every_frame nF o ->
  run_exact eps (oq_new (length (common universal)) (sqrt reg)) (solver_rows universal o (pose universal nF v)) ->
  (f < nF)%nat -> (i < length universal)%nat -> unused universal o (pose universal nF v) f i ->
  exists e v' o', mps_iteration eps reg o v = Ok (e, v', o') /\ nth (place universal nF f i) v' 0 = nth (place universal nF f i) v 0.
Proof.
  intros Run Lv Hr Rok Ev Ex Hf Hi Un. pose proof (mo_run_wf _ _ _ _ Run) as W.
  destruct (multipose_solver_step_partial eps reg universal nF ops o v Run Lv Hr Rok Ev Ex) as (d & v' & o' & M & E & _ & V & _).
  do 3 eexists. split; [exact E|]. rewrite V by (rewrite Lv; apply place_bound; assumption).
  rewrite (minimum_unused universal nF reg o _ d f i Hr Hf Hi Un M (proj2 W)). ring.
Qed.
Print Assumptions multipose_solver_unused_partial.

(** ** A frame without functions *)

Lemma add_shape eps q B q' : oq_add eps q B = Ok q' ->
  (forall j, j <> br_blk B -> blk q' j = blk q j) /\ ob_n (blk q' (br_blk B)) = br_w B /\
  length (oq_blocks q') = Nat.max (length (oq_blocks q)) (S (br_blk B)) /\ q_n (oq_nn q') = q_n (oq_nn q).
Proof.
  unfold oq_add. set (bl := oq_blocks q ++ repeat ob_empty (S (br_blk B) - length (oq_blocks q))).
  assert (Lb : length bl = Nat.max (length (oq_blocks q)) (S (br_blk B))) by (unfold bl; rewrite app_length, repeat_length; lia).
  assert (Nb : forall j, nth j bl ob_empty = blk q j).
  { intros j. unfold bl, blk. destruct (Nat.lt_ge_cases j (length (oq_blocks q))); [apply app_nth1; assumption|].
    rewrite app_nth2 by assumption. rewrite nth_repeat. symmetry. apply nth_overflow. assumption. }
  clearbody bl. destruct (rd bl (br_blk B)) as [old| | | |]; try discriminate. cbn [obind].
  destruct (if (ob_n old =? 0)%nat then _ else _) as [k| | | |]; try discriminate. cbn [obind].
  destruct (wr bl (br_blk B) _) as [bl'| | | |] eqn:Ew; try discriminate. cbn [obind].
  intros E. injection E as <-. unfold blk. cbn [oq_blocks oq_nn].
  apply wr_ok_inv in Ew. destruct Ew as (Hlt & Ll & Ni & No).
  split; [|split; [|split]].
  - intros j Hj. change (nth j (oq_blocks q) ob_empty) with (blk q j). rewrite <- Nb.
    specialize (No j Hj). destruct (Nat.lt_ge_cases j (length bl)) as [C|C].
    + apply nth_error_nth. rewrite No. apply nth_error_nth'. exact C.
    + rewrite !nth_overflow; [reflexivity|lia|lia].
  - rewrite (nth_error_nth _ _ _ Ni). reflexivity.
  - rewrite Ll. exact Lb.
  - unfold qr_add, qr_add_mutating. destruct (fold_left _ _ (q_R _, _, _, _)) as [[[? ?] ?] ?]. reflexivity.
Qed.

Lemma dense_length q l : oq_x_dense q = Ok l -> length l = (list_sum (map ob_n (oq_blocks q)) + q_n (oq_nn q))%nat.
Proof.
  unfold oq_x_dense.
  assert (G : forall bs acc r, ofold (fun k acc => let* x := ob_solve q k in Ok (acc ++ x)) bs acc = Ok r ->
            length r = (length acc + list_sum (map ob_n bs))%nat).
  { induction bs as [|k bs IH]; intros acc r; cbn [ofold map].
    - intros E. injection E as <-. cbn [list_sum fold_right]. lia.
    - unfold ob_solve at 1. destruct (_ =? _)%nat; [|discriminate]. cbn [obind]. intros E. apply IH in E.
      rewrite app_length, map_length, seq_length in E. change (list_sum (ob_n k :: map ob_n bs)) with (ob_n k + list_sum (map ob_n bs))%nat. lia. }
  destruct (ofold _ _ _) as [r| | | |] eqn:E; try discriminate. cbn [obind]. intros H. injection H as <-.
  apply G in E. rewrite app_length, map_length, seq_length. cbn [length] in E. lia.
Qed.

Lemma gap_sum : forall (l : list obk) n g f, (length l <= n)%nat -> (f < n)%nat -> (forall k, (ob_n (nth k l ob_empty) <= g)%nat) ->
  ob_n (nth f l ob_empty) = 0%nat -> (list_sum (map ob_n l) + g <= g * n)%nat.
Proof.
  assert (Full : forall (l : list obk) g, (forall k, (ob_n (nth k l ob_empty) <= g)%nat) -> (list_sum (map ob_n l) <= g * length l)%nat).
  { induction l as [|k l IH]; intros g H; [cbn; lia|]. cbn [map length].
    change (list_sum (ob_n k :: map ob_n l)) with (ob_n k + list_sum (map ob_n l))%nat.
    pose proof (H 0%nat) as H0. cbn [nth] in H0. pose proof (IH g (fun j => H (S j))). lia. }
  induction l as [|k l IH]; intros n g f L Hf H Z; [cbn; nia|]. destruct n as [|n]; [lia|]. cbn [map length] in *.
  change (list_sum (ob_n k :: map ob_n l)) with (ob_n k + list_sum (map ob_n l))%nat.
  pose proof (H 0%nat) as H0. cbn [nth] in H0. destruct f as [|f].
  - cbn [nth] in Z. pose proof (Full l g (fun j => H (S j))). nia.
  - pose proof (IH n g f ltac:(lia) ltac:(lia) (fun j => H (S j)) Z). nia.
Qed.

(** With a frame that has no function in use, and parameters of its own, the iteration never succeeds: there is no step for
    the frame, so that the step is too short or cannot be computed. *)
Theorem multipose_solver_idle_frame_refuted eps reg universal nF ops o v f :
  mo_run universal nF ops = Ok o -> length v = total_size universal nF -> rows_ok o (pose universal nF v) ->
  (0 < length (own universal))%nat -> (f < nF)%nat -> (forall e, ~ In (f, e) (mcalls o)) ->
  forall out, mps_iteration eps reg o v <> Ok out.
Proof.
  intros Run Lv Rok Hg Hf Idle out. pose proof (mo_run_wf _ _ _ _ Run) as W. pose proof (mo_run_lists _ _ _ _ Run) as Ls.
  destruct (mo_set_spec universal nF o v W Lv) as (s & Es & Ws & Fr).
  unfold mo_set in Es. destruct (negb _); [discriminate Es|].
  assert (Lss : lists_ok universal s).
  { destruct (mp_set_joined_lists _ _ _ Es) as [A B]. destruct Ls. split; congruence. }
  unfold mps_iteration. rewrite Es. cbn [obind]. rewrite (assemble_ok eps reg universal nF o v s W Ws Lss Fr Rok).
  set (Bs := solver_rows universal o (pose universal nF v)).
  assert (HB : forall B, In B Bs -> br_blk B <> f /\ (br_blk B < nF)%nat /\ br_w B = length (own universal)).
  { intros B HB. destruct (solver_rows_fit universal nF o _ (proj2 W) B HB) as [H1 H2]. split; [|auto].
    unfold Bs, solver_rows in HB. apply in_map_iff in HB. destruct HB as ([g e] & <- & Hc). cbn [br_blk fst]. intros ->. exact (Idle e Hc). }
  assert (G : forall Bs, (forall B, In B Bs -> br_blk B <> f /\ (br_blk B < nF)%nat /\ br_w B = length (own universal)) ->
     forall q q', oq_run eps q Bs = Ok q' ->
     (length (oq_blocks q) <= nF)%nat -> (forall k, (ob_n (blk q k) <= length (own universal))%nat) -> ob_n (blk q f) = 0%nat ->
     (length (oq_blocks q') <= nF)%nat /\ (forall k, (ob_n (blk q' k) <= length (own universal))%nat) /\ ob_n (blk q' f) = 0%nat /\ q_n (oq_nn q') = q_n (oq_nn q)).
  { clear. induction Bs as [|B Bs IH]; intros HB q q'; unfold oq_run; cbn [ofold].
    - intros E. injection E as <-. auto.
    - destruct (oq_add eps q B) as [q1| | | |] eqn:E1; try discriminate. cbn [obind]. intros E L1 L2 L3.
      destruct (add_shape _ _ _ _ E1) as (A1 & A2 & A3 & A4). destruct (HB B (or_introl eq_refl)) as (N & Hb & Hw).
      rewrite <- A4. apply (IH (fun b Hb => HB b (or_intror Hb)) q1 q' E).
      + lia.
      + intros k. destruct (Nat.eq_dec k (br_blk B)) as [->|D]; [lia|rewrite A1 by exact D; apply L2].
      + rewrite A1 by congruence. exact L3. }
  destruct (oq_run eps _ Bs) as [q| | | |] eqn:Eq; cbn [obind]; try discriminate.
  destruct (G Bs HB _ _ Eq) as (L1 & L2 & L3 & L4).
  { cbn. lia. }
  { intros k. unfold blk. cbn [oq_new oq_blocks]. destruct k; cbn; lia. }
  { unfold blk. cbn [oq_new oq_blocks]. destruct f; reflexivity. }
  cbn [fst snd]. destruct (oq_x_dense q) as [l| | | |] eqn:Ed; cbn [obind]; try discriminate.
  apply dense_length in Ed. cbn [oq_new oq_nn qr_reset q_n] in L4. rewrite L4 in Ed.
  pose proof (gap_sum (oq_blocks q) nF (length (own universal)) f L1 Hf L2 L3) as Gs.
  unfold mo_update. rewrite Lv, total_size_eq, Ed.
  destruct (Nat.eqb_spec (length (own universal) * nF + length (common universal)) (list_sum (map ob_n (oq_blocks q)) + length (common universal))) as [C|C]; [lia|].
  cbn [negb obind]. discriminate.
Qed.
Print Assumptions multipose_solver_idle_frame_refuted.

(** ** Concrete cases *)

(** The error (1 + x^2)^2 of one parameter: least at 0, but no residual is zero. *)
Definition bump_error : serr :=
  {| se_weight := 1; se_frames := 1%nat; se_size := 1%nat;
     se_error := fun w => (1 + nth 0 (nth 0 w []) 0 * nth 0 (nth 0 w []) 0) * (1 + nth 0 (nth 0 w []) 0 * nth 0 (nth 0 w []) 0);
     se_gerror := fun w => (1 + nth 0 (nth 0 w []) 0 * nth 0 (nth 0 w []) 0) * (1 + nth 0 (nth 0 w []) 0 * nth 0 (nth 0 w []) 0);
     se_grad := fun w j => if (j =? 0)%nat then 4 * nth 0 (nth 0 w []) 0 * (1 + nth 0 (nth 0 w []) 0 * nth 0 (nth 0 w []) 0) else 0;
     se_jerror := fun w => (1 + nth 0 (nth 0 w []) 0 * nth 0 (nth 0 w []) 0) * (1 + nth 0 (nth 0 w []) 0 * nth 0 (nth 0 w []) 0);
     se_rows := fun w => [((fun j => if (j =? 0)%nat then 2 * nth 0 (nth 0 w []) 0 else 0), 1 + nth 0 (nth 0 w []) 0 * nth 0 (nth 0 w []) 0)];
     se_used := fun _ => 1%nat |}.
Lemma bump_good a : good_gradient 1 bump_error [[a]] /\ good_jacobian 1 bump_error [[a]].
Proof.
  split; constructor; try reflexivity.
  - intros i c Hi. replace i with 0%nat by lia. cbn [length]. rewrite sumn_S, sumn_0.
    cbn [bump_error se_error se_grad moved_window map seq nth store Nat.add Nat.mul Nat.eqb length].
    auto_derive; [exact I|]. ring.
  - cbn. lia.
  - intros sub i Hs Hi. cbn [length] in Hs. replace sub with 0%nat by lia. replace i with 0%nat by lia. cbn. ring.
Qed.

Lemma one_frame_calls e : se_weight e = 1 -> mcalls {| mo_fn := mp_init [false] 1; mo_per := [[e]] |} = [(0%nat, e)].
Proof. intros E. unfold mcalls, active. cbn. rewrite E, one_not_le_zero. reflexivity. Qed.

(** The iteration takes the whole step: it can increase the error, also of an error function that is as smooth as can be, and with the
    default regularisation. *)
Theorem multipose_solver_error_refuted :
  forall eps, eps < 1 / 5 ->
  exists universal nF ops o v e v' o', mo_run universal nF ops = Ok o /\ length v = total_size universal nF /\ every_frame nF o /\
    (forall c x, In c (mcalls o) -> length x = 1%nat -> good_gradient 1 (snd c) [x] /\ good_jacobian 1 (snd c) [x]) /\
    mps_iteration eps (1 / 20) o v = Ok (e, v', o') /\
    poses_error o (pose universal nF v) < poses_error o (pose universal nF v').
Proof.
  intros eps He. exists [false], 1%nat, [MAdd 0%nat bump_error].
  set (o := {| mo_fn := mp_init [false] 1; mo_per := [[bump_error]] |}). exists o, [1 / 10].
  assert (Run : mo_run [false] 1 [MAdd 0%nat bump_error] = Ok o) by reflexivity.
  assert (C : mcalls o = [(0%nat, bump_error)]) by (apply one_frame_calls; reflexivity).
  assert (Lv : length [1 / 10] = total_size [false] 1) by reflexivity.
  assert (P : forall a, pose [false] 1 [a] 0 = [a]) by reflexivity.
  assert (Ev : every_frame 1 o). { intros f Hf. exists bump_error. rewrite C. replace f with 0%nat by lia. left. reflexivity. }
  assert (Rok : rows_ok o (pose [false] 1 [1 / 10])). { intros c Hc. rewrite C in Hc. destruct Hc as [<- | []]. cbn. lia. }
  destruct (multipose_solver_step_partial eps (1 / 20) [false] 1 [MAdd 0%nat bump_error] o [1 / 10] Run Lv ltac:(lra) Rok Ev) as (d & v' & o' & M & E & Lv' & V & _ & _).
  { apply block_qr_single_columns.
    - intros B HB. unfold solver_rows in HB. rewrite C in HB. destruct HB as [<- | []]. cbn. lia.
    - intros B HB. unfold solver_rows in HB. rewrite C in HB. destruct HB as [<- | []]. right. exists 0%nat. cbn. split; [lia|].
      rewrite Rabs_right by lra. lra. }
  exists (rsum (map (fun c => se_jerror (snd c) [pose [false] 1 [1 / 10] (fst c)]) (mcalls o))), v', o'.
  split; [exact Run|]. split; [exact Lv|]. split; [exact Ev|]. split.
  { intros c x Hc Lx. rewrite C in Hc. destruct Hc as [<- | []]. destruct x as [|a [|? ?]]; try discriminate Lx. apply bump_good. }
  split; [exact E|].
  assert (Ob : forall y, step_objective [false] 1 (1 / 20) o (pose [false] 1 [1 / 10]) y = 1 / 20 * (y 0%nat * y 0%nat) + (1 / 5 * y 0%nat - 101 / 100) * (1 / 5 * y 0%nat - 101 / 100)).
  { intros y. unfold step_objective. rewrite C. change (total_size [false] 1) with 1%nat.
    cbn [map rsum fst snd]. rewrite P. cbn [bump_error se_rows map rsum fst snd nth Nat.eqb length]. rewrite !sumn_S, !sumn_0.
    change (place [false] 1 0 0) with 0%nat. cbn [Nat.eqb]. field. }
  destruct (M (fun _ => 202 / 90)) as [M1 M2]. rewrite !Ob in M1, M2.
  assert (D : d 0%nat = 202 / 90).
  { symmetry. apply M2; [|change (total_size [false] 1) with 1%nat; lia].
    pose proof (Rle_0_sqr (d 0%nat - 202 / 90)) as Sq. unfold Rsqr in Sq. lra. }
  destruct v' as [|a [|? ?]]; try discriminate Lv'. specialize (V 0%nat ltac:(cbn; lia)). cbn [nth] in V. rewrite D in V.
  unfold poses_error. rewrite C. cbn [map rsum fst snd]. rewrite !P. cbn [bump_error se_error nth]. rewrite V. lra.
Qed.
Print Assumptions multipose_solver_error_refuted.

(** The sum of the two parameters of a frame should be zero. *)
Definition sum_error : serr :=
  {| se_weight := 1; se_frames := 1%nat; se_size := 1%nat;
     se_error := fun w => (nth 0 (nth 0 w []) 0 + nth 1 (nth 0 w []) 0) * (nth 0 (nth 0 w []) 0 + nth 1 (nth 0 w []) 0);
     se_gerror := fun w => (nth 0 (nth 0 w []) 0 + nth 1 (nth 0 w []) 0) * (nth 0 (nth 0 w []) 0 + nth 1 (nth 0 w []) 0);
     se_grad := fun w j => if (j <? 2)%nat then 2 * (nth 0 (nth 0 w []) 0 + nth 1 (nth 0 w []) 0) else 0;
     se_jerror := fun w => (nth 0 (nth 0 w []) 0 + nth 1 (nth 0 w []) 0) * (nth 0 (nth 0 w []) 0 + nth 1 (nth 0 w []) 0);
     se_rows := fun w => [((fun j => if (j <? 2)%nat then 1 else 0), nth 0 (nth 0 w []) 0 + nth 1 (nth 0 w []) 0)];
     se_used := fun _ => 1%nat |}.
(** Two frames with three parameters, the second one shared; nothing uses the third. *)
Example multipose_solver_case : forall eps, eps < 1 -> exists o,
  mo_run [false; true; false] 2 [MAdd 0%nat square_error; MAdd 1%nat sum_error] = Ok o /\
  length [1; 2; 3; 4; 5] = total_size [false; true; false] 2 /\
  rows_ok o (pose [false; true; false] 2 [1; 2; 3; 4; 5]) /\ every_frame 2 o /\
  unused [false; true; false] o (pose [false; true; false] 2 [1; 2; 3; 4; 5]) 1 2 /\
  ~ unused [false; true; false] o (pose [false; true; false] 2 [1; 2; 3; 4; 5]) 0 1.
Proof.
  intros eps He. eexists. split; [reflexivity|]. split; [reflexivity|].
  set (o := {| mo_fn := _; mo_per := _ |}).
  assert (C : mcalls o = [(0%nat, square_error); (1%nat, sum_error)]).
  { unfold mcalls, active. cbn. rewrite !one_not_le_zero. reflexivity. }
  clearbody o. unfold rows_ok, every_frame, unused. rewrite C.
  split; [intros c [<- | [<- | []]]; cbn; lia|].
  split; [intros [|[|f]] Hf; [exists square_error; left; reflexivity|exists sum_error; right; left; reflexivity|lia]|].
  split.
  - intros c row [<- | [<- | []]] _ [<- | []]; reflexivity.
  - intros H. specialize (H (1%nat, sum_error) _ (or_intror (or_introl eq_refl)) (or_intror eq_refl) (or_introl eq_refl)). cbn in H. lra.
Qed.
(** Two frames of one own and one shared parameter, with the test for zero columns of the code. *)
Example multipose_solver_columns_case : forall eps, eps < 1 -> exists o,
  mo_run [false; true] 2 [MAdd 0%nat square_error; MAdd 1%nat sum_error] = Ok o /\ every_frame 2 o /\
  rows_ok o (pose [false; true] 2 [1; 2; 3]) /\ length [1; 2; 3] = total_size [false; true] 2 /\
  run_exact eps (oq_new (length (common [false; true])) (sqrt (1 / 20))) (solver_rows [false; true] o (pose [false; true] 2 [1; 2; 3])).
Proof.
  intros eps He. eexists. split; [reflexivity|].
  set (o := {| mo_fn := _; mo_per := _ |}).
  assert (C : mcalls o = [(0%nat, square_error); (1%nat, sum_error)]).
  { unfold mcalls, active. cbn. rewrite !one_not_le_zero. reflexivity. }
  clearbody o. unfold rows_ok, every_frame. rewrite C.
  split; [intros [|[|f]] Hf; [exists square_error; left; reflexivity|exists sum_error; right; left; reflexivity|lia]|].
  split; [intros c [<- | [<- | []]]; cbn; lia|]. split; [reflexivity|].
  apply block_qr_single_columns.
  - intros B HB. unfold solver_rows in HB. rewrite C in HB. destruct HB as [<- | [<- | []]]; cbn; lia.
  - intros B HB. unfold solver_rows in HB. rewrite C in HB. destruct HB as [<- | [<- | []]]; right; exists 0%nat; cbn; (split; [lia|]);
    rewrite Rabs_R1; lra.
Qed.
(** Two frames of which the second has no function. *)
Example multipose_solver_idle_frame_case : exists o,
  mo_run [false] 2 [MAdd 0%nat square_error] = Ok o /\ length [1; 2] = total_size [false] 2 /\ rows_ok o (pose [false] 2 [1; 2]) /\
  (0 < length (own [false]))%nat /\ (forall e, ~ In (1%nat, e) (mcalls o)).
Proof.
  eexists. split; [reflexivity|]. split; [reflexivity|]. set (o := {| mo_fn := _; mo_per := _ |}).
  assert (C : mcalls o = [(0%nat, square_error)]).
  { unfold mcalls, active. cbn. rewrite !one_not_le_zero. reflexivity. }
  clearbody o. unfold rows_ok. rewrite C. split; [intros c [<- | []]; cbn; lia|]. split; [cbn; lia|].
  intros e [H|[]]. discriminate H.
Qed.
