(** C109: error, gradient and Jacobian of several poses. *)

From Coq Require Import Bool List Arith Lia Reals Lra.
From Coquelicot Require Import Coquelicot.
From Verif Require Import Prelude LinAlg Rbool ListUtil Loops Seq_spec Seq_model Seq_proofs Seq_multi_proofs
  SeqFn_model SeqFn_spec SeqFn_proofs SeqFn_grad_proofs SeqFn_jac_proofs SeqFn_props MpFn_model MpFn_spec MpFn_proofs MpFn_jac_proofs.
Import ListNotations.
Local Open Scope outcome_scope.
Local Open Scope nat_scope.

(** getError is the sum of the errors of the active functions, each on the parameters of its frame. *)
Theorem multipose_error universal nF ops o v :
  mo_run universal nF ops = Ok o -> length v = total_size universal nF ->
  exists s, mo_error o v = Ok (poses_error o (pose universal nF v), s) /\ mp_frames s = map (pose universal nF v) (seq 0 nF).
Proof. intros H Lv. apply mo_error_spec; [exact (mo_run_wf _ _ _ _ H)|exact Lv]. Qed.
Print Assumptions multipose_error.

(** Every entry of getGradient is the derivative of getError. *)
Theorem multipose_gradient universal nF ops o v :
  mo_run universal nF ops = Ok o -> 0 < nF -> length v = total_size universal nF ->
  (forall c, In c (mcalls o) -> good_gradient (length universal) (snd c) [pose universal nF v (fst c)]) ->
  exists g, mo_gradient o v = Ok (poses_error o (pose universal nF v), g) /\ length g = length v /\
    forall p, p < length v -> exists E : R -> R,
      (forall y, exists s, mo_error o (store v p y) = Ok (E y, s)) /\ is_derive E (nth p v 0%R) (nth p g 0%R).
Proof.
  intros H HF Lv G. pose proof (mo_run_wf _ _ _ _ H) as W. pose proof (as_seq_wf universal nF o W) as WS.
  destruct (gradient_is_derivative (length universal) (uset universal) nF all_on (as_seq universal nF o) v WS Lv) as (err & g & Eg & Lg & (s & Es) & D).
  - rewrite as_seq_frames, (as_seq_calls universal nF o W). intros c Hc. apply in_map_iff in Hc. destruct Hc as (c0 & <- & Hc). cbn [c_fn].
    rewrite seen_pose by (rewrite <- (proj2 W); apply mcalls_at; exact Hc). apply G. exact Hc.
  - assert (SE : forall w, length w = total_size universal nF -> exists s, so_error (as_seq universal nF o) w = Ok (poses_error o (pose universal nF w), s)).
    { intros w Lw. eexists. rewrite (so_error_spec _ _ _ _ _ w WS Lw), as_seq_frames, (as_seq_error universal nF o w W). reflexivity. }
    rewrite (same_gradient universal nF o v W Lv HF) in Eg. exists g. destruct (SE v Lv) as (s' & Es'). rewrite Es in Es'. injection Es' as -> _.
    split; [exact Eg|]. split; [exact Lg|]. intros p Hp. destruct (D p HF Hp) as (E & EE & DE). exists E. split; [|exact DE].
    intros y. destruct (EE y) as (s1 & E1). assert (Ls : length (store v p y) = total_size universal nF) by (rewrite store_length; exact Lv).
    destruct (SE _ Ls) as (s2 & E2). rewrite E1 in E2. injection E2 as -> _. destruct (mo_error_spec universal nF o _ W Ls) as (s3 & E3 & _). exists s3. exact E3.
Qed.
Print Assumptions multipose_gradient.

Lemma lengths o x : rows_ok o x -> length (pose_rows o x) = length (layout o).
Proof. intros H. rewrite <- (layout_rows o x H), map_length. reflexivity. Qed.
Lemma layout_nth o x q : rows_ok o x -> nth_error (layout o) q = option_map fst (nth_error (pose_rows o x) q).
Proof. intros H. rewrite <- (layout_rows o x H). apply nth_error_map. Qed.

(** The Jacobian at any point, written into any matrix that is ready: its entries are those of the active functions, row
    after row, and the matrix stays ready. *)
Theorem multipose_jacobian universal nF ops o v J0 r0 :
  mo_run universal nF ops = Ok o -> length v = total_size universal nF -> rows_ok o (pose universal nF v) -> ready universal nF o J0 r0 ->
  let rows := pose_rows o (pose universal nF v) in
  exists J r m, mo_jacobian o v J0 r0 = Ok (J, r, m, rsum (map (fun c => se_jerror (snd c) [pose universal nF v (fst c)]) (mcalls o))) /\
    rounds_up (length rows) m /\ m <= fm_rows J /\ fm_cols J = length v /\ m <= fv_len r /\
    (forall q g i, g < nF -> i < length universal -> fm_at J q (place universal nF g i) = pose_entry universal rows q g i) /\
    (forall q f row, nth_error rows q = Some (f, Some row) -> fv_at r q = snd row) /\
    (forall q, (forall f row, nth_error rows q <> Some (f, Some row)) ->
       fv_at r q = if (fm_rows J0 <? m) || negb (fm_cols J0 =? length v) then 0%R else fv_at r0 q) /\
    ready universal nF o J r.
Proof.
  intros H Lv Hr HR rows. pose proof (mo_run_wf _ _ _ _ H) as W. pose proof (padded_rounds (length (layout o))) as PR. set (m := padded (length (layout o))) in *.
  pose proof (mo_jacobian_spec universal nF o v J0 r0 W Lv Hr) as SP. cbv zeta in SP. fold m in SP.
  set (resized := (fm_rows J0 <? m) || negb (total_size universal nF =? fm_cols J0)) in *.
  assert (HR2 : resized = false -> m <= fv_len r0 /\ forall q g i, g < nF -> i < length universal ->
     match nth_error (layout o) q with Some f => uset universal i || (f =? g) | None => false end = false -> fm_at J0 q (place universal nF g i) = 0%R).
  { intros Q. destruct (HR m PR) as [[B|B]|B]; [| |exact B]; exfalso; unfold resized in Q; apply orb_false_elim in Q; destruct Q as [Q1 Q2].
    - apply Nat.ltb_ge in Q1. lia.
    - apply negb_false_iff, Nat.eqb_eq in Q2. congruence. }
  destruct (SP (fun Q => proj1 (HR2 Q))) as (J & r & E & [D1 D2] & Lr & A & Ar). exists J, r, m. fold rows in A, Ar.
  assert (Dm : m <= fm_rows J /\ fm_cols J = length v /\ m <= fv_len r).
  { rewrite D1, D2, Lr, Lv. destruct resized eqn:Q; cbn; [lia|]. destruct (HR2 eq_refl) as [B _]. unfold resized in Q. apply orb_false_elim in Q. destruct Q as [Q1 Q2].
    apply Nat.ltb_ge in Q1. apply negb_false_iff, Nat.eqb_eq in Q2. auto. }
  destruct Dm as (Dm1 & Dm2 & Dm3).
  assert (A2 : forall q g i, g < nF -> i < length universal -> fm_at J q (place universal nF g i) = pose_entry universal rows q g i).
  { intros q g i Hg Hi. rewrite A by assumption. unfold jac_entry, pose_entry. pose proof (layout_nth o (pose universal nF v) q Hr) as LN. fold rows in LN.
    assert (Z : match nth_error (layout o) q with Some f => uset universal i || (f =? g) | None => false end = false ->
      fm_at (if resized then {| fm_rows := m; fm_cols := total_size universal nF; fm_at := fun _ _ : nat => 0%R |} else J0) q (place universal nF g i) = 0%R).
    { destruct resized eqn:Q; [reflexivity|]. apply (HR2 eq_refl); assumption. }
    rewrite LN in Z. destruct (nth_error rows q) as [[f x]|]; cbn [option_map fst] in Z.
    - destruct (uset universal i || (f =? g)); [destruct x; reflexivity|]. rewrite Z by reflexivity. destruct x; reflexivity.
    - apply Z. reflexivity. }
  split; [exact E|]. split; [unfold rows; rewrite lengths by exact Hr; exact PR|]. split; [exact Dm1|]. split; [exact Dm2|]. split; [exact Dm3|]. split; [exact A2|]. split; [|split].
  - intros q f row Q. rewrite Ar. unfold over. cbn [Nat.leb]. rewrite Nat.sub_0_r, nth_error_map, Q. reflexivity.
  - intros q Q. rewrite Ar. rewrite (Nat.eqb_sym (fm_cols J0)), Lv. fold resized. unfold over. cbn [Nat.leb]. rewrite Nat.sub_0_r, nth_error_map.
    destruct (nth_error rows q) as [[f [row|]]|]; cbn [option_map snd]; [exfalso; apply (Q f row); reflexivity| |]; destruct resized; reflexivity.
  - intros m' Hm'. rewrite (rounds_up_unique _ _ _ Hm' PR). right. split; [exact Dm3|]. intros q g i Hg Hi Hz. rewrite A2 by assumption. unfold pose_entry.
    rewrite (layout_nth o (pose universal nF v) q Hr) in Hz. fold rows in Hz. destruct (nth_error rows q) as [[f [row|]]|]; try reflexivity. cbn in Hz. rewrite Hz. reflexivity.
Qed.
Print Assumptions multipose_jacobian.

(** A matrix without entries is ready, and so is whatever getJacobian leaves after calls at any points. *)
Theorem multipose_jacobian_history universal nF ops o vs :
  mo_run universal nF ops = Ok o -> (forall v, In v vs -> length v = total_size universal nF /\ rows_ok o (pose universal nF v)) ->
  exists J r, jacobians o vs (FMat 0 0 (fun _ _ => 0%R), FVec 0 (fun _ => 0%R)) = Ok (J, r) /\ ready universal nF o J r.
Proof.
  intros H. assert (R0 : ready universal nF o (fst (FMat 0 0 (fun _ _ => 0%R), FVec 0 (fun _ => 0%R))) (snd (FMat 0 0 (fun _ _ => 0%R), FVec 0 (fun _ => 0%R)))).
  { intros m [Hm _]. left. left. cbn. lia. }
  revert R0. generalize (FMat 0 0 (fun _ _ => 0%R), FVec 0 (fun _ => 0%R)). unfold jacobians. induction vs as [|v vs IH]; intros st R0 HV; cbn [ofold].
  - destruct st as [J r]. exists J, r. split; [reflexivity|exact R0].
  - destruct (HV v (or_introl eq_refl)) as [Lv Hr].
    destruct (multipose_jacobian universal nF ops o v (fst st) (snd st) H Lv Hr R0) as (J & r & m & E & _ & _ & _ & _ & _ & _ & _ & R1). rewrite E. cbn [obind fst snd].
    apply (IH (J, r) R1). intros w Hw. apply HV. right. exact Hw.
Qed.
Print Assumptions multipose_jacobian_history.

Lemma sumn_nth_error {A} (F : A -> R) l : forall m, length l <= m -> sumn m (fun q => match nth_error l q with Some x => F x | None => 0%R end) = rsum (map F l).
Proof.
  induction l as [|a l IH]; intros m Hm.
  - cbn [map rsum]. rewrite (sumn_ext m _ (fun _ => 0%R)) by (intros [|q] _; reflexivity). apply sumn_zero. reflexivity.
  - destruct m as [|m]; [cbn in Hm; lia|]. rewrite sumn_shift. cbn [nth_error map rsum]. rewrite IH by (cbn in Hm; lia). reflexivity.
Qed.
Lemma rsum_rows o x (F : nat -> (nat -> R) * R -> R) :
  rsum (map (fun y : nat * option ((nat -> R) * R) => match snd y with Some row => F (fst y) row | None => 0%R end) (pose_rows o x)) =
  rsum (map (fun c => rsum (map (F (fst c)) (se_rows (snd c) [x (fst c)]))) (mcalls o)).
Proof.
  unfold pose_rows. induction (mcalls o) as [|c l IH]; [reflexivity|]. cbn [flat_map map rsum]. rewrite map_app, rsum_app, IH. f_equal. unfold asked_rows.
  rewrite !map_map, map_app, rsum_app, map_map. cbn [fst snd]. rewrite (rsum_map_zero _ (repeat None _)); [apply Rplus_0_r|]. intros y Hy. apply repeat_spec in Hy. subst. reflexivity.
Qed.

(** With error functions whose Jacobian agrees with their gradient, 2 Jᵀr is getGradient at every entry, and getJacobian
    returns getError: after any earlier calls. *)
Theorem multipose_jacobian_gradient universal nF ops o v J0 r0 :
  mo_run universal nF ops = Ok o -> 0 < nF -> length v = total_size universal nF -> ready universal nF o J0 r0 ->
  (forall c, In c (mcalls o) -> good_jacobian (length universal) (snd c) [pose universal nF v (fst c)]) ->
  exists J r m ge g, mo_jacobian o v J0 r0 = Ok (J, r, m, poses_error o (pose universal nF v)) /\ mo_gradient o v = Ok (ge, g) /\
    forall p, p < length v -> (2 * jtr m J r p)%R = nth p g 0%R.
Proof.
  intros H HF Lv HR G. pose proof (mo_run_wf _ _ _ _ H) as W.
  assert (Hr : rows_ok o (pose universal nF v)) by (intros c Hc; destruct (gj_used _ _ _ (G c Hc)); lia).
  destruct (multipose_jacobian universal nF ops o v J0 r0 H Lv Hr HR) as (J & r & m & E & [Rm _] & _ & _ & _ & A & Ar & _).
  destruct (mo_gradient_spec universal nF o v W Lv) as (g & Eg & Lg & Ag). exists J, r, m. eexists. exists g. split; [|split; [exact Eg|]].
  - rewrite E. do 2 f_equal. unfold poses_error. apply rsum_map_ext. intros c Hc. apply (gj_error _ _ _ (G c Hc)).
  - intros p Hp. rewrite Lv in Hp. destruct (slot_onto (length universal) (uset universal) all_on nF p HF Hp) as (h & k & Hh & Hk & _ & <-).
    fold (place universal nF h k). rewrite Ag by assumption. unfold jtr, pose_gradient.
    set (F := fun (f : nat) (row : (nat -> R) * R) => if uset universal k || (f =? h) then (fst row k * snd row)%R else 0%R).
    rewrite (sumn_ext m _ (fun q => match nth_error (pose_rows o (pose universal nF v)) q with
      Some y => (match snd y with Some row => F (fst y) row | None => 0%R end) | None => 0%R end)).
    + rewrite sumn_nth_error by lia. rewrite rsum_rows. rewrite <- rsum_map_scal. apply rsum_map_ext. intros c Hc. unfold F.
      destruct (uset universal k || (fst c =? h)).
      * pose proof (gj_grad _ _ _ (G c Hc) 0 k ltac:(cbn; lia) Hk) as GG. cbn [Nat.mul Nat.add] in GG. rewrite <- GG. reflexivity.
      * rewrite rsum_map_zero by reflexivity. ring.
    + intros q _. rewrite A by assumption. unfold pose_entry, F. destruct (nth_error (pose_rows o (pose universal nF v)) q) as [[f [row|]]|] eqn:Q; cbn [fst snd]; try ring.
      rewrite (Ar q f row Q). destruct (uset universal k || (f =? h)); ring.
Qed.
Print Assumptions multipose_jacobian_gradient.

(** Called with a matrix that it resizes, the squared norm of the residual is getError. *)
Theorem multipose_residual_partial universal nF ops o v J0 r0 :
  mo_run universal nF ops = Ok o -> length v = total_size universal nF ->
  (forall c, In c (mcalls o) -> length (se_rows (snd c) [pose universal nF v (fst c)]) <= se_size (snd c) /\
     rsum (map (fun row => snd row * snd row)%R (se_rows (snd c) [pose universal nF v (fst c)])) = se_error (snd c) [pose universal nF v (fst c)]) ->
  fm_rows J0 <= length (layout o) \/ fm_cols J0 <> length v ->
  exists J r m err, mo_jacobian o v J0 r0 = Ok (J, r, m, err) /\ sumn m (fun q => fv_at r q * fv_at r q)%R = poses_error o (pose universal nF v).
Proof.
  intros H Lv G HZ. assert (Hr : rows_ok o (pose universal nF v)) by (intros c Hc; apply (G c Hc)).
  assert (HR : ready universal nF o J0 r0) by (intros m [Hm _]; left; rewrite <- Lv; destruct HZ; [left; lia|right; assumption]).
  destruct (multipose_jacobian universal nF ops o v J0 r0 H Lv Hr HR) as (J & r & m & E & [Rm _] & _ & _ & _ & _ & Ar & Ao & _). exists J, r, m. eexists. split; [exact E|].
  rewrite (sumn_ext m _ (fun q => match nth_error (pose_rows o (pose universal nF v)) q with
      Some y => (match snd y with Some row => (snd row * snd row)%R | None => 0%R end) | None => 0%R end)).
  - rewrite sumn_nth_error by lia. rewrite (rsum_rows o _ (fun _ row => (snd row * snd row)%R)). apply rsum_map_ext. intros c Hc. apply (G c Hc).
  - assert (Z : (fm_rows J0 <? m) || negb (fm_cols J0 =? length v) = true).
    { rewrite lengths in Rm by exact Hr. apply orb_true_iff. destruct HZ as [B|B]; [left; apply Nat.ltb_lt; lia|right]. apply negb_true_iff, Nat.eqb_neq. exact B. }
    rewrite Z in Ao. intros q _. destruct (nth_error (pose_rows o (pose universal nF v)) q) as [[f [row|]]|] eqn:Q; cbn [snd].
    + rewrite (Ar q f row Q). reflexivity.
    + rewrite Ao by (intros f' row'; congruence). ring.
    + rewrite Ao by (intros f' row'; congruence). ring.
Qed.
Print Assumptions multipose_residual_partial.

(** Not so after an earlier call: a row that is no longer written keeps its old residual. *)
Theorem multipose_residual_refuted : exists o u v J r J' r' m e e',
  mo_run [false] 1 [MAdd 0 bound_error] = Ok o /\
  (forall x, good_jacobian 1 bound_error [[x]] /\ rsum (map (fun row => snd row * snd row)%R (se_rows bound_error [[x]])) = se_error bound_error [[x]]) /\
  mo_jacobian o u (FMat 0 0 (fun _ _ => 0%R)) (FVec 0 (fun _ => 0%R)) = Ok (J, r, m, e) /\
  mo_jacobian o v J r = Ok (J', r', m, e') /\
  poses_error o (pose [false] 1 v) = 0%R /\ sumn m (fun q => fv_at r' q * fv_at r' q)%R = 1%R.
Proof.
  eexists. exists [1%R], [0%R]. do 7 eexists. split; [reflexivity|]. split; [|split; [|split; [|split]]].
  - intros x. split; [apply bound_good|]. cbn. destruct (Rltb 0 x); cbn; ring.
  - unfold mo_jacobian, mo_set. cbn. unfold frame_size. cbn. rewrite one_not_le_zero. cbn. unfold frame_step. cbn. rewrite one_not_le_zero, lt_01. cbn. reflexivity.
  - unfold mo_jacobian, mo_set. cbn. unfold frame_size. cbn. rewrite one_not_le_zero. cbn. unfold frame_step. cbn. rewrite one_not_le_zero, lt_00. cbn. reflexivity.
  - unfold poses_error, mcalls, active. cbn. rewrite one_not_le_zero. cbn. rewrite lt_00. ring.
  - cbn. ring.
Qed.
Print Assumptions multipose_residual_refuted.

(** Nor is the Jacobian right if a function is added between two calls: the old row of one frame stays where the row of
    another is written. *)
Theorem multipose_jacobian_added_refuted : exists o o' v J r J' r' m e e',
  mo_run [false] 2 [MAdd 1 square_error] = Ok o /\ mo_do o (MAdd 0 square_error) = Ok o' /\
  mo_jacobian o v (FMat 0 0 (fun _ _ => 0%R)) (FVec 0 (fun _ => 0%R)) = Ok (J, r, m, e) /\
  mo_jacobian o' v J r = Ok (J', r', m, e') /\
  nth_error (layout o') 0 = Some 0 /\ fm_at J' 0 (place [false] 2 1 0) = 1%R.
Proof.
  do 2 eexists. exists [1%R; 1%R]. do 7 eexists. split; [reflexivity|]. split; [reflexivity|]. split; [|split; [|split]].
  - unfold mo_jacobian, mo_set. cbn. unfold frame_size. cbn. rewrite one_not_le_zero. cbn. unfold frame_step. cbn. rewrite one_not_le_zero. cbn. reflexivity.
  - unfold mo_jacobian, mo_set. cbn. unfold frame_size. cbn. rewrite one_not_le_zero. cbn. unfold frame_step. cbn. rewrite one_not_le_zero. cbn. reflexivity.
  - unfold layout, mcalls, active. cbn. rewrite one_not_le_zero. reflexivity.
  - cbn. ring.
Qed.
Print Assumptions multipose_jacobian_added_refuted.

(** updateParameters subtracts the step and stores the poses of the result. *)
Theorem multipose_update universal nF ops o v g :
  mo_run universal nF ops = Ok o -> length v = total_size universal nF -> length g = length v ->
  exists v' o', mo_update o v g = Ok (v', o') /\ length v' = length v /\ (forall p, nth p v' 0%R = (nth p v 0 - nth p g 0)%R) /\
    mp_frames (mo_fn o') = map (pose universal nF v') (seq 0 nF) /\ mo_per o' = mo_per o.
Proof.
  intros H Lv Lg. pose proof (mo_run_wf _ _ _ _ H) as W. unfold mo_update. rewrite Lg, Nat.eqb_refl. cbn [negb]. set (v' := map _ _).
  assert (L' : length v' = length v) by (unfold v'; rewrite map_length, combine_length; lia).
  destruct (mo_set_spec universal nF o v' W ltac:(congruence)) as (s & E & _ & Fr). unfold mo_set in E. destruct (negb (length v' =? mp_num (mo_fn o))); [discriminate E|].
  rewrite E. cbn [obind]. exists v'. eexists. split; [reflexivity|]. split; [exact L'|]. split; [|split; [exact Fr|reflexivity]].
  unfold v'. clear - Lg. revert g Lg. induction v as [|a v IH]; intros [|b g] Lg p; try discriminate Lg; [destruct p; cbn; ring|]. destruct p as [|p]; [reflexivity|]. cbn. apply IH. cbn in Lg. lia.
Qed.
Print Assumptions multipose_update.

(** Three poses of one parameter that they share and two frames with functions. *)
Example multipose_case : exists o, mo_run [true] 3 [MAdd 0 square_error; MAdd 2 bound_error; MAdd 2 square_error] = Ok o /\
  length [1%R] = total_size [true] 3 /\ length (mcalls o) = 3 /\
  (forall c v, length v = 1 -> In c (mcalls o) -> good_jacobian 1 (snd c) [pose [true] 3 v (fst c)]) /\
  (forall c v, length v = 1 -> In c (mcalls o) -> rsum (map (fun row => snd row * snd row)%R (se_rows (snd c) [pose [true] 3 v (fst c)])) = se_error (snd c) [pose [true] 3 v (fst c)]).
Proof.
  eexists. split; [reflexivity|]. split; [reflexivity|]. unfold mcalls, active. cbn. rewrite one_not_le_zero. cbn. split; [reflexivity|]. split; intros c v Lv [<-|[<-|[<-|[]]]]; cbn.
  - apply square_good.
  - apply bound_good.
  - apply square_good.
  - ring.
  - destruct (Rltb 0 _); cbn; ring.
  - ring.
Qed.
Example multipose_gradient_case : exists o, mo_run [false] 2 [MAdd 0 square_error; MAdd 1 square_error] = Ok o /\ length [1%R; 2%R] = total_size [false] 2 /\
  length (mcalls o) = 2 /\ (forall c, In c (mcalls o) -> good_gradient 1 (snd c) [pose [false] 2 [1%R; 2%R] (fst c)]).
Proof.
  eexists. split; [reflexivity|]. split; [reflexivity|]. unfold mcalls, active. cbn. rewrite one_not_le_zero. cbn. split; [reflexivity|]. intros c [<-|[<-|[]]]; cbn; apply square_good.
Qed.
