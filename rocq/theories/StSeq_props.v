(** C113: the error between the poses of two consecutive frames. *)

From Coq Require Import Bool Reals List Arith Lia Lra.
From Coquelicot Require Import Coquelicot.
From Verif Require Import Prelude LinAlg Rbool ListUtil Loops Seq_spec Seq_model SeqFn_model SeqFn_spec
  R3 Transform_model Skeleton_model Skeleton_spec FK_model FK_spec FK_proofs FK_deriv_proofs ParamTransform_model
  ParamTransform_spec Limits_model Loss_model Constraint_model Constraint_spec Constraint_deriv_proofs Constraint_props
  ErrFn_model ErrFn_spec ErrFn_proofs StSeq_model StSeq_spec StSeq_proofs.
Import ListNotations.
Local Open Scope nat_scope.
Local Open Scope R_scope.

(** getError is the weighted sum of squared distances between the joints of the
    two poses; it does not matter which pose comes first, and it is not negative. *)
Theorem state_sequence_error : forall E prev next,
  ssq_wf E -> length prev = length (ssq_sk E) -> length next = length (ssq_sk E) ->
  ssq_error E [prev; next] = Ok (pose_change E prev next) /\
  ssq_error E [next; prev] = Ok (pose_change E prev next) /\
  (ssq_nonneg E -> 0 <= pose_change E prev next).
Proof.
  intros E a b W La Lb. split; [apply ssq_error_ok; assumption|]. split.
  - rewrite ssq_error_ok by assumption. apply (f_equal (@Ok R)). rewrite !pose_change_rsum. f_equal.
    apply rsum_map_ext. intros j _. unfold jchange.
    destruct (nth_error a j), (nth_error b j); try reflexivity. unfold frob2.
    rewrite !(vnorm2_vsub_sym _ (_ (_ (rot (js_world j0))))), (vnorm2_vsub_sym _ (trans (js_world j0))). reflexivity.
  - intros [NW [NP [NR NJ]]]. rewrite pose_change_rsum. apply Rmult_le_pos; [exact NW|].
    assert (H : forall j, In j (seq 0 (length (ssq_sk E))) -> 0 <= jchange E a b j).
    { intros j Hj. apply in_seq in Hj. destruct (NJ j ltac:(lia)) as [N1 N2]. unfold jchange.
      destruct (nth_error a j) as [x|], (nth_error b j) as [y|]; try lra. unfold frob2.
      apply Rplus_le_le_0_compat; (apply Rmult_le_pos; [apply Rmult_le_pos; [lra|assumption]|]); [|apply vnorm2_pos].
      apply Rplus_le_le_0_compat; [apply Rplus_le_le_0_compat|]; apply vnorm2_pos. }
    revert H. induction (seq 0 (length (ssq_sk E))) as [|j l IH]; intros H; cbn; [lra|].
    pose proof (H j (or_introl eq_refl)). pose proof (IH (fun k Hk => H k (or_intror Hk))). lra.
Qed.
Print Assumptions state_sequence_error.

(** With positive weights it is zero exactly when every joint has the same
    position and orientation in the two poses. *)
Theorem state_sequence_zero : forall E prev next,
  ssq_wf E -> ssq_positive E -> length prev = length (ssq_sk E) -> length next = length (ssq_sk E) ->
  (ssq_error E [prev; next] = Ok 0 <->
   forall j a b, nth_error prev j = Some a -> nth_error next j = Some b ->
     trans (js_world a) = trans (js_world b) /\ qmat (rot (js_world a)) = qmat (rot (js_world b))).
Proof.
  intros E pa pb W [NW [NP [NR NJ]]] La Lb. rewrite ssq_error_ok by assumption. rewrite pose_change_rsum.
  assert (Z : forall j, (j < length (ssq_sk E))%nat -> 0 <= jchange E pa pb j /\
    (jchange E pa pb j = 0 <-> forall a b, nth_error pa j = Some a -> nth_error pb j = Some b ->
     trans (js_world a) = trans (js_world b) /\ qmat (rot (js_world a)) = qmat (rot (js_world b)))).
  { intros j Hj. destruct (NJ j Hj) as [N1 N2]. unfold jchange.
    destruct (nth_error pa j) as [x|] eqn:Ex; [|apply nth_error_None in Ex; lia].
    destruct (nth_error pb j) as [y|] eqn:Ey; [|apply nth_error_None in Ey; lia].
    set (k1 := ssq_rotWgt E * nth j (ssq_rotw E) 0). set (k2 := ssq_posWgt E / 1000 * nth j (ssq_posw E) 0).
    assert (K1 : 0 < k1) by (apply Rmult_lt_0_compat; assumption).
    assert (K2 : 0 < k2) by (apply Rmult_lt_0_compat; [lra|assumption]). clearbody k1 k2.
    set (X := qmat (rot (js_world x))). set (Y := qmat (rot (js_world y))). set (u := trans (js_world x)). set (v := trans (js_world y)).
    assert (F : 0 <= frob2 Y X) by (unfold frob2; pose proof (vnorm2_pos (vsub (col0 Y) (col0 X)));
      pose proof (vnorm2_pos (vsub (col1 Y) (col1 X))); pose proof (vnorm2_pos (vsub (col2 Y) (col2 X))); lra).
    pose proof (vnorm2_pos (vsub v u)) as F2.
    pose proof (Rmult_le_pos _ _ (Rlt_le _ _ K1) F) as P1. pose proof (Rmult_le_pos _ _ (Rlt_le _ _ K2) F2) as P2.
    split; [lra|]. split.
    - intros H a b Ea Eb. injection Ea as <-. injection Eb as <-. fold X Y u v.
      assert (Q1 : frob2 Y X = 0) by (destruct (Rmult_integral k1 (frob2 Y X)); lra).
      assert (Q2 : vnorm2 (vsub v u) = 0) by (destruct (Rmult_integral k2 (vnorm2 (vsub v u))); lra).
      split; [symmetry; apply vsub_zero, vnorm2_zero, Q2|].
      unfold frob2 in Q1. pose proof (vnorm2_pos (vsub (col0 Y) (col0 X))).
      pose proof (vnorm2_pos (vsub (col1 Y) (col1 X))). pose proof (vnorm2_pos (vsub (col2 Y) (col2 X))).
      assert (C0 : col0 Y = col0 X) by (apply vsub_zero, vnorm2_zero; lra).
      assert (C1 : col1 Y = col1 X) by (apply vsub_zero, vnorm2_zero; lra).
      assert (C2 : col2 Y = col2 X) by (apply vsub_zero, vnorm2_zero; lra).
      destruct X, Y. cbn in *. congruence.
    - intros H. destruct (H x y eq_refl eq_refl) as [H1 H2]. fold X Y u v in H1, H2. rewrite H1, H2.
      unfold frob2, vnorm2, vdot. cbn. ring. }
  assert (SZ : forall l, (forall j, In j l -> (j < length (ssq_sk E))%nat) ->
    0 <= rsum (map (jchange E pa pb) l) /\
    (rsum (map (jchange E pa pb) l) = 0 <-> forall j, In j l -> jchange E pa pb j = 0)).
  { induction l as [|j l IH]; intros HI; cbn [map rsum]; [split; [lra|split; [intros _ k []|reflexivity]]|].
    destruct (IH (fun k Hk => HI k (or_intror Hk))) as [I1 I2]. destruct (Z j (HI j (or_introl eq_refl))) as [Z1 _].
    split; [lra|]. split.
    - intros H k [<-|Hk]; [lra|]. apply I2; [lra|exact Hk].
    - intros H. rewrite (H j (or_introl eq_refl)), (proj2 I2) by (intros; apply H; right; assumption). ring. }
  destruct (SZ (seq 0 (length (ssq_sk E))) ltac:(intros j Hj; apply in_seq in Hj; lia)) as [_ SZ'].
  split.
  - intros H j a b Ea Eb. injection H as H.
    assert (Hj : (j < length (ssq_sk E))%nat) by (rewrite <- La; apply nth_error_Some; congruence).
    apply (proj2 (Z j Hj)); try assumption. apply SZ'; [|apply in_seq; lia].
    destruct (Rmult_integral _ _ H); [lra|assumption].
  - intros H. apply (f_equal (@Ok R)). rewrite (proj2 SZ'); [ring|].
    intros j Hj. apply in_seq in Hj. apply Z; [lia|]. intros a b. apply H.
Qed.
Print Assumptions state_sequence_zero.

(** getGradient returns getError and adds its derivative: the first half belongs
    to the parameters of the first frame, the second to those of the second, and
    when parameter [i] of both frames moves the two contributions add up. *)
Theorem state_sequence_gradient : forall E a b sa sb i g,
  character_wf (ssq_sk E) (ssq_pt E) -> ssq_wf E -> drives_active E i ->
  length a = pt_cols (ssq_pt E) -> length b = pt_cols (ssq_pt E) -> (i < pt_cols (ssq_pt E))%nat ->
  state_of (ssq_sk E) (ssq_pt E) a = Ok sa -> state_of (ssq_sk E) (ssq_pt E) b = Ok sb ->
  length g = (2 * pt_cols (ssq_pt E))%nat ->
  exists g', ssq_gradient E [sa; sb] g = Ok (pose_change E sa sb, g') /\ length g' = length g /\
    forall ca cb, exists F,
      (forall t, exists sa' sb', state_of (ssq_sk E) (ssq_pt E) (nudged a i ca t) = Ok sa' /\
         state_of (ssq_sk E) (ssq_pt E) (nudged b i cb t) = Ok sb' /\ ssq_error E [sa'; sb'] = Ok (F t)) /\
      is_derive F 0 (ca * (nth i g' 0 - nth i g 0) +
                     cb * (nth (pt_cols (ssq_pt E) + i) g' 0 - nth (pt_cols (ssq_pt E) + i) g 0)).
Proof.
  intros E a b sa sb i g HC W HA La Lb Hi Ea Eb Lg.
  destruct (gradient_poses E a b i g HC W HA La Lb Hi Lg) as [g' [E1 [L1 D]]].
  assert (Pa : pose_at E a = sa) by (unfold pose_at; rewrite Ea; reflexivity).
  assert (Pb : pose_at E b = sb) by (unfold pose_at; rewrite Eb; reflexivity).
  rewrite Pa, Pb in E1. exists g'. split; [exact E1|]. split; [exact L1|]. intros ca cb.
  eexists. split; [|exact (D ca cb)]. intros t.
  destruct (pose_ok E (nudged a i ca t) HC ltac:(rewrite nudged_length; exact La)) as [P1 P2].
  destruct (pose_ok E (nudged b i cb t) HC ltac:(rewrite nudged_length; exact Lb)) as [P3 P4].
  eexists. eexists. split; [exact P1|]. split; [exact P3|]. apply ssq_error_ok; assumption.
Qed.
Print Assumptions state_sequence_gradient.

(** getJacobian writes exactly the rows asked for, 12 per joint with a weight; the
    squared residual is the error and 2 J^T r is the gradient, in both halves. *)
Theorem state_sequence_jacobian : forall E a b sa sb i,
  character_wf (ssq_sk E) (ssq_pt E) -> ssq_wf E -> drives_active E i -> ssq_nonneg E ->
  length a = pt_cols (ssq_pt E) -> length b = pt_cols (ssq_pt E) -> (i < pt_cols (ssq_pt E))%nat ->
  state_of (ssq_sk E) (ssq_pt E) a = Ok sa -> state_of (ssq_sk E) (ssq_pt E) b = Ok sb ->
  exists g rows,
    ssq_gradient E [sa; sb] (repeat 0 (2 * pt_cols (ssq_pt E))) = Ok (pose_change E sa sb, g) /\
    ssq_jacobian E (2 * pt_cols (ssq_pt E)) [sa; sb] = Ok (pose_change E sa sb, rows, length rows) /\
    length rows = ssq_jacobian_size E /\
    length rows = (12 * length (filter (fun j => negb (Reqb (nth j (ssq_rotw E) 0%R) 0%R && Reqb (nth j (ssq_posw E) 0%R) 0%R))
                                   (seq 0 (length (ssq_sk E)))))%nat /\
    (forall row, In row rows -> length (fst row) = (2 * pt_cols (ssq_pt E))%nat) /\
    rsum (map (fun row => snd row * snd row) rows) = pose_change E sa sb /\
    2 * rsum (map (fun row => nth i (fst row) 0 * snd row) rows) = nth i g 0 /\
    2 * rsum (map (fun row => nth (pt_cols (ssq_pt E) + i) (fst row) 0 * snd row) rows) =
      nth (pt_cols (ssq_pt E) + i) g 0.
Proof.
  intros E a b sa sb i HC W HA NN La Lb Hi Ea Eb.
  destruct (jacobian_poses E a b i HC W HA NN La Lb Hi) as [g [rows [E1 [E2 [L2 [R2 [C1 [C2 Q]]]]]]]].
  assert (Pa : pose_at E a = sa) by (unfold pose_at; rewrite Ea; reflexivity).
  assert (Pb : pose_at E b = sb) by (unfold pose_at; rewrite Eb; reflexivity).
  rewrite Pa, Pb in *. exists g, rows. split; [exact E1|]. split; [exact E2|]. split; [exact L2|]. split.
  - rewrite L2. unfold ssq_jacobian_size. rewrite (filter_used E W). rewrite Nat.mul_comm. reflexivity.
  - split; [exact R2|]. split; [exact Q|]. split; [exact C1|exact C2].
Qed.
Print Assumptions state_sequence_jacobian.

(** Added to a sequence, it is what the theorems on sequences (C72, C73) ask of an
    error function: its error at two frames of parameters is that of their poses. *)
Theorem state_sequence_in_a_sequence : forall E a b,
  character_wf (ssq_sk E) (ssq_pt E) -> ssq_wf E -> (forall i, drives_active E i) ->
  length a = pt_cols (ssq_pt E) -> length b = pt_cols (ssq_pt E) -> (0 < pt_cols (ssq_pt E))%nat ->
  (exists sa sb, state_of (ssq_sk E) (ssq_pt E) a = Ok sa /\ state_of (ssq_sk E) (ssq_pt E) b = Ok sb /\
     se_error (of_state_sequence E) [a; b] = pose_change E sa sb) /\
  good_gradient (pt_cols (ssq_pt E)) (of_state_sequence E) [a; b] /\
  (ssq_nonneg E -> good_jacobian (pt_cols (ssq_pt E)) (of_state_sequence E) [a; b]).
Proof.
  intros E a b HC W HA La Lb HN. split; [|split].
  - exists (pose_at E a), (pose_at E b). split; [apply pose_ok; assumption|]. split; [apply pose_ok; assumption|].
    apply error_at; assumption.
  - apply good_gradient_ok; assumption.
  - intros NN. apply good_jacobian_ok; assumption.
Qed.
Print Assumptions state_sequence_in_a_sequence.

(** Whatever is set, the function keeps its character and one target weight of
    each kind per joint: what the theorems above ask for holds of every function a
    user can get to, if the flags given have one entry per joint parameter. *)
Theorem state_sequence_reachable : forall sk pt active ops E,
  ssq_run (ssq_new sk pt active) ops = Ok E ->
  length active = pt_rows pt -> (forall a, In (SetActiveJoints a) ops -> length a = pt_rows pt) ->
  ssq_sk E = sk /\ ssq_pt E = pt /\ ssq_wf E.
Proof.
  intros sk pt active ops E H LA HS.
  assert (G : forall E0, ssq_sk E0 = sk -> ssq_pt E0 = pt -> ssq_wf E0 -> ssq_run E0 ops = Ok E ->
    ssq_sk E = sk /\ ssq_pt E = pt /\ ssq_wf E).
  { clear H. revert HS. induction ops as [|op ops IH]; intros HS E0 H1 H2 W H.
    - injection H as <-. auto.
    - cbn [ssq_run] in H. destruct (ssq_do E0 op) as [E1| | | |] eqn:D; try discriminate. cbn [obind] in H.
      apply (IH (fun a Ha => HS a (or_intror Ha)) E1); [| | |exact H]; clear H;
        (destruct op; cbn [ssq_do] in D;
         [unfold ssq_set_target_weights in D;
          destruct (Nat.eqb_spec (length posw) (length (ssq_sk E0))) as [P|]; [|discriminate];
          destruct (Nat.eqb_spec (length rotw) (length (ssq_sk E0))) as [Q|]; [|discriminate]| | | |];
         injection D as <-); cbn; try assumption; destruct W as [W1 W2 W3]; constructor; cbn; try assumption;
         try apply repeat_length.
      rewrite H2. apply HS. left. reflexivity. }
  apply (G _) in H; [exact H|reflexivity|reflexivity|].
  constructor; cbn; try apply repeat_length. exact LA.
Qed.
Print Assumptions state_sequence_reachable.

Definition exq_E : ssq_fn := SsqFn exc_sk exc_pt [3] [2] 1000 1 1 (repeat true 7).
Lemma exq_char : character_wf (ssq_sk exq_E) (ssq_pt exq_E).
Proof. constructor; [apply exc_sk_ok|apply exc_sk_ok|exact exc_pt_wf|reflexivity]. Qed.
Lemma exq_active i : drives_active exq_E i.
Proof. intros e He _. cbn in He. destruct He as [<-|[<-|[]]]; reflexivity. Qed.
Lemma exq_positive : ssq_positive exq_E.
Proof. repeat split; cbn; try lra; destruct j as [|j]; cbn in *; try lra; lia. Qed.

(** A character moved by 3 along one axis: the error is 27. *)
Example state_sequence_case :
  character_wf (ssq_sk exq_E) (ssq_pt exq_E) /\ ssq_wf exq_E /\ (forall i, drives_active exq_E i) /\
  ssq_positive exq_E /\ ssq_nonneg exq_E /\
  state_of (ssq_sk exq_E) (ssq_pt exq_E) [1; 0] = Ok [exc_state 1] /\
  state_of (ssq_sk exq_E) (ssq_pt exq_E) [4; 0] = Ok [exc_state 4] /\
  ssq_error exq_E [[exc_state 1]; [exc_state 4]] = Ok 27.
Proof.
  split; [exact exq_char|]. split; [constructor; reflexivity|]. split; [exact exq_active|].
  split; [exact exq_positive|]. split.
  { destruct exq_positive as [P1 [P2 [P3 P4]]]. repeat split; try lra; apply P4 in H; lra. }
  split; [exact (exc_state_of 1 [])|]. split; [exact (exc_state_of 4 [])|].
  cbn. apply (f_equal (@Ok R)). unfold msq, ssq_rotdiff, ssq_diff, vnorm2, vdot, kSsqOrientationWeight, kSsqPositionWeight.
  cbn. field.
Qed.

(** With another overall weight, reset does not give back the function as it was made. *)
Theorem state_sequence_reset_refuted : exists sk pt active E prev next e,
  E = ssq_reset (ssq_set_weights (ssq_new sk pt active) 5 1) /\
  ssq_error E [prev; next] = Ok e /\ ssq_error (ssq_new sk pt active) [prev; next] <> Ok e.
Proof.
  exists exc_sk, exc_pt, (repeat true 7), (ssq_reset (ssq_set_weights (ssq_new exc_sk exc_pt (repeat true 7)) 5 1)),
    [exc_state 0], [exc_state 1]. eexists.
  split; [reflexivity|]. split; [cbn; reflexivity|].
  cbn. intros H. injection H as H. revert H.
  unfold msq, ssq_rotdiff, ssq_diff, vnorm2, vdot, kSsqOrientationWeight, kSsqPositionWeight. cbn. lra.
Qed.
Print Assumptions state_sequence_reset_refuted.
