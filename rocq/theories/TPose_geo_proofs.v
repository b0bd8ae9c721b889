(** What a change of the rigid parameters does to a pose (C114). *)

From Coq Require Import String Bool Reals List Arith NArith Lia Lra.
From Verif Require Import Prelude Loops Rbool R3 LinAlg Transform_model Transform_proofs Skeleton_spec Skeleton_proofs FK_model FK_spec FK_proofs
  ParamTransform_model ParamTransform_spec ParamTransform_proofs ParamTransform_map_proofs
  Simplify_model Simplify_spec Simplify_proofs Simplify_props TPose_model TPose_spec TPose_proofs.
Import ListNotations.
Local Open Scope nat_scope.
Local Open Scope R_scope.

(** ** Distances *)

Lemma mat_dist_rot a b : mat_dist (qmat a) (qmat b) = rot_dist a b.
Proof.
  assert (E : forall q, col0 (qmat q) = qrot q ex /\ col1 (qmat q) = qrot q ey /\ col2 (qmat q) = qrot q ez).
  { intros q. rewrite <- !qmat_vec. unfold mvec. destruct (qmat q) as [[a0 a1 a2] [b0 b1 b2] [c0 c1 c2]]. cbn.
    repeat split; vec_ring. }
  unfold mat_dist, rot_dist. destruct (E a) as (-> & -> & ->), (E b) as (-> & -> & ->). reflexivity.
Qed.

Lemma cs3 a1 a2 a3 b1 b2 b3 : (a1 * b1 + a2 * b2 + a3 * b3) * (a1 * b1 + a2 * b2 + a3 * b3) <=
  (a1 * a1 + a2 * a2 + a3 * a3) * (b1 * b1 + b2 * b2 + b3 * b3).
Proof.
  pose proof (Rle_0_sqr (a1 * b2 - a2 * b1)). pose proof (Rle_0_sqr (a1 * b3 - a3 * b1)). pose proof (Rle_0_sqr (a2 * b3 - a3 * b2)).
  unfold Rsqr in *. nra.
Qed.

Lemma vnorm2_pos a : 0 <= vnorm2 a.
Proof. destruct a as [x y z]. unfold vnorm2, vdot. cbn. pose proof (Rle_0_sqr x). pose proof (Rle_0_sqr y). pose proof (Rle_0_sqr z). unfold Rsqr in *. lra. Qed.

Lemma rot_dist_apply a b v : sqrt (vnorm2 (vsub (qrot a v) (qrot b v))) <= rot_dist a b * sqrt (vnorm2 v).
Proof.
  assert (E : vsub (qrot a v) (qrot b v) = vadd (vadd (vscale (vx v) (vsub (qrot a ex) (qrot b ex))) (vscale (vy v) (vsub (qrot a ey) (qrot b ey)))) (vscale (vz v) (vsub (qrot a ez) (qrot b ez)))).
  { destruct v as [x y z], a as [aw ax ay az], b as [bw bx by0 bz]. vec_ring. }
  rewrite E. unfold rot_dist. set (d0 := vsub (qrot a ex) (qrot b ex)). set (d1 := vsub (qrot a ey) (qrot b ey)). set (d2 := vsub (qrot a ez) (qrot b ez)).
  clearbody d0 d1 d2. clear E. rewrite <- sqrt_mult; [|pose proof (vnorm2_pos d0); pose proof (vnorm2_pos d1); pose proof (vnorm2_pos d2); lra|apply vnorm2_pos].
  apply sqrt_le_1_alt. destruct v as [x y z], d0 as [p0 p1 p2], d1 as [q0 q1 q2], d2 as [r0 r1 r2]. unfold vnorm2, vdot, vadd, vscale. cbn.
  pose proof (cs3 x y z p0 q0 r0). pose proof (cs3 x y z p1 q1 r1). pose proof (cs3 x y z p2 q2 r2).
  apply Rle_trans with ((x * x + y * y + z * z) * (p0 * p0 + q0 * q0 + r0 * r0) + (x * x + y * y + z * z) * (p1 * p1 + q1 * q1 + r1 * r1) + (x * x + y * y + z * z) * (p2 * p2 + q2 * q2 + r2 * r2)).
  - lra.
  - apply Req_le. ring.
Qed.

Lemma norm_triangle a b : sqrt (vnorm2 (vadd a b)) <= sqrt (vnorm2 a) + sqrt (vnorm2 b).
Proof.
  pose proof (vnorm2_pos a) as Pa. pose proof (vnorm2_pos b) as Pb. pose proof (sqrt_pos (vnorm2 a)) as Sa. pose proof (sqrt_pos (vnorm2 b)) as Sb.
  assert (D : vdot a b <= sqrt (vnorm2 a) * sqrt (vnorm2 b)).
  { rewrite <- sqrt_mult by assumption. destruct (Rle_lt_dec (vdot a b) 0) as [N|N]; [pose proof (sqrt_pos (vnorm2 a * vnorm2 b)); lra|].
    rewrite <- (sqrt_square (vdot a b)) by lra. apply sqrt_le_1_alt. unfold vnorm2, vdot. apply cs3. }
  rewrite <- (sqrt_square (sqrt (vnorm2 a) + sqrt (vnorm2 b))) by lra. apply sqrt_le_1_alt.
  replace (vnorm2 (vadd a b)) with (vnorm2 a + 2 * vdot a b + vnorm2 b) by (destruct a, b; unfold vnorm2, vdot, vadd; cbn; ring).
  pose proof (sqrt_sqrt _ Pa). pose proof (sqrt_sqrt _ Pb). nra.
Qed.

(** ** What stays *)

Section Moved.
Variables (sk : skeleton) (pt : ptransform) (p r : list R) (w0 w1 : list tf).
Hypothesis W : poseable sk pt.
Hypothesis Lp : List.length p = pt_cols pt.
Hypothesis Lr : List.length r = pt_cols pt.
Hypothesis Same : forall i, ~ is_rigid pt i -> nth i r 0 = nth i p 0.
Hypothesis P0 : pose_of sk pt p w0.
Hypothesis P1 : pose_of sk pt r w1.

Lemma poses_inv : exists q q' sts sts', pt_apply pt p = Ok q /\ pt_apply pt r = Ok q' /\ fk_states sk q sts /\ fk_states sk q' sts' /\
  w0 = map js_world sts /\ w1 = map js_world sts' /\
  forall row, (row < 7 * List.length sk)%nat -> (forall e, In e (pt_entries pt) -> erow e = row -> ~ is_rigid pt (ecol e)) -> nth row q' 0 = nth row q 0.
Proof.
  destruct P0 as (q & sts & Eq & Ef & Ew), P1 as (q' & sts' & Eq' & Ef' & Ew').
  exists q, q', sts, sts'. split; [exact Eq|]. split; [exact Eq'|].
  split; [apply (fk_inv _ _ _ (po_parents _ _ W) Ef)|]. split; [apply (fk_inv _ _ _ (po_parents _ _ W) Ef')|]. split; [exact Ew|]. split; [exact Ew'|].
  destruct (apply_row pt p (po_pt _ _ W) Lp) as (q0 & E0 & _ & N0). destruct (apply_row pt r (po_pt _ _ W) Lr) as (q1 & E1 & _ & N1).
  rewrite Eq in E0. injection E0 as <-. rewrite Eq' in E1. injection E1 as <-.
  intros row Hr H. rewrite <- (po_rows _ _ W) in Hr. rewrite N0, N1 by exact Hr. f_equal. apply row_dot_ext.
  intros e He Er. apply Same, (H e He Er).
Qed.

Lemma row_joint j d : (d < 7)%nat -> (j < List.length sk)%nat -> (7 * j + d < 7 * List.length sk)%nat.
Proof. lia. Qed.

Lemma unmoved_joint : forall j, (forall a, ancestor (sk_parents sk) j a -> ~ rigid_joint pt a) -> nth_error w1 j = nth_error w0 j.
Proof.
  intros j H. destruct poses_inv as (q & q' & sts & sts' & _ & _ & F & F' & -> & -> & Rw).
  rewrite !nth_error_map. f_equal.
  destruct (Nat.lt_ge_cases j (List.length sk)) as [Hj|Hj].
  2:{ transitivity (@None jstate); [|symmetry]; apply nth_error_None; [destruct F' as [-> _]|destruct F as [-> _]]; exact Hj. }
  assert (Lps : List.length (sk_parents sk) = List.length sk) by (unfold sk_parents; apply map_length).
  apply (fk_same sk q' sts' sk q sts (fun a => ancestor (sk_parents sk) j a) (po_parents _ _ W) F' F).
  - intros a Ha. split; [reflexivity|]. apply jparam_ext. intros d Hd. pose proof (ancestor_bounds _ _ _ Ha) as Hb. rewrite Lps in Hb. apply Rw; [apply row_joint; [exact Hd|apply Hb]|].
    intros e He Er Re. apply (H a Ha). exists e. split; [exact He|]. split; [|exact Re]. rewrite Er. apply div7, Hd.
  - intros a jt pa Ha Ea Ep. assert (X : nth_error (sk_parents sk) a = Some (Some pa)) by (unfold sk_parents; rewrite nth_error_map, Ea; cbn; rewrite Ep; reflexivity).
    assert (Hpa : (pa < List.length sk)%nat). { pose proof (valid_sk_parent _ _ _ _ (po_parents _ _ W) Ea Ep). pose proof (ancestor_bounds _ _ _ Ha) as Hb. rewrite Lps in Hb. lia. }
    clear - Ha X Hpa Lps. induction Ha as [b Hb|b c a Eb Hc IH]; [|apply ancestor_up with c; auto].
    apply ancestor_up with pa; [exact X|]. apply ancestor_self. lia.
  - apply ancestor_self. lia.
Qed.

Lemma scale_kept : no_rigid_scale pt -> forall j t0 t1, nth_error w0 j = Some t0 -> nth_error w1 j = Some t1 -> scl t1 = scl t0.
Proof.
  intros Ns. destruct poses_inv as (q & q' & sts & sts' & _ & _ & F & F' & -> & -> & Rw).
  assert (H : forall j s s', nth_error sts j = Some s -> nth_error sts' j = Some s' -> scl (js_world s') = scl (js_world s)).
  { intros j. induction (lt_wf j) as [j _ IH]. intros s s' E E'.
    assert (Hj : (j < List.length sk)%nat) by (destruct F as [<- _]; apply nth_error_Some; congruence).
    destruct (fk_states_get sk q sts j F Hj) as (jt & ps & Ej & Ps & Es). destruct (fk_states_get sk q' sts' j F' Hj) as (jt' & ps' & Ej' & Ps' & Es').
    assert (jt' = jt) as -> by congruence. rewrite E in Es. injection Es as ->. rewrite E' in Es'. injection Es' as ->.
    rewrite !js_world_set. cbn [tf_mul scl]. f_equal.
    - unfold parent_state in Ps, Ps'. destruct (jparent jt) as [a|] eqn:Ep; [|subst; reflexivity].
      pose proof (valid_sk_parent _ _ _ _ (po_parents _ _ W) Ej Ep) as Ha. destruct Ps as (x & Ex & ->), Ps' as (x' & Ex' & ->). cbn [parent_tf]. apply (IH a Ha); assumption.
    - unfold local_tf. cbn [scl]. f_equal. unfold jparam_at. cbn [jsc]. apply Rw; [apply row_joint; [lia|exact Hj]|].
      intros e He Er Re. apply (Ns e He Re). rewrite Er. apply div7. lia. }
  intros j t0 t1 E0 E1. rewrite nth_error_map in E0, E1. destruct (nth_error sts j) as [s|] eqn:X; [|discriminate]. destruct (nth_error sts' j) as [s'|] eqn:X'; [|discriminate].
  injection E0 as <-. injection E1 as <-. apply (H j); assumption.
Qed.

Lemma below_last m j : last_rigid_joint pt m -> ancestor (sk_parents sk) j m ->
  exists t0 t1 rel, nth_error w0 m = Some t0 /\ nth_error w1 m = Some t1 /\ tf_good t0 /\ tf_good t1 /\ tf_good rel /\
    nth_error w0 j = Some (tf_mul t0 rel) /\ nth_error w1 j = Some (tf_mul t1 rel).
Proof.
  intros [_ Mx] A. destruct poses_inv as (q & q' & sts & sts' & _ & _ & F & F' & -> & -> & Rw).
  assert (Lps : List.length (sk_parents sk) = List.length sk) by (unfold sk_parents; apply map_length).
  assert (Gd := fk_good sk q sts (po_parents _ _ W) (po_unit _ _ W) F). assert (Gd' := fk_good sk q' sts' (po_parents _ _ W) (po_unit _ _ W) F').
  assert (Hm : (m < List.length sk)%nat) by (pose proof (ancestor_bounds _ _ _ A) as Hb; rewrite Lps in Hb; lia).
  destruct (nth_error sts m) as [s0|] eqn:E0; [|apply nth_error_None in E0; destruct F as [X _]; lia].
  destruct (nth_error sts' m) as [s1|] eqn:E1; [|apply nth_error_None in E1; destruct F' as [X _]; lia].
  exists (js_world s0), (js_world s1).
  assert (H : exists rel, tf_good rel /\ nth_error (map js_world sts) j = Some (tf_mul (js_world s0) rel) /\ nth_error (map js_world sts') j = Some (tf_mul (js_world s1) rel)).
  { induction A as [j Hj|j a m Ej A IH].
    - exists tf_id. split; [apply tf_good_id|]. rewrite !nth_error_map, E0, E1, !tf_mul_id_r. auto.
    - destruct (IH Mx Hm E0 E1) as (rel & Gr & R0 & R1).
      assert (Hj : (j < List.length sk)%nat) by (rewrite <- Lps; apply nth_error_Some; congruence).
      destruct (fk_states_get sk q sts j F Hj) as (jt & ps & Sj & Ps & Es). destruct (fk_states_get sk q' sts' j F' Hj) as (jt' & ps' & Sj' & Ps' & Es').
      assert (jt' = jt) as -> by congruence. unfold sk_parents in Ej. rewrite nth_error_map, Sj in Ej. cbn in Ej. injection Ej as Ep.
      pose proof (valid_sk_parent _ _ _ _ (po_parents _ _ W) Sj Ep) as Ha.
      unfold parent_state in Ps, Ps'. rewrite Ep in Ps, Ps'. destruct Ps as (x & Ex & ->), Ps' as (x' & Ex' & ->).
      rewrite nth_error_map, Ex in R0. injection R0 as R0. rewrite nth_error_map, Ex' in R1. injection R1 as R1.
      assert (Hma : (m <= a)%nat). { clear - A W. induction A as [|b c d Eb A IH]; [lia|]. pose proof (po_parents _ _ W _ _ Eb). lia. }
      assert (Eq : jparam_at q' j = jparam_at q j).
      { apply jparam_ext. intros d Hd. apply Rw; [apply row_joint; assumption|]. intros e He Er Re.
        assert (X : rigid_joint pt j). { exists e. split; [exact He|]. split; [|exact Re]. rewrite Er. apply div7, Hd. }
        pose proof (Mx j X). lia. }
      exists (tf_mul rel (local_tf jt (jparam_at q j))).
      assert (Gl : tf_good (local_tf jt (jparam_at q j))) by (apply local_tf_good; apply (po_unit _ _ W j jt Sj)).
      split; [apply tf_good_mul; assumption|]. rewrite !nth_error_map, Es, Es'. cbn [option_map]. rewrite !js_world_set, Eq. cbn [parent_tf]. rewrite R0, R1.
      destruct (Gd m s0 E0) as [_ G0]. destruct (Gd' m s1 E1) as [_ G1].
      rewrite !tf_mul_assoc by (apply tf_good_ok; assumption). auto. }
  destruct H as (rel & Gr & R0 & R1). exists rel. rewrite !nth_error_map, E0, E1. cbn [option_map]. rewrite !nth_error_map in R0, R1.
  split; [reflexivity|]. split; [reflexivity|]. split; [apply (Gd m s0 E0)|]. split; [apply (Gd' m s1 E1)|]. auto.
Qed.
End Moved.

Lemma points_close T t0 t1 y : qunit (rot T) -> scl T = 1 -> tf_good t0 -> scl t1 = scl t0 ->
  pdist (tf_point t1 y) (tf_point T (tf_point t0 y)) <=
  pdist (trans t1) (tf_point T (trans t0)) + rot_dist (rot t1) (rot (tf_mul T t0)) * pdist (tf_point T (tf_point t0 y)) (tf_point T (trans t0)).
Proof.
  intros U S1 G0 Sc. assert (OT : tf_ok T) by (split; [exact U|rewrite S1; lra]). pose proof (tf_good_ok _ G0) as O0.
  rewrite <- (tf_point_mul T t0 y OT O0).
  assert (Et : trans (tf_mul T t0) = tf_point T (trans t0)) by reflexivity. rewrite <- Et.
  assert (Es : scl (tf_mul T t0) = scl t0) by (cbn; rewrite S1; ring).
  assert (Uq : qunit (rot (tf_mul T t0))) by (cbn; apply qunit_mul; [exact U|apply O0]).
  generalize dependent (tf_mul T t0). intros ts _ Es Uq. unfold tf_point. rewrite Es, Sc. set (v := vscale (scl t0) y). clearbody v.
  unfold pdist. replace (vsub (vadd (trans ts) (qrot (rot ts) v)) (trans ts)) with (qrot (rot ts) v) by (destruct (trans ts), (qrot (rot ts) v); vec_ring).
  replace (vsub (vadd (trans t1) (qrot (rot t1) v)) (vadd (trans ts) (qrot (rot ts) v))) with (vadd (vsub (trans t1) (trans ts)) (vsub (qrot (rot t1) v) (qrot (rot ts) v)))
    by (destruct (trans ts), (trans t1), (qrot (rot ts) v), (qrot (rot t1) v); vec_ring).
  eapply Rle_trans; [apply norm_triangle|]. apply Rplus_le_compat_l.
  replace (vnorm2 (qrot (rot ts) v)) with (vnorm2 v); [apply rot_dist_apply|]. symmetry. apply qrot_dot, Uq.
Qed.

(** ** A first solve that reaches the rotation *)

Lemma first_solve_from sk pt m keep s solve rnd full prev T w0 t0 start r' w1 t1 : poseable sk pt -> tp_good sk pt m keep s ->
  List.length full = pt_cols pt -> List.length prev = pt_cols pt \/ prev = [] -> List.length r' = pt_cols pt -> pose_of sk pt full w0 -> nth_error w0 m = Some t0 ->
  start = match prev with
          | [] => map (fun i => nth i full 0) (kept (pt_cols pt) keep)
          | _ => overwrite (tp_rigid s) (map (fun i => nth i prev 0) (kept (pt_cols pt) keep)) (map (fun i => nth i full 0) (kept (pt_cols pt) keep))
          end ->
  (forall i, ~ is_rigid pt i \/ ~ In i (kept (pt_cols pt) keep) -> nth i r' 0 = nth i full 0) ->
  solve 0%nat (tf_mul T t0) start = map (fun i => nth i r' 0) (kept (pt_cols pt) keep) ->
  pose_of sk pt r' w1 -> nth_error w1 m = Some t1 -> rot_dist (rot t1) (rot (tf_mul T t0)) < 1 / 1000 ->
  transform_pose solve rnd s full T prev = Ok (r', false).
Proof.
  intros W G Lf Lv Lr P0 N0 Est Same Sv P1 N1 D. unfold transform_pose. rewrite (tg_full _ _ _ _ _ G), Lf, Nat.eqb_refl. cbn [negb].
  assert (Cp : (Nat.eqb (List.length prev) (pt_cols pt) || Nat.eqb (List.length prev) 0)%bool = true).
  { destruct Lv as [-> | ->]; [rewrite Nat.eqb_refl; reflexivity|apply orb_true_r]. }
  rewrite Cp. cbn [negb].
  rewrite (tg_map _ _ _ _ _ G). rewrite rd_all_ok by (intros i Hi; rewrite Lf; apply kept_in in Hi; apply Hi). cbn [obind].
  set (K := kept (pt_cols pt) keep) in *. set (sol0 := map (fun i => nth i full 0) K) in *. set (sol := map (fun i => nth i r' 0) K) in *.
  destruct (root_state_of sk pt m keep s W G sol0 full w0) as (x & Ex & Nx); [apply map_length|exact Lf|intros k i E; apply kept_vec_nth, E|exact P0|].
  rewrite Ex. cbn [obind]. cbv zeta. assert (x = t0) as -> by congruence.
  assert (Em : match prev with [] => Ok sol0 | _ :: _ => obind (rd_all prev K) (fun pv => Ok (overwrite (tp_rigid s) pv sol0)) end = Ok start).
  { rewrite Est. destruct prev as [|v0 vr] eqn:Ev; [reflexivity|]. rewrite <- Ev in *. rewrite rd_all_ok; [reflexivity|].
    intros i Hi. apply kept_in in Hi as [Hi _]. destruct Lv as [-> |Y]; [exact Hi|rewrite Y in Ev; discriminate]. }
  rewrite Em. cbn [obind].
  destruct (root_state_of sk pt m keep s W G sol r' w1) as (y & Ey & Ny); [apply map_length|exact Lr|intros k i E; apply kept_vec_nth, E|exact P1|].
  assert (y = t1) as -> by congruence.
  assert (Er : rounds = S (N.to_nat 10000)) by (unfold rounds; lia). rewrite Er. cbn [attempts]. rewrite Sv, Ey. cbn [obind].
  rewrite mat_dist_rot. rewrite (proj2 (Rltb_true _ _) D). cbn [obind].
  destruct (write_back_ok sk pt m keep s G sol full) as (r & Ew & Lw & Rr & Nr); [apply map_length|exact Lf|]. rewrite Ew. cbn [obind].
  do 2 f_equal. apply nth_ext with (d := 0) (d' := 0); [lia|]. intros i Hi.
  destruct (rigid_parameters pt i) eqn:Ri.
  - apply rigid_parameters_spec in Ri. destruct (In_dec Nat.eq_dec i K) as [Ki|Ki].
    + apply In_nth_error in Ki as [a Ea]. rewrite (Rr a i Ea Ri). apply kept_vec_nth, Ea.
    + rewrite (Same i) by auto. 
      revert Ew. unfold write_back. rewrite (tg_map _ _ _ _ _ G). fold K. intros Ew.
      destruct (ofold_seq_inv (fun k full => if tp_rigid s k then obind (rd K k) (fun i => obind (rd sol k) (fun v => wr full i v)) else Ok full)
        (fun _ r => List.length r = List.length full /\ nth i r 0 = nth i full 0) (List.length K) full) as (r2 & E2 & _ & B).
      * auto.
      * intros k r2 Hk (L2 & B). destruct (tp_rigid s k); [|exists r2; auto].
        destruct (nth_error K k) as [i2|] eqn:Ek; [|apply nth_error_None in Ek; lia]. unfold rd at 1. rewrite Ek. cbn [obind].
        unfold rd. rewrite (nth_error_nth' sol 0) by (unfold sol; rewrite map_length; exact Hk). cbn [obind].
        assert (I2 : In i2 K) by (eapply nth_error_In; exact Ek). pose proof I2 as I2'. apply kept_in in I2' as [H2 _].
        destruct (Loops.wr_ok r2 i2 (nth k sol 0)) as (r3 & E3 & L3 & _ & O3); [lia|]. exists r3. split; [exact E3|]. split; [lia|]. rewrite <- B.
        assert (Ni : i <> i2) by (intros ->; contradiction). apply nth_error_nth. rewrite (O3 i Ni). apply nth_error_nth'. lia.
      * rewrite Ew in E2. injection E2 as <-. exact B.
  - assert (Ni : ~ is_rigid pt i) by (rewrite <- rigid_parameters_spec; congruence). rewrite (Nr i Ni). symmetry. apply Same. auto.
Qed.

Lemma first_solve sk pt m keep s solve rnd full T w0 t0 r' w1 t1 : poseable sk pt -> tp_good sk pt m keep s ->
  List.length full = pt_cols pt -> List.length r' = pt_cols pt -> pose_of sk pt full w0 -> nth_error w0 m = Some t0 ->
  (forall i, ~ is_rigid pt i \/ ~ In i (kept (pt_cols pt) keep) -> nth i r' 0 = nth i full 0) ->
  solve 0%nat (tf_mul T t0) (map (fun i => nth i full 0) (kept (pt_cols pt) keep)) = map (fun i => nth i r' 0) (kept (pt_cols pt) keep) ->
  pose_of sk pt r' w1 -> nth_error w1 m = Some t1 -> rot_dist (rot t1) (rot (tf_mul T t0)) < 1 / 1000 ->
  transform_pose solve rnd s full T [] = Ok (r', false).
Proof.
  intros W G Lf Lr P0 N0 Same Sv P1 N1 D. eapply first_solve_from; eauto.
Qed.

(** ** One frame of the loop *)

Lemma ofold_seq_ok {A} (f : nat -> A -> outcome A) (P : nat -> A -> Prop) (n : nat) : forall s s', P 0%nat s ->
  (forall k s s', P k s -> f k s = Ok s' -> P (S k) s') -> ofold f (seq 0 n) s = Ok s' -> P n s'.
Proof.
  induction n as [|n IH]; intros s s' H0 Hs E; [cbn in E; injection E as <-; exact H0|].
  rewrite seq_S, ofold_app in E. destruct (ofold f (seq 0 n) s) as [x| | | |] eqn:X; cbn [obind ofold Nat.add] in E; try discriminate.
  destruct (f n x) as [y| | | |] eqn:Y; cbn [obind] in E; try discriminate. injection E as <-. apply (Hs n x); [apply (IH s x); auto|exact Y].
Qed.

Definition prev_of (res : list (list R * bool)) (cont : bool) (f : nat) : list R :=
  if (Nat.ltb 0 f && cont)%bool then match nth_error res (f - 1) with Some x => fst x | None => [] end else [].

Lemma poses_step solve rnd sk pt frames ts cont res s f p r w : transform_poses solve rnd sk pt frames ts cont = Ok res ->
  new_tpsolver sk pt = Ok s -> nth_error frames f = Some p -> p <> [] -> nth_error res f = Some (r, w) ->
  exists T, nth_error ts (if Nat.ltb f (List.length ts) then f else 0%nat) = Some T /\
    transform_pose (solve f) (rnd f) s p T (prev_of res cont f) = Ok (r, w).
Proof.
  intros E Es Ep Np Er. unfold transform_poses in E. destruct (negb _); [discriminate|]. rewrite Es in E. cbn [obind] in E.
  revert f p r w Ep Np Er. refine (proj2 (ofold_seq_ok _ (fun n res => List.length res = n /\ forall f p r w, nth_error frames f = Some p -> p <> [] -> nth_error res f = Some (r, w) ->
    exists T, nth_error ts (if Nat.ltb f (List.length ts) then f else 0%nat) = Some T /\ transform_pose (solve f) (rnd f) s p T (prev_of res cont f) = Ok (r, w)) _ _ _ _ _ E)).
  { split; [reflexivity|]. intros f p r w _ _ X. destruct f; discriminate. }
  clear E res. intros n res res' (L & H) E.
  assert (Pv : forall y f, (f <= n)%nat -> prev_of (res ++ [y]) cont f = prev_of res cont f).
  { intros y f Hf. unfold prev_of. destruct (Nat.ltb_spec 0 f); cbn [andb]; [|reflexivity]. destruct cont; [|reflexivity]. rewrite nth_error_app1 by lia. reflexivity. }
  unfold rd at 1 in E. destruct (nth_error frames n) as [pn|] eqn:En; cbn [obind] in E; [|discriminate].
  assert (Y : exists y, res' = res ++ [y] /\ (pn = [] \/ exists T, nth_error ts (if Nat.ltb n (List.length ts) then n else 0%nat) = Some T /\ transform_pose (solve n) (rnd n) s pn T (prev_of res cont n) = Ok y)).
  { destruct pn as [|x0 xr] eqn:Epn; [injection E as <-; eauto|]. rewrite <- Epn in *. unfold transform_at in E.
    destruct (nth_error ts _) as [T|] eqn:ET; cbn [obind] in E; [|discriminate].
    assert (Z : (if (0 <? n)%nat && cont then obind (rd res (n - 1)) (fun r => Ok (fst r)) else Ok []) = Ok (prev_of res cont n)).
    { unfold prev_of. destruct (Nat.ltb_spec 0 n); cbn [andb]; [|reflexivity]. destruct cont; [|reflexivity]. unfold rd.
      destruct (nth_error res (n - 1)) as [z|] eqn:Ez; [reflexivity|]. apply nth_error_None in Ez. lia. }
    rewrite Z in E. cbn [obind] in E. destruct (transform_pose _ _ _ _ _ _) as [y| | | |] eqn:Ey; cbn [obind] in E; try discriminate.
    injection E as <-. exists y. split; [reflexivity|]. right. exists T. auto. }
  destruct Y as (y & -> & Hy). split; [rewrite app_length; cbn; lia|]. intros f p r w Ep Np Er.
  destruct (Nat.lt_ge_cases f n) as [Hf|Hf].
  - rewrite nth_error_app1 in Er by lia. rewrite Pv by lia. apply (H f p r w Ep Np Er).
  - assert (f = n) as ->. { assert (X : (f < List.length (res ++ [y]))%nat) by (apply nth_error_Some; congruence). rewrite app_length in X. cbn in X. lia. }
    rewrite nth_error_app2, L, Nat.sub_diag in Er by lia. injection Er as ->. rewrite Pv by lia. assert (pn = p) as -> by congruence. destruct Hy as [X|X]; [contradiction|exact X].
Qed.
