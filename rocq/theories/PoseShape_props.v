(** Property C92 (pose shapes). *)

From Coq Require Import Reals List Arith Lia Lra Psatz.
From Verif Require Import Prelude Loops Rbool R3 LinAlg Transform_model FK_model Skin_spec Skin_model Blend_spec Blend_model Blend_proofs PoseShape_model.
Import ListNotations.
Local Open Scope R_scope.

(** Specification: the points of a long vector, and the four coordinates of each rotation in a row. *)
Definition points (base : list R) : list vec3 :=
  map (fun i => V3 (nth (3 * i) base 0) (nth (3 * i + 1) base 0) (nth (3 * i + 2) base 0)) (seq 0 (length base / 3)).
Definition coordinates (qs : list quat) : list R := flat_map (fun q => [qx q; qy q; qz q; qw q]) qs.

Lemma coordinates_length qs : length (coordinates qs) = (4 * length qs)%nat.
Proof. induction qs as [|q qs IH]; [reflexivity|]. cbn [coordinates flat_map app length]. fold (coordinates qs). rewrite IH. lia. Qed.

Lemma wr_app {A} (a b : list A) x y : wr (a ++ x :: b) (length a) y = Ok (a ++ y :: b).
Proof.
  destruct (wr_ok (a ++ x :: b) (length a) y) as (l & E & L & N1 & N2); [rewrite app_length; cbn; lia|]. rewrite E. f_equal.
  apply nth_error_ext. intros i. destruct (Nat.eq_dec i (length a)) as [->|D].
  - rewrite N1, nth_error_app2, Nat.sub_diag by lia. reflexivity.
  - rewrite (N2 i D). destruct (Nat.lt_ge_cases i (length a)).
    + rewrite !nth_error_app1 by lia. reflexivity.
    + rewrite !nth_error_app2 by lia. destruct (i - length a)%nat as [|m] eqn:E'; [lia|]. reflexivity.
Qed.

Lemma put_quat_app a b q x0 x1 x2 x3 : put_quat (a ++ x0 :: x1 :: x2 :: x3 :: b) (length a) q =
  Ok (a ++ Some (qx q) :: Some (qy q) :: Some (qz q) :: Some (qw q) :: b).
Proof.
  unfold put_quat. rewrite (proj2 (Nat.leb_le _ _)) by (rewrite app_length; cbn; lia). cbn [negb]. rewrite wr_app. cbn [obind].
  replace (a ++ Some (qx q) :: x1 :: x2 :: x3 :: b) with ((a ++ [Some (qx q)]) ++ x1 :: x2 :: x3 :: b) by (rewrite <- app_assoc; reflexivity).
  replace (length a + 1)%nat with (length (a ++ [Some (qx q)])) by (rewrite app_length; cbn; lia). rewrite wr_app. cbn [obind].
  replace ((a ++ [Some (qx q)]) ++ Some (qy q) :: x2 :: x3 :: b) with ((a ++ [Some (qx q); Some (qy q)]) ++ x2 :: x3 :: b) by (rewrite <- !app_assoc; reflexivity).
  replace (length a + 2)%nat with (length (a ++ [Some (qx q); Some (qy q)])) by (rewrite app_length; cbn; lia). rewrite wr_app. cbn [obind].
  replace ((a ++ [Some (qx q); Some (qy q)]) ++ Some (qz q) :: x3 :: b) with ((a ++ [Some (qx q); Some (qy q); Some (qz q)]) ++ x3 :: b) by (rewrite <- !app_assoc; reflexivity).
  replace (length a + 3)%nat with (length (a ++ [Some (qx q); Some (qy q); Some (qz q)])) by (rewrite app_length; cbn; lia). rewrite wr_app.
  rewrite <- !app_assoc. reflexivity.
Qed.

Lemma all_set_map l : all_set (map Some l) = Ok l.
Proof. induction l as [|x l IH]; [reflexivity|]. cbn. rewrite IH. reflexivity. Qed.

(** C92: the shape is the base shape moved by the shape vectors, weighted by the coordinates of the
    rotations of the mapped joints relative to the base joint. *)
Theorem pose_shape_correct p rots r qs : nth_error rots (ps_joint p) = Some r ->
  Forall2 (fun jid q => exists w, nth_error rots jid = Some w /\ q = qmul (qmul (ps_rot p) (qinv r)) w) (ps_map p) qs ->
  bm_rows (ps_vectors p) = length (ps_base p) -> bm_cols (ps_vectors p) = (4 * length (ps_map p))%nat ->
  (exists n, length (ps_base p) = 3 * S n)%nat ->
  exists out, pose_compute p rots = Ok out /\ blended (points (ps_base p)) (bm_at (ps_vectors p)) (coordinates qs) out.
Proof.
  intros Er Fq Hr Hc (n & Hn). unfold pose_compute. rewrite Hr, Nat.eqb_refl. cbn [negb]. rewrite (rd_some _ _ _ Er). cbn [obind].
  assert (Lq : length qs = length (ps_map p)) by (clear - Fq; induction Fq; cbn; congruence).
  destruct (ofold_seq_inv (fun i c => obind (rd (ps_map p) i) (fun jid => obind (rd rots jid) (fun q => put_quat c (i * 4) (qmul (qmul (ps_rot p) (qinv r)) q))))
     (fun k c => c = map Some (coordinates (firstn k qs)) ++ repeat None (4 * (length (ps_map p) - k))) (length (ps_map p)) (repeat None (bm_cols (ps_vectors p))))
    as (c & Ec & Pc).
  - rewrite Nat.sub_0_r, Hc. reflexivity.
  - intros k c Hk ->. destruct (nth_error_lt (ps_map p) k Hk) as [jid Ej]. rewrite (rd_some _ _ _ Ej). cbn [obind].
    assert (Hq : (k < length qs)%nat) by lia. destruct (nth_error_lt qs k Hq) as [q Eq].
    assert (J : exists w, nth_error rots jid = Some w /\ q = qmul (qmul (ps_rot p) (qinv r)) w).
    { clear - Fq Ej Eq. revert k Ej Eq. induction Fq as [|x y l l' H F IH]; intros [|k] Ej Eq; try discriminate; cbn in *.
      - injection Ej as <-. injection Eq as <-. exact H.
      - exact (IH k Ej Eq). }
    destruct J as (w & Ew & Eqw). rewrite (rd_some _ _ _ Ew). cbn [obind]. rewrite <- Eqw.
    replace (4 * (length (ps_map p) - k))%nat with (4 + 4 * (length (ps_map p) - S k))%nat by lia. cbn [repeat Nat.add].
    replace (k * 4)%nat with (length (map Some (coordinates (firstn k qs)))) by (rewrite map_length, coordinates_length, firstn_length; lia).
    rewrite put_quat_app. eexists. split; [reflexivity|].
    assert (Ef : firstn (S k) qs = firstn k qs ++ [q]).
    { clear - Eq. revert k Eq. induction qs as [|x qs IH]; intros [|k] E; try discriminate; cbn in *; [injection E as <-; reflexivity|].
      rewrite (IH k E). reflexivity. }
    rewrite Ef. unfold coordinates. rewrite flat_map_app, map_app, <- app_assoc. reflexivity.
  - rewrite Ec. cbn [obind]. rewrite Pc, Nat.sub_diag, Nat.mul_0_r. cbn [repeat]. rewrite app_nil_r, firstn_all2 by lia.
    assert (Hd : (length (ps_base p) / 3 = S n)%nat) by (rewrite Hn, Nat.mul_comm; apply Nat.div_mul; lia).
    rewrite Hd. cbn [Nat.eqb]. rewrite (proj2 (Nat.eqb_eq _ _)) by lia. cbn [negb]. rewrite all_set_map. cbn [obind].
    eexists. split; [reflexivity|]. unfold points. rewrite Hd. split; [rewrite unflat_length, map_length, seq_length; reflexivity|].
    intros i b Hb. assert (Hi : (i < S n)%nat) by (apply nth_error_len in Hb; rewrite map_length, seq_length in Hb; exact Hb).
    rewrite unflat_nth by exact Hi. f_equal. rewrite nth_error_map, nth_error_nth' with (d := 0%nat) in Hb by (rewrite seq_length; exact Hi).
    rewrite seq_nth in Hb by exact Hi. cbn [option_map] in Hb. injection Hb as <-. rewrite moved_comp, coordinates_length, Lq, Hc. reflexivity.
Qed.
Print Assumptions pose_shape_correct.

Lemma qinv_mul_unit g r : qunit g -> qunit r -> qinv (qmul g r) = qmul (qconj r) (qconj g).
Proof. intros Hg Hr. rewrite qinv_unit by (apply qunit_mul; assumption). unfold qmul, qconj. cbn. f_equal; ring. Qed.

(** C92: turning the whole character does not change the shape. *)
Theorem pose_shape_turned p rots g : qunit g -> (forall q, In q rots -> qunit q) ->
  pose_compute p (map (qmul g) rots) = pose_compute p rots.
Proof.
  intros Hg Hu. unfold pose_compute. destruct (negb _); [reflexivity|].
  assert (Rd : forall i, rd (map (qmul g) rots) i = match nth_error rots i with Some q => Ok (qmul g q) | None => UB end).
  { intros i. unfold rd. rewrite nth_error_map. destruct (nth_error rots i); reflexivity. }
  assert (Rd0 : forall i, rd rots i = match nth_error rots i with Some q => Ok q | None => UB end) by reflexivity.
  rewrite (Rd (ps_joint p)), (Rd0 (ps_joint p)). destruct (nth_error rots (ps_joint p)) as [r|] eqn:Er; [|reflexivity]. cbn [obind].
  assert (Ur : qunit r) by (apply Hu, (nth_error_In _ (ps_joint p)), Er).
  assert (Q : forall q, qmul (qmul (ps_rot p) (qinv (qmul g r))) (qmul g q) = qmul (qmul (ps_rot p) (qinv r)) q).
  { intros q. rewrite (qinv_mul_unit g r Hg Ur), (qinv_unit r Ur), <- !qmul_assoc. f_equal. rewrite !qmul_assoc.
    rewrite <- (qmul_assoc (qconj r) (qconj g) g), (qconj_mul_l g Hg), qmul_id_r. reflexivity. }
  match goal with |- obind (ofold ?f ?l ?s) ?k = obind (ofold ?f' ?l ?s) ?k => replace (ofold f l s) with (ofold f' l s); [reflexivity|] end.
  generalize (seq 0 (length (ps_map p))). generalize (repeat (@None R) (bm_cols (ps_vectors p))). intros c l. revert c.
  induction l as [|i l IH]; intros c; [reflexivity|]. cbn [ofold].
  destruct (rd (ps_map p) i) as [jid| | | |]; try reflexivity. cbn [obind]. rewrite Rd, Rd0.
  destruct (nth_error rots jid) as [q|]; [|reflexivity]. cbn [obind]. rewrite (Q q).
  destruct (put_quat _ _ _) as [c'| | | |]; try reflexivity. cbn [obind]. apply IH.
Qed.
Print Assumptions pose_shape_turned.

(** C92: the shape is not a function of the pose: a joint turned by a full turn about x has the same
    transformation, but the other of its two quaternions, and gives another shape. *)
Definition two_joints : skeleton := [Joint None vzero qid; Joint (Some 0%nat) vzero qid].
Definition turned (a : R) : list R := repeat 0 10 ++ a :: repeat 0 3.
Definition nod : pose_shape := PS 0 qid [1%nat] [0; 0; 0] (BM 3 4 (fun r k => if (r =? 0)%nat then if (k =? 3)%nat then 1 else 0 else 0)).

Lemma qaxis_zero v : qaxis 0 v = qid.
Proof. unfold qaxis, qid. replace (0 / 2) with 0 by field. rewrite cos_0, sin_0. f_equal; ring. Qed.
Lemma qaxis_full : qaxis (2 * PI) ex = Q4 (-1) 0 0 0.
Proof. unfold qaxis. replace (2 * PI / 2) with PI by field. rewrite cos_PI, sin_PI. cbn. f_equal; ring. Qed.

Lemma two_joints_fk a : fk two_joints (turned a) =
  let s0 := joint_state_set (Joint None vzero qid) (JP 0 0 0 0 0 0 0) None in
  Ok [s0; joint_state_set (Joint (Some 0%nat) vzero qid) (JP 0 0 0 a 0 0 0) (Some s0)].
Proof. reflexivity. Qed.

Lemma joint_world jt p ps : js_world (joint_state_set jt p ps) =
  tf_mul (match ps with Some s => js_world s | None => tf_id end)
    (TF (qmul (qmul (qmul (jprerot jt) (qaxis (jrz p) ez)) (qaxis (jry p) ey)) (qaxis (jrx p) ex)) (vadd (joffset jt) (V3 (jtx p) (jty p) (jtz p))) (exp2 (jsc p))).
Proof. reflexivity. Qed.

Lemma root_world : js_world (joint_state_set (Joint None vzero qid) (JP 0 0 0 0 0 0 0) None) = tf_id.
Proof.
  rewrite joint_world. cbn [jprerot joffset jrz jry jrx jtx jty jtz jsc]. rewrite !qaxis_zero, !qmul_id_l.
  assert (X2 : exp2 0 = 1) by (unfold exp2; rewrite Rmult_0_l, exp_0; reflexivity). rewrite X2.
  unfold tf_mul, tf_id. cbn [rot trans scl]. rewrite qmul_id_l, qrot_id. f_equal; [|ring]. apply vec_ext; cbn; ring.
Qed.

Lemma child_world a s0 : js_world s0 = tf_id ->
  js_world (joint_state_set (Joint (Some 0%nat) vzero qid) (JP 0 0 0 a 0 0 0) (Some s0)) = TF (qaxis a ex) vzero 1.
Proof.
  intros E. rewrite joint_world, E. cbn [jprerot joffset jrz jry jrx jtx jty jtz jsc]. rewrite !qaxis_zero, !qmul_id_l.
  assert (X2 : exp2 0 = 1) by (unfold exp2; rewrite Rmult_0_l, exp_0; reflexivity). rewrite X2.
  unfold tf_mul, tf_id. cbn [rot trans scl]. rewrite qmul_id_l, qrot_id. f_equal; [|ring]. apply vec_ext; cbn; ring.
Qed.

Lemma nod_compute q : pose_compute nod [qid; q] = Ok [V3 (qw q) 0 0].
Proof.
  assert (I : qmul (qmul qid (qinv qid)) q = q).
  { rewrite qmul_id_l, (qinv_unit qid qunit_id). replace (qconj qid) with qid by (unfold qconj, qid; cbn; f_equal; ring). apply qmul_id_l. }
  unfold pose_compute. cbn [nod ps_base ps_vectors bm_rows length Nat.eqb negb ps_joint ps_rot ps_map bm_cols].
  change (rd [qid; q] 0) with (Ok qid). cbn [obind seq ofold]. change (rd [1%nat] 0) with (Ok 1%nat). cbn [obind].
  change (rd [qid; q] 1) with (Ok q). cbn [obind]. rewrite I. destruct q as [w x y z].
  change (put_quat (repeat None 4) (0 * 4) (Q4 w x y z)) with (Ok [Some x; Some y; Some z; Some w]). cbn [obind].
  change (3 / 3)%nat with 1%nat. cbn [Nat.eqb Nat.mul Nat.add negb all_set obind]. unfold unflat, sumn. cbn. do 2 f_equal. apply vec_ext; cbn; ring.
Qed.

Theorem pose_shape_refuted : exists sa sb out out',
  fk two_joints (turned 0) = Ok sa /\ fk two_joints (turned (2 * PI)) = Ok sb /\
  map (fun s => tf_affine (js_world s)) sa = map (fun s => tf_affine (js_world s)) sb /\
  pose_compute nod (map (fun s => rot (js_world s)) sa) = Ok out /\ pose_compute nod (map (fun s => rot (js_world s)) sb) = Ok out' /\ out <> out'.
Proof.
  eexists _, _, [V3 1 0 0], [V3 (-1) 0 0]. split; [apply two_joints_fk|]. split; [apply two_joints_fk|].
  pose proof root_world as E0. remember (joint_state_set (Joint None vzero qid) (JP 0 0 0 0 0 0 0) None) as s0 eqn:Es. clear Es.
  cbn [map]. rewrite !child_world, E0 by exact E0. rewrite qaxis_zero, qaxis_full. split; [|split; [|split]].
  - unfold tf_affine, tf_linear. cbn [rot trans scl]. do 3 f_equal. unfold mscale, qmat, vscale, qid. cbn. f_equal; f_equal; ring.
  - exact (nod_compute qid).
  - exact (nod_compute (Q4 (-1) 0 0 0)).
  - intros E. injection E. lra.
Qed.
Print Assumptions pose_shape_refuted.

(** A case for the other theorems: two joints, the second turned by a right angle. *)
Example pose_shape_case : let rots := [qid; Q4 0 1 0 0] in
  nth_error rots (ps_joint nod) = Some qid /\ bm_rows (ps_vectors nod) = length (ps_base nod) /\
  bm_cols (ps_vectors nod) = (4 * length (ps_map nod))%nat /\ (forall q, In q rots -> qunit q) /\
  (exists n, length (ps_base nod) = 3 * S n)%nat.
Proof.
  cbn. split; [reflexivity|]. split; [reflexivity|]. split; [reflexivity|]. split; [|exists 0%nat; reflexivity].
  intros q [<-|[<-|[]]]; unfold qunit, qnorm2; cbn; ring.
Qed.
