(** Property C114: moving poses by a rigid motion. *)

From Coq Require Import String Bool Reals List Arith NArith Lia Lra.
From Verif Require Import Prelude Loops Rbool R3 LinAlg Transform_model Transform_proofs Skeleton_spec Skeleton_proofs FK_model FK_spec FK_proofs
  ParamTransform_model ParamTransform_spec ParamTransform_proofs
  Simplify_model TPose_model TPose_spec TPose_proofs TPose_geo_proofs.
Import ListNotations.
Local Open Scope nat_scope.
Local Open Scope R_scope.

(** ** Example characters *)

(** Two joints; the root is moved by root_tx and turned by root_ry, the arm by arm_rz. *)
Definition tpx_sk : skeleton := [Joint None vzero qid; Joint (Some 0%nat) (V3 0 1 0) qid].
Definition tpx_pt : ptransform :=
  PT ["root_tx"; "root_ry"; "arm_rz"]%string 14 3 [Entry 0 0 1; Entry 4 1 1; Entry 12 2 1] (repeat 0 14) [] [] [] [] [].

(** One joint that only root_rx moves. *)
Definition tpr_sk : skeleton := [Joint None vzero qid].
Definition tpr_pt : ptransform := PT ["root_rx"]%string 7 1 [Entry 3 0 1] (repeat 0 7) [] [] [] [] [].

(** Two roots; the first is moved by root_tx. *)
Definition tp2_sk : skeleton := [Joint None vzero qid; Joint None (V3 0 1 0) qid].
Definition tp2_pt : ptransform := PT ["root_tx"]%string 14 1 [Entry 0 0 1] (repeat 0 14) [] [] [] [] [].

Lemma qid_unit_prerot sk : (forall j, In j sk -> jprerot j = qid) -> unit_prerotations sk.
Proof. intros H j jt E. apply nth_error_In in E. rewrite (H jt E). apply qunit_id. Qed.

Lemma small_max n : (n <= 3)%nat -> (n <= kMaxModelParams)%nat.
Proof. intros H. apply Nat.le_trans with 3%nat; [exact H|]. unfold kMaxModelParams. apply Nat.leb_le. reflexivity. Qed.

Lemma tpx_ok : poseable tpx_sk tpx_pt.
Proof.
  constructor.
  - intros [|[|i]] a E; cbn in E; try discriminate; [injection E as <-; lia|destruct i; discriminate].
  - apply qid_unit_prerot. intros j [<-|[<-|[]]]; reflexivity.
  - constructor; try reflexivity; cbn [tpx_pt pt_cols pt_entries pt_rows pt_pose pt_blend pt_face].
    + apply small_max. lia.
    + intros e [<-|[<-|[<-|[]]]]; cbn; lia.
    + intros ? ? ? ? [].
    + intros ? [].
    + intros ? [].
  - reflexivity.
  - repeat constructor; cbn; intuition discriminate.
Qed.
Lemma tpr_ok : poseable tpr_sk tpr_pt.
Proof.
  constructor.
  - intros [|i] a E; cbn in E; [discriminate|destruct i; discriminate].
  - apply qid_unit_prerot. intros j [<-|[]]; reflexivity.
  - constructor; try reflexivity; cbn [tpr_pt pt_cols pt_entries pt_rows pt_pose pt_blend pt_face].
    + apply small_max. lia.
    + intros e [<-|[]]; cbn; lia.
    + intros ? ? ? ? [].
    + intros ? [].
    + intros ? [].
  - reflexivity.
  - repeat constructor; cbn; intuition discriminate.
Qed.
Lemma tp2_ok : poseable tp2_sk tp2_pt.
Proof.
  constructor.
  - intros [|[|i]] a E; cbn in E; try discriminate. destruct i; discriminate.
  - apply qid_unit_prerot. intros j [<-|[<-|[]]]; reflexivity.
  - constructor; try reflexivity; cbn [tp2_pt pt_cols pt_entries pt_rows pt_pose pt_blend pt_face].
    + apply small_max. lia.
    + intros e [<-|[]]; cbn; lia.
    + intros ? ? ? ? [].
    + intros ? [].
    + intros ? [].
  - reflexivity.
  - repeat constructor; cbn; intuition discriminate.
Qed.

Lemma tpx_rigid i : is_rigid tpx_pt i <-> i = 0%nat \/ i = 1%nat.
Proof.
  rewrite <- rigid_parameters_spec. destruct i as [|[|[|i]]]; cbn; [intuition|intuition|intuition discriminate|].
  unfold rigid_parameters. destruct i; cbn; intuition discriminate.
Qed.
Lemma tpr_rigid i : is_rigid tpr_pt i <-> i = 0%nat.
Proof. rewrite <- rigid_parameters_spec. destruct i as [|i]; [cbn; intuition|]. unfold rigid_parameters. destruct i; cbn; intuition discriminate. Qed.
Lemma tp2_rigid i : is_rigid tp2_pt i <-> i = 0%nat.
Proof. rewrite <- rigid_parameters_spec. destruct i as [|i]; [cbn; intuition|]. unfold rigid_parameters. destruct i; cbn; intuition discriminate. Qed.

Lemma tpx_last : last_rigid_joint tpx_pt 0.
Proof.
  split.
  - exists (Entry 0 0 1). split; [left; reflexivity|]. split; [reflexivity|]. apply tpx_rigid. left. reflexivity.
  - intros k (e & [<-|[<-|[<-|[]]]] & Ek & Re); apply tpx_rigid in Re; cbn in Ek, Re; lia.
Qed.
Lemma tpr_last : last_rigid_joint tpr_pt 0.
Proof.
  split.
  - exists (Entry 3 0 1). split; [left; reflexivity|]. split; [reflexivity|]. apply tpr_rigid. reflexivity.
  - intros k (e & [<-|[]] & Ek & Re). cbn in Ek. lia.
Qed.
Lemma tp2_last : last_rigid_joint tp2_pt 0.
Proof.
  split.
  - exists (Entry 0 0 1). split; [left; reflexivity|]. split; [reflexivity|]. apply tp2_rigid. reflexivity.
  - intros k (e & [<-|[]] & Ek & Re). cbn in Ek. lia.
Qed.

(** The solver that leaves everything as it is. *)
Lemma solver_id pt : solver_for pt (fun _ _ _ p => p).
Proof. intros m names _ _ f k t p. auto. Qed.

(** A solver for the first character that finds the place of the root. *)
Definition tpx_solve (f k : nat) (t : tf) (p : list R) : list R :=
  match p with [] => [] | _ :: r => vx (trans t) :: r end.
Lemma tpx_solver : solver_for tpx_pt tpx_solve.
Proof.
  intros m names Lm (S & HS & ->) f k t p. assert (m = 0%nat) as ->.
  { destruct Lm as [L1 L2], tpx_last as [M1 M2]. pose proof (L2 _ M1). pose proof (M2 _ L1). lia. }
  split; [destruct p; reflexivity|]. intros [|i] nm E N; [|destruct p; reflexivity]. exfalso. apply N. clear N.
  assert (EK : kept 3 S = kept 3 (fun i => Nat.ltb i 2)).
  { apply kept_ext. intros i. rewrite HS, Nat.ltb_lt. split.
    - intros (e & [<-|[<-|[<-|[]]]] & Ec & Er); cbn in Ec, Er; lia.
    - intros Hi. destruct i as [|[|i]]; [exists (Entry 0 0 1)|exists (Entry 4 1 1)|lia]; cbn; auto. }
  cbn [tpx_pt pt_cols] in E. rewrite EK in E. cbn in E. injection E as <-. exists EmptyString, "tx"%string. left. reflexivity.
Qed.

Definition tpx_place (a b c : R) : list tf :=
  let t := tf_mul tf_id (TF (qmul (qmul (qmul qid (qaxis 0 ez)) (qaxis b ey)) (qaxis 0 ex)) (V3 a 0 0) (exp2 0)) in
  [t; tf_mul t (TF (qmul (qmul (qmul qid (qaxis c ez)) (qaxis 0 ey)) (qaxis 0 ex)) (V3 0 1 0) (exp2 0))].
Lemma tpx_pose a b c : pose_of tpx_sk tpx_pt [a; b; c] (tpx_place a b c).
Proof.
  assert (E : pt_apply tpx_pt [a; b; c] = Ok [a; 0; 0; 0; b; 0; 0; 0; 0; 0; 0; 0; c; 0]).
  { unfold pt_apply. cbn. f_equal. unfold row_dot. cbn. repeat (f_equal; try ring). }
  exists [a; 0; 0; 0; b; 0; 0; 0; 0; 0; 0; 0; c; 0]. eexists. split; [exact E|]. split; [reflexivity|].
  unfold tpx_place, joint_state_set, jparam_at. cbn [map js_world nth Nat.add Nat.mul List.length app joffset jprerot jtx jty jtz jrx jry jrz jsc].
  replace (vadd vzero (V3 a 0 0)) with (V3 a 0 0) by vec_ring. replace (vadd (V3 0 1 0) (V3 0 0 0)) with (V3 0 1 0) by vec_ring. reflexivity.
Qed.

Lemma rot_dist_self q : rot_dist q q = 0.
Proof.
  unfold rot_dist. match goal with |- sqrt ?X = _ => replace X with 0 end; [apply sqrt_0|].
  generalize (qrot q ex) (qrot q ey) (qrot q ez). intros [? ? ?] [? ? ?] [? ? ?]. unfold vnorm2, vdot, vsub. cbn. ring.
Qed.

Definition shift (x y z : R) : tf := TF qid (V3 x y z) 1.

(** The first character, shifted. *)
Example transform_pose_case : poseable tpx_sk tpx_pt /\ last_rigid_joint tpx_pt 0 /\ solver_for tpx_pt tpx_solve /\ no_rigid_scale tpx_pt /\
  frames_fit tpx_pt [[2; 1; 5]; []] /\ motions_fit [[2; 1; 5]; []] [shift 1 0 0] /\
  transform_poses tpx_solve (fun _ _ _ => 0) tpx_sk tpx_pt [[2; 1; 5]; []] [shift 1 0 0] true = Ok [([3; 1; 5], false); ([], false)].
Proof.
  split; [exact tpx_ok|]. split; [exact tpx_last|]. split; [exact tpx_solver|].
  split. { intros e [<-|[<-|[<-|[]]]] _; cbn; lia. }
  split. { intros p [<-|[<-|[]]]; [right; reflexivity|left; reflexivity]. } split; [left; reflexivity|].
  destruct (tp_new tpx_sk tpx_pt 0 tpx_ok tpx_last) as (keep & s & Es & G).
  unfold transform_poses. cbn [List.length Nat.eqb orb negb]. rewrite Es. cbn [obind ofold seq rd nth_error Nat.ltb Nat.leb andb transform_at List.length].
  assert (EK : kept (pt_cols tpx_pt) keep = [0; 1]%nat).
  { transitivity (kept 3 (fun i => Nat.ltb i 2)); [|reflexivity]. apply kept_ext. intros i. rewrite (tg_keep _ _ _ _ _ G), Nat.ltb_lt. split.
    - intros (e & [<-|[<-|[<-|[]]]] & Ec & Er); cbn in Ec, Er; lia.
    - intros Hi. destruct i as [|[|i]]; [exists (Entry 0 0 1)|exists (Entry 4 1 1)|lia]; cbn; auto. }
  rewrite (first_solve tpx_sk tpx_pt 0 keep s (tpx_solve 0) (fun _ _ => 0) [2; 1; 5] (shift 1 0 0) (tpx_place 2 1 5)
    (hd tf_id (tpx_place 2 1 5)) [3; 1; 5] (tpx_place 3 1 5) (hd tf_id (tpx_place 3 1 5)) tpx_ok G); try reflexivity.
  - apply tpx_pose.
  - intros i H. destruct i as [|[|[|i]]]; [exfalso|reflexivity|reflexivity|destruct i; reflexivity].
    rewrite EK in H. destruct H as [H|H]; [apply H, tpx_rigid; left; reflexivity|apply H; left; reflexivity].
  - rewrite EK. cbn [map nth]. unfold tpx_solve. f_equal. cbn. unfold vscale, vadd. cbn. ring.
  - apply tpx_pose.
  - rewrite <- (qmul_id_l (rot (hd tf_id (tpx_place 3 1 5)))).
    change (rot_dist (rot (tf_mul (shift 1 0 0) (hd tf_id (tpx_place 2 1 5)))) (rot (tf_mul (shift 1 0 0) (hd tf_id (tpx_place 2 1 5)))) < 1 / 1000).
    rewrite rot_dist_self. lra.
Qed.

(** ** The theorems *)

(** C114: every frame comes back: an empty one empty, the others with their length and with every parameter
    as it was whose name contains neither "root_" nor "hips". *)
Theorem transform_pose_keeps : forall solve rnd sk pt frames ts cont m,
  poseable sk pt -> last_rigid_joint pt m -> solver_for pt solve -> motions_fit frames ts -> frames_fit pt frames ->
  exists res, transform_poses solve rnd sk pt frames ts cont = Ok res /\ List.length res = List.length frames /\
    forall f p r w, nth_error frames f = Some p -> nth_error res f = Some (r, w) ->
      List.length r = List.length p /\ forall i, ~ is_rigid pt i -> nth i r 0 = nth i p 0.
Proof.
  intros solve rnd sk pt frames ts cont m W Lm Sv Mf Ff.
  destruct (transform_poses_ok solve rnd sk pt frames ts cont m W Lm Sv Mf Ff) as (res & E & L & H). exists res. split; [exact E|]. split; [exact L|].
  intros f p r w Ep Er. destruct (H f p r w Ep Er) as (T & _ & F). split; [apply (fo_len _ _ _ _ _ _ _ _ F)|apply (fo_rest _ _ _ _ _ _ _ _ F)].
Qed.
Print Assumptions transform_pose_keeps.

(** C114: without a joint that a rigid parameter moves, an exception is thrown. *)
Theorem transform_pose_needs_rigid : forall solve rnd sk pt frames ts cont,
  poseable sk pt -> (forall j, ~ rigid_joint pt j) -> motions_fit frames ts ->
  transform_poses solve rnd sk pt frames ts cont = Throw.
Proof.
  intros solve rnd sk pt frames ts cont W N M. unfold transform_poses.
  assert (C : (Nat.eqb (List.length ts) 1 || Nat.eqb (List.length frames) (List.length ts))%bool = true) by (apply orb_true_iff; rewrite !Nat.eqb_eq; exact M).
  rewrite C, (tp_none sk pt W N). reflexivity.
Qed.
Print Assumptions transform_pose_needs_rigid.

Lemma motion_same (ts : list tf) frames f T T' : (motions_fit frames ts) -> (f < List.length frames)%nat -> motion_of ts f T ->
  nth_error ts (if Nat.ltb f (List.length ts) then f else 0%nat) = Some T' -> T' = T.
Proof.
  intros M Hf [H|[L H]] E.
  - assert (X : (f < List.length ts)%nat) by (apply nth_error_Some; congruence). apply Nat.ltb_lt in X. rewrite X in E. congruence.
  - destruct (Nat.ltb_spec f (List.length ts)) as [X|X]; [|congruence]. assert (f = 0%nat) as -> by lia. congruence.
Qed.

Lemma frame_facts solve rnd sk pt frames ts cont m res f p r w T :
  poseable sk pt -> last_rigid_joint pt m -> solver_for pt solve -> motions_fit frames ts -> frames_fit pt frames ->
  transform_poses solve rnd sk pt frames ts cont = Ok res -> nth_error frames f = Some p -> p <> [] -> nth_error res f = Some (r, w) -> motion_of ts f T ->
  List.length p = pt_cols pt /\ List.length r = pt_cols pt /\ frame_ok sk pt m T (rnd f) p r w.
Proof.
  intros W Lm Sv Mf Ff E Ep Np Er Mo. destruct (transform_poses_ok solve rnd sk pt frames ts cont m W Lm Sv Mf Ff) as (res' & E' & L & H).
  rewrite E in E'. injection E' as <-. destruct (H f p r w Ep Er) as (T' & ET & F).
  rewrite (motion_same ts frames f T T' Mf) in F; [|apply nth_error_Some; congruence|exact Mo|exact ET].
  destruct (Ff p) as [X|X]; [eapply nth_error_In; exact Ep|contradiction|]. pose proof (fo_len _ _ _ _ _ _ _ _ F). split; [exact X|]. split; [lia|exact F].
Qed.

(** C114: when no warning is logged, the last joint that rigid parameters move has been turned as asked, up
    to 1/1000 in the Frobenius norm. Every point attached to that joint or to one below it is then where the
    motion takes it, up to the error in the place of that joint plus a thousandth of its distance to it. *)
Theorem transform_pose_close : forall solve rnd sk pt frames ts cont m res f p r T w0 w1,
  poseable sk pt -> last_rigid_joint pt m -> solver_for pt solve -> motions_fit frames ts -> frames_fit pt frames ->
  transform_poses solve rnd sk pt frames ts cont = Ok res -> nth_error frames f = Some p -> p <> [] -> nth_error res f = Some (r, false) ->
  motion_of ts f T -> pose_of sk pt p w0 -> pose_of sk pt r w1 ->
  qunit (rot T) -> scl T = 1 -> no_rigid_scale pt ->
  exists t0 t1, nth_error w0 m = Some t0 /\ nth_error w1 m = Some t1 /\ rot_dist (rot t1) (rot (tf_mul T t0)) < 1 / 1000 /\
    forall j u0 u1, ancestor (sk_parents sk) j m -> nth_error w0 j = Some u0 -> nth_error w1 j = Some u1 ->
      forall x, pdist (tf_point u1 x) (tf_point T (tf_point u0 x)) <=
        pdist (trans t1) (tf_point T (trans t0)) + 1 / 1000 * pdist (tf_point T (tf_point u0 x)) (tf_point T (trans t0)).
Proof.
  intros solve rnd sk pt frames ts cont m res f p r T w0 w1 W Lm Sv Mf Ff E Ep Np Er Mo P0 P1 U S1 Ns.
  destruct (frame_facts _ _ _ _ _ _ _ _ _ _ _ _ _ _ W Lm Sv Mf Ff E Ep Np Er Mo) as (Lp & Lr & F).
  destruct (fo_rot _ _ _ _ _ _ _ _ F Np eq_refl w0 w1 P0 P1) as (t0 & t1 & N0 & N1 & D). rewrite mat_dist_rot in D.
  exists t0, t1. split; [exact N0|]. split; [exact N1|]. split; [exact D|]. intros j u0 u1 A J0 J1 x.
  destruct (below_last sk pt p r w0 w1 W Lp Lr (fo_rest _ _ _ _ _ _ _ _ F) P0 P1 m j Lm A) as (t0' & t1' & rel & X0 & X1 & G0 & G1 & Gr & Y0 & Y1).
  assert (t0' = t0) as -> by congruence. assert (t1' = t1) as -> by congruence. assert (u0 = tf_mul t0 rel) as -> by congruence. assert (u1 = tf_mul t1 rel) as -> by congruence.
  rewrite !tf_point_mul by (apply tf_good_ok; assumption).
  pose proof (scale_kept sk pt p r w0 w1 W Lp Lr (fo_rest _ _ _ _ _ _ _ _ F) P0 P1 Ns m t0 t1 N0 N1) as Sc.
  eapply Rle_trans; [apply (points_close T t0 t1 (tf_point rel x) U S1 G0 Sc)|]. apply Rplus_le_compat_l. apply Rmult_le_compat_r; [apply sqrt_pos|lra].
Qed.
Print Assumptions transform_pose_close.

(** C114: when the last joint that rigid parameters move is turned and placed exactly as asked, every point
    attached to it or to a joint below it is where the motion takes it. *)
Theorem transform_pose_exact : forall solve rnd sk pt frames ts cont m res f p r w T w0 w1 t0 t1,
  poseable sk pt -> last_rigid_joint pt m -> solver_for pt solve -> motions_fit frames ts -> frames_fit pt frames ->
  transform_poses solve rnd sk pt frames ts cont = Ok res -> nth_error frames f = Some p -> p <> [] -> nth_error res f = Some (r, w) ->
  motion_of ts f T -> pose_of sk pt p w0 -> pose_of sk pt r w1 ->
  qunit (rot T) -> scl T = 1 -> no_rigid_scale pt ->
  nth_error w0 m = Some t0 -> nth_error w1 m = Some t1 ->
  (forall v, qrot (rot t1) v = qrot (rot T) (qrot (rot t0) v)) -> trans t1 = tf_point T (trans t0) ->
  forall j u0 u1, ancestor (sk_parents sk) j m -> nth_error w0 j = Some u0 -> nth_error w1 j = Some u1 ->
  forall x, tf_point u1 x = tf_point T (tf_point u0 x).
Proof.
  intros solve rnd sk pt frames ts cont m res f p r w T w0 w1 t0 t1 W Lm Sv Mf Ff E Ep Np Er Mo P0 P1 U S1 Ns N0 N1 Hr Ht j u0 u1 A J0 J1 x.
  destruct (frame_facts _ _ _ _ _ _ _ _ _ _ _ _ _ _ W Lm Sv Mf Ff E Ep Np Er Mo) as (Lp & Lr & F).
  destruct (below_last sk pt p r w0 w1 W Lp Lr (fo_rest _ _ _ _ _ _ _ _ F) P0 P1 m j Lm A) as (t0' & t1' & rel & X0 & X1 & G0 & G1 & Gr & Y0 & Y1).
  assert (t0' = t0) as -> by congruence. assert (t1' = t1) as -> by congruence. assert (u0 = tf_mul t0 rel) as -> by congruence. assert (u1 = tf_mul t1 rel) as -> by congruence.
  pose proof (scale_kept sk pt p r w0 w1 W Lp Lr (fo_rest _ _ _ _ _ _ _ _ F) P0 P1 Ns m t0 t1 N0 N1) as Sc.
  rewrite !tf_point_mul by (apply tf_good_ok; assumption). set (y := tf_point rel x). clearbody y.
  unfold tf_point at 1. rewrite Ht, Hr, Sc. unfold tf_point. rewrite S1, !vscale_1, qrot_add.
  generalize (qrot (rot T) (trans t0)) (qrot (rot T) (qrot (rot t0) (vscale (scl t0) y))) (trans T). intros [? ? ?] [? ? ?] [? ? ?]. vec_ring.
Qed.
Print Assumptions transform_pose_exact.

(** C114: a joint stays where it is when rigid parameters move neither it nor a joint above it. *)
Theorem transform_pose_others : forall solve rnd sk pt frames ts cont m res f p r w T w0 w1,
  poseable sk pt -> last_rigid_joint pt m -> solver_for pt solve -> motions_fit frames ts -> frames_fit pt frames ->
  transform_poses solve rnd sk pt frames ts cont = Ok res -> nth_error frames f = Some p -> p <> [] -> nth_error res f = Some (r, w) ->
  motion_of ts f T -> pose_of sk pt p w0 -> pose_of sk pt r w1 ->
  forall j, (forall a, ancestor (sk_parents sk) j a -> ~ rigid_joint pt a) -> nth_error w1 j = nth_error w0 j.
Proof.
  intros solve rnd sk pt frames ts cont m res f p r w T w0 w1 W Lm Sv Mf Ff E Ep Np Er Mo P0 P1 j Hj.
  destruct (frame_facts _ _ _ _ _ _ _ _ _ _ _ _ _ _ W Lm Sv Mf Ff E Ep Np Er Mo) as (Lp & Lr & F).
  apply (unmoved_joint sk pt p r w0 w1 W Lp Lr (fo_rest _ _ _ _ _ _ _ _ F) P0 P1 j Hj).
Qed.
Print Assumptions transform_pose_others.

(** C114: the first solve of a frame starts from the pose of the frame, with the rigid parameters of the
    result of the frame before if the output is to be continuous, and aims at the moved place of the last
    joint that rigid parameters move; if what it finds turns that joint as asked, that is the result. *)
Theorem transform_pose_first : forall solve rnd sk pt frames ts cont m res f p r w T ks q start r' w0 w1 t0 t1,
  poseable sk pt -> last_rigid_joint pt m -> solver_for pt solve -> motions_fit frames ts -> frames_fit pt frames ->
  transform_poses solve rnd sk pt frames ts cont = Ok res -> nth_error frames f = Some p -> p <> [] -> nth_error res f = Some (r, w) ->
  motion_of ts f T -> solved_parameters pt m ks -> goes_on_from res cont f p q -> starts_from pt ks p q start ->
  pose_of sk pt p w0 -> nth_error w0 m = Some t0 -> with_solution ks (solve f 0%nat (tf_mul T t0) start) p r' ->
  pose_of sk pt r' w1 -> nth_error w1 m = Some t1 -> rot_dist (rot t1) (rot (tf_mul T t0)) < 1 / 1000 ->
  r = r' /\ w = false.
Proof.
  intros solve rnd sk pt frames ts cont m res f p r w T ks q start r' w0 w1 t0 t1 W Lm Sv Mf Ff E Ep Np Er Mo (S0 & HS & ->) Go (Ls & Hs) P0 N0 (Lr' & Wk & Wo) P1 N1 D.
  destruct (tp_new sk pt m W Lm) as (keep & s & Es & G).
  assert (EK : kept (pt_cols pt) S0 = kept (pt_cols pt) keep) by (apply kept_ext; intros i; rewrite HS, (tg_keep _ _ _ _ _ G); reflexivity).
  rewrite EK in Ls, Hs, Wk, Wo. clear EK.
  destruct (poses_step _ _ _ _ _ _ _ _ _ _ _ _ _ E Es Ep Np Er) as (T' & ET & Et).
  rewrite (motion_same ts frames f T T' Mf) in Et; [|apply nth_error_Some; congruence|exact Mo|exact ET].
  assert (Lp : List.length p = pt_cols pt). { destruct (Ff p) as [X|X]; [eapply nth_error_In; exact Ep|contradiction|exact X]. }
  set (K := kept (pt_cols pt) keep) in *.
  assert (Pv : (prev_of res cont f = q /\ List.length q = pt_cols pt /\ q <> []) \/ (prev_of res cont f = [] /\ q = p)).
  { unfold prev_of. destruct Go as [(g & b & -> & -> & Eg & Nq)|([-> |[-> |(g & b & -> & Eg)]] & ->)].
    - left. cbn [Nat.ltb Nat.leb andb]. replace (S g - 1)%nat with g by lia. rewrite Eg. cbn [fst]. split; [reflexivity|]. split; [|exact Nq].
      destruct (transform_poses_ok solve rnd sk pt frames ts true m W Lm Sv Mf Ff) as (res' & E' & L & H). rewrite E in E'. injection E' as <-.
      destruct (nth_error frames g) as [pg|] eqn:Epg; [|apply nth_error_None in Epg; rewrite <- L in Epg; apply nth_error_None in Epg; congruence].
      destruct (H g pg q b Epg Eg) as (Tg & _ & Fg). pose proof (fo_len _ _ _ _ _ _ _ _ Fg) as Lq.
      destruct (Ff pg) as [X|X]; [eapply nth_error_In; exact Epg|subst pg; destruct q; [contradiction|discriminate]|lia].
    - right. auto.
    - right. rewrite andb_false_r. auto.
    - right. split; [|reflexivity]. destruct (_ && _)%bool; [|reflexivity]. replace (S g - 1)%nat with g by lia. rewrite Eg. reflexivity. }
  assert (Sv' : forall i k, nth_error K k = Some i -> ~ is_rigid pt i -> nth k (solve f 0%nat (tf_mul T t0) start) 0 = nth k start 0).
  { intros i k Ek Ni. assert (X : solver_keeps (map (fun i => nth i (pt_name pt) EmptyString) K) solve).
    { apply (Sv m _ Lm). exists keep. split; [apply (tg_keep _ _ _ _ _ G)|reflexivity]. }
    apply (proj2 (X f 0%nat (tf_mul T t0) start) k (nth i (pt_name pt) EmptyString)); [rewrite nth_error_map, Ek; reflexivity|].
    intros Y. apply Ni. exists (nth i (pt_name pt) EmptyString). split; [|exact Y]. apply nth_error_nth'. rewrite (wf_names _ (po_pt _ _ W)). apply nth_error_In, kept_in in Ek. apply Ek. }
  assert (Ls' : List.length (solve f 0%nat (tf_mul T t0) start) = List.length K).
  { assert (X : solver_keeps (map (fun i => nth i (pt_name pt) EmptyString) K) solve).
    { apply (Sv m _ Lm). exists keep. split; [apply (tg_keep _ _ _ _ _ G)|reflexivity]. }
    rewrite (proj1 (X f 0%nat (tf_mul T t0) start)). exact Ls. }
  assert (Nt : forall (g : nat -> R) k i, nth_error K k = Some i -> nth k (map g K) 0 = g i).
  { intros g k i Ek. apply nth_error_nth. rewrite nth_error_map, Ek. reflexivity. }
  assert (R : transform_pose (solve f) (rnd f) s p T (prev_of res cont f) = Ok (r', false)).
  { apply (first_solve_from sk pt m keep s (solve f) (rnd f) p (prev_of res cont f) T w0 t0 start r' w1 t1 W G); try assumption.
    - destruct Pv as [(-> & X & _)|(-> & _)]; auto.
    - lia.
    - fold K. destruct Pv as [(Ev & Lq & Nq)|(Ev & Eq)]; rewrite Ev.
      + destruct q as [|q0 qr] eqn:Eqq; [contradiction|]. rewrite <- Eqq in *.
        apply nth_ext with (d := 0) (d' := 0); [rewrite overwrite_length, map_length; exact Ls|]. intros k Hk. rewrite Ls in Hk.
        rewrite overwrite_nth by (rewrite map_length; exact Hk). destruct (nth_error K k) as [i|] eqn:Ek; [|apply nth_error_None in Ek; lia].
        rewrite !(Nt _ k i Ek). destruct (Hs k i Ek) as [H1 H2]. destruct (tp_rigid s k) eqn:Rk.
        * apply H1, (tg_rigid _ _ _ _ _ G k i Ek), Rk.
        * apply H2. intros Y. apply (tg_rigid _ _ _ _ _ G k i Ek) in Y. congruence.
      + subst q. apply nth_ext with (d := 0) (d' := 0); [rewrite map_length; exact Ls|]. intros k Hk. rewrite Ls in Hk.
        destruct (nth_error K k) as [i|] eqn:Ek; [|apply nth_error_None in Ek; lia]. rewrite (Nt _ k i Ek). destruct (Hs k i Ek) as [H1 H2].
        destruct (rigid_parameters pt i) eqn:Ri; [apply H1, rigid_parameters_spec, Ri|apply H2; rewrite <- rigid_parameters_spec; congruence].
    - fold K. intros i H. destruct (In_dec Nat.eq_dec i K) as [I|I]; [|apply Wo, I]. destruct H as [Ni|Ni]; [|contradiction].
      apply In_nth_error in I as [k Ek]. rewrite (Wk k i Ek), (Sv' i k Ek Ni). apply (proj2 (Hs k i Ek)), Ni.
    - fold K. apply nth_ext with (d := 0) (d' := 0); [rewrite map_length; exact Ls'|]. intros k Hk. rewrite Ls' in Hk.
      destruct (nth_error K k) as [i|] eqn:Ek; [|apply nth_error_None in Ek; lia]. rewrite (Nt _ k i Ek). symmetry. apply (Wk k i Ek). }
  rewrite R in Et. injection Et as <- <-. auto.
Qed.
Print Assumptions transform_pose_first.

(** Every rotation of the one-joint character is about the first axis, and it stays at the origin. *)
Lemma tpr_pose a w : pose_of tpr_sk tpr_pt [a] w -> exists t, w = [t] /\ trans t = vzero /\ qrot (rot t) ex = ex /\ qunit (rot t).
Proof.
  intros P.
  assert (E : pt_apply tpr_pt [a] = Ok [0; 0; 0; a; 0; 0; 0]).
  { unfold pt_apply. cbn. f_equal. unfold row_dot. cbn. repeat (f_equal; try ring). }
  assert (P' : pose_of tpr_sk tpr_pt [a] [tf_mul tf_id (TF (qmul (qmul (qmul qid (qaxis 0 ez)) (qaxis 0 ey)) (qaxis a ex)) vzero (exp2 0))]).
  { exists [0; 0; 0; a; 0; 0; 0]. eexists. split; [exact E|]. split; [reflexivity|].
    unfold joint_state_set, jparam_at. cbn [map js_world nth Nat.add Nat.mul List.length app joffset jprerot jtx jty jtz jrx jry jrz jsc].
    replace (vadd vzero (V3 0 0 0)) with vzero by vec_ring. reflexivity. }
  rewrite (pose_unique _ _ _ _ _ P P'). eexists. split; [reflexivity|]. rewrite tf_mul_id_l. cbn [rot trans].
  assert (U1 : forall b, qunit (qaxis b ez)) by (intros; apply qaxis_unit, ez_unit). assert (U2 : forall b, qunit (qaxis b ey)) by (intros; apply qaxis_unit, ey_unit).
  assert (U3 : forall b, qunit (qaxis b ex)) by (intros; apply qaxis_unit, ex_unit).
  split; [reflexivity|]. split; [|repeat apply qunit_mul; auto using qunit_id].
  rewrite !qrot_mul by (repeat apply qunit_mul; auto using qunit_id). rewrite qrot_axis_x, qrot_axis_y, qrot_axis_z, qrot_id. cbn. unfold ex. cbn.
  rewrite ?sin_0, ?cos_0. f_equal; ring.
Qed.

(** C114 refuted part: the place is not looked at. The character whose root can only turn is not shifted,
    whatever the solver does, and no warning is logged. *)
Theorem transform_pose_place_refuted :
  let T := shift 1 0 0 in
  poseable tpr_sk tpr_pt /\ last_rigid_joint tpr_pt 0 /\
  (forall solve rnd, solver_for tpr_pt solve -> forall r w, transform_poses solve rnd tpr_sk tpr_pt [[0]] [T] true = Ok [(r, w)] ->
     forall w0 w1 t0 t1, pose_of tpr_sk tpr_pt [0] w0 -> pose_of tpr_sk tpr_pt r w1 -> nth_error w0 0 = Some t0 -> nth_error w1 0 = Some t1 ->
     trans t1 = V3 0 0 0 /\ tf_point T (trans t0) = V3 1 0 0) /\
  (exists solve, solver_for tpr_pt solve /\ forall rnd, exists r, transform_poses solve rnd tpr_sk tpr_pt [[0]] [T] true = Ok [(r, false)]).
Proof.
  intros T. split; [exact tpr_ok|]. split; [exact tpr_last|].
  assert (Mf : motions_fit [[0]] [T]) by (left; reflexivity). assert (Ff : frames_fit tpr_pt [[0]]) by (intros p [<-|[]]; right; reflexivity). split.
  - intros solve rnd Sv r w E w0 w1 t0 t1 P0 P1 N0 N1.
    assert (Lr : List.length r = 1%nat). { apply (frame_facts _ _ _ _ _ _ _ 0%nat _ 0%nat [0] r w T tpr_ok tpr_last Sv Mf Ff E); [reflexivity|discriminate|reflexivity|left; reflexivity]. }
    destruct r as [|a [|b r]]; try discriminate Lr. apply tpr_pose in P0 as (u0 & -> & Z0 & _), P1 as (u1 & -> & Z1 & _).
    injection N0 as <-. injection N1 as <-. split; [exact Z1|]. rewrite Z0. unfold T, shift, tf_point, vzero. cbn. unfold qrot, vscale, vadd, vcross, qvec, qid. cbn. f_equal; ring.
  - exists (fun _ _ _ p => p). split; [apply solver_id|]. intros rnd. exists [0].
    destruct (tp_new tpr_sk tpr_pt 0 tpr_ok tpr_last) as (keep & s & Es & G).
    unfold transform_poses. cbn [List.length Nat.eqb orb negb]. rewrite Es. cbn [obind ofold seq rd nth_error Nat.ltb Nat.leb andb transform_at List.length].
    destruct (pose_exists tpr_sk tpr_pt [0] tpr_ok eq_refl) as (w0 & P0 & _). destruct (tpr_pose 0 w0 P0) as (t0 & -> & _).
    rewrite (first_solve tpr_sk tpr_pt 0 keep s _ _ [0] T [t0] t0 [0] [t0] t0 tpr_ok G); try reflexivity; try exact P0.
    unfold T, shift. cbn [tf_mul rot]. rewrite qmul_id_l, rot_dist_self. lra.
Qed.
Print Assumptions transform_pose_place_refuted.

(** C114 refuted part: after the last round the rigid parameters are drawn once more, so that what comes
    back with the warning is not what a solve found but random numbers. *)
Theorem transform_pose_gives_up_refuted :
  let T := TF (qaxis PI ey) vzero 1 in
  let solve := fun (f k : nat) (t : tf) (p : list R) => map (fun _ => 0) p in
  poseable tpr_sk tpr_pt /\ last_rigid_joint tpr_pt 0 /\ solver_for tpr_pt solve /\
  forall rnd, (forall f k i, rnd f k i = 1) -> transform_poses solve rnd tpr_sk tpr_pt [[0]] [T] true = Ok [([1], true)].
Proof.
  intros T solve. split; [exact tpr_ok|]. split; [exact tpr_last|].
  assert (Sv : solver_for tpr_pt solve).
  { intros m names _ (S & _ & ->) f k t p. split; [apply map_length|]. intros i nm E N. exfalso. apply N.
    rewrite nth_error_map in E. destruct (nth_error (kept (pt_cols tpr_pt) S) i) as [x|] eqn:X; [|discriminate]. injection E as <-.
    apply nth_error_In, kept_in in X as [X _]. cbn in X. assert (x = 0%nat) as -> by lia. exists EmptyString, "rx"%string. left. reflexivity. }
  split; [exact Sv|]. intros rnd Hr.
  assert (Mf : motions_fit [[0]] [T]) by (left; reflexivity). assert (Ff : frames_fit tpr_pt [[0]]) by (intros p [<-|[]]; right; reflexivity).
  destruct (transform_poses_ok solve rnd tpr_sk tpr_pt [[0]] [T] true 0 tpr_ok tpr_last Sv Mf Ff) as (res & E & L & H). rewrite E.
  destruct res as [|[r w] [|x res]]; try discriminate L. destruct (H 0%nat [0] r w eq_refl eq_refl) as (T' & ET & F). injection ET as <-.
  pose proof (fo_len _ _ _ _ _ _ _ _ F) as Lr. destruct r as [|a [|b r]]; try discriminate Lr. destruct w.
  - destruct (fo_rnd _ _ _ _ _ _ _ _ F eq_refl (Entry 3 0 1)) as (k & X); [left; reflexivity|apply tpr_rigid; reflexivity|]. cbn [ecol nth] in X. rewrite Hr in X. rewrite X. reflexivity.
  - exfalso. destruct (pose_exists tpr_sk tpr_pt [0] tpr_ok eq_refl) as (w0 & P0 & _). destruct (pose_exists tpr_sk tpr_pt [a] tpr_ok eq_refl) as (w1 & P1 & _).
    destruct (fo_rot _ _ _ _ _ _ _ _ F ltac:(discriminate) eq_refl w0 w1 P0 P1) as (t0 & t1 & N0 & N1 & D).
    destruct (tpr_pose 0 w0 P0) as (u0 & -> & _ & X0 & Q0). destruct (tpr_pose a w1 P1) as (u1 & -> & _ & X1 & Q1). injection N0 as <-. injection N1 as <-.
    rewrite mat_dist_rot in D. unfold rot_dist in D. cbn [tf_mul rot T] in D.
    assert (Uy : qunit (qaxis PI ey)) by (apply qaxis_unit, ey_unit).
    assert (X2 : qrot (qmul (qaxis PI ey) (rot u0)) ex = V3 (-1) 0 0).
    { rewrite qrot_mul by assumption. rewrite X0, qrot_axis_y. unfold ex. cbn. rewrite cos_PI, sin_PI. f_equal; ring. }
    rewrite X1, X2 in D. set (A := vnorm2 (vsub (qrot (rot u1) ey) _)) in D. set (B := vnorm2 (vsub (qrot (rot u1) ez) _)) in D.
    assert (PA : 0 <= A) by apply vnorm2_pos. assert (PB : 0 <= B) by apply vnorm2_pos.
    assert (Z : vnorm2 (vsub ex (V3 (-1) 0 0)) = 4) by (unfold vnorm2, vdot, vsub, ex; cbn; ring). rewrite Z in D.
    assert (Y : 1 <= sqrt (4 + A + B)). { rewrite <- sqrt_1 at 1. apply sqrt_le_1_alt. lra. } lra.
Qed.
Print Assumptions transform_pose_gives_up_refuted.

(** C114 refuted part: not the whole character is moved. A second root stays where it is, whatever the solver
    does. *)
Theorem transform_pose_roots_refuted :
  let T := shift 1 0 0 in
  poseable tp2_sk tp2_pt /\ last_rigid_joint tp2_pt 0 /\
  forall solve rnd a r w, solver_for tp2_pt solve -> transform_poses solve rnd tp2_sk tp2_pt [[a]] [T] true = Ok [(r, w)] ->
     forall w0 w1 t0 t1, pose_of tp2_sk tp2_pt [a] w0 -> pose_of tp2_sk tp2_pt r w1 -> nth_error w0 1 = Some t0 -> nth_error w1 1 = Some t1 ->
     t1 = t0 /\ trans t1 <> tf_point T (trans t0).
Proof.
  intros T. split; [exact tp2_ok|]. split; [exact tp2_last|]. intros solve rnd a r w Sv E w0 w1 t0 t1 P0 P1 N0 N1.
  assert (Mf : motions_fit [[a]] [T]) by (left; reflexivity). assert (Ff : frames_fit tp2_pt [[a]]) by (intros p [<-|[]]; right; reflexivity).
  assert (X : nth_error w1 1 = nth_error w0 1).
  { eapply (transform_pose_others solve rnd tp2_sk tp2_pt [[a]] [T] true 0%nat _ 0%nat [a] r w T w0 w1 tp2_ok tp2_last Sv Mf Ff E); try reflexivity; try assumption; [discriminate|left; reflexivity|].
    intros b Hb (e & [<-|[]] & Eb & _). cbn in Eb. subst b. inversion Hb as [|? c ? Ec _]; subst. cbn in Ec. discriminate. }
  assert (t1 = t0) as -> by congruence. split; [reflexivity|]. intros Y. apply (f_equal vx) in Y. unfold T, shift, tf_point in Y. rewrite qrot_id, vscale_1 in Y. cbn in Y. lra.
Qed.
Print Assumptions transform_pose_roots_refuted.
