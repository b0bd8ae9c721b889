(** C103. The penalty for colliding capsules (CollisionErrorFunctionStateless). *)

From Coq Require Import String Bool Reals List Arith Lia Lra Psatz.
From Coquelicot Require Import Coquelicot.
From Verif Require Import Prelude Loops LinAlg Rbool R3 Transform_model Transform_proofs Skeleton_model Skeleton_spec FK_model FK_spec FK_proofs FK_deriv_proofs
  ParamTransform_model ParamTransform_spec ParamTransform_proofs Limits_model Limits_spec Limits_proofs
  Constraint_model Constraint_spec Constraint_eval_proofs Constraint_proofs Constraint_deriv_proofs Constraint_props Skin_model CharUtil_model
  Ellipsoid_model Ellipsoid_spec Ellipsoid_proofs Seg_model Seg_spec Seg_proofs Seg_props Seg_deriv_proofs Coll_model Coll_spec Coll_proofs Coll_deriv_proofs.
Import ListNotations.
Local Open Scope list_scope.
Local Open Scope nat_scope.
Local Open Scope R_scope.

Lemma no_pairs E : coll_wf E -> co_sk E = [] -> co_geo E = [] /\ co_pairs E = [].
Proof.
  intros W S. assert (G : co_geo E = []).
  { destruct (co_geo E) as [|c g] eqn:Q; [reflexivity|]. destruct (cw_caps E W c ltac:(rewrite Q; left; reflexivity)) as (j & _ & L).
    rewrite S in L. cbn in L. lia. }
  split; [exact G|]. destruct (co_pairs E) as [|pr r] eqn:Q; [reflexivity|].
  destruct (cw_pairs E W pr ltac:(rewrite Q; left; reflexivity)) as (a & b & k & ja & jb & [C _] & _). rewrite G in C. destruct (fst (fst pr)); discriminate C.
Qed.
Lemma coll_error_ok' E sts jp : coll_wf E -> length sts = length (co_sk E) -> length jp = pt_rows (co_pt E) ->
  coll_error E jp sts = Ok (5 / 1000 * co_weight E * rsum (map (fun pr => rep_depth E sts pr * rep_depth E sts pr) (co_pairs E)),
                            map (fun pr => match reported E sts pr with Some _ => true | None => false end) (co_pairs E)).
Proof.
  intros W LS LJ. destruct sts as [|s r] eqn:Q.
  - destruct (no_pairs E W) as [_ P]. { destruct (co_sk E); [reflexivity|discriminate LS]. }
    unfold coll_error. rewrite P. cbn. rewrite Rmult_0_r. reflexivity.
  - rewrite <- Q in *. apply coll_error_ok; try assumption. congruence.
Qed.

(** ** The pairs *)

(** C103. For a skeleton with one root the constructor keeps each pair of capsules once, namely those that
    do not overlap in the rest pose and whose joints are at least two joints apart; it records the joint
    where the two chains part. *)
Theorem coll_pairs eps sk pt g sts :
  parents_first (sk_parents sk) -> single_root (sk_parents sk) ->
  (forall c, In c g -> exists j, cap_parent c = Some j /\ (j < length sk)%nat) ->
  length (pt_offsets pt) = pt_rows pt -> fk sk (pt_offsets pt) = Ok sts ->
  (forall i j a b, (i < j)%nat -> nth_error g i = Some a -> nth_error g j = Some b -> exists s t, settled eps sts a b s t) ->
  exists prs, collision_pairs eps sk pt g = Ok prs /\ NoDup prs /\
  forall i j o, In (i, j, o) prs <-> (i < j)%nat /\
    exists a b ja jb c n, nth_error g i = Some a /\ nth_error g j = Some b /\ cap_parent a = Some ja /\ cap_parent b = Some jb /\
      meets_at sk ja jb c n /\ (2 <= n)%nat /\ o = Some c /\ exists s t, settled eps sts a b s t /\ depth sts a b s t <= 0.
Proof.
  intros V SR PC LO FK ST. pose proof (proj1 (proj2 (fk_inv _ _ _ V FK))) as LS.
  destruct (pairs_loop_ok eps sk g sts V SR LS PC) as (prs & P1 & P2 & P3).
  exists prs. split; [|split; [exact P2|]].
  - unfold collision_pairs. rewrite LO, Nat.eqb_refl. cbn [check obind]. rewrite FK. cbn [obind]. rewrite caps_update_ok; [exact P1|].
    intros c Hc. destruct (PC c Hc) as (j & Pj & L). rewrite <- LS in L.
    destruct (nth_error sts j) as [st|] eqn:Q; [exists j, st; auto|apply nth_error_None in Q; lia].
  - intros i j o. rewrite P3. unfold pair_in. split; intros (L & a & b & ja & jb & c & n & H1 & H2 & H3 & H4 & H5 & H6 & H7 & H8);
      (split; [exact L|]); exists a, b, ja, jb, c, n; do 7 (split; [assumption|]).
    + destruct (ST i j a b L H1 H2) as (s & t & Hst). exists s, t. split; [exact Hst|]. rewrite (settled_ovl _ _ _ _ _ _ Hst) in H8.
      destruct (Rltb_spec 0 (depth sts a b s t)); [discriminate H8|lra].
    + destruct H8 as (s & t & Hst & D). rewrite (settled_ovl _ _ _ _ _ _ Hst). destruct (Rltb_spec 0 (depth sts a b s t)); [lra|reflexivity].
Qed.
Print Assumptions coll_pairs.

(** C103. The constructed function meets the conditions of the theorems below, whatever the rest pose. *)
Theorem coll_make_wf eps sk pt g sts :
  parents_first (sk_parents sk) -> single_root (sk_parents sk) ->
  (forall c, In c g -> exists j, cap_parent c = Some j /\ (j < length sk)%nat) ->
  length (pt_offsets pt) = pt_rows pt -> fk sk (pt_offsets pt) = Ok sts ->
  pt_rows pt = (7 * length sk)%nat -> length (pt_active pt) = pt_rows pt ->
  (forall e, In e (pt_entries pt) -> nth (erow e) (pt_active pt) false = true) ->
  exists E, coll_make eps sk pt g = Ok E /\ coll_wf E /\ co_sk E = sk /\ co_pt E = pt /\ co_geo E = g /\ co_weight E = 1 /\
    co_eps E = eps /\ (forall i, co_enabled E i = true) /\ coll_jacobian_size E = length (co_pairs E).
Proof.
  intros V SR PC LO FK R LA AC. pose proof (proj1 (proj2 (fk_inv _ _ _ V FK))) as LS.
  destruct (pairs_loop_ok eps sk g sts V SR LS PC) as (prs & P1 & P2 & P3).
  exists (Coll sk pt g prs 1 (fun _ => true) (pt_active pt) eps). split; [|split; [|repeat split]].
  - unfold coll_make, collision_pairs. rewrite LO, Nat.eqb_refl. cbn [check obind]. rewrite FK. cbn [obind]. rewrite caps_update_ok; [cbn [obind]; rewrite P1; reflexivity|].
    intros c Hc. destruct (PC c Hc) as (j & Pj & L). rewrite <- LS in L.
    destruct (nth_error sts j) as [st|] eqn:Q; [exists j, st; auto|apply nth_error_None in Q; lia].
  - constructor; cbn; auto. intros [[i j] o] H. apply P3 in H. destruct H as (_ & a & b & ja & jb & c & n & H1 & H2 & H3 & H4 & H5 & _ & H7 & _).
    destruct (meets_carries _ _ _ _ _ H5). exists a, b, c, ja, jb. repeat split; assumption.
Qed.
Print Assumptions coll_make_wf.

(** ** The error *)

(** C103. Whatever the pose, a pair is only counted if two points of its axes are closer than the radii
    there, and the error is 0.005 times the weight times the sum of the squares of those depths. *)
Theorem coll_error_sound E jp sts : coll_wf E -> length sts = length (co_sk E) -> length jp = pt_rows (co_pt E) ->
  exists N act, length act = length (co_pairs E) /\
    coll_error E jp sts = Ok (5 / 1000 * co_weight E *
      rsum (map (fun x : cpair * bool => if snd x then depth_at E sts N (fst x) * depth_at E sts N (fst x) else 0) (combine (co_pairs E) act)), act) /\
    forall pr, In (pr, true) (combine (co_pairs E) act) -> exists a b, capsules_of E pr a b /\
      in_unit (fst (N pr)) /\ in_unit (snd (N pr)) /\ 0 < depth sts a b (fst (N pr)) (snd (N pr)) /\
      co_eps E <= axis_dist sts a b (fst (N pr)) (snd (N pr)).
Proof.
  intros W LS LJ.
  set (N := fun pr => match reported E sts pr with Some (_, st, _) => st | None => (0, 0) end).
  set (fl := fun pr => match reported E sts pr with Some _ => true | None => false end).
  assert (K : forall pr, In pr (co_pairs E) -> fl pr = true -> exists a b, capsules_of E pr a b /\ rep_depth E sts pr = depth_at E sts N pr /\
      in_unit (fst (N pr)) /\ in_unit (snd (N pr)) /\ 0 < depth sts a b (fst (N pr)) (snd (N pr)) /\ co_eps E <= axis_dist sts a b (fst (N pr)) (snd (N pr))).
  { intros pr HP F. destruct (wf_caps E W pr HP) as (a & b & CO). exists a, b. split; [exact CO|].
    unfold fl in F. unfold rep_depth, N, depth_at. destruct (reported E sts pr) as [[[dist [s t]] ov]|] eqn:Q; [|discriminate F].
    rewrite (reported_at E sts pr a b CO) in Q. destruct (ovl_sound _ _ _ _ _ _ _ _ Q) as (I1 & I2 & D & O & P & EP).
    destruct CO as [C1 C2]. rewrite C1, C2. cbn [fst snd]. subst dist ov. repeat split; try assumption; apply I1 || apply I2. }
  assert (CB : forall prs : list cpair, combine prs (map fl prs) = map (fun pr => (pr, fl pr)) prs)
    by (induction prs as [|x l IH]; [reflexivity|cbn; rewrite IH; reflexivity]).
  exists N, (map fl (co_pairs E)). split; [apply map_length|]. rewrite CB. split.
  - rewrite (coll_error_ok' E sts jp W LS LJ). apply (f_equal (@Ok (R * list bool))), (f_equal2 pair); [|reflexivity].
    f_equal. rewrite map_map. f_equal. apply map_ext_in. intros pr HP. cbn [fst snd]. destruct (fl pr) eqn:F.
    + destruct (K pr HP F) as (a & b & _ & R & _). rewrite R. reflexivity.
    + unfold fl in F. unfold rep_depth. destruct (reported E sts pr) as [o|]; [discriminate F|ring].
  - intros pr H. apply in_map_iff in H as (pr' & E1 & HP). injection E1 as -> F. destruct (K pr HP F) as (a & b & C & _ & I1 & I2 & R).
    exists a, b. repeat split; try assumption; apply C || apply I1 || apply I2 || apply R.
Qed.
Print Assumptions coll_error_sound.

(** C103. If the axes of every pair are apart, or neither parallel nor crossing, the error is the penalty
    measured at the closest axis points, and the active pairs are exactly those that overlap there.
    Missing: the other pairs, see [coll_parallel_refuted] and [coll_crossing_refuted]. *)
Theorem coll_error_partial E jp sts N : coll_wf E -> length sts = length (co_sk E) -> length jp = pt_rows (co_pt E) ->
  (forall pr a b, In pr (co_pairs E) -> capsules_of E pr a b -> settled (co_eps E) sts a b (fst (N pr)) (snd (N pr))) ->
  exists act, coll_error E jp sts = Ok (coll_penalty E sts N, act) /\ length act = length (co_pairs E) /\
    (forall k pr, nth_error (co_pairs E) k = Some pr -> (nth k act false = true <-> 0 < depth_at E sts N pr)) /\
    forall i j, In (i, j) (active_pairs (co_pairs E) act) <-> exists a, In (i, j, a) (co_pairs E) /\ 0 < depth_at E sts N (i, j, a).
Proof.
  intros W LS LJ ST.
  set (fl := fun pr => match reported E sts pr with Some _ => true | None => false end).
  assert (K : forall pr, In pr (co_pairs E) -> rep_depth E sts pr * rep_depth E sts pr = excess2 (depth_at E sts N pr) /\
     (fl pr = true <-> 0 < depth_at E sts N pr)).
  { intros pr HP. destruct (wf_caps E W pr HP) as (a & b & CO). pose proof (ST pr a b HP CO) as S.
    unfold fl, rep_depth. rewrite (reported_at E sts pr a b CO), (settled_ovl _ _ _ _ _ _ S). unfold depth_at. destruct CO as [C1 C2]. rewrite C1, C2.
    destruct (Rltb_spec 0 (depth sts a b (fst (N pr)) (snd (N pr)))) as [P|P].
    - rewrite excess2_pos by lra. split; [reflexivity|]. split; [intros; assumption|reflexivity].
    - rewrite excess2_neg by lra. split; [ring|]. split; [discriminate|intros; lra]. }
  assert (CB : forall prs : list cpair, combine prs (map fl prs) = map (fun pr => (pr, fl pr)) prs)
    by (induction prs as [|x l IH]; [reflexivity|cbn; rewrite IH; reflexivity]).
  exists (map fl (co_pairs E)). split; [|split; [apply map_length|split]].
  - rewrite (coll_error_ok' E sts jp W LS LJ). apply (f_equal (@Ok (R * list bool))), (f_equal2 pair); [|reflexivity].
    unfold coll_penalty. f_equal. f_equal. apply map_ext_in. intros pr HP. apply (K pr HP).
  - intros k pr H. rewrite (nth_indep _ false (fl pr)) by (rewrite map_length; apply nth_error_Some; congruence).
    rewrite map_nth, (nth_error_nth _ _ _ H). apply K. eapply nth_error_In, H.
  - intros i j. unfold active_pairs. rewrite CB, in_map_iff. split.
    + intros (y & E1 & H). apply filter_In in H as [H F]. apply in_map_iff in H as ([[i' j'] a] & <- & HP). cbn [fst snd] in *.
      injection E1 as -> ->. exists a. split; [exact HP|]. apply (K _ HP), F.
    + intros (a & HP & D). exists ((i, j, a), fl (i, j, a)). split; [reflexivity|]. apply filter_In. split; [apply in_map_iff; exists (i, j, a); auto|].
      apply (K _ HP), D.
Qed.
Print Assumptions coll_error_partial.

(** ** The gradient and the Jacobian *)

Lemma nonempty_states E (sts : list jstate) : coll_wf E -> length sts = length (co_sk E) -> sts = [] -> co_pairs E = [].
Proof. intros W L ->. apply (no_pairs E W). destruct (co_sk E); [reflexivity|discriminate L]. Qed.

Section Grad.
Context (E : coll_fn) (p : list R) (i : nat) (q : R -> list R) (sts : R -> list jstate) (N : cpair -> R * R).
Context (W : coll_wf E) (WP : pt_wf (co_pt E)) (V : parents_first (sk_parents (co_sk E))) (U : unit_prerotations (co_sk E))
  (Lp : length p = pt_cols (co_pt E)) (Hi : (i < pt_cols (co_pt E))%nat) (EN : co_enabled E i = true) (EP : 0 < co_eps E)
  (Hq : forall t, pt_apply (co_pt E) (set_nth p i t) = Ok (q t))
  (Hs : forall t, fk (co_sk E) (q t) = Ok (sts t)).
Local Notation x0 := (nth i p 0).
Local Notation LS := (path_len E V q sts Hs).
Local Notation LQ := (path_qlen' E WP p i q Hq).

Lemma gradient_loop g : length g = pt_cols (co_pt E) ->
  coll_gradient E (q x0) (sts x0) g = coll_grad_loop E (sts x0) (map (cap_st (sts x0)) (co_geo E)) (co_pairs E) g.
Proof.
  intros _. unfold coll_gradient. destruct (sts x0) as [|s0 r] eqn:Q.
  - rewrite (nonempty_states E (sts x0) W (LS x0) Q). reflexivity.
  - rewrite <- Q. rewrite LQ, (cw_pt E W), Nat.mul_comm, Nat.eqb_refl. cbn [check obind]. rewrite (wf_update E W (sts x0) (LS x0)). reflexivity.
Qed.
Lemma jacobian_loop :
  coll_jacobian E (q x0) (sts x0) = coll_jac_loop E (sts x0) (map (cap_st (sts x0)) (co_geo E)) (co_pairs E).
Proof.
  unfold coll_jacobian. destruct (sts x0) as [|s0 r] eqn:Q.
  - rewrite (nonempty_states E (sts x0) W (LS x0) Q). reflexivity.
  - rewrite <- Q. rewrite LQ, (cw_pt E W), Nat.mul_comm, Nat.eqb_refl. cbn [check obind]. rewrite (wf_update E W (sts x0) (LS x0)). reflexivity.
Qed.
Lemma error_path x : exists act, coll_error E (q x) (sts x) =
  Ok (5 / 1000 * co_weight E * rsum (map (fun pr => rep_depth E (sts x) pr * rep_depth E (sts x) pr) (co_pairs E)), act).
Proof. eexists. apply (coll_error_ok' E (sts x) (q x) W (LS x) (LQ x)). Qed.
End Grad.

(** C17, C103. The gradient is the derivative of the penalty measured at fixed axis points, if the
    parameter scales no capsule. *)
Theorem coll_gradient_frozen E p i q sts N g :
  coll_wf E -> pt_wf (co_pt E) -> parents_first (sk_parents (co_sk E)) -> unit_prerotations (co_sk E) ->
  length p = pt_cols (co_pt E) -> length g = length p -> (i < length p)%nat -> co_enabled E i = true -> 0 < co_eps E ->
  (forall t, pt_apply (co_pt E) (set_nth p i t) = Ok (q t)) -> (forall t, fk (co_sk E) (q t) = Ok (sts t)) ->
  (forall pr a b, In pr (co_pairs E) -> capsules_of E pr a b ->
     keeps_size E i a /\ keeps_size E i b /\ settled (co_eps E) (sts (nth i p 0)) a b (fst (N pr)) (snd (N pr))) ->
  exists e act g', coll_gradient E (q (nth i p 0)) (sts (nth i p 0)) g = Ok (e, act, g') /\ length g' = length g /\
    coll_error E (q (nth i p 0)) (sts (nth i p 0)) = Ok (e, act) /\
    is_derive (fun x => coll_penalty E (sts x) N) (nth i p 0) (nth i g' 0 - nth i g 0).
Proof.
  intros W WP V U Lp Lg Hi EN EP Hq Hs ST. rewrite Lp in *.
  destruct (grad_loop_ok E W WP V U p i q sts Lp Hi EN Hq Hs N (co_pairs E) EP) with (g := g) as (g' & D & G1 & G2 & G3 & G4 & _); [|exact Lg|].
  { intros pr HP. split; [exact HP|]. intros a b C. apply (ST pr a b HP C). }
  eexists. eexists. exists g'. split; [rewrite (gradient_loop E p i q sts W WP V Hq Hs g Lg); exact G1|]. split; [exact G2|].
  split; [apply (coll_error_ok' E _ _ W (path_len E V q sts Hs _) (path_qlen' E WP p i q Hq _))|].
  rewrite G3. unfold coll_penalty. apply d_scal, G4.
Qed.
Print Assumptions coll_gradient_frozen.

(** C17, C103. The gradient is the derivative of getError if the capsules have equal radii at both ends,
    are not scaled by the parameter, and no pair is at the edge of parallel or crossing axes. Missing: the
    other cases, see [coll_taper_refuted] and [coll_scale_refuted]. *)
Theorem coll_gradient_partial E p i q sts N g :
  coll_wf E -> pt_wf (co_pt E) -> parents_first (sk_parents (co_sk E)) -> unit_prerotations (co_sk E) ->
  length p = pt_cols (co_pt E) -> length g = length p -> (i < length p)%nat -> co_enabled E i = true -> 0 < co_eps E ->
  (forall t, pt_apply (co_pt E) (set_nth p i t) = Ok (q t)) -> (forall t, fk (co_sk E) (q t) = Ok (sts t)) ->
  (forall pr a b, In pr (co_pairs E) -> capsules_of E pr a b ->
     keeps_size E i a /\ keeps_size E i b /\ untapered a /\ untapered b /\
     settled_strictly (co_eps E) (sts (nth i p 0)) a b (fst (N pr)) (snd (N pr))) ->
  exists F act g', (forall x, exists act, coll_error E (q x) (sts x) = Ok (F x, act)) /\
    coll_gradient E (q (nth i p 0)) (sts (nth i p 0)) g = Ok (F (nth i p 0), act, g') /\ length g' = length g /\
    is_derive F (nth i p 0) (nth i g' 0 - nth i g 0).
Proof.
  intros W WP V U Lp Lg Hi EN EP Hq Hs ST. rewrite Lp in *.
  destruct (grad_loop_ok E W WP V U p i q sts Lp Hi EN Hq Hs N (co_pairs E) EP) with (g := g) as (g' & D & G1 & G2 & G3 & _ & G5); [|exact Lg|].
  { intros pr HP. split; [exact HP|]. intros a b C. destruct (ST pr a b HP C) as (K1 & K2 & _ & _ & S). split; [exact K1|]. split; [exact K2|].
    apply settled_weaken, S. }
  exists (fun x => 5 / 1000 * co_weight E * rsum (map (fun pr => rep_depth E (sts x) pr * rep_depth E (sts x) pr) (co_pairs E))).
  eexists. exists g'. split; [apply (error_path E p i q sts W WP V Hq Hs)|].
  split; [rewrite (gradient_loop E p i q sts W WP V Hq Hs g Lg); exact G1|]. split; [exact G2|].
  rewrite G3. apply d_scal, G5. intros pr HP a b C. destruct (ST pr a b HP C) as (_ & _ & T1 & T2 & S). auto.
Qed.
Print Assumptions coll_gradient_partial.

(** C18, C103. The Jacobian: at most one row per pair, as getJacobianSize says; the squares of the
    residuals add up to the error; J^T r is the derivative of the error itself, not half of it. *)
Theorem coll_jacobian_partial E p i q sts N :
  coll_wf E -> pt_wf (co_pt E) -> parents_first (sk_parents (co_sk E)) -> unit_prerotations (co_sk E) ->
  length p = pt_cols (co_pt E) -> (i < length p)%nat -> co_enabled E i = true -> 0 < co_eps E -> 0 <= co_weight E ->
  (forall t, pt_apply (co_pt E) (set_nth p i t) = Ok (q t)) -> (forall t, fk (co_sk E) (q t) = Ok (sts t)) ->
  (forall pr a b, In pr (co_pairs E) -> capsules_of E pr a b ->
     keeps_size E i a /\ keeps_size E i b /\ untapered a /\ untapered b /\
     settled_strictly (co_eps E) (sts (nth i p 0)) a b (fst (N pr)) (snd (N pr))) ->
  exists F act rows, (forall x, exists act, coll_error E (q x) (sts x) = Ok (F x, act)) /\
    coll_jacobian E (q (nth i p 0)) (sts (nth i p 0)) = Ok (F (nth i p 0), act, rows) /\
    (length rows <= coll_jacobian_size E)%nat /\ (forall row, In row rows -> length (fst row) = pt_cols (co_pt E)) /\
    rsum (map (fun row => snd row * snd row) rows) = F (nth i p 0) /\
    is_derive F (nth i p 0) (jt_r rows i).
Proof.
  intros W WP V U Lp Hi EN EP WG Hq Hs ST. rewrite Lp in *.
  destruct (jac_loop_ok E W WP V U p i q sts Lp Hi EN Hq Hs N (co_pairs E) EP WG) as (rows & D & G1 & G2 & G3 & G4 & G5 & _ & G7).
  { intros pr HP. split; [exact HP|]. intros a b C. destruct (ST pr a b HP C) as (K1 & K2 & _ & _ & S). split; [exact K1|]. split; [exact K2|].
    apply settled_weaken, S. }
  exists (fun x => 5 / 1000 * co_weight E * rsum (map (fun pr => rep_depth E (sts x) pr * rep_depth E (sts x) pr) (co_pairs E))).
  eexists. exists rows. split; [apply (error_path E p i q sts W WP V Hq Hs)|].
  split; [rewrite (jacobian_loop E p i q sts W WP V Hq Hs); exact G1|]. split; [exact G2|]. split; [exact G3|]. split; [exact G4|].
  rewrite G5. apply d_scal, G7. intros pr HP a b C. destruct (ST pr a b HP C) as (_ & _ & T1 & T2 & S). auto.
Qed.
Print Assumptions coll_jacobian_partial.

(** ** Cases *)

(** A root with two children. Joint 1 is displaced by [h] along z; the single parameter is its
    translation along x (row 7) or its scale (row 13). Capsule 0 is on joint 1, capsule 1 on joint 2. *)
Definition cx_sk (h : R) : skeleton := [Joint None vzero qid; Joint (Some 0%nat) (V3 0 0 h) qid; Joint (Some 0%nat) vzero qid].
Definition cx_pt (r : nat) : ptransform := PT ["p"]%string 21 1 [Entry r 0 1] (repeat 0 21) (repeat true 21) [] [] [] [].
Definition cx_q (r : nat) (x : R) : list R :=
  [0; 0; 0; 0; 0; 0; 0; (if Nat.eqb r 7 then x else 0); 0; 0; 0; 0; 0; (if Nat.eqb r 13 then x else 0); 0; 0; 0; 0; 0; 0; 0].
Definition cx_state (x h y : R) : jstate :=
  JS (tf_linear (TF qid (V3 x 0 h) (exp2 y))) (TF qid (V3 x 0 h) (exp2 y)) (TF qid (V3 x 0 h) (exp2 y)) mid mid.
Definition cx_sts (h : R) (r : nat) (x : R) : list jstate :=
  [exc_state 0; (if Nat.eqb r 7 then cx_state x h 0 else cx_state 0 h x); cx_state 0 0 0].

Lemma cx_pt_wf r : (r < 21)%nat -> pt_wf (cx_pt r).
Proof.
  intros H. constructor; try reflexivity; try (intros; contradiction).
  - cbn [cx_pt pt_cols]. unfold kMaxModelParams. lia.
  - intros e He. cbn in He. destruct He as [<-|[]]; cbn; lia.
Qed.
Lemma cx_sk_ok h : parents_first (sk_parents (cx_sk h)) /\ unit_prerotations (cx_sk h) /\ single_root (sk_parents (cx_sk h)).
Proof.
  split; [intros [|[|[|[|i]]]] q H; cbn in H; try discriminate; injection H as <-; lia|]. split.
  - intros [|[|[|[|i]]]] jt H; cbn in H; try discriminate; injection H as <-; unfold qunit, qnorm2; cbn; lra.
  - intros [|[|[|[|i]]]] H; cbn in H; try discriminate; try reflexivity; lia.
Qed.
Lemma cx_apply r x : (r = 7 \/ r = 13)%nat -> pt_apply (cx_pt r) [x] = Ok (cx_q r x).
Proof.
  intros [-> | ->]; unfold pt_apply; cbn [cx_pt pt_cols pt_offsets pt_rows List.length Nat.eqb check obind repeat negb];
  unfold mat_vec, row_dot; cbn [pt_rows cx_pt pt_entries map seq erow ecol eval Nat.eqb filter rsum nth vadd_list];
  unfold vadd_list; cbn [map combine fst snd]; unfold cx_q; cbn [Nat.eqb]; f_equal; rewrite !Rplus_0_r, Rmult_1_l; reflexivity.
Qed.
Lemma cx_jss x h y : joint_state_set (Joint (Some 0%nat) (V3 0 0 h) qid) (JP x 0 0 0 0 0 y) (Some (exc_state 0)) = cx_state x h y.
Proof.
  unfold joint_state_set. cbn [jtx jty jtz jrx jry jrz jsc jprerot joffset js_world js_linear exc_state]. cbv zeta.
  rewrite !qaxis_0, !qmul_id_l. unfold tf_affine, tf_mul. cbn [rot trans scl alin].
  rewrite !qmul_id_l, !qrot_id, ?vscale_1, ?Rmult_1_l. change (V3 0 0 0) with vzero. rewrite !vadd_0_l.
  assert (V : vadd (V3 0 0 h) (V3 x 0 0) = V3 x 0 h) by (unfold vadd; cbn; f_equal; ring). rewrite V. unfold cx_state, mid.  reflexivity.
Qed.
Lemma cx_fk h r x : (r = 7 \/ r = 13)%nat -> fk (cx_sk h) (cx_q r x) = Ok (cx_sts h r x).
Proof.
  intros H. unfold fk, cx_q, cx_sts. cbn [List.length cx_sk Nat.mul Nat.add Nat.eqb fk_from jparent obind app].
  unfold jparam_at. cbn [Nat.mul Nat.add nth]. rewrite exc_jss. cbn [rd nth_error obind fk_from app jparent].
  rewrite cx_jss. cbn [rd nth_error obind fk_from app jparent]. change vzero with (V3 0 0 0). rewrite cx_jss.
  destruct H as [-> | ->]; reflexivity.
Qed.

Definition my : mat3 := M3 (V3 0 1 0) (V3 (-1) 0 0) (V3 0 0 1).
Definition mz : mat3 := M3 (V3 0 0 1) (V3 0 1 0) (V3 (-1) 0 0).
Definition mback : mat3 := M3 (V3 (-1) 0 0) (V3 0 (-1) 0) (V3 0 0 1).
Definition cx_cap (j : nat) (m : mat3) (o : vec3) (r0 r1 : R) : capsule := Cap (Aff m o) r0 r1 (Some j) 2.
Definition cx_E (h : R) (r : nat) (a b : capsule) : coll_fn :=
  Coll (cx_sk h) (cx_pt r) [a; b] [(0%nat, 1%nat, Some 0%nat)] 1 (fun _ => true) (repeat true 21) (/ 100000000).

Lemma cx_chains h : chain (cx_sk h) 1 [0; 1]%nat /\ chain (cx_sk h) 2 [0; 2]%nat.
Proof.
  assert (C : chain (cx_sk h) 0 [0%nat]) by (eapply chain_root; reflexivity).
  split; [apply (chain_child (cx_sk h) 1 (Joint (Some 0%nat) (V3 0 0 h) qid) 0 [0%nat] eq_refl eq_refl C)|
          apply (chain_child (cx_sk h) 2 (Joint (Some 0%nat) vzero qid) 0 [0%nat] eq_refl eq_refl C)].
Qed.
Lemma cx_wf h r m1 o1 a0 a1 m2 o2 b0 b1 : (r < 21)%nat -> coll_wf (cx_E h r (cx_cap 1 m1 o1 a0 a1) (cx_cap 2 m2 o2 b0 b1)).
Proof.
  intros Hr. constructor; try reflexivity.
  - intros e H _. cbn in H. destruct H as [<-|[]]. cbn [erow]. do 21 (destruct r as [|r]; [reflexivity|]). lia.
  - intros c H. cbn in H. destruct H as [<-|[<-|[]]]; eexists; (split; [reflexivity|cbn; lia]).
  - intros pr H. cbn in H. destruct H as [<-|[]]. eexists. eexists. exists 0%nat, 1%nat, 2%nat. split; [split; reflexivity|].
    split; [reflexivity|]. split; [reflexivity|]. split; [reflexivity|]. destruct (cx_chains h) as [C1 C2].
    split; [exists [0; 1]%nat; split; [exact C1|left; reflexivity]|exists [0; 2]%nat; split; [exact C2|left; reflexivity]].
Qed.

Lemma cx_err h r a b x s t : (r = 7 \/ r = 13)%nat -> coll_wf (cx_E h r a b) -> settled (/ 100000000) (cx_sts h r x) a b s t ->
  exists act, coll_error (cx_E h r a b) (cx_q r x) (cx_sts h r x) = Ok (5 / 1000 * excess2 (depth (cx_sts h r x) a b s t), act) /\
    (nth 0 act false = true <-> 0 < depth (cx_sts h r x) a b s t).
Proof.
  intros Hr W ST.
  destruct (coll_error_partial (cx_E h r a b) (cx_q r x) (cx_sts h r x) (fun _ => (s, t)) W eq_refl eq_refl) as (act & E1 & _ & E2 & _).
  - intros pr a' b' H [C1 C2]. cbn in H. destruct H as [<-|[]]. cbn in C1, C2. injection C1 as <-. injection C2 as <-. exact ST.
  - exists act. split; [rewrite E1; unfold coll_penalty; cbn [cx_E co_weight co_pairs map rsum depth_at co_geo fst snd nth_error];
      do 2 f_equal; ring|]. apply (E2 0%nat (0%nat, 1%nat, Some 0%nat)). reflexivity.
Qed.
Lemma dist_at u v w d : 0 <= d -> u * u + v * v + w * w = d * d -> sqrt (vnorm2 (V3 u v w)) = d.
Proof. intros P H. unfold vnorm2, vdot; cbn. rewrite H. apply sqrt_square, P. Qed.

(** Capsule 0 along y at distance x + 10 from capsule 1 along z, radii 1/2. *)
Definition cy : capsule := cx_cap 1 my (V3 10 (-1) 0) (1 / 2) (1 / 2).
Definition cz : capsule := cx_cap 2 mz (V3 0 0 (-1)) (1 / 2) (1 / 2).
Lemma cy_point x s : cap_point (cx_sts 0 7 x) cy s = V3 (x + 10) (2 * s - 1) 0.
Proof.
  unfold cap_point, world_point, tf_point. cbn [cy cx_cap cap_parent cap_tf cap_length nth_error cx_sts Nat.eqb cx_state js_world scl rot trans].
  rewrite exp2_0. lazy -[Rplus Rmult Rminus Ropp]. f_equal; ring.
Qed.
Lemma cz_point x t : cap_point (cx_sts 0 7 x) cz t = V3 0 0 (2 * t - 1).
Proof.
  unfold cap_point, world_point, tf_point. cbn [cz cx_cap cap_parent cap_tf cap_length nth_error cx_sts Nat.eqb cx_state js_world scl rot trans].
  rewrite exp2_0. lazy -[Rplus Rmult Rminus Ropp]. f_equal; ring.
Qed.
Lemma cy_radius x s : cap_radius (cx_sts 0 7 x) cy s = 1 / 2.
Proof. unfold cap_radius, cap_scale. cbn. rewrite exp2_0. field. Qed.
Lemma cz_radius x s : cap_radius (cx_sts 0 7 x) cz s = 1 / 2.
Proof. unfold cap_radius, cap_scale. cbn. rewrite exp2_0. field. Qed.
Lemma cyz_nearest x : nearest (cx_sts 0 7 x) cy cz (1 / 2) (1 / 2).
Proof.
  split; [unfold in_unit; lra|]. split; [unfold in_unit; lra|]. intros s t _ _. unfold axis_dist. rewrite !cy_point, !cz_point.
  apply sqrt_le_1_alt. unfold vnorm2, vdot, vsub; cbn. pose proof (sq_pos (2 * s - 1)). pose proof (sq_pos (2 * t - 1)). lra.
Qed.
Lemma cyz_dist x : 0 <= x + 10 -> axis_dist (cx_sts 0 7 x) cy cz (1 / 2) (1 / 2) = x + 10.
Proof. intros P. unfold axis_dist. rewrite cy_point, cz_point. unfold vsub; cbn. apply dist_at; [exact P|field]. Qed.
Lemma cyz_settled x : / 100000000 < x + 10 -> settled_strictly (/ 100000000) (cx_sts 0 7 x) cy cz (1 / 2) (1 / 2).
Proof.
  intros P. split; [unfold in_unit; lra|]. split; [unfold in_unit; lra|].
  split; [unfold cap_girth; rewrite !cy_radius, !cz_radius, !Rmax_left by lra; lra|]. right. split; [apply cyz_nearest|].
  split; [rewrite cyz_dist; lra|]. unfold cap_axis. rewrite !cy_point, !cz_point.
  unfold spread_area2, strictly_clear, vnorm2, vcross, vdot, vsub; cbn. split; [lra|]. split; right; lra.
Qed.
Lemma cyz_depth x : 0 <= x + 10 -> depth (cx_sts 0 7 x) cy cz (1 / 2) (1 / 2) = - 9 - x.
Proof. intros P. unfold depth. rewrite cyz_dist, cy_radius, cz_radius by exact P. field. Qed.
Lemma cyz_wf : coll_wf (cx_E 0 7 cy cz).
Proof. apply cx_wf. lia. Qed.

(** In the rest pose the capsules are 10 apart; the pair is tested. *)
Lemma cx_offsets r : pt_offsets (cx_pt r) = cx_q 0 0.
Proof. reflexivity. Qed.
Example cx_pairs : exists prs, collision_pairs (/ 100000000) (cx_sk 0) (cx_pt 7) [cy; cz] = Ok prs /\ In (0%nat, 1%nat, Some 0%nat) prs.
Proof.
  destruct (coll_pairs (/ 100000000) (cx_sk 0) (cx_pt 7) [cy; cz] (cx_sts 0 7 0)) as (prs & P1 & _ & P3).
  - apply cx_sk_ok.
  - apply cx_sk_ok.
  - intros c H. cbn in H. destruct H as [<-|[<-|[]]]; eexists; (split; [reflexivity|cbn; lia]).
  - reflexivity.
  - apply (cx_fk 0 7 0). left; reflexivity.
  - intros i j a b L Ha Hb. exists (1 / 2), (1 / 2). destruct i as [|[|[|i]]], j as [|[|[|j]]]; cbn in Ha, Hb; try discriminate; try lia.
    injection Ha as <-. injection Hb as <-. apply settled_weaken, cyz_settled. lra.
  - exists prs. split; [exact P1|]. apply P3. split; [lia|]. exists cy, cz, 1%nat, 2%nat, 0%nat, 2%nat. do 4 (split; [reflexivity|]).
    split; [|split; [lia|split; [reflexivity|]]].
    + destruct (cx_chains 0) as [C1 C2]. exists [], [1%nat], [2%nat]. split; [exact C1|]. split; [exact C2|]. split; [|reflexivity].
      intros x y ra rb E1 E2. injection E1 as <- _. injection E2 as <- _. lia.
    + exists (1 / 2), (1 / 2). split; [apply settled_weaken, cyz_settled; lra|]. rewrite cyz_depth; lra.
Qed.
(** Half a unit apart they overlap by half a unit. *)
Example cx_error : exists act, coll_error (cx_E 0 7 cy cz) (cx_q 7 (- (19 / 2))) (cx_sts 0 7 (- (19 / 2))) = Ok (5 / 1000 * (1 / 4), act) /\ nth 0 act false = true.
Proof.
  destruct (cx_err 0 7 cy cz (- (19 / 2)) (1 / 2) (1 / 2)) as (act & E1 & E2); [left; reflexivity|apply cyz_wf|apply settled_weaken, cyz_settled; lra|].
  exists act. rewrite cyz_depth in E1, E2 by lra. rewrite E1, excess2_pos by lra. split; [do 2 f_equal; field|]. apply E2. lra.
Qed.
Lemma cx_hyps r h a b (Hr : (r = 7 \/ r = 13)%nat) : pt_wf (co_pt (cx_E h r a b)) /\ parents_first (sk_parents (co_sk (cx_E h r a b))) /\
  unit_prerotations (co_sk (cx_E h r a b)) /\
  (forall y t, pt_apply (co_pt (cx_E h r a b)) (set_nth [y] 0 t) = Ok (cx_q r t)) /\ (forall t, fk (co_sk (cx_E h r a b)) (cx_q r t) = Ok (cx_sts h r t)).
Proof.
  destruct (cx_sk_ok h) as (H1 & H2 & _).
  split; [apply cx_pt_wf; lia|]. split; [exact H1|]. split; [exact H2|]. split; intros; [apply cx_apply|apply cx_fk]; exact Hr.
Qed.
Lemma cx_keeps h a b c : keeps_size (cx_E h 7 a b) 0 c.
Proof. intros j Pj ch k en Hc Hk He Er Ec. cbn in He. destruct He as [<-|[]]. cbn [erow] in Er. lia. Qed.
(** The gradient and the Jacobian there: -0.005. *)
Example cx_gradient : exists F act g' act' rows,
  coll_gradient (cx_E 0 7 cy cz) (cx_q 7 (- (19 / 2))) (cx_sts 0 7 (- (19 / 2))) [7] = Ok (F, act, g') /\ nth 0 g' 0 = 7 - 5 / 1000 /\
  coll_jacobian (cx_E 0 7 cy cz) (cx_q 7 (- (19 / 2))) (cx_sts 0 7 (- (19 / 2))) = Ok (F, act', rows) /\ jt_r rows 0 = - (5 / 1000).
Proof.
  destruct (cx_hyps 7 0 cy cz (or_introl eq_refl)) as (H1 & H2 & H3 & H4 & H5).
  assert (ST : forall pr a b, In pr (co_pairs (cx_E 0 7 cy cz)) -> capsules_of (cx_E 0 7 cy cz) pr a b ->
     keeps_size (cx_E 0 7 cy cz) 0 a /\ keeps_size (cx_E 0 7 cy cz) 0 b /\ untapered a /\ untapered b /\
     settled_strictly (co_eps (cx_E 0 7 cy cz)) (cx_sts 0 7 (nth 0 [- (19 / 2)] 0)) a b (fst (1 / 2, 1 / 2)) (snd (1 / 2, 1 / 2))).
  { intros pr a b H [C1 C2]. cbn in H. destruct H as [<-|[]]. cbn in C1, C2. injection C1 as <-. injection C2 as <-.
    split; [apply cx_keeps|]. split; [apply cx_keeps|]. split; [reflexivity|]. split; [reflexivity|]. apply cyz_settled. cbn. lra. }
  destruct (coll_gradient_partial (cx_E 0 7 cy cz) [- (19 / 2)] 0 (cx_q 7) (cx_sts 0 7) (fun _ => (1 / 2, 1 / 2)) [7]
    cyz_wf H1 H2 H3 eq_refl eq_refl ltac:(cbn; lia) eq_refl ltac:(cbn; lra) (H4 _) H5 ST) as (F & act & g' & F1 & F2 & _ & F3).
  destruct (coll_jacobian_partial (cx_E 0 7 cy cz) [- (19 / 2)] 0 (cx_q 7) (cx_sts 0 7) (fun _ => (1 / 2, 1 / 2))
    cyz_wf H1 H2 H3 eq_refl ltac:(cbn; lia) eq_refl ltac:(cbn; lra) ltac:(cbn; lra) (H4 _) H5 ST) as (F' & act' & rows & G1 & G2 & _ & _ & _ & G3).
  assert (FF : forall x, F x = F' x). { intros x. destruct (F1 x) as [a1 A1]. destruct (G1 x) as [a2 A2]. congruence. }
  cbn [nth] in *. exists (F (- (19 / 2))), act, g', act', rows. split; [exact F2|].
  assert (D : is_derive F (- (19 / 2)) (- (5 / 1000))).
  { apply (is_derive_ext_loc (fun x => 5 / 1000 * ((- 9 - x) * (- 9 - x)))).
    - exists (mkposreal (/ 4) ltac:(lra)). intros t Ht. unfold ball in Ht; cbn in Ht. unfold AbsRing_ball, abs, minus, plus, opp in Ht; cbn in Ht.
      apply Rabs_lt_between in Ht. destruct (F1 t) as [a1 A1].
      destruct (cx_err 0 7 cy cz t (1 / 2) (1 / 2)) as (a2 & A2 & _); [left; reflexivity|apply cyz_wf|apply settled_weaken, cyz_settled; lra|].
      rewrite A2 in A1. injection A1 as A1 _. rewrite <- A1, cyz_depth, excess2_pos by lra. reflexivity.
    - auto_derive; [exact I|]. field. }
  pose proof (is_derive_unique _ _ _ D) as U. rewrite (is_derive_unique _ _ _ F3) in U. split; [lra|].
  split; [rewrite FF; exact G2|]. rewrite <- (is_derive_unique _ _ _ G3), (Derive_ext F' F) by (intros; symmetry; apply FF).
  apply is_derive_unique, D.
Qed.

(** ** What fails *)

(** C103. Two capsules on the two roots of a skeleton: the search for their common ancestor reads past the
    joints. *)
Theorem coll_roots_refuted : exists eps sk pt g, parents_first (sk_parents sk) /\
  (forall c, In c g -> exists j, cap_parent c = Some j /\ (j < length sk)%nat) /\
  length (pt_offsets pt) = pt_rows pt /\ pt_rows pt = (7 * length sk)%nat /\ collision_pairs eps sk pt g = UB.
Proof.
  set (sk := [Joint None vzero qid; Joint None vzero qid]). set (pt := PT ["p"]%string 14 1 [Entry 0 0 1] (repeat 0 14) (repeat true 14) [] [] [] []).
  set (a := cx_cap 0 mid vzero 0 0). set (b := cx_cap 1 mid (V3 0 1 0) 0 0).
  exists 1, sk, pt, [a; b]. split; [intros [|[|[|i]]] q H; cbn in H; discriminate|].
  split; [intros c [<-|[<-|[]]]; eexists; (split; [reflexivity|cbn; lia])|]. split; [reflexivity|]. split; [reflexivity|].
  assert (FK : fk sk (pt_offsets pt) = Ok [exc_state 0; exc_state 0]).
  { unfold fk, sk, pt. cbn [pt_offsets repeat List.length Nat.mul Nat.add Nat.eqb fk_from jparent obind app].
    unfold jparam_at. cbn [Nat.mul Nat.add nth]. rewrite !exc_jss. reflexivity. }
  unfold collision_pairs. change (Nat.eqb (length (pt_offsets pt)) (pt_rows pt)) with true. cbn [check obind]. rewrite FK. cbn [obind].
  rewrite caps_update_ok by (intros c [<-|[<-|[]]]; eexists; eexists; split; reflexivity). cbn [obind List.length seq Nat.sub oconcat].
  unfold pair_body. cbn [rd nth_error map obind].
  destruct (overlaps 1 (cap_st [exc_state 0; exc_state 0] a) (cap_st [exc_state 0; exc_state 0] b)) as [[[dist [s t]] ov]|] eqn:O; [|reflexivity].
  exfalso. destruct (ovl_sound _ _ _ _ _ _ _ _ O) as (_ & _ & _ & D & P & _). subst ov. unfold depth in P.
  assert (R0 : forall c u, c = a \/ c = b -> cap_radius [exc_state 0; exc_state 0] c u = 0).
  { intros c u [-> | ->]; unfold cap_radius; cbn; ring. }
  rewrite !R0 in P by auto. unfold axis_dist in P. pose proof (sqrt_pos (vnorm2 (vsub (cap_point [exc_state 0; exc_state 0] a s) (cap_point [exc_state 0; exc_state 0] b t)))). lra.
Qed.
Print Assumptions coll_roots_refuted.

(** C103. Capsules whose axes cross overlap by their full radii, and yet there is no error. *)
Theorem coll_crossing_refuted : exists E q sts a b s t act, coll_wf E /\ 0 < co_weight E /\ length sts = length (co_sk E) /\ length q = pt_rows (co_pt E) /\
  (exists pr, In pr (co_pairs E) /\ capsules_of E pr a b) /\ nearest sts a b s t /\ depth sts a b s t = 1 /\
  coll_error E q sts = Ok (0, act).
Proof.
  exists (cx_E 0 7 cy cz), (cx_q 7 (-10)), (cx_sts 0 7 (-10)), cy, cz, (1 / 2), (1 / 2), [false].
  split; [apply cyz_wf|]. split; [cbn; lra|]. split; [reflexivity|]. split; [reflexivity|].
  split; [exists (0%nat, 1%nat, Some 0%nat); split; [left; reflexivity|split; reflexivity]|]. split; [apply cyz_nearest|].
  split; [rewrite cyz_depth; lra|]. rewrite (coll_error_ok' (cx_E 0 7 cy cz) (cx_sts 0 7 (-10)) (cx_q 7 (-10)) cyz_wf eq_refl eq_refl). cbn [cx_E co_pairs map rsum co_weight].
  assert (O : reported (cx_E 0 7 cy cz) (cx_sts 0 7 (-10)) (0%nat, 1%nat, Some 0%nat) = None).
  { change (ovl (/ 100000000) (cx_sts 0 7 (-10)) cy cz = None). destruct (ovl _ _ _ _) as [[[dist [s t]] ov]|] eqn:O; [|reflexivity].
    exfalso. destruct (ovl_sound _ _ _ _ _ _ _ _ O) as (_ & _ & D & _ & _ & P).
    assert (O0 : ovl 0 (cx_sts 0 7 (-10)) cy cz = Some (dist, (s, t), ov)).
    { revert O. unfold ovl, overlaps, cap_st. destruct (closest_on_segments _ _ _ _ _) as [[ds [s' t']]|]; [|discriminate].
      intros O. destruct (Rltb_spec 0 (cap_radius (cx_sts 0 7 (-10)) cy 0 + s' * (cap_radius (cx_sts 0 7 (-10)) cy 1 - cap_radius (cx_sts 0 7 (-10)) cy 0) +
        cap_radius (cx_sts 0 7 (-10)) cz 0 + t' * (cap_radius (cx_sts 0 7 (-10)) cz 1 - cap_radius (cx_sts 0 7 (-10)) cz 0) - ds)); [|discriminate O].
      destruct (Rleb_spec (/ 100000000) ds); [|discriminate O]. destruct (Rleb_spec 0 ds); [exact O|lra]. }
    rewrite (settled_ovl 0 (cx_sts 0 7 (-10)) cy cz (1 / 2) (1 / 2)) in O0.
    - destruct (Rltb_spec 0 (depth (cx_sts 0 7 (-10)) cy cz (1 / 2) (1 / 2))); [|discriminate O0]. injection O0 as E1 _ _ _.
      rewrite cyz_dist in E1 by lra. lra.
    - split; [unfold in_unit; lra|]. split; [unfold in_unit; lra|].
      split; [unfold cap_girth; rewrite !cy_radius, !cz_radius, !Rmax_left by lra; lra|]. right. split; [apply cyz_nearest|].
      split; [rewrite cyz_dist; lra|]. unfold cap_axis. rewrite !cy_point, !cz_point.
      unfold spread_area2, clear_of_start, vnorm2, vcross, vdot, vsub; cbn. split; [lra|]. split; right; lra. }
  unfold rep_depth. rewrite O. apply (f_equal (@Ok (R * list bool))), (f_equal2 pair); [ring|reflexivity].
Qed.
Print Assumptions coll_crossing_refuted.

(** C103. Capsules of radius 3/4 that lie side by side at distance 1, one pointing forwards and the other
    backwards, overlap over their whole length, and yet there is no error. *)
Definition cp_a : capsule := cx_cap 1 mid vzero (3 / 4) (3 / 4).
Definition cp_b : capsule := cx_cap 2 mback (V3 2 1 0) (3 / 4) (3 / 4).
Lemma cp_a_point s : cap_point (cx_sts 0 7 0) cp_a s = V3 (2 * s) 0 0.
Proof.
  unfold cap_point, world_point, tf_point. cbn [cp_a cx_cap cap_parent cap_tf cap_length nth_error cx_sts Nat.eqb cx_state js_world scl rot trans].
  rewrite exp2_0. lazy -[Rplus Rmult Rminus Ropp]. f_equal; ring.
Qed.
Lemma cp_b_point s : cap_point (cx_sts 0 7 0) cp_b s = V3 (2 - 2 * s) 1 0.
Proof.
  unfold cap_point, world_point, tf_point. cbn [cp_b cx_cap cap_parent cap_tf cap_length nth_error cx_sts Nat.eqb cx_state js_world scl rot trans].
  rewrite exp2_0. lazy -[Rplus Rmult Rminus Ropp]. f_equal; ring.
Qed.
Lemma cp_radius s : cap_radius (cx_sts 0 7 0) cp_a s = 3 / 4 /\ cap_radius (cx_sts 0 7 0) cp_b s = 3 / 4.
Proof. split; unfold cap_radius, cap_scale; cbn; rewrite exp2_0; field. Qed.
Theorem coll_parallel_refuted : exists E q sts a b act, coll_wf E /\ 0 < co_weight E /\ length sts = length (co_sk E) /\ length q = pt_rows (co_pt E) /\
  (exists pr, In pr (co_pairs E) /\ capsules_of E pr a b) /\ (forall s, depth sts a b s (1 - s) = 1 / 2) /\
  coll_error E q sts = Ok (0, act).
Proof.
  assert (W : coll_wf (cx_E 0 7 cp_a cp_b)) by (apply cx_wf; lia).
  exists (cx_E 0 7 cp_a cp_b), (cx_q 7 0), (cx_sts 0 7 0), cp_a, cp_b, [false].
  split; [exact W|]. split; [cbn; lra|]. split; [reflexivity|]. split; [reflexivity|].
  split; [exists (0%nat, 1%nat, Some 0%nat); split; [left; reflexivity|split; reflexivity]|]. split.
  - intros s. unfold depth, axis_dist. destruct (cp_radius s) as [R1 _]. destruct (cp_radius (1 - s)) as [_ R2]. rewrite R1, R2, cp_a_point, cp_b_point.
    unfold vsub; cbn. rewrite (dist_at _ _ _ 1) by lra. field.
  - rewrite (coll_error_ok' (cx_E 0 7 cp_a cp_b) (cx_sts 0 7 0) (cx_q 7 0) W eq_refl eq_refl). cbn [cx_E co_pairs map rsum co_weight].
    assert (O : reported (cx_E 0 7 cp_a cp_b) (cx_sts 0 7 0) (0%nat, 1%nat, Some 0%nat) = None).
    { change (overlaps (/ 100000000) (cap_st (cx_sts 0 7 0) cp_a) (cap_st (cx_sts 0 7 0) cp_b) = None). unfold cap_st, cap_axis, overlaps.
      rewrite !cp_a_point, !cp_b_point. destruct (cp_radius 0) as [Q1 Q2]. destruct (cp_radius 1) as [Q3 Q4]. rewrite Q1, Q2, Q3, Q4, Rmax_left by lra.
      unfold closest_on_segments, seg_lines, vzero, vnorm2, vdot, vsub; cbn [vx vy vz].
      match goal with |- context [Rltb ?x kSegEps] => destruct (Rltb_spec x kSegEps) as [_|F]; [|unfold kSegEps in F; lra] end.
      match goal with |- context [if Rltb ?u ?v then None else _] => destruct (Rltb_spec u v) as [_|F]; [reflexivity|lra] end. }
    unfold rep_depth. rewrite O. apply (f_equal (@Ok (R * list bool))), (f_equal2 pair); [ring|reflexivity].
Qed.
Print Assumptions coll_parallel_refuted.

(** ** Capsule 0 along x, half a unit above capsule 1 along y. *)
Definition ct (r0 r1 : R) : capsule := cx_cap 1 mid (V3 (-1) 0 0) r0 r1.
Definition cb : capsule := cx_cap 2 my (V3 0 (-1) 0) 1 1.
Lemma cb_point r x t : cap_point (cx_sts (1 / 2) r x) cb t = V3 0 (2 * t - 1) 0.
Proof.
  unfold cap_point, world_point, tf_point. cbn [cb cx_cap cap_parent cap_tf cap_length nth_error cx_sts cx_state js_world scl rot trans].
  rewrite exp2_0. lazy -[Rplus Rmult Rminus Ropp]. f_equal; ring.
Qed.
Lemma cb_radius r x s : cap_radius (cx_sts (1 / 2) r x) cb s = 1.
Proof. unfold cap_radius, cap_scale. cbn [cb cx_cap cap_r0 cap_r1 cap_parent cx_sts nth_error cx_state js_world scl]. rewrite exp2_0. ring. Qed.
Lemma ct_point r0 r1 x s : cap_point (cx_sts (1 / 2) 7 x) (ct r0 r1) s = V3 (x + (2 * s - 1)) 0 (1 / 2).
Proof.
  unfold cap_point, world_point, tf_point. cbn [ct cx_cap cap_parent cap_tf cap_length nth_error cx_sts Nat.eqb cx_state js_world scl rot trans].
  rewrite exp2_0. lazy -[Rplus Rmult Rminus Ropp Rdiv]. f_equal; field.
Qed.
Lemma ct_radius r0 r1 x s : cap_radius (cx_sts (1 / 2) 7 x) (ct r0 r1) s = (1 - s) * r0 + s * r1.
Proof. unfold cap_radius, cap_scale. cbn [ct cx_cap cap_r0 cap_r1 cap_parent cx_sts nth_error cx_state Nat.eqb js_world scl]. rewrite exp2_0. ring. Qed.
Lemma ct_settled x : - / 2 < x < / 2 -> settled_strictly (/ 100000000) (cx_sts (1 / 2) 7 x) (ct 1 2) cb ((1 - x) / 2) (1 / 2).
Proof.
  intros P. assert (D : axis_dist (cx_sts (1 / 2) 7 x) (ct 1 2) cb ((1 - x) / 2) (1 / 2) = 1 / 2).
  { unfold axis_dist. rewrite ct_point, cb_point. unfold vsub; cbn. apply dist_at; [lra|field]. }
  split; [unfold in_unit; lra|]. split; [unfold in_unit; lra|].
  split; [unfold cap_girth; rewrite !cb_radius, !ct_radius, !Rmax_right by lra; lra|]. right.
  split; [|split; [rewrite D; lra|]].
  - split; [unfold in_unit; lra|]. split; [unfold in_unit; lra|]. intros s t _ _. rewrite D. unfold axis_dist. rewrite ct_point, cb_point.
    rewrite <- (sqrt_square (1 / 2)) at 1 by lra. apply sqrt_le_1_alt. unfold vnorm2, vdot, vsub; cbn.
    pose proof (sq_pos (x + (2 * s - 1) - 0)). pose proof (sq_pos (0 - (2 * t - 1))). lra.
  - unfold cap_axis. rewrite !ct_point, !cb_point.
    unfold spread_area2, strictly_clear, vnorm2, vcross, vdot, vsub; cbn. split; [lra|]. split; right; lra.
Qed.

(** C17, C103. A capsule that is thicker at one end and slides along its own axis: getError changes, and
    the gradient is zero. *)
Theorem coll_taper_refuted : exists E p i q sts g F d e act g',
  coll_wf E /\ pt_wf (co_pt E) /\ parents_first (sk_parents (co_sk E)) /\ unit_prerotations (co_sk E) /\
  length p = pt_cols (co_pt E) /\ (i < length p)%nat /\ co_enabled E i = true /\ 0 < co_eps E /\
  (forall t, pt_apply (co_pt E) (set_nth p i t) = Ok (q t)) /\ (forall t, fk (co_sk E) (q t) = Ok (sts t)) /\
  (forall pr a b, In pr (co_pairs E) -> capsules_of E pr a b ->
     keeps_size E i a /\ keeps_size E i b /\ exists s t, settled_strictly (co_eps E) (sts (nth i p 0)) a b s t) /\
  (forall x, exists act, coll_error E (q x) (sts x) = Ok (F x, act)) /\
  coll_gradient E (q (nth i p 0)) (sts (nth i p 0)) g = Ok (e, act, g') /\
  is_derive F (nth i p 0) d /\ d <> 0 /\ nth i g' 0 - nth i g 0 = 0.
Proof.
  assert (W : coll_wf (cx_E (1 / 2) 7 (ct 1 2) cb)) by (apply cx_wf; lia).
  destruct (cx_hyps 7 (1 / 2) (ct 1 2) cb (or_introl eq_refl)) as (H1 & H2 & H3 & H4 & H5).
  set (F := fun x => match coll_error (cx_E (1 / 2) 7 (ct 1 2) cb) (cx_q 7 x) (cx_sts (1 / 2) 7 x) with Ok (e, _) => e | _ => 0 end).
  destruct (coll_gradient_frozen (cx_E (1 / 2) 7 (ct 1 2) cb) [0] 0 (cx_q 7) (cx_sts (1 / 2) 7) (fun _ => ((1 - 0) / 2, 1 / 2)) [0]
    W H1 H2 H3 eq_refl eq_refl ltac:(cbn; lia) eq_refl ltac:(cbn; lra) (H4 _) H5) as (e & act & g' & G1 & _ & _ & G2).
  { intros pr a b H [C1 C2]. cbn in H. destruct H as [<-|[]]. cbn in C1, C2. injection C1 as <-. injection C2 as <-.
    split; [apply cx_keeps|]. split; [apply cx_keeps|]. apply settled_weaken, ct_settled. cbn. lra. }
  exists (cx_E (1 / 2) 7 (ct 1 2) cb), [0], 0%nat, (cx_q 7), (cx_sts (1 / 2) 7), [0], F, (5 / 1000 * (- 2)), e, act, g'.
  split; [exact W|]. split; [exact H1|]. split; [exact H2|]. split; [exact H3|]. split; [reflexivity|]. split; [cbn; lia|]. split; [reflexivity|].
  split; [cbn; lra|]. split; [exact (H4 0)|]. split; [exact H5|]. split; [|split; [|split; [exact G1|]]].
  - intros pr a b H [C1 C2]. cbn in H. destruct H as [<-|[]]. cbn in C1, C2. injection C1 as <-. injection C2 as <-.
    split; [apply cx_keeps|]. split; [apply cx_keeps|]. exists ((1 - 0) / 2), (1 / 2). apply ct_settled. cbn. lra.
  - intros x. unfold F. rewrite (coll_error_ok' (cx_E (1 / 2) 7 (ct 1 2) cb) (cx_sts (1 / 2) 7 x) (cx_q 7 x) W eq_refl eq_refl). eexists. reflexivity.
  - cbn [nth] in *. split; [|split; [lra|]].
    + apply (is_derive_ext_loc (fun x => 5 / 1000 * ((2 - x / 2) * (2 - x / 2)))).
      * exists (mkposreal (/ 4) ltac:(lra)). intros t Ht. unfold ball in Ht; cbn in Ht. unfold AbsRing_ball, abs, minus, plus, opp in Ht; cbn in Ht.
        apply Rabs_lt_between in Ht. unfold F.
        destruct (cx_err (1 / 2) 7 (ct 1 2) cb t ((1 - t) / 2) (1 / 2)) as (a2 & A2 & _); [left; reflexivity|exact W|apply settled_weaken, ct_settled; lra|].
        rewrite A2. unfold depth, axis_dist. rewrite ct_point, cb_point, ct_radius, cb_radius. unfold vsub; cbn. rewrite (dist_at _ _ _ (1 / 2)) by (lra || field).
        rewrite excess2_pos by lra. field.
      * auto_derive; [exact I|]. field.
    + assert (D : is_derive (fun x => coll_penalty (cx_E (1 / 2) 7 (ct 1 2) cb) (cx_sts (1 / 2) 7 x) (fun _ => ((1 - 0) / 2, 1 / 2))) 0 0).
      { apply (is_derive_ext_loc (fun x => 5 / 1000 * ((5 / 2 - sqrt (x * x + 1 / 4)) * (5 / 2 - sqrt (x * x + 1 / 4))))).
        - exists (mkposreal (/ 4) ltac:(lra)). intros t Ht. unfold ball in Ht; cbn in Ht. unfold AbsRing_ball, abs, minus, plus, opp in Ht; cbn in Ht.
          apply Rabs_lt_between in Ht. unfold coll_penalty. cbn [cx_E co_weight co_pairs map rsum depth_at co_geo fst snd nth_error].
          unfold depth, axis_dist. rewrite ct_point, cb_point, ct_radius, cb_radius. unfold vsub, vnorm2, vdot; cbn.
          match goal with |- context [excess2 (_ - sqrt ?u)] => replace u with (t * t + 1 / 4) by field end.
          assert (S1 : sqrt (t * t + 1 / 4) <= 1). { rewrite <- sqrt_1 at 2. apply sqrt_le_1_alt. assert (t * t <= 1 / 2 * (1 / 2)) by nra. lra. }
          rewrite excess2_pos by lra. field.
        - assert (S1 : sqrt (0 * 0 + 1 / 4) = 1 / 2) by (replace (0 * 0 + 1 / 4) with (1 / 2 * (1 / 2)) by field; apply sqrt_square; lra).
          auto_derive; rewrite ?S1; [repeat split; lra|]. field. }
      pose proof (is_derive_unique _ _ _ D) as U. rewrite (is_derive_unique _ _ _ G2) in U. exact U.
Qed.
Print Assumptions coll_taper_refuted.

(** C17, C103. A parameter that scales a capsule: getError changes with its radius, and the gradient is
    zero. *)
Lemma cs_point x s : cap_point (cx_sts (1 / 2) 13 x) (ct 1 1) s = V3 (exp2 x * (2 * s - 1)) 0 (1 / 2).
Proof.
  unfold cap_point, world_point, tf_point. cbn [ct cx_cap cap_parent cap_tf cap_length nth_error cx_sts Nat.eqb cx_state js_world scl rot trans].
  set (y := exp2 x). clearbody y. lazy -[Rplus Rmult Rminus Ropp Rdiv]. f_equal; field.
Qed.
Lemma cs_radius x s : cap_radius (cx_sts (1 / 2) 13 x) (ct 1 1) s = exp2 x.
Proof. unfold cap_radius, cap_scale. cbn [ct cx_cap cap_r0 cap_r1 cap_parent cx_sts nth_error cx_state Nat.eqb js_world scl]. ring. Qed.
Lemma cs_dist x : axis_dist (cx_sts (1 / 2) 13 x) (ct 1 1) cb (1 / 2) (1 / 2) = 1 / 2.
Proof. unfold axis_dist. rewrite cs_point, cb_point. unfold vsub; cbn. apply dist_at; [lra|field]. Qed.
Lemma cs_settled x : / 2 < exp2 x -> settled_strictly (/ 100000000) (cx_sts (1 / 2) 13 x) (ct 1 1) cb (1 / 2) (1 / 2).
Proof.
  intros P.
  assert (P4 : / 4 < exp2 x * exp2 x) by nra.
  split; [unfold in_unit; lra|]. split; [unfold in_unit; lra|].
  split; [unfold cap_girth; rewrite !cb_radius, !cs_radius, !Rmax_right by lra; lra|]. right.
  split; [|split; [rewrite cs_dist; lra|]].
  - split; [unfold in_unit; lra|]. split; [unfold in_unit; lra|]. intros s t _ _. rewrite cs_dist. unfold axis_dist. rewrite cs_point, cb_point.
    rewrite <- (sqrt_square (1 / 2)) at 1 by lra. apply sqrt_le_1_alt. unfold vnorm2, vdot, vsub; cbn.
    pose proof (sq_pos (exp2 x * (2 * s - 1) - 0)). pose proof (sq_pos (0 - (2 * t - 1))). lra.
  - unfold cap_axis. rewrite !cs_point, !cb_point. set (y := exp2 x) in *. clearbody y.
    unfold spread_area2, strictly_clear, vnorm2, vcross, vdot, vsub; cbn. split; [lra|]. split; right; lra.
Qed.
Theorem coll_scale_refuted : exists E p i q sts g F d e act g',
  coll_wf E /\ pt_wf (co_pt E) /\ parents_first (sk_parents (co_sk E)) /\ unit_prerotations (co_sk E) /\
  length p = pt_cols (co_pt E) /\ (i < length p)%nat /\ co_enabled E i = true /\ 0 < co_eps E /\
  (forall t, pt_apply (co_pt E) (set_nth p i t) = Ok (q t)) /\ (forall t, fk (co_sk E) (q t) = Ok (sts t)) /\
  (forall pr a b, In pr (co_pairs E) -> capsules_of E pr a b ->
     untapered a /\ untapered b /\ exists s t, settled_strictly (co_eps E) (sts (nth i p 0)) a b s t) /\
  (forall x, exists act, coll_error E (q x) (sts x) = Ok (F x, act)) /\
  coll_gradient E (q (nth i p 0)) (sts (nth i p 0)) g = Ok (e, act, g') /\
  is_derive F (nth i p 0) d /\ 0 < d /\ nth i g' 0 - nth i g 0 = 0.
Proof.
  assert (W : coll_wf (cx_E (1 / 2) 13 (ct 1 1) cb)) by (apply cx_wf; lia).
  destruct (cx_hyps 13 (1 / 2) (ct 1 1) cb (or_intror eq_refl)) as (H1 & H2 & H3 & H4 & H5).
  set (F := fun x => match coll_error (cx_E (1 / 2) 13 (ct 1 1) cb) (cx_q 13 x) (cx_sts (1 / 2) 13 x) with Ok (e, _) => e | _ => 0 end).
  assert (O : ovl (/ 100000000) (cx_sts (1 / 2) 13 0) (ct 1 1) cb = Some (1 / 2, (1 / 2, 1 / 2), 3 / 2)).
  { rewrite (settled_ovl _ _ _ _ _ _ (settled_weaken _ _ _ _ _ _ (cs_settled 0 ltac:(rewrite exp2_0; lra)))).
    unfold depth. rewrite cs_dist, cs_radius, cb_radius, exp2_0. replace (1 + 1 - 1 / 2) with (3 / 2) by field.
    destruct (Rltb_spec 0 (3 / 2)); [reflexivity|lra]. }
  exists (cx_E (1 / 2) 13 (ct 1 1) cb), [0], 0%nat, (cx_q 13), (cx_sts (1 / 2) 13), [0], F, (5 / 1000 * (3 * ln 2)). eexists. eexists. eexists.
  split; [exact W|]. split; [exact H1|]. split; [exact H2|]. split; [exact H3|]. split; [reflexivity|]. split; [cbn; lia|]. split; [reflexivity|].
  split; [cbn; lra|]. split; [exact (H4 0)|]. split; [exact H5|]. split; [|split; [|split]].
  - intros pr a b H [C1 C2]. cbn in H. destruct H as [<-|[]]. cbn in C1, C2. injection C1 as <-. injection C2 as <-.
    split; [reflexivity|]. split; [reflexivity|]. exists (1 / 2), (1 / 2). apply cs_settled. cbn [nth]. rewrite exp2_0. lra.
  - intros x. unfold F. rewrite (coll_error_ok' (cx_E (1 / 2) 13 (ct 1 1) cb) (cx_sts (1 / 2) 13 x) (cx_q 13 x) W eq_refl eq_refl). eexists. reflexivity.
  - rewrite (gradient_loop (cx_E (1 / 2) 13 (ct 1 1) cb) [0] 0 (cx_q 13) (cx_sts (1 / 2) 13) W H1 H2 (H4 0) H5 [0] eq_refl). cbn [nth].
    change (co_pairs (cx_E (1 / 2) 13 (ct 1 1) cb)) with [(0%nat, 1%nat, Some 0%nat)]. cbn [coll_grad_loop]. unfold coll_grad1.
    rewrite (pair_overlap_ok (cx_E (1 / 2) 13 (ct 1 1) cb) (cx_sts (1 / 2) 13 0) (0%nat, 1%nat, Some 0%nat) (ct 1 1) cb (conj eq_refl eq_refl)).
    change (co_eps (cx_E (1 / 2) 13 (ct 1 1) cb)) with (/ 100000000). rewrite O. cbn [obind]. rewrite !axis_point_cap, cs_point, cb_point.
    lazy -[Rplus Rmult Rminus Ropp Rinv Rdiv ln IZR exp2 kCollisionWeight]. reflexivity.
  - cbn [nth]. assert (L2 : 0 < ln 2) by (rewrite <- ln_1; apply ln_increasing; lra). split; [|split; [nra|]].
    + apply (is_derive_ext_loc (fun x => 5 / 1000 * ((exp2 x + 1 / 2) * (exp2 x + 1 / 2)))).
      * assert (C : is_derive exp2 0 (ln 2)). { unfold exp2. auto_derive; [exact I|]. rewrite Rmult_0_l, exp_0. ring. }
        pose proof (locally_above exp2 0 _ (/ 2) C ltac:(rewrite exp2_0; lra)) as L.
        eapply filter_imp; [|exact L]. intros t Ht. cbv beta in Ht. unfold F.
        destruct (cx_err (1 / 2) 13 (ct 1 1) cb t (1 / 2) (1 / 2)) as (a2 & A2 & _); [right; reflexivity|exact W|apply settled_weaken, cs_settled; exact Ht|].
        rewrite A2. unfold depth. rewrite cs_dist, cs_radius, cb_radius. rewrite excess2_pos by lra. match goal with |- ?u = ?v => change (@eq R u v) end. field.
      * unfold exp2. auto_derive; [exact I|]. rewrite Rmult_0_l, exp_0. field.
    + field_simplify. lra.
Qed.
Print Assumptions coll_scale_refuted.

(** C18. Twice J^T r is not the gradient, although the residuals' squares add up to the error: the rows are
    twice the derivatives of the residuals. *)
Theorem coll_jacobian_refuted : exists E q sts g e act g' act' rows i,
  coll_wf E /\ pt_wf (co_pt E) /\ parents_first (sk_parents (co_sk E)) /\ unit_prerotations (co_sk E) /\ 0 < co_eps E /\ 0 <= co_weight E /\
  coll_gradient E q sts g = Ok (e, act, g') /\ coll_jacobian E q sts = Ok (e, act', rows) /\
  (i < length g)%nat /\ nth i g' 0 - nth i g 0 <> 2 * jt_r rows i.
Proof.
  destruct cx_gradient as (F & act & g' & act' & rows & G1 & G2 & G3 & G4).
  destruct (cx_hyps 7 0 cy cz (or_introl eq_refl)) as (H1 & H2 & H3 & _ & _).
  exists (cx_E 0 7 cy cz), (cx_q 7 (- (19 / 2))), (cx_sts 0 7 (- (19 / 2))), [7], F, act, g', act', rows, 0%nat.
  split; [apply cyz_wf|]. split; [exact H1|]. split; [exact H2|]. split; [exact H3|]. split; [cbn; lra|]. split; [cbn; lra|].
  split; [exact G1|]. split; [exact G3|]. split; [cbn; lia|]. rewrite G2, G4. cbn [nth]. lra.
Qed.
Print Assumptions coll_jacobian_refuted.
