(** C108: model parameters from joint parameters. *)

From Coq Require Import String Bool Reals List Arith Lia Lra Psatz.
From Verif Require Import Prelude ListUtil LinAlg QR_gen_proofs ParamTransform_model ParamTransform_spec ParamTransform_proofs ParamTransform_props
  InvPT_model InvPT_spec InvPT_proofs.
Import ListNotations.
Local Open Scope list_scope.
Local Open Scope R_scope.

(** Whatever the solver returns, applying the result gives the joint parameters back exactly. *)
Theorem inverse_round_trip pt lsq jp : pt_wf pt -> (forall b, length b = pt_rows pt -> length (lsq b) = pt_cols pt) -> length jp = pt_rows pt ->
  exists pose off, inv_apply lsq pt jp = Ok (pose, off) /\ length pose = pt_cols pt /\ length off = pt_rows pt /\ pt_apply_char pt pose off = Ok jp.
Proof.
  intros W HL Lj. assert (Lo : length (pt_offsets pt) = pt_rows pt) by (apply W). unfold inv_apply. rewrite Lj, Lo, Nat.eqb_refl. cbn [negb].
  set (pose := lsq _). assert (Lp : length pose = pt_cols pt) by (apply HL; rewrite vsub_length; congruence).
  assert (Lm : length jp = length (mat_vec pt pose)) by (rewrite mat_vec_length; exact Lj).
  exists pose, (vsub_list jp (mat_vec pt pose)). split; [reflexivity|]. split; [exact Lp|]. split; [rewrite vsub_length; congruence|].
  unfold pt_apply_char. rewrite Lp, Nat.eqb_refl, vsub_length by exact Lm. cbn [negb]. rewrite Lj, Nat.eqb_refl. cbn [negb].
  rewrite vadd_vsub by exact Lm. destruct (Nat.ltb_spec 0 (pt_rows pt)) as [|Z]; [reflexivity|].
  assert (Z0 : pt_rows pt = 0%nat) by lia. rewrite Z0 in Lj. unfold mat_vec. rewrite Z0. destruct jp; [reflexivity|discriminate Lj].
Qed.
Print Assumptions inverse_round_trip.

(** The pose comes as close to the joint parameters as any. *)
Theorem inverse_best pt lsq jp : pt_wf pt -> solves_lsq pt lsq -> length jp = pt_rows pt ->
  exists pose off q, inv_apply lsq pt jp = Ok (pose, off) /\ pt_apply pt pose = Ok q /\
    forall p' q', pt_apply pt p' = Ok q' -> jdist2 (pt_rows pt) q jp <= jdist2 (pt_rows pt) q' jp.
Proof.
  intros W HS Lj. assert (Lo : length (pt_offsets pt) = pt_rows pt) by (apply W).
  destruct (inverse_round_trip pt lsq jp W (fun b Lb => proj1 (HS b Lb)) Lj) as (pose & off & E & Lp & _).
  destruct (apply_trow pt pose W Lp) as (q & Eq & _ & Hq). exists pose, off, q. split; [exact E|]. split; [exact Eq|].
  intros p' q' E'. assert (Lp' : length p' = pt_cols pt).
  { destruct (Nat.eq_dec (length p') (pt_cols pt)) as [|N]; [assumption|]. rewrite (apply_rejects_wrong_size pt p' N) in E'. discriminate E'. }
  destruct (apply_trow pt p' W Lp') as (q2 & E2 & _ & H2). assert (q2 = q') by congruence. subst q2.
  unfold inv_apply in E. rewrite Lj, Lo, Nat.eqb_refl in E. cbn [negb] in E. injection E as Ep _.
  assert (Lb : length (vsub_list jp (pt_offsets pt)) = pt_rows pt) by (rewrite vsub_length; congruence).
  pose proof (proj2 (HS _ Lb) p' Lp') as M. rewrite Ep in M. unfold jdist2.
  rewrite (sumn_ext _ (fun r => (nth r q 0 - nth r jp 0) * (nth r q 0 - nth r jp 0)) (fun r => (trow pt pose r - nth r (vsub_list jp (pt_offsets pt)) 0) * (trow pt pose r - nth r (vsub_list jp (pt_offsets pt)) 0)))
    by (intros r Hr; rewrite (Hq r Hr), vsub_nth by congruence; ring).
  rewrite (sumn_ext _ (fun r => (nth r q' 0 - nth r jp 0) * (nth r q' 0 - nth r jp 0)) (fun r => (trow pt p' r - nth r (vsub_list jp (pt_offsets pt)) 0) * (trow pt p' r - nth r (vsub_list jp (pt_offsets pt)) 0)))
    by (intros r Hr; rewrite (H2 r Hr), vsub_nth by congruence; ring).
  exact M.
Qed.
Print Assumptions inverse_best.

(** Model parameters are found again, if no others give the same joint parameters. *)
Theorem inverse_undoes_apply pt lsq p jp : pt_wf pt -> solves_lsq pt lsq -> full_rank pt -> pt_apply pt p = Ok jp ->
  inv_apply lsq pt jp = Ok (p, pt_offsets pt).
Proof.
  intros W HS F E. assert (Lo : length (pt_offsets pt) = pt_rows pt) by (apply W).
  assert (Lp : length p = pt_cols pt).
  { destruct (Nat.eq_dec (length p) (pt_cols pt)) as [|N]; [assumption|]. rewrite (apply_rejects_wrong_size pt p N) in E. discriminate E. }
  destruct (apply_trow pt p W Lp) as (q & Eq & Lj & Hq). assert (q = jp) by congruence. subst q.
  assert (Lb : length (vsub_list jp (pt_offsets pt)) = pt_rows pt) by (rewrite vsub_length; congruence).
  destruct (HS _ Lb) as (Lx & M). specialize (M p Lp). set (x := lsq (vsub_list jp (pt_offsets pt))) in *.
  rewrite (sumn_zero _ (fun r => (trow pt p r - _) * _)) in M by (intros r Hr; rewrite vsub_nth, (Hq r Hr) by congruence; ring).
  assert (Z := sumn_sq_nonneg (pt_rows pt) (fun r => trow pt x r - nth r (vsub_list jp (pt_offsets pt)) 0)). cbv beta in Z.
  assert (Z0 := sumn_sq_zero (pt_rows pt) (fun r => trow pt x r - nth r (vsub_list jp (pt_offsets pt)) 0) (Rle_antisym _ _ M Z)). cbv beta in Z0.
  assert (Ex : x = p).
  { apply F; [exact Lx|exact Lp|]. intros r Hr. specialize (Z0 r Hr). rewrite vsub_nth, (Hq r Hr) in Z0 by congruence. lra. }
  unfold inv_apply. rewrite Lj, Lo, Nat.eqb_refl. cbn [negb]. fold x. rewrite Ex. do 2 f_equal.
  assert (Lm : length jp = length (mat_vec pt p)) by (rewrite mat_vec_length; exact Lj).
  apply (nth_ext _ _ 0 0); [rewrite vsub_length; congruence|]. intros r Hr. rewrite vsub_length in Hr by exact Lm. rewrite vsub_nth by exact Lm.
  rewrite mat_vec_trow, Hq by (try assumption; lia). ring.
Qed.
Print Assumptions inverse_undoes_apply.

(** The offsets of the result are the residual of the fit plus the offsets of the transform. *)
Theorem inverse_offsets pt lsq jp : pt_wf pt -> (forall b, length b = pt_rows pt -> length (lsq b) = pt_cols pt) -> length jp = pt_rows pt ->
  exists pose off q, inv_apply lsq pt jp = Ok (pose, off) /\ pt_apply pt pose = Ok q /\
    forall r, (r < pt_rows pt)%nat -> nth r off 0 = (nth r jp 0 - nth r q 0) + nth r (pt_offsets pt) 0.
Proof.
  intros W HL Lj. destruct (inverse_round_trip pt lsq jp W HL Lj) as (pose & off & E & Lp & Lf & A).
  destruct (apply_trow pt pose W Lp) as (q & Eq & _ & Hq). exists pose, off, q. split; [exact E|]. split; [exact Eq|].
  intros r Hr. rewrite (Hq r Hr). unfold inv_apply in E. rewrite Lj, Nat.eqb_refl in E. cbn [negb] in E. destruct (negb _); [discriminate E|].
  injection E as Ep Ef. rewrite Ep in Ef. subst off. rewrite vsub_nth, mat_vec_trow by (first [assumption|rewrite mat_vec_length; exact Lj]). ring.
Qed.
Print Assumptions inverse_offsets.

(** They are not the residual that the header promises: one joint parameter, one model parameter, offset 5, a perfect fit. *)
Theorem inverse_residual_refuted : exists pt lsq jp pose off q, pt_wf pt /\ full_rank pt /\ solves_lsq pt lsq /\
  inv_apply lsq pt jp = Ok (pose, off) /\ pt_apply pt pose = Ok q /\ q = jp /\ off <> map (fun _ => 0) jp.
Proof.
  set (pt := PT ["x"%string] 1 1 [Entry 0 0 1] [5] [true] [] [] [] []).
  assert (C : coeff pt 0 0 = 1) by (unfold coeff; cbn; lra).
  assert (F : full_rank pt).
  { intros x y Lx Ly H. specialize (H 0%nat ltac:(cbn; lia)). unfold trow in H. change (pt_cols pt) with 1%nat in *. rewrite !sumn_S, !sumn_0, C in H.
    destruct x as [|a [|]]; try discriminate Lx. destruct y as [|b [|]]; try discriminate Ly. cbn [nth] in H. f_equal. lra. }
  assert (W : pt_wf pt).
  { constructor; try reflexivity; cbn [pt pt_cols pt_entries pt_rows pt_pose pt_blend pt_face].
    - unfold kMaxModelParams. lia.
    - intros e [<- |[]]. cbn. lia.
    - intros nm l i v [].
    - intros z [].
    - intros z []. }
  destruct (apply_trow pt [0] W eq_refl) as (q & Eq & Lq & Hq).
  exists pt, (normal_lsq pt), q, [0], (pt_offsets pt), q. split; [exact W|]. split; [exact F|]. split; [exact (normal_lsq_solves pt F)|].
  split; [exact (inverse_undoes_apply pt _ [0] q W (normal_lsq_solves pt F) F Eq)|]. split; [exact Eq|]. split; [reflexivity|].
  destruct q as [|a [|]]; try discriminate Lq. cbn. intros Q. injection Q as Q. lra.
Qed.
Print Assumptions inverse_residual_refuted.

(** A vector of the wrong size is rejected. *)
Theorem inverse_rejects_wrong_size pt lsq jp : length jp <> pt_rows pt -> inv_apply lsq pt jp = CheckFail.
Proof. intros N. unfold inv_apply. destruct (Nat.eqb_spec (length jp) (pt_rows pt)); [contradiction|reflexivity]. Qed.
Print Assumptions inverse_rejects_wrong_size.

(** For every transform of full rank the normal equations give such a solver; the example transform of C08 (14 joint
    parameters, 3 model parameters, an offset) is one. *)
Example inverse_example : pt_wf ex_pt /\ full_rank ex_pt /\ solves_lsq ex_pt (normal_lsq ex_pt) /\ exists q, pt_apply ex_pt [1; 2; 3] = Ok q.
Proof.
  assert (F : full_rank ex_pt).
  { intros x y Lx Ly H. change (pt_cols ex_pt) with 3%nat in *. unfold trow in H. change (pt_cols ex_pt) with 3%nat in H.
    destruct x as [|a [|b [|c [|]]]]; try discriminate Lx. destruct y as [|a' [|b' [|c' [|]]]]; try discriminate Ly.
    assert (H0 := H 0%nat ltac:(cbn; lia)). assert (H1 := H 3%nat ltac:(cbn; lia)). assert (H2 := H 6%nat ltac:(cbn; lia)). clear H.
    unfold sumn, coeff in *. cbn in H0, H1, H2. do 2 (f_equal; [lra|]). f_equal. lra. }
  split; [exact ex_pt_wf|]. split; [exact F|]. split; [exact (normal_lsq_solves ex_pt F)|].
  destruct (apply_trow ex_pt [1; 2; 3] ex_pt_wf eq_refl) as (q & Eq & _). exists q. exact Eq.
Qed.
