(** Lemmas for C108. *)

From Coq Require Import Bool Reals List Arith Lia Lra Psatz.
From Verif Require Import Prelude ListUtil LinAlg QR_gen_proofs ParamTransform_model ParamTransform_spec ParamTransform_proofs
  Solver_spec Solver_model Solver_lin_proofs InvPT_model InvPT_spec.
Import ListNotations.
Local Open Scope R_scope.

Lemma vsub_nth a b i : length a = length b -> nth i (vsub_list a b) 0 = nth i a 0 - nth i b 0.
Proof.
  revert b i. induction a as [|x a IH]; intros [|y b] i L; try discriminate L; [destruct i; cbn; ring|].
  injection L as L. destruct i as [|i]; [reflexivity|]. exact (IH b i L).
Qed.
Lemma vadd_nth a b i : length a = length b -> nth i (vadd_list a b) 0 = nth i a 0 + nth i b 0.
Proof.
  revert b i. induction a as [|x a IH]; intros [|y b] i L; try discriminate L; [destruct i; cbn; ring|].
  injection L as L. destruct i as [|i]; [reflexivity|]. exact (IH b i L).
Qed.
Lemma vsub_length a b : length a = length b -> length (vsub_list a b) = length a.
Proof. intros L. unfold vsub_list. rewrite map_length, combine_length. lia. Qed.
Lemma vadd_vsub a b : length a = length b -> vadd_list b (vsub_list a b) = a.
Proof.
  revert b. induction a as [|x a IH]; intros [|y b] L; try discriminate L; [reflexivity|]. injection L as L.
  unfold vadd_list, vsub_list in *. cbn [combine map]. f_equal; [ring|exact (IH b L)].
Qed.
Lemma mat_vec_length pt p : length (mat_vec pt p) = pt_rows pt.
Proof. unfold mat_vec. rewrite map_length, seq_length. reflexivity. Qed.
Lemma apply_trow pt p : pt_wf pt -> length p = pt_cols pt -> exists q, pt_apply pt p = Ok q /\ length q = pt_rows pt /\
  forall r, (r < pt_rows pt)%nat -> nth r q 0 = trow pt p r + nth r (pt_offsets pt) 0.
Proof. exact (apply_affine_lemma pt p). Qed.
Lemma mat_vec_trow pt p r : pt_wf pt -> length p = pt_cols pt -> (r < pt_rows pt)%nat -> nth r (mat_vec pt p) 0 = trow pt p r.
Proof.
  intros W L Hr. destruct (apply_trow pt p W L) as (q & E & _ & H). specialize (H r Hr). unfold pt_apply in E. rewrite L, Nat.eqb_refl in E.
  cbn [negb] in E. destruct (Nat.eqb_spec (length (pt_offsets pt)) (pt_rows pt)) as [Q|]; [|discriminate E]. cbn [negb] in E. injection E as <-.
  rewrite vadd_nth in H by (rewrite mat_vec_length; congruence). lra.
Qed.

(** The normal equations give a least squares solver for every transform of full rank. *)
Definition normal_lsq (pt : ptransform) (b : list R) : list R :=
  map (gsolve (pt_cols pt) (fun i j => sumn (pt_rows pt) (fun r => coeff pt r i * coeff pt r j))
              (fun i => sumn (pt_rows pt) (fun r => coeff pt r i * nth r b 0))) (seq 0 (pt_cols pt)).
Lemma normal_lsq_solves pt : full_rank pt -> solves_lsq pt (normal_lsq pt).
Proof.
  intros F b Lb. unfold normal_lsq. set (n := pt_cols pt). set (m := pt_rows pt).
  set (H := fun i j => sumn m (fun r => coeff pt r i * coeff pt r j)). set (g := fun i => sumn m (fun r => coeff pt r i * nth r b 0)).
  set (z := gsolve n H g). split; [rewrite map_length, seq_length; reflexivity|]. intros x Lx.
  assert (Q : forall u : nat -> R, quad n H u = sumn m (fun r => sumn n (fun c => coeff pt r c * u c) * sumn n (fun c => coeff pt r c * u c))).
  { intros u. unfold quad.
    transitivity (sumn n (fun i => sumn m (fun r => u i * coeff pt r i * sumn n (fun c => coeff pt r c * u c)))).
    - apply sumn_ext. intros i Hi. rewrite <- sumn_scal. unfold H.
      rewrite (sumn_ext n _ (fun j => sumn m (fun r => u i * coeff pt r i * (coeff pt r j * u j)))).
      + rewrite sumn_swap. apply sumn_ext. intros r Hr. rewrite <- sumn_scal. reflexivity.
      + intros j Hj. rewrite Rmult_comm, Rmult_assoc, <- (sumn_scal_r m (u j * u i)). apply sumn_ext. intros; ring.
    - rewrite sumn_swap. apply sumn_ext. intros r Hr. rewrite (sumn_ext n _ (fun i => sumn n (fun c => coeff pt r c * u c) * (coeff pt r i * u i))) by (intros; ring).
      rewrite sumn_scal. ring. }
  assert (Sym : symmetric n H) by (intros i j _ _; apply sumn_ext; intros; ring).
  assert (PD : positive_definite n H).
  { intros u (k & Hk & Nk). rewrite Q. 
    assert (G0 : forall r, 0 <= sumn n (fun c => coeff pt r c * u c) * sumn n (fun c => coeff pt r c * u c)) by (intros; nra).
    assert (G : 0 <= sumn m (fun r => sumn n (fun c => coeff pt r c * u c) * sumn n (fun c => coeff pt r c * u c))) by (apply rsum_nonneg; auto).
    destruct G as [G|G]; [exact G|]. exfalso. apply Nk.
    assert (Z : map u (seq 0 n) = repeat 0 n).
    { apply F; [rewrite map_length, seq_length; reflexivity|apply repeat_length|]. intros r Hr.
      assert (Zr : sumn n (fun c => coeff pt r c * u c) = 0).
      { exact (sumn_sq_zero m (fun r => sumn n (fun c => coeff pt r c * u c)) (eq_sym G) r Hr). }
      unfold trow. fold n. rewrite (sumn_ext n _ (fun c => coeff pt r c * u c)) by (intros c Hc; rewrite nth_map_seq by exact Hc; reflexivity).
      rewrite Zr. symmetry. apply sumn_zero. intros c Hc. rewrite nth_repeat. ring. }
    rewrite <- (nth_map_seq u n k 0 Hk), Z. apply nth_repeat. }
  pose proof (gsolve_ok n H g Sym PD) as NE. fold z in NE.
  set (e := fun r => sumn n (fun c => coeff pt r c * z c) - nth r b 0). set (dx := fun r => sumn n (fun c => coeff pt r c * (nth c x 0 - z c))).
  assert (Tz : forall r, trow pt (map z (seq 0 n)) r = sumn n (fun c => coeff pt r c * z c)).
  { intros r. unfold trow. apply sumn_ext. intros c Hc. rewrite nth_map_seq by exact Hc. reflexivity. }
  assert (Tx : forall r, trow pt x r = sumn n (fun c => coeff pt r c * z c) + dx r).
  { intros r. unfold trow, dx. fold n. rewrite <- sumn_plus. apply sumn_ext. intros; ring. }
  rewrite (sumn_ext m _ (fun r => e r * e r)) by (intros r _; rewrite Tz; reflexivity).
  rewrite (sumn_ext m (fun r => (trow pt x r - nth r b 0) * (trow pt x r - nth r b 0)) (fun r => e r * e r + (2 * (e r * dx r) + dx r * dx r)))
    by (intros r _; rewrite Tx; unfold e; ring).
  rewrite !sumn_plus, sumn_scal.
  assert (Orth : sumn m (fun r => e r * dx r) = 0).
  { transitivity (sumn n (fun c => (nth c x 0 - z c) * sumn m (fun r => coeff pt r c * e r))).
    - rewrite (sumn_ext n _ (fun c => sumn m (fun r => (nth c x 0 - z c) * (coeff pt r c * e r)))) by (intros; rewrite sumn_scal; reflexivity).
      rewrite sumn_swap. apply sumn_ext. intros r _. unfold dx. rewrite <- sumn_scal. apply sumn_ext. intros; ring.
    - apply sumn_zero. intros c Hc. assert (E0 : sumn m (fun r => coeff pt r c * e r) = 0); [|rewrite E0; ring].
      unfold e. rewrite (sumn_ext m _ (fun r => coeff pt r c * sumn n (fun c0 => coeff pt r c0 * z c0) - coeff pt r c * nth r b 0)) by (intros; ring).
      rewrite sumn_minus. fold (g c). rewrite <- (NE c Hc). unfold H.
      rewrite (sumn_ext n (fun j => sumn m (fun r => coeff pt r c * coeff pt r j) * z j) (fun j => sumn m (fun r => coeff pt r c * (coeff pt r j * z j)))).
      + rewrite sumn_swap. rewrite (sumn_ext m _ (fun r => sumn n (fun j => coeff pt r c * (coeff pt r j * z j)))) by (intros; rewrite sumn_scal; reflexivity). ring.
      + intros j _. rewrite Rmult_comm, <- sumn_scal. apply sumn_ext. intros; ring. }
  rewrite Orth. assert (0 <= sumn m (fun r => dx r * dx r)) by (apply rsum_nonneg; intros; nra). lra.
Qed.
