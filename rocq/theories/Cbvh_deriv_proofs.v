(** The derivative of the collision penalty with a tree (C104). *)

From Coq Require Import Bool Reals List Arith Lia Lra Psatz.
From Coquelicot Require Import Coquelicot.
From Verif Require Import Prelude Loops LinAlg Rbool R3 Transform_model Transform_proofs Skeleton_model Skeleton_spec FK_model FK_spec FK_proofs FK_deriv_proofs
  ParamTransform_model ParamTransform_spec ParamTransform_proofs Limits_model Limits_spec Limits_proofs Constraint_model Skin_model CharUtil_model
  Ellipsoid_model Ellipsoid_spec Seg_model Seg_spec Seg_proofs Coll_model Coll_spec Coll_proofs Coll_deriv_proofs Coll_props Cbvh_model Cbvh_spec Cbvh_proofs.
Import ListNotations.
Local Open Scope nat_scope.
Local Open Scope R_scope.

Lemma axis_dist_sym sts a b s t : axis_dist sts a b s t = axis_dist sts b a t s.
Proof. unfold axis_dist. f_equal. unfold vnorm2, vdot, vsub; cbn. ring. Qed.
Lemma depth_sym sts a b s t : depth sts a b s t = depth sts b a t s.
Proof. unfold depth. rewrite axis_dist_sym. ring. Qed.
Lemma apart_sym sts a b : apart sts a b -> apart sts b a.
Proof. intros (gap & G & H). exists gap. split; [exact G|]. intros s t I1 I2. rewrite axis_dist_sym. pose proof (H t s I2 I1). lra. Qed.
Lemma nearest_sym sts a b s t : nearest sts a b s t -> nearest sts b a t s.
Proof. intros (I1 & I2 & H). split; [exact I2|]. split; [exact I1|]. intros s' t' J1 J2. rewrite (axis_dist_sym sts b a t s), (axis_dist_sym sts b a s' t'). apply H; assumption. Qed.
Lemma spread_sym u v : spread_area2 u v = spread_area2 v u.
Proof. unfold spread_area2, vnorm2, vdot, vcross; cbn. ring. Qed.
Lemma settled_sym eps sts a b s t : settled eps sts a b s t -> settled eps sts b a t s.
Proof.
  intros (I1 & I2 & M & [A|(N & EP & H & K1 & K2)]); (split; [exact I2|]; split; [exact I1|]; split; [lra|]).
  - left. apply apart_sym, A.
  - right. split; [apply nearest_sym, N|]. rewrite (axis_dist_sym sts b a t s), (spread_sym (cap_axis sts b) (cap_axis sts a)). auto.
Qed.
Lemma settled_strictly_sym eps sts a b s t : settled_strictly eps sts a b s t -> settled_strictly eps sts b a t s.
Proof.
  intros (I1 & I2 & M & [A|(N & EP & H & K1 & K2)]); (split; [exact I2|]; split; [exact I1|]; split; [lra|]).
  - left. apply apart_sym, A.
  - right. split; [apply nearest_sym, N|]. rewrite (axis_dist_sym sts b a t s), (spread_sym (cap_axis sts b) (cap_axis sts a)). auto.
Qed.

(** A function that is everywhere one of two functions with the same value and derivative. *)
Lemma choose_derive (f g h : R -> R) x0 D : (forall x, h x = f x \/ h x = g x) -> f x0 = g x0 -> is_derive f x0 D -> is_derive g x0 D -> is_derive h x0 D.
Proof.
  intros C Q F G. apply is_derive_Reals in F. apply is_derive_Reals in G. apply is_derive_Reals.
  intros eps P. destruct (F eps P) as [d1 H1]. destruct (G eps P) as [d2 H2].
  assert (M : 0 < Rmin d1 d2) by (apply Rmin_pos; apply cond_pos). exists (mkposreal _ M). intros k NZ L. cbn in L.
  assert (h x0 = f x0) as -> by (destruct (C x0); congruence).
  destruct (C (x0 + k)) as [-> | ->].
  - apply H1; [exact NZ|]. pose proof (Rmin_l d1 d2). lra.
  - rewrite Q. apply H2; [exact NZ|]. pose proof (Rmin_r d1 d2). lra.
Qed.

Definition flipc (pr : cpair) : cpair := (flip (fst pr), snd pr).
Definition flipped (E : coll_fn) : coll_fn := with_pairs E (map flipc (co_pairs E)).
Lemma flipped_wf E : coll_wf E -> coll_wf (flipped E).
Proof.
  intros W. constructor; cbn; [apply (cw_pt E W)|apply (cw_active_len E W)|apply (cw_active E W)|apply (cw_caps E W)|].
  intros pr H. apply in_map_iff in H as (pr' & <- & H). destruct (cw_pairs E W pr' H) as (a & b & k & ja & jb & [C1 C2] & C3 & C4 & C5 & C6 & C7).
  exists b, a, k, jb, ja. split; [split; assumption|]. auto.
Qed.

Section Path.
Context (E : coll_fn) (B : bcoll_fn) (SF : same_function E B) (W : coll_wf E) (SR : single_root (sk_parents (co_sk E)))
  (WP : pt_wf (co_pt E)) (V : valid_sk (co_sk E)) (U : unit_prerotations (co_sk E)).
Context (p : list R) (i : nat) (q : R -> list R) (sts : R -> list jstate)
  (Lp : length p = pt_cols (co_pt E)) (Hi : (i < pt_cols (co_pt E))%nat) (EN : co_enabled E i = true) (EP : 0 < co_eps E)
  (Hq : forall t, pt_apply (co_pt E) (set_nth p i t) = Ok (q t))
  (Hs : forall t, fk (co_sk E) (q t) = Ok (sts t)).
Local Notation x0 := (nth i p 0).
Local Notation keys := (map fst (co_pairs E)).
Local Notation LS := (path_len E V q sts Hs).
Local Notation LQ := (path_qlen' E WP p i q Hq).
Context (N : cpair -> R * R)
  (ST : forall pr a b, In pr (co_pairs E) -> capsules_of E pr a b ->
     keeps_size E i a /\ keeps_size E i b /\ untapered a /\ untapered b /\
     settled_strictly (co_eps E) (sts x0) a b (fst (N pr)) (snd (N pr))).

Definition same2 (v w : nat * nat) : bool := Nat.eqb (fst v) (fst w) && Nat.eqb (snd v) (snd w).
Lemma same2_iff v w : same2 v w = true <-> v = w.
Proof.
  destruct v, w. unfold same2; cbn [fst snd]. rewrite andb_true_iff, !Nat.eqb_eq. split; [intros [-> ->]; reflexivity|intros H; injection H; auto].
Qed.
Definition N2 (v : nat * nat) : R * R := match find (fun pr => same2 (fst pr) v) (co_pairs E) with Some pr => N pr | None => (0, 0) end.
Lemma N2_at pr : In pr (co_pairs E) -> N2 (fst pr) = N pr.
Proof.
  pose proof (sf_once E B SF) as ND. unfold N2. intros H. destruct (find _ _) as [pr'|] eqn:Q.
  - apply find_some in Q as [H' Q]. apply same2_iff in Q. f_equal. clear - ND H H' Q. induction (co_pairs E) as [|x l IH]; [destruct H|].
    cbn [map] in ND. inversion ND as [|? ? N1 N2]; subst. destruct H as [<-|H], H' as [<-|H']; try reflexivity.
    + exfalso. apply N1. rewrite <- Q. apply in_map, H'.
    + exfalso. apply N1. rewrite Q. apply in_map, H.
    + apply IH; assumption.
  - exfalso. apply (find_none _ _ Q) in H. assert (K : same2 (fst pr) (fst pr) = true) by (apply same2_iff; reflexivity). congruence.
Qed.
Definition dep (x : R) (v : nat * nat) : R := depth_at E (sts x) (fun pr => N2 (fst pr)) (v, None).
Definition Dp (v : nat * nat) : R := Derive (fun x => excess2 (dep x v)) x0.
Local Notation rep x v := (rep E (sts x) v).

Lemma dep_at x pr : In pr (co_pairs E) -> depth_at E (sts x) N pr = dep x (fst pr).
Proof. intros H. unfold dep, depth_at. cbn [fst]. rewrite (N2_at pr H). reflexivity. Qed.
Lemma rep_at x pr : rep_depth E (sts x) pr = rep x (fst pr).
Proof. destruct pr. reflexivity. Qed.

Lemma rep_settled x a b v s t : capsules_of E (v, None) a b -> settled (co_eps E) (sts x) a b s t -> rep x v = Rmax 0 (depth (sts x) a b s t).
Proof.
  intros C S. unfold Cbvh_proofs.rep, rep_depth. rewrite (reported_at E (sts x) (v, None) a b C), (settled_ovl _ _ _ _ _ _ S).
  destruct (Rltb_spec 0 (depth (sts x) a b s t)); [rewrite Rmax_right; lra|rewrite Rmax_left; lra].
Qed.

Lemma key_facts pr : In pr (co_pairs E) -> let v := fst pr in
  is_derive (fun x => excess2 (dep x v)) x0 (Dp v) /\
  is_derive (fun x => rep x v * rep x v) x0 (Dp v) /\ is_derive (fun x => rep x (flip v) * rep x (flip v)) x0 (Dp v) /\
  rep x0 v = Rmax 0 (dep x0 v) /\ rep x0 (flip v) = Rmax 0 (dep x0 v) /\ (rep x0 v = 0 -> Dp v = 0).
Proof.
  intros HP. cbv zeta.
  assert (OK1 : pair_ok E p i sts N pr). { intros a b C. destruct (ST pr a b HP C) as (K1 & K2 & _ & _ & S). split; [exact K1|]. split; [exact K2|]. apply settled_weaken, S. }
  assert (PS1 : pair_strict E p i sts N pr). { intros a b C. destruct (ST pr a b HP C) as (_ & _ & K1 & K2 & S). auto. }
  destruct (pair_derive E W WP V U p i q sts Lp Hi EN Hq Hs N pr EP HP OK1) as (a & b & ti & tj & va & vb & C & X). cbv zeta in X.
  destruct X as (_ & _ & _ & _ & D1 & D2). specialize (D2 PS1).
  set (D := - (vdot (vsub (cap_point (sts x0) a (fst (N pr))) (cap_point (sts x0) b (snd (N pr)))) (vsub va vb) / axis_dist (sts x0) a b (fst (N pr)) (snd (N pr))) * (2 * Rmax 0 (depth (sts x0) a b (fst (N pr)) (snd (N pr))))) in *.
  assert (DV : depth (sts x0) a b (fst (N pr)) (snd (N pr)) = dep x0 (fst pr)).
  { rewrite <- (dep_at x0 pr HP). unfold depth_at. destruct C as [-> ->]. reflexivity. }
  assert (E1 : is_derive (fun x => excess2 (dep x (fst pr))) x0 D) by (eapply is_derive_ext; [intros x; apply (f_equal excess2), (dep_at x pr HP)|exact D1]).
  assert (DD : Dp (fst pr) = D) by (apply is_derive_unique, E1).
  set (Nf := fun pr : cpair => (snd (N2 (flip (fst pr))), fst (N2 (flip (fst pr))))).
  assert (HPf : In (flipc pr) (co_pairs (flipped E))) by (apply in_map, HP).
  assert (NF : Nf (flipc pr) = (snd (N pr), fst (N pr))).
  { unfold Nf, flipc. cbn [fst]. rewrite flip_flip, (N2_at pr HP). reflexivity. }
  assert (CF : forall a b, capsules_of (flipped E) (flipc pr) a b -> capsules_of E pr b a) by (intros a' b' [C1 C2]; split; assumption).
  assert (OK2 : pair_ok (flipped E) p i sts Nf (flipc pr)).
  { intros a' b' C'. destruct (ST pr b' a' HP (CF _ _ C')) as (K1 & K2 & _ & _ & S). split; [exact K2|]. split; [exact K1|]. rewrite NF. apply settled_sym, settled_weaken, S. }
  assert (PS2 : pair_strict (flipped E) p i sts Nf (flipc pr)).
  { intros a' b' C'. destruct (ST pr b' a' HP (CF _ _ C')) as (_ & _ & K1 & K2 & S). split; [exact K2|]. split; [exact K1|]. rewrite NF. apply settled_strictly_sym, S. }
  destruct (pair_derive (flipped E) (flipped_wf E W) WP V U p i q sts Lp Hi EN Hq Hs Nf (flipc pr) EP HPf OK2) as (a' & b' & ti' & tj' & va' & vb' & C' & X'). cbv zeta in X'.
  destruct X' as (_ & _ & _ & _ & D1' & D2'). specialize (D2' PS2).
  match type of D1' with is_derive _ _ ?z => set (D' := z) in * end.
  assert (EF : forall x, depth_at (flipped E) (sts x) Nf (flipc pr) = dep x (fst pr)).
  { intros x. rewrite <- (dep_at x pr HP). unfold depth_at. rewrite NF. unfold flipped, flipc, with_pairs, flip; cbn [co_geo fst snd].
    destruct C as [-> ->]. apply depth_sym. }
  assert (E2 : is_derive (fun x => excess2 (dep x (fst pr))) x0 D') by (eapply is_derive_ext; [intros x; apply (f_equal excess2), EF|exact D1']).
  assert (DD' : Dp (fst pr) = D') by (apply is_derive_unique, E2).
  destruct (OK1 a b C) as (_ & _ & S1).
  assert (R1 : rep x0 (fst pr) = Rmax 0 (dep x0 (fst pr))) by (rewrite <- DV; apply (rep_settled x0 a b (fst pr)); [exact C|exact S1]).
  split; [rewrite DD; exact E1|]. split; [rewrite DD|split; [rewrite DD'|split; [exact R1|split]]].
  - eapply is_derive_ext; [|exact D2]. intros x. cbv beta. rewrite (rep_at x pr). reflexivity.
  - eapply is_derive_ext; [|exact D2']. intros x. cbv beta. reflexivity.
  - rewrite <- DV, (rep_settled x0 b a (flip (fst pr)) (snd (N pr)) (fst (N pr))); [f_equal; apply depth_sym|destruct C; split; assumption|apply settled_sym, S1].
  - intros Z. rewrite DD. unfold D. rewrite DV, <- R1, Z. ring.
Qed.

Definition N3 (pr : cpair) : R * R := if Nat.leb (fst (fst pr)) (snd (fst pr)) then N2 (fst pr) else (snd (N2 (flip (fst pr))), fst (N2 (flip (fst pr)))).

Section At.
Context (boxes : list rbox) (vs : list (nat * nat)) (CB : capsule_boxes B (sts x0) boxes) (T : traversal boxes vs).
Local Notation Ev := (with_pairs E (prs_of B vs)).
Lemma at_len : length boxes = length (co_geo E).
Proof. apply (boxes_of E B SF W (sts x0) (LS x0) boxes CB). Qed.
Lemma at_range : in_range E vs.
Proof. apply (tv_in_range E B SF W (sts x0) (LS x0) boxes vs CB T). Qed.

Lemma kept_pair v : In v (kept B vs) -> exists pr, In pr (co_pairs E) /\ fst pr = norm v.
Proof.
  intros H. pose proof (kept_norm E B SF boxes vs T at_len v H) as K. apply in_map_iff in K as (pr & Q & HP). eauto.
Qed.
Lemma kept_ok pr : In pr (prs_of B vs) -> pair_ok Ev p i sts N3 pr.
Proof.
  intros H. apply in_map_iff in H as (v & <- & H). destruct (kept_pair v H) as (pr & HP & Q). intros a b [C1 C2]. cbn [fst snd] in C1, C2. cbn in C1, C2.
  unfold N3. cbn [fst]. unfold norm in Q. destruct (Nat.leb (fst v) (snd v)).
  - rewrite <- Q, (N2_at pr HP) in *. destruct (ST pr a b HP (conj C1 C2)) as (K1 & K2 & _ & _ & S). split; [exact K1|]. split; [exact K2|]. apply settled_weaken, S.
  - rewrite <- Q, (N2_at pr HP) in *. assert (C : capsules_of E pr b a) by (split; rewrite Q; assumption).
    destruct (ST pr b a HP C) as (K1 & K2 & _ & _ & S). split; [exact K2|]. split; [exact K1|]. apply settled_sym, settled_weaken, S.
Qed.
Lemma kept_dep x v : In v (kept B vs) -> depth_at Ev (sts x) N3 (v, anc B v) = dep x (norm v).
Proof.
  intros H. destruct (range_caps E vs v at_range) as (a & b & Ha & Hb); [apply filter_In in H; apply H|].
  unfold dep, depth_at, N3, norm. cbn [co_geo with_pairs fst snd]. destruct (Nat.leb (fst v) (snd v)); [reflexivity|].
  unfold flip; cbn [fst snd]. rewrite Ha, Hb. apply depth_sym.
Qed.
Lemma total_at D : is_derive (fun x => rsum (map (fun pr => excess2 (depth_at Ev (sts x) N3 pr)) (prs_of B vs))) x0 D ->
  D = rsum (map (fun pr => Dp (fst pr)) (co_pairs E)).
Proof.
  intros H. rewrite <- (kept_sum_norm E B SF W boxes vs T at_len Dp).
  - assert (H2 : is_derive (fun x => rsum (map (fun v => excess2 (dep x (norm v))) (kept B vs))) x0 (rsum (map (fun v => Dp (norm v)) (kept B vs)))).
    { apply (d_rsum (fun v x => excess2 (dep x (norm v)))). intros v Hv. destruct (kept_pair v Hv) as (pr & HP & Q). rewrite <- Q. apply (key_facts pr HP). }
    rewrite <- (is_derive_unique _ _ _ H), <- (is_derive_unique _ _ _ H2). apply Derive_ext. intros x. unfold prs_of. rewrite map_map. f_equal.
    apply map_ext_in. intros v Hv. exact (f_equal excess2 (kept_dep x v Hv)).
  - intros v Hv N1 N2'. apply in_map_iff in Hv as ([[k l] a] & Q & HP). subst v. apply (key_facts _ HP).
    apply (unvisited E B SF W (sts x0) (LS x0) boxes vs k l a CB T HP). intros [X|X]; [apply N1, X|apply N2', X].
Qed.
End At.

Context (vis : R -> list (nat * nat)) (TV : forall x, exists boxes, capsule_boxes B (sts x) boxes /\ traversal boxes (vis x)).
Definition Ferr (x : R) : R := 5 / 1000 * co_weight E * rsum (map (fun v => rep x v * rep x v) (kept B (vis x))).
Lemma Ferr_derive : is_derive Ferr x0 (5 / 1000 * co_weight E * rsum (map (fun pr => Dp (fst pr)) (co_pairs E))).
Proof.
  unfold Ferr. apply d_scal.
  apply (is_derive_ext (fun x => rsum (map (fun pr => pick (vis x) (fun v => rep x v * rep x v) (fst pr)) (co_pairs E)))).
  { intros x. destruct (TV x) as (bx & CB & T). symmetry. apply (kept_sum E B SF W bx (vis x) T). apply (boxes_of E B SF W (sts x) (LS x) bx CB). }
  apply (d_rsum (fun pr x => pick (vis x) (fun v => rep x v * rep x v) (fst pr)) (fun pr => Dp (fst pr))).
  intros pr HP. destruct (key_facts pr HP) as (_ & D1 & D2 & R1 & R2 & _).
  apply (choose_derive (fun x => rep x (fst pr) * rep x (fst pr)) (fun x => rep x (flip (fst pr)) * rep x (flip (fst pr)))); [|cbv beta; rewrite R1, R2; reflexivity|exact D1|exact D2].
  intros x. unfold pick, as_visited. destruct (in_dec2 (fst pr) (vis x)) as [_|N1]; [left; reflexivity|].
  destruct (in_dec2 (flip (fst pr)) (vis x)) as [_|N2']; [right; reflexivity|left].
  destruct (TV x) as (bx & CB & T). destruct pr as [[k l] a]. cbn [fst] in *.
  rewrite (unvisited E B SF W (sts x) (LS x) bx (vis x) k l a CB T HP); [ring|]. intros [X|X]; [apply N1, X|apply N2', X].
Qed.
End Path.
