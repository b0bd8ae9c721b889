(** Proofs about parameter transforms. *)

From Coq Require Import Bool Reals List Arith ZArith String Lia Lra.
From Verif Require Import Prelude LinAlg ParamTransform_model ParamTransform_spec.
Import ListNotations.
Local Open Scope R_scope.

Lemma obind_ok {A B} (x : outcome A) (f : A -> outcome B) b :
  obind x f = Ok b -> exists a, x = Ok a /\ f a = Ok b.
Proof. destruct x; cbn; try discriminate. eauto. Qed.

Lemma rd_inv {A} (l : list A) i a : rd l i = Ok a -> nth_error l i = Some a.
Proof. unfold rd. destruct (nth_error l i); congruence. Qed.
Lemma rd_eq {A} (l : list A) i a : nth_error l i = Some a -> rd l i = Ok a.
Proof. unfold rd. intros ->. reflexivity. Qed.

(** ** apply *)

Lemma vadd_list_nth a b r : (r < List.length a)%nat -> List.length a = List.length b ->
  nth r (vadd_list a b) 0 = nth r a 0 + nth r b 0.
Proof.
  unfold vadd_list. revert b r; induction a as [|x a IH]; intros [|y b] r Hr L; cbn in *; try lia.
  destruct r as [|r]; [reflexivity|]. apply IH; lia.
Qed.
Lemma vadd_list_length a b : List.length (vadd_list a b) = Nat.min (List.length a) (List.length b).
Proof. unfold vadd_list. rewrite map_length. apply combine_length. Qed.

Lemma mat_vec_nth pt p r : (r < pt_rows pt)%nat -> nth r (mat_vec pt p) 0 = row_dot (pt_entries pt) p r.
Proof.
  intros H. unfold mat_vec.
  rewrite (nth_indep _ 0 (row_dot (pt_entries pt) p 0)) by (rewrite map_length, seq_length; exact H).
  rewrite map_nth, seq_nth by exact H. reflexivity.
Qed.
Lemma mat_vec_length pt p : List.length (mat_vec pt p) = pt_rows pt.
Proof. unfold mat_vec. rewrite map_length. apply seq_length. Qed.

Lemma row_dot_coeff pt p r : (forall e, In e (pt_entries pt) -> (ecol e < pt_cols pt)%nat) ->
  row_dot (pt_entries pt) p r = sumn (pt_cols pt) (fun c => coeff pt r c * nth c p 0).
Proof.
  intros W. unfold coeff, row_dot.
  rewrite (sumn_ext _ _ (fun c => rsum (map (fun e =>
      (if andb (Nat.eqb (erow e) r) (Nat.eqb (ecol e) c) then eval e else 0) * nth c p 0) (pt_entries pt)))).
  - rewrite sumn_rsum_swap. apply rsum_map_ext. intros e He.
    rewrite (sumn_single _ (ecol e)).
    + rewrite Nat.eqb_refl, andb_true_r. destruct (Nat.eqb (erow e) r); ring.
    + apply W; exact He.
    + intros i _ Hi. destruct (Nat.eqb_spec (ecol e) i); [congruence|]. rewrite andb_false_r. ring.
  - intros c _. rewrite Rmult_comm, <- rsum_map_scal. apply rsum_map_ext. intros; ring.
Qed.

Lemma apply_affine_lemma pt p : pt_wf pt -> List.length p = pt_cols pt ->
  exists q, pt_apply pt p = Ok q /\ List.length q = pt_rows pt /\
    forall r, (r < pt_rows pt)%nat ->
      nth r q 0 = sumn (pt_cols pt) (fun c => coeff pt r c * nth c p 0) + nth r (pt_offsets pt) 0.
Proof.
  intros W L. unfold pt_apply.
  rewrite L, Nat.eqb_refl, (wf_offsets pt W), Nat.eqb_refl. cbn.
  eexists; split; [reflexivity|]. split.
  - rewrite vadd_list_length, mat_vec_length, (wf_offsets pt W). lia.
  - intros r Hr. rewrite vadd_list_nth; [|rewrite mat_vec_length; exact Hr|rewrite mat_vec_length, (wf_offsets pt W); reflexivity].
    rewrite mat_vec_nth by exact Hr. rewrite row_dot_coeff; [reflexivity|].
    intros e He. apply (wf_entries pt W e He).
Qed.

Lemma apply_rejects_lemma pt p : List.length p <> pt_cols pt -> pt_apply pt p = CheckFail.
Proof. intros H. unfold pt_apply. destruct (Nat.eqb_spec (List.length p) (pt_cols pt)); [contradiction|reflexivity]. Qed.

Lemma nth_repeat0 k n : nth k (repeat 0 n) 0 = 0.
Proof. revert k; induction n as [|n IH]; intros [|k]; cbn; auto. Qed.

(** The overloads differ exactly by the offsets of the transform. *)
Lemma apply_char_lemma pt p : pt_wf pt -> List.length p = pt_cols pt ->
  exists q q0, pt_apply pt p = Ok q /\ pt_apply_char pt p [] = Ok q0 /\
    List.length q0 = pt_rows pt /\
    (forall r, (r < pt_rows pt)%nat -> nth r q 0 = nth r q0 0 + nth r (pt_offsets pt) 0) /\
    (0 < pt_rows pt -> pt_apply_char pt p (pt_offsets pt) = Ok q)%nat.
Proof.
  intros W L. unfold pt_apply, pt_apply_char.
  rewrite L, Nat.eqb_refl, (wf_offsets pt W), Nat.eqb_refl. cbn.
  eexists; eexists; split; [reflexivity|]; split; [reflexivity|]. split; [apply mat_vec_length|]. split.
  - intros r Hr. apply vadd_list_nth; rewrite mat_vec_length; [exact Hr|symmetry; apply (wf_offsets pt W)].
  - intros Hp. destruct (pt_rows pt); [lia|reflexivity].
Qed.

(** ** The index maps *)

Lemma index_maps_inv S todo i o2n n2o :
  List.length o2n = i -> n2o = kept i S ->
  (forall k, (k < i)%nat ->
     if S k then exists r, nth_error o2n k = Some (Some r) /\ nth_error n2o r = Some k
     else nth_error o2n k = Some None) ->
  exists o2n' n2o', index_maps todo i S o2n n2o = (o2n', n2o') /\
    List.length o2n' = (i + todo)%nat /\ n2o' = kept (i + todo) S /\
    (forall k, (k < i + todo)%nat ->
     if S k then exists r, nth_error o2n' k = Some (Some r) /\ nth_error n2o' r = Some k
     else nth_error o2n' k = Some None).
Proof.
  revert i o2n n2o. induction todo as [|t IH]; intros i o2n n2o L K H.
  - rewrite Nat.add_0_r. cbn. exists o2n, n2o. auto.
  - cbn. rewrite <- plus_n_Sm.
    assert (KS : kept (Datatypes.S i) S = kept i S ++ (if S i then [i] else [])).
    { unfold kept. rewrite seq_S, filter_app. cbn. destruct (S i); reflexivity. }
    destruct (S i) eqn:Si.
    + apply (IH (Datatypes.S i)).
      * rewrite app_length, L. cbn. lia.
      * rewrite KS, K. reflexivity.
      * intros k Hk. destruct (Nat.eq_dec k i) as [->|Hne].
        -- rewrite Si. exists (List.length n2o). split.
           ++ rewrite nth_error_app2 by lia. rewrite L, Nat.sub_diag. reflexivity.
           ++ rewrite nth_error_app2 by lia. rewrite Nat.sub_diag. reflexivity.
        -- specialize (H k ltac:(lia)). destruct (S k).
           ++ destruct H as [r [A B]]. exists r. split.
              ** rewrite nth_error_app1 by lia. exact A.
              ** rewrite nth_error_app1; [exact B|]. apply nth_error_Some. congruence.
           ++ rewrite nth_error_app1 by lia. exact H.
    + apply (IH (Datatypes.S i)).
      * rewrite app_length, L. cbn. lia.
      * rewrite KS, K. rewrite app_nil_r. reflexivity.
      * intros k Hk. destruct (Nat.eq_dec k i) as [->|Hne].
        -- rewrite Si. rewrite nth_error_app2 by lia. rewrite L, Nat.sub_diag. reflexivity.
        -- specialize (H k ltac:(lia)). destruct (S k).
           ++ destruct H as [r [A B]]. exists r. split; [|exact B].
              rewrite nth_error_app1 by lia. exact A.
           ++ rewrite nth_error_app1 by lia. exact H.
Qed.

Definition o2n_good (n : nat) (S : pset) (o2n : list (option nat)) : Prop :=
  List.length o2n = n /\
  forall k, (k < n)%nat ->
    if S k then exists r, nth_error o2n k = Some (Some r) /\ same_param n S k r
    else nth_error o2n k = Some None.

Lemma index_maps_ok n S : exists o2n, index_maps n 0 S [] [] = (o2n, kept n S) /\ o2n_good n S o2n.
Proof.
  destruct (index_maps_inv S n 0 [] []) as [o [k [E [L [K H]]]]]; try reflexivity.
  - intros k Hk. lia.
  - exists o. cbn in *. subst k. split; [exact E|]. split; [exact L|exact H].
Qed.

Lemma kept_in n S i : In i (kept n S) <-> (i < n)%nat /\ S i = true.
Proof. unfold kept. rewrite filter_In, in_seq. intuition lia. Qed.
Lemma kept_nodup n S : NoDup (kept n S).
Proof. apply NoDup_filter, seq_NoDup. Qed.
Lemma same_param_inj n S i k k' : same_param n S i k -> same_param n S i k' -> k = k'.
Proof.
  unfold same_param. intros A B. pose proof (kept_nodup n S) as ND. rewrite NoDup_nth_error in ND.
  apply ND; [apply nth_error_Some; congruence|congruence].
Qed.

(** o2n read at k. *)
Lemma o2n_read n S o2n k : o2n_good n S o2n -> (k < n)%nat ->
  exists m, rd o2n k = Ok m /\
    match m with Some r => S k = true /\ same_param n S k r | None => S k = false end.
Proof.
  intros [L H] Hk. specialize (H k Hk). destruct (S k) eqn:E.
  - destruct H as [r [A B]]. exists (Some r). split; [apply rd_eq; exact A|auto].
  - exists None. split; [apply rd_eq; exact H|reflexivity].
Qed.

Lemma rd_all_map {A} (l : list A) (d : A) is :
  (forall i, In i is -> (i < List.length l)%nat) -> rd_all l is = Ok (map (fun i => nth i l d) is).
Proof.
  induction is as [|i r IH]; intros H; [reflexivity|].
  cbn. rewrite (rd_eq l i (nth i l d)) by (apply nth_error_nth'; apply H; left; reflexivity).
  cbn. rewrite IH by (intros; apply H; right; assumption). reflexivity.
Qed.

(** ** Entries *)

Definition entry_renamed (n : nat) (S : pset) (e e' : entry) : Prop :=
  erow e' = erow e /\ eval e' = eval e /\ same_param n S (ecol e) (ecol e').

Lemma subset_entries_ok n S o2n es : o2n_good n S o2n ->
  (forall e, In e es -> (ecol e < n)%nat) ->
  exists es', subset_entries o2n es = Ok es' /\
    Forall2 (entry_renamed n S) (filter (fun e => S (ecol e)) es) es'.
Proof.
  intros G. induction es as [|e r IH]; intros H.
  - exists []. split; [reflexivity|constructor].
  - cbn. destruct (o2n_read n S o2n (ecol e) G (H e (or_introl eq_refl))) as [m [E M]].
    destruct IH as [es' [E' F]]; [intros; apply H; right; assumption|].
    rewrite E, E'. cbn. destruct m as [c|].
    + destruct M as [M1 M2]. rewrite M1. eexists; split; [reflexivity|].
      constructor; [|exact F]. repeat split. exact M2.
    + rewrite M. eauto.
Qed.

Lemma kept_vec_nth n S p i k : same_param n S i k ->
  nth k (map (fun i => nth i p 0) (kept n S)) 0 = nth i p 0.
Proof.
  unfold same_param. intros H.
  assert (K : nth_error (map (fun i => nth i p 0) (kept n S)) k = Some (nth i p 0)).
  { rewrite nth_error_map, H. reflexivity. }
  exact (nth_error_nth _ _ 0 K).
Qed.

Lemma row_dot_subset n S es es' p r :
  (forall e, In e es -> (ecol e < n)%nat) ->
  (forall i, (i < n)%nat -> S i = false -> nth i p 0 = 0) ->
  Forall2 (entry_renamed n S) (filter (fun e => S (ecol e)) es) es' ->
  row_dot es' (map (fun i => nth i p 0) (kept n S)) r = row_dot es p r.
Proof.
  intros H Z. unfold row_dot. revert es'. induction es as [|e t IH]; intros es' F; cbn in F.
  - inversion F; subst. reflexivity.
  - assert (IH' := IH (fun e He => H e (or_intror He))). clear IH.
    destruct (S (ecol e)) eqn:Se.
    + inversion F as [|? e' ? es'' [R1 [R2 R3]] F' ]; subst. cbn.
      rewrite (IH' es'' F'). rewrite R1, R2, (kept_vec_nth n S p _ _ R3). reflexivity.
    + cbn. rewrite (IH' es' F). rewrite (Z (ecol e)); [|apply H; left; reflexivity|exact Se].
      destruct (Nat.eqb (erow e) r); ring.
Qed.

Lemma active_rows_nth rows es ps r :
  nth r (active_rows rows es ps) false = true <->
  (r < rows)%nat /\ exists e, In e es /\ erow e = r /\ ps (ecol e) = true.
Proof.
  unfold active_rows. destruct (Nat.lt_ge_cases r rows) as [Hr|Hr].
  - rewrite (nth_indep _ false ((fun r => existsb (fun e => Nat.eqb (erow e) r && ps (ecol e)) es) 0%nat)) by
      (rewrite map_length, seq_length; exact Hr).
    rewrite (map_nth (fun r => existsb (fun e => Nat.eqb (erow e) r && ps (ecol e)) es)), seq_nth by exact Hr.
    cbn. rewrite existsb_exists. split.
    + intros [e [He E]]. apply andb_true_iff in E as [A B]. apply Nat.eqb_eq in A. split; [exact Hr|eauto].
    + intros [_ [e [He [A B]]]]. exists e. split; [exact He|]. rewrite A, B, Nat.eqb_refl. reflexivity.
  - rewrite nth_overflow by (rewrite map_length, seq_length; exact Hr).
    split; [discriminate|]. intros [H _]. lia.
Qed.

Lemma Forall2_in_r {A B} (R : A -> B -> Prop) l l' y :
  Forall2 R l l' -> In y l' -> exists x, In x l /\ R x y.
Proof.
  induction 1; cbn; [contradiction|]. intros [<-|H1]; [eauto|].
  destruct (IHForall2 H1) as [w0 [A1 B1]]. eauto.
Qed.
Lemma Forall2_in_l {A B} (R : A -> B -> Prop) l l' x :
  Forall2 R l l' -> In x l -> exists y, In y l' /\ R x y.
Proof.
  induction 1; cbn; [contradiction|]. intros [<-|H1]; [eauto|].
  destruct (IHForall2 H1) as [w0 [A1 B1]]. eauto.
Qed.

(** ** Pose constraints, indices, limits *)

Definition pose_renamed (n : nat) (S : pset) (a b : nat * R) : Prop :=
  same_param n S (fst a) (fst b) /\ snd b = snd a.

Lemma subset_pose_list_ok n S o2n l : o2n_good n S o2n ->
  (forall i v, In (i, v) l -> (i < n)%nat) ->
  exists l', subset_pose_list o2n l = Ok l' /\
    Forall2 (pose_renamed n S) (filter (fun iv => S (fst iv)) l) l'.
Proof.
  intros G. induction l as [|[i v] r IH]; intros H.
  - exists []. split; [reflexivity|constructor].
  - cbn. destruct (o2n_read n S o2n i G (H i v (or_introl eq_refl))) as [m [E M]].
    destruct IH as [l' [E' F]]; [intros; eapply H; right; eassumption|].
    rewrite E, E'. cbn. destruct m as [c|].
    + destruct M as [M1 M2]. rewrite M1. eexists; split; [reflexivity|].
      constructor; [|exact F]. split; [exact M2|reflexivity].
    + rewrite M. eauto.
Qed.

Lemma subset_pose_ok n S o2n l : o2n_good n S o2n ->
  (forall nm c i v, In (nm, c) l -> In (i, v) c -> (i < n)%nat) ->
  exists l', subset_pose o2n l = Ok l' /\
    Forall2 (fun a b => fst b = fst a /\
       Forall2 (pose_renamed n S) (filter (fun iv => S (fst iv)) (snd a)) (snd b)) l l'.
Proof.
  intros G. induction l as [|[nm c] r IH]; intros H.
  - exists []. split; [reflexivity|constructor].
  - cbn. destruct (subset_pose_list_ok n S o2n c G) as [c' [E F]].
    { intros i v Hi. eapply H; [left; reflexivity|exact Hi]. }
    destruct IH as [l' [E' F']]; [intros; eapply H; [right; eassumption|eassumption]|].
    rewrite E, E'. cbn. eexists; split; [reflexivity|]. constructor; [|exact F'].
    split; [reflexivity|exact F].
Qed.

Definition index_renamed (n : nat) (S : pset) (z z' : Z) : Prop :=
  (z' = (-1)%Z /\ ((z < 0)%Z \/ S (Z.to_nat z) = false)) \/
  ((0 <= z)%Z /\ (0 <= z')%Z /\ S (Z.to_nat z) = true /\ same_param n S (Z.to_nat z) (Z.to_nat z')).

Lemma subset_indices_ok n S o2n l : o2n_good n S o2n ->
  (forall z, In z l -> (z < Z.of_nat n)%Z) ->
  exists l', subset_indices o2n l = Ok l' /\ Forall2 (index_renamed n S) l l'.
Proof.
  intros G. induction l as [|z r IH]; intros H.
  - exists []. split; [reflexivity|constructor].
  - cbn. destruct IH as [l' [E' F]]; [intros; apply H; right; assumption|].
    destruct (Z.leb_spec 0 z) as [Hz|Hz].
    + destruct (o2n_read n S o2n (Z.to_nat z) G) as [m [E M]].
      { specialize (H z (or_introl eq_refl)). lia. }
      rewrite E, E'. cbn. eexists; split; [reflexivity|]. constructor; [|exact F].
      destruct m as [c|].
      * destruct M as [M1 M2]. right. rewrite Nat2Z.id. repeat split; auto. lia.
      * left. auto.
    + cbn. rewrite E'. cbn. eexists; split; [reflexivity|]. constructor; [|exact F].
      left. auto.
Qed.

Definition plimit_renamed (n : nat) (S : pset) (l l' : plimit) : Prop :=
  limit_renamed (same_param n S) (ldata l) (ldata l') /\ lweight l' = lweight l.

Lemma subset_limits_ok n S o2n ls : o2n_good n S o2n -> limits_wf n ls ->
  exists ls', subset_limits o2n ls = Ok ls' /\
    Forall2 (plimit_renamed n S) (filter (limit_kept S) ls) ls'.
Proof.
  intros G. induction ls as [|l r IH]; intros H.
  - exists []. split; [reflexivity|constructor].
  - destruct IH as [ls' [E' F]].
    { intros x i Hx Hi. eapply H; [right; exact Hx|exact Hi]. }
    assert (P : forall i, In i (limit_params (ldata l)) ->
      exists m, rd o2n i = Ok m /\
        match m with Some r => S i = true /\ same_param n S i r | None => S i = false end).
    { intros i Hi. apply (o2n_read n S o2n i G). eapply H; [left; reflexivity|exact Hi]. }
    cbn [subset_limits]. unfold limit_kept at 1. cbn [filter].
    destruct l as [d w]. cbn [ldata lweight] in *.
    destruct d as [p lo hi|jt jp lo hi|jt jp lo hi|rf tg sc off r1 r2|ep pa|p1 p2 n1 n2 off];
      cbn [limit_params forallb] in *; cbn [limit_kept ldata limit_params forallb].
    + destruct (P p) as [m [E M]]; [left; reflexivity|]. rewrite E. cbn. rewrite E'. cbn.
      destruct m as [p'|].
      * destruct M as [M1 M2]. rewrite M1. cbn. eexists; split; [reflexivity|].
        constructor; [|exact F]. split; [constructor; exact M2|reflexivity].
      * rewrite M. cbn. eauto.
    + cbn. rewrite E'. cbn. eexists; split; [reflexivity|]. constructor; [split; constructor|exact F].
    + cbn. rewrite E'. cbn. eexists; split; [reflexivity|]. constructor; [split; constructor|exact F].
    + destruct (P rf) as [m [E M]]; [left; reflexivity|].
      destruct (P tg) as [m' [E2 M']]; [right; left; reflexivity|]. rewrite E, E2. cbn. rewrite E'. cbn.
      destruct m as [p'|]; [destruct M as [M1 M2]; rewrite M1|rewrite M; cbn; eauto].
      destruct m' as [q'|]; [destruct M' as [M1' M2']; rewrite M1'|rewrite M'; cbn; eauto].
      cbn. eexists; split; [reflexivity|]. constructor; [|exact F].
      split; [constructor; assumption|reflexivity].
    + cbn. rewrite E'. cbn. eexists; split; [reflexivity|]. constructor; [split; constructor|exact F].
    + destruct (P p1) as [m [E M]]; [left; reflexivity|].
      destruct (P p2) as [m' [E2 M']]; [right; left; reflexivity|]. rewrite E, E2. cbn. rewrite E'. cbn.
      destruct m as [p'|]; [destruct M as [M1 M2]; rewrite M1|rewrite M; cbn; eauto].
      destruct m' as [q'|]; [destruct M' as [M1' M2']; rewrite M1'|rewrite M'; cbn; eauto].
      cbn. eexists; split; [reflexivity|]. constructor; [|exact F].
      split; [constructor; assumption|reflexivity].
Qed.

(** ** The whole subset operation *)

Lemma subset_full pt limits S : pt_wf pt -> limits_wf (pt_cols pt) limits ->
  let n := pt_cols pt in
  exists pt' lims', subset_transform pt limits S = Ok (pt', lims') /\
    pt_name pt' = map (fun i => nth i (pt_name pt) EmptyString) (kept n S) /\
    pt_rows pt' = pt_rows pt /\ pt_cols pt' = List.length (kept n S) /\
    pt_offsets pt' = pt_offsets pt /\
    Forall2 (entry_renamed n S) (filter (fun e => S (ecol e)) (pt_entries pt)) (pt_entries pt') /\
    pt_active pt' = active_rows (pt_rows pt) (pt_entries pt') (fun _ => true) /\
    pt_sets pt' = map (fun '(nm, s) => (nm, subset_set (kept n S) s)) (pt_sets pt) /\
    Forall2 (fun a b => fst b = fst a /\
       Forall2 (pose_renamed n S) (filter (fun iv => S (fst iv)) (snd a)) (snd b)) (pt_pose pt) (pt_pose pt') /\
    Forall2 (index_renamed n S) (pt_blend pt) (pt_blend pt') /\
    Forall2 (index_renamed n S) (pt_face pt) (pt_face pt') /\
    Forall2 (plimit_renamed n S) (filter (limit_kept S) limits) lims'.
Proof.
  intros W WL n. unfold subset_transform.
  destruct (Nat.ltb_spec kMaxModelParams (pt_cols pt)) as [C|_]; [pose proof (wf_max pt W); lia|].
  fold n. destruct (index_maps_ok n S) as [o2n [E G]]. rewrite E.
  rewrite (rd_all_map (pt_name pt) EmptyString) by
    (intros i Hi; apply kept_in in Hi; rewrite (wf_names pt W); tauto).
  destruct (subset_entries_ok n S o2n (pt_entries pt) G) as [es [E1 F1]].
  { intros e He. apply (wf_entries pt W e He). }
  destruct (subset_pose_ok n S o2n (pt_pose pt) G (wf_pose pt W)) as [po [E2 F2]].
  destruct (subset_indices_ok n S o2n (pt_blend pt) G (wf_blend pt W)) as [bl [E3 F3]].
  destruct (subset_indices_ok n S o2n (pt_face pt) G (wf_face pt W)) as [fa [E4 F4]].
  destruct (subset_limits_ok n S o2n limits G WL) as [li [E5 F5]].
  cbn [obind]. rewrite E1, E2, E3, E4, E5. cbn [obind].
  eexists; eexists; split; [reflexivity|]. cbn. repeat (split; [first [reflexivity|assumption]|]). exact F5.
Qed.

Lemma subset_wf pt limits S pt' lims' : pt_wf pt -> limits_wf (pt_cols pt) limits ->
  subset_transform pt limits S = Ok (pt', lims') -> pt_wf pt' /\ limits_wf (pt_cols pt') lims'.
Proof.
  intros W WL E. destruct (subset_full pt limits S W WL)
    as [q [li [E' [N [R [C [O [F1 [A [ST [F2 [F3 [F4 F5]]]]]]]]]]]]].
  rewrite E in E'. injection E' as <- <-.
  assert (SP : forall i k, same_param (pt_cols pt) S i k -> (k < pt_cols pt')%nat).
  { intros i k H. rewrite C. apply nth_error_Some. unfold same_param in H. congruence. }
  split.
  - constructor.
    + rewrite N, C. apply map_length.
    + rewrite O, R. apply (wf_offsets pt W).
    + rewrite C. pose proof (wf_max pt W). unfold kept.
      assert (List.length (filter S (seq 0 (pt_cols pt))) <= List.length (seq 0 (pt_cols pt)))%nat.
      { clear. induction (seq 0 (pt_cols pt)) as [|x l IH]; cbn; [lia|]. destruct (S x); cbn; lia. }
      rewrite seq_length in H0. lia.
    + intros e He. destruct (Forall2_in_r _ _ _ _ F1 He) as [e0 [H0 [R1 [R2 R3]]]].
      apply filter_In in H0 as [H0 _]. rewrite R1, R. split; [apply (wf_entries pt W e0 H0)|]. eapply SP; eassumption.
    + intros nm l i v H1 H2. destruct (Forall2_in_r _ _ _ _ F2 H1) as [a [Ha [_ Fa]]].
      destruct (Forall2_in_r _ _ _ _ Fa H2) as [b [_ [Hb _]]]. eapply SP; exact Hb.
    + intros z Hz. destruct (Forall2_in_r _ _ _ _ F3 Hz) as [a [_ [[-> _]|[_ [Q [_ H]]]]]]; [lia|].
      apply SP in H. lia.
    + intros z Hz. destruct (Forall2_in_r _ _ _ _ F4 Hz) as [a [_ [[-> _]|[_ [Q [_ H]]]]]]; [lia|].
      apply SP in H. lia.
  - intros l i H1 H2. destruct (Forall2_in_r _ _ _ _ F5 H1) as [l0 [_ [LR _]]].
    destruct LR; cbn in H2; try contradiction; repeat (destruct H2 as [H2|H2]; [subst; eapply SP; eassumption|]); contradiction.
Qed.

Lemma subset_apply_lemma pt limits S : pt_wf pt -> limits_wf (pt_cols pt) limits ->
  exists pt' lims', subset_transform pt limits S = Ok (pt', lims') /\
    pt_name pt' = map (fun i => nth i (pt_name pt) EmptyString) (kept (pt_cols pt) S) /\
    pt_cols pt' = List.length (kept (pt_cols pt) S) /\
    (forall p, List.length p = pt_cols pt ->
       (forall i, (i < pt_cols pt)%nat -> S i = false -> nth i p 0 = 0) ->
       pt_apply pt' (map (fun i => nth i p 0) (kept (pt_cols pt) S)) = pt_apply pt p) /\
    (forall r, nth r (pt_active pt') false = true <->
       exists e, In e (pt_entries pt) /\ erow e = r /\ S (ecol e) = true).
Proof.
  intros W WL. destruct (subset_full pt limits S W WL)
    as [q [li [E' [N [R [C [O [F1 [A [ST _]]]]]]]]]].
  exists q, li. split; [exact E'|]. split; [exact N|]. split; [exact C|]. split.
  - intros p L Z. unfold pt_apply. rewrite C, O, R, map_length, Nat.eqb_refl, L, Nat.eqb_refl.
    rewrite (wf_offsets pt W), Nat.eqb_refl. cbn. f_equal. f_equal. unfold mat_vec. rewrite R.
    apply map_ext. intros r. apply row_dot_subset; [|exact Z|exact F1].
    intros e He. apply (wf_entries pt W e He).
  - intros r. rewrite A, active_rows_nth. split.
    + intros [_ [e [He [Er _]]]]. destruct (Forall2_in_r _ _ _ _ F1 He) as [e0 [H0 [R1 _]]].
      apply filter_In in H0 as [H0 H1]. exists e0. split; [exact H0|]. split; [congruence|exact H1].
    + intros [e [He [Er Se]]]. split; [rewrite <- Er; apply (wf_entries pt W e He)|].
      destruct (Forall2_in_l _ _ _ e F1) as [e' [H1 [R1 _]]]; [apply filter_In; auto|].
      exists e'. split; [exact H1|]. split; [congruence|reflexivity].
Qed.

Lemma subset_set_lemma n S s k :
  subset_set (kept n S) s k = true <-> exists i, same_param n S i k /\ s i = true.
Proof.
  unfold subset_set, same_param. destruct (nth_error (kept n S) k) as [i|]; split.
  - intros H. exists i. auto.
  - intros [j [H1 H2]]. congruence.
  - discriminate.
  - intros [j [H1 _]]. discriminate.
Qed.

Lemma subset_consistent_lemma pt limits S pt' lims' : pt_wf pt -> limits_wf (pt_cols pt) limits ->
  subset_transform pt limits S = Ok (pt', lims') ->
  let ren := same_param (pt_cols pt) S in
  (Forall2 (fun a b => fst b = fst a /\ forall k, snd b k = true <-> exists i, ren i k /\ snd a i = true)
     (pt_sets pt) (pt_sets pt')) /\
  (Forall2 (fun a b => fst b = fst a /\
       Forall2 (fun x y => ren (fst x) (fst y) /\ snd y = snd x)
         (filter (fun iv => S (fst iv)) (snd a)) (snd b)) (pt_pose pt) (pt_pose pt')) /\
  (Forall2 (fun l l' => limit_renamed ren (ldata l) (ldata l') /\ lweight l' = lweight l)
     (filter (limit_kept S) limits) lims') /\
  pt_wf pt' /\ limits_wf (pt_cols pt') lims'.
Proof.
  intros W WL E ren. destruct (subset_wf _ _ _ _ _ W WL E) as [W' WL'].
  destruct (subset_full pt limits S W WL)
    as [q [li [E' [N [R [C [O [F1 [A [ST [F2 [F3 [F4 F5]]]]]]]]]]]]].
  rewrite E in E'. injection E' as <- <-.
  split; [|split; [exact F2|split; [exact F5|split; assumption]]].
  rewrite ST. clear. induction (pt_sets pt) as [|[nm s] r IH]; cbn; constructor; [|exact IH].
  cbn. split; [reflexivity|]. intros k. apply subset_set_lemma.
Qed.

Lemma same_param_names pt S i k pt' lims lims' : pt_wf pt -> limits_wf (pt_cols pt) lims ->
  subset_transform pt lims S = Ok (pt', lims') -> same_param (pt_cols pt) S i k ->
  nth_error (pt_name pt') k = nth_error (pt_name pt) i /\ (i < pt_cols pt)%nat /\ S i = true.
Proof.
  intros W WL E H. destruct (subset_full pt lims S W WL) as [q [li [E' [N _]]]].
  rewrite E in E'. injection E' as <- <-.
  assert (I : In i (kept (pt_cols pt) S)) by (apply nth_error_In with k; exact H).
  apply kept_in in I as [I1 I2]. split; [|auto].
  rewrite N, nth_error_map, H. cbn. symmetry. apply nth_error_nth'. rewrite (wf_names pt W). exact I1.
Qed.

(** Limits lists keep their relative order and nothing else is in them. *)
Lemma limit_dropped_lemma S l : limit_kept S l = false <-> exists i, In i (limit_params (ldata l)) /\ S i = false.
Proof.
  unfold limit_kept. induction (limit_params (ldata l)) as [|x r IH]; cbn.
  - split; [discriminate|]. intros [i [[] _]].
  - rewrite andb_false_iff, IH. split.
    + intros [H|[i [A B]]]; eauto.
    + intros [i [[<-|A] B]]; eauto.
Qed.
