(** Property C96: motions and identities carried over by name. *)

From Coq Require Import Bool Reals List Arith Lia Lra String.
From Verif Require Import Prelude Loops R3 Transform_model Skeleton_model Skeleton_proofs FK_model ParamTransform_model ParamTransform_proofs ParamTransform_map_proofs
  Simplify_model CharUtil_model CharMotion_spec.
Import ListNotations.
Local Open Scope nat_scope.

Lemma find_name_spec nm : forall names b,
  match find_name_from b names nm with
  | Some k => b <= k /\ first_named names nm (k - b)
  | None => ~ In nm names
  end.
Proof.
  induction names as [|x names IH]; intros b; cbn [find_name_from]; [auto|]. destruct (String.eqb_spec x nm) as [->|D].
  - split; [lia|]. rewrite Nat.sub_diag. split; [reflexivity|]. intros k Hk. lia.
  - specialize (IH (S b)). destruct (find_name_from (S b) names nm) as [k|].
    + destruct IH as (Hb & E & F). split; [lia|]. replace (k - b) with (S (k - S b)) by lia. split; [exact E|].
      intros [|k'] Hk; cbn; [congruence|]. apply F. lia.
    + intros [X|X]; [congruence|exact (IH X)].
Qed.
Lemma parameter_id_spec pt nm : match get_parameter_id_by_name pt nm with Some k => first_named (pt_name pt) nm k | None => ~ In nm (pt_name pt) end.
Proof. pose proof (find_name_spec nm (pt_name pt) 0) as H. unfold get_parameter_id_by_name. destruct (find_name_from 0 (pt_name pt) nm) as [k|]; [rewrite Nat.sub_0_r in H; apply H|exact H]. Qed.
Lemma joint_id_spec names nm : match joint_id_by_name String.eqb names nm with Some k => first_named names nm k | None => ~ In nm names end.
Proof.
  pose proof (joint_id_by_name_spec String.eqb names nm) as H. destruct (joint_id_by_name String.eqb names nm) as [k|].
  - destruct H as (x & E & X & F). apply String.eqb_eq in X. subst x. split; [exact E|]. intros k' Hk E'. specialize (F k' nm Hk E'). rewrite String.eqb_refl in F. discriminate.
  - intros X. apply In_nth_error in X as (k & E). specialize (H k nm E). rewrite String.eqb_refl in H. discriminate.
Qed.
Lemma first_unique names nm k k' : first_named names nm k -> first_named names nm k' -> k = k'.
Proof. intros [E F] [E' F']. destruct (Nat.lt_trichotomy k k') as [H|[H|H]]; [destruct (F' k H E)|exact H|destruct (F k' H E')]. Qed.
Lemma nodup_first names nm k : NoDup names -> nth_error names k = Some nm -> first_named names nm k.
Proof.
  intros N E. split; [exact E|]. intros k' Hk E'. assert (k' = k); [|lia]. apply (proj1 (NoDup_nth_error names) N); [apply (nth_error_len _ _ _ E')|congruence].
Qed.
Lemma nodup_last names nm k : NoDup names -> nth_error names k = Some nm -> last_named names nm k.
Proof.
  intros N E. split; [exact E|]. intros k' Hk E'. assert (k' = k); [|lia]. apply (proj1 (NoDup_nth_error names) N); [apply (nth_error_len _ _ _ E')|congruence].
Qed.

(** Which source is copied to target [k] after [m] names. *)
Definition source_of (targets names : list string) (m k i : nat) : Prop :=
  exists nm, first_named targets nm k /\ i < m /\ nth_error names i = Some nm /\ forall i', i < i' -> i' < m -> nth_error names i' <> Some nm.
Definition no_source (targets names : list string) (m k : nat) : Prop := forall nm i, first_named targets nm k -> i < m -> nth_error names i <> Some nm.

Lemma source_end targets names k nm i : first_named targets nm k -> last_named names nm i -> forall i', source_of targets names (List.length names) k i' -> i' = i.
Proof.
  intros F [E L] i' (nm' & F' & Hi & E' & L'). assert (nm' = nm) as -> by (destruct F, F'; congruence).
  destruct (Nat.lt_trichotomy i i') as [H|[H|H]]; [destruct (L i' H E')|lia|destruct (L' i H (nth_error_len _ _ _ E) E)].
Qed.
Lemma step_source targets names m k k' nm : nth_error names m = Some nm -> first_named targets nm k' ->
  (k = k' -> source_of targets names (S m) k m) /\
  (k <> k' -> (forall i, source_of targets names m k i -> source_of targets names (S m) k i) /\ (no_source targets names m k -> no_source targets names (S m) k)).
Proof.
  intros En F. split; [intros ->; exists nm; split; [exact F|]; split; [lia|]; split; [exact En|]; intros; lia|]. intros D. split.
  - intros i (nm' & F' & Hi & E & L). exists nm'. split; [exact F'|]. split; [lia|]. split; [exact E|]. intros i' H1 H2. destruct (Nat.eq_dec i' m) as [->|]; [|apply L; lia].
    intros X. apply D. assert (nm' = nm) as -> by congruence. apply (first_unique targets nm); assumption.
  - intros N nm' i F' Hi. destruct (Nat.eq_dec i m) as [->|]; [|apply N; [exact F'|lia]]. intros X. apply D. assert (nm' = nm) as -> by congruence. apply (first_unique targets nm); assumption.
Qed.
Lemma step_unknown targets names m k nm : nth_error names m = Some nm -> ~ In nm targets ->
  (forall i, source_of targets names m k i -> source_of targets names (S m) k i) /\ (no_source targets names m k -> no_source targets names (S m) k).
Proof.
  intros En F. assert (Q : forall nm', first_named targets nm' k -> nm' <> nm) by (intros nm' [X _] ->; apply F; eapply nth_error_In; exact X). split.
  - intros i (nm' & F' & Hi & E & L). exists nm'. split; [exact F'|]. split; [lia|]. split; [exact E|]. intros i' H1 H2. destruct (Nat.eq_dec i' m) as [->|]; [|apply L; lia].
    intros X. apply (Q nm' F'). congruence.
  - intros N nm' i F' Hi. destruct (Nat.eq_dec i m) as [->|]; [|apply N; [exact F'|lia]]. intros X. apply (Q nm' F'). congruence.
Qed.

Local Open Scope R_scope.
Lemma map_motion_ok names rows cols pt : List.length names = List.length rows -> List.length (pt_name pt) = pt_cols pt ->
  exists res, map_motion names rows cols pt = Ok res /\ List.length res = pt_cols pt /\ forall k, (k < pt_cols pt)%nat ->
    (exists i, source_of (pt_name pt) names (List.length names) k i /\ nth_error res k = nth_error rows i) \/
    (no_source (pt_name pt) names (List.length names) k /\ nth_error res k = Some (repeat 0 cols)).
Proof.
  intros L W. set (P := fun (m : nat) (res : list (list R)) => List.length res = pt_cols pt /\ forall k, (k < pt_cols pt)%nat ->
    (exists i, source_of (pt_name pt) names m k i /\ nth_error res k = nth_error rows i) \/ (no_source (pt_name pt) names m k /\ nth_error res k = Some (repeat 0 cols))).
  assert (exists res, map_motion names rows cols pt = Ok res /\ P (List.length names) res) as (res & E & H); [|exists res; destruct H; auto].
  unfold map_motion. rewrite L, Nat.eqb_refl. cbn [negb]. rewrite <- L. apply (ofold_seq_inv _ P).
  - split; [apply repeat_length|]. intros k Hk. right. split; [intros nm i _ Hi; lia|]. rewrite nth_error_repeat by exact Hk. reflexivity.
  - intros m res Hm (Lr & N). destruct (nth_error_lt names m Hm) as [nm En]. rewrite (rd_some _ _ _ En). cbn [obind].
    pose proof (parameter_id_spec pt nm) as Sp. destruct (get_parameter_id_by_name pt nm) as [k'|].
    + destruct (nth_error_lt rows m) as [row Er]; [lia|]. rewrite (rd_some _ _ _ Er). cbn [obind].
      assert (Hk' : (k' < pt_cols pt)%nat) by (rewrite <- W; apply (nth_error_len _ _ _ (proj1 Sp))).
      destruct (Loops.wr_ok res k' row) as (r' & E' & L' & N1 & N2); [lia|]. exists r'. split; [exact E'|]. split; [lia|]. intros k Hk.
      destruct (step_source (pt_name pt) names m k k' nm En Sp) as [S1 S2]. destruct (Nat.eq_dec k k') as [->|D].
      * left. exists m. split; [apply S1; reflexivity|congruence].
      * destruct (S2 D) as [S3 S4]. rewrite N2 by exact D. destruct (N k Hk) as [(i & A & B)|[A B]]; [left; exists i; auto|right; auto].
    + exists res. split; [reflexivity|]. split; [exact Lr|]. intros k Hk. destruct (step_unknown (pt_name pt) names m k nm En Sp) as [S3 S4].
      destruct (N k Hk) as [(i & A & B)|[A B]]; [left; exists i; auto|right; auto].
Qed.

(** A motion needs a row for every name. *)
Theorem motion_size names rows cols pt : List.length names <> List.length rows -> map_motion names rows cols pt = CheckFail.
Proof. intros H. unfold map_motion. apply Nat.eqb_neq in H. rewrite H. reflexivity. Qed.
Print Assumptions motion_size.

(** The parameter that is found by a name gets the (last) row with this name; all other parameters are zero. *)
Theorem motion_rows names rows cols pt : List.length names = List.length rows -> List.length (pt_name pt) = pt_cols pt ->
  exists res, map_motion names rows cols pt = Ok res /\ List.length res = pt_cols pt /\
    (forall nm k i row, first_named (pt_name pt) nm k -> last_named names nm i -> nth_error rows i = Some row -> nth_error res k = Some row) /\
    (forall nm k, nth_error (pt_name pt) k = Some nm -> ~ In nm names \/ ~ first_named (pt_name pt) nm k -> nth_error res k = Some (repeat 0 cols)).
Proof.
  intros L W. destruct (map_motion_ok names rows cols pt L W) as (res & E & Lr & N). exists res. split; [exact E|]. split; [exact Lr|]. split.
  - intros nm k i row F La Er. assert (Hk : (k < pt_cols pt)%nat) by (rewrite <- W; apply (nth_error_len _ _ _ (proj1 F))).
    destruct (N k Hk) as [(i' & So & X)|[No _]].
    + rewrite (source_end _ _ _ _ _ F La i' So) in X. congruence.
    + destruct (No nm i F (nth_error_len _ _ _ (proj1 La)) (proj1 La)).
  - intros nm k Ek H. assert (Hk : (k < pt_cols pt)%nat) by (rewrite <- W; apply (nth_error_len _ _ _ Ek)).
    destruct (N k Hk) as [(i' & (nm' & F & _ & Ei & _) & X)|[_ X]]; [|exact X]. exfalso. assert (nm' = nm) as -> by (destruct F; congruence).
    destruct H as [H|H]; [apply H; eapply nth_error_In; exact Ei|exact (H F)].
Qed.
Print Assumptions motion_rows.

(** With distinct names every parameter gets the row with its name, and zero if there is none. *)
Theorem motion_by_name names rows cols pt : List.length names = List.length rows -> List.length (pt_name pt) = pt_cols pt -> NoDup names -> NoDup (pt_name pt) ->
  exists res, map_motion names rows cols pt = Ok res /\ List.length res = pt_cols pt /\
    (forall nm k i, nth_error (pt_name pt) k = Some nm -> nth_error names i = Some nm -> nth_error res k = nth_error rows i) /\
    (forall nm k, nth_error (pt_name pt) k = Some nm -> ~ In nm names -> nth_error res k = Some (repeat 0 cols)).
Proof.
  intros L W D1 D2. destruct (motion_rows names rows cols pt L W) as (res & E & Lr & A & B). exists res. split; [exact E|]. split; [exact Lr|]. split; [|eauto].
  intros nm k i Ek Ei. destruct (nth_error_lt rows i) as [row Er]; [rewrite <- L; apply (nth_error_len _ _ _ Ei)|]. rewrite Er.
  apply (A nm k i row); [apply nodup_first|apply nodup_last|]; assumption.
Qed.
Print Assumptions motion_by_name.

Lemma nth_error_ext_le {A} (l l' : list A) : List.length l = List.length l' -> (forall k, (k < List.length l)%nat -> nth_error l k = nth_error l' k) -> l = l'.
Proof.
  revert l'. induction l as [|x l IH]; intros [|y l'] L H; try discriminate; [reflexivity|]. f_equal.
  - specialize (H 0%nat ltac:(cbn; lia)). cbn in H. congruence.
  - apply IH; [cbn in L; lia|]. intros k Hk. apply (H (S k)). cbn. lia.
Qed.
(** A character's own motion comes back as it was. *)
Theorem motion_own rows cols pt : List.length (pt_name pt) = pt_cols pt -> List.length rows = pt_cols pt -> NoDup (pt_name pt) -> map_motion (pt_name pt) rows cols pt = Ok rows.
Proof.
  intros W L D. destruct (motion_by_name (pt_name pt) rows cols pt) as (res & E & Lr & A & _); [congruence|exact W|exact D|exact D|]. rewrite E. f_equal.
  apply nth_error_ext_le; [congruence|]. intros k Hk. destruct (nth_error_lt (pt_name pt) k) as [nm En]; [lia|]. apply (A nm k k En En).
Qed.
Print Assumptions motion_own.

(** With two parameters of the same name the second is set to zero, also in a character's own motion. *)
Theorem motion_duplicates_refuted : exists pt rows res, List.length (pt_name pt) = pt_cols pt /\ List.length rows = pt_cols pt /\
  map_motion (pt_name pt) rows 1 pt = Ok res /\ nth_error res 0 <> nth_error rows 0 /\ nth_error res 1 <> nth_error rows 1.
Proof.
  exists (PT ["a"%string; "a"%string] 7 2 [] (repeat 0 7) (repeat false 7) [] [] [] []), [[1]; [2]], [[2]; [0]]. repeat split; try reflexivity; cbn; intros X; injection X; lra.
Qed.
Print Assumptions motion_duplicates_refuted.

(** ** Identities *)

Lemma map_identity_ok names values c : (List.length names * 7 = List.length values)%nat -> List.length (fc_names c) = List.length (fc_joints c) ->
  exists res, map_identity names values c = Ok res /\ List.length res = (7 * List.length (fc_joints c))%nat /\ forall k, (k < List.length (fc_joints c))%nat ->
    (exists i, source_of (fc_names c) names (List.length names) k i /\ forall d, (d < 7)%nat -> nth (7 * k + d) res 0 = nth (7 * i + d) values 0) \/
    (no_source (fc_names c) names (List.length names) k /\ forall d, (d < 7)%nat -> nth (7 * k + d) res 0 = 0).
Proof.
  intros L W. set (P := fun (m : nat) (res : list R) => List.length res = (7 * List.length (fc_joints c))%nat /\ forall k, (k < List.length (fc_joints c))%nat ->
    (exists i, source_of (fc_names c) names m k i /\ forall d, (d < 7)%nat -> nth (7 * k + d) res 0 = nth (7 * i + d) values 0) \/
    (no_source (fc_names c) names m k /\ forall d, (d < 7)%nat -> nth (7 * k + d) res 0 = 0)).
  assert (exists res, map_identity names values c = Ok res /\ P (List.length names) res) as (res & E & H); [|exists res; destruct H; auto].
  unfold map_identity. rewrite L, Nat.eqb_refl. cbn [negb]. apply (ofold_seq_inv _ P).
  - split; [rewrite repeat_length; lia|]. intros k Hk. right. split; [intros nm i _ Hi; lia|]. intros d _. apply nth_repeat.
  - intros m res Hm (Lr & N). destruct (nth_error_lt names m Hm) as [nm En]. rewrite (rd_some _ _ _ En). cbn [obind].
    pose proof (joint_id_spec (fc_names c) nm) as Sp. destruct (joint_id_by_name String.eqb (fc_names c) nm) as [k'|].
    + rewrite (rd_all_map values 0) by (intros i Hi; apply in_seq in Hi; lia). cbn [obind].
      assert (Hk' : (k' < List.length (fc_joints c))%nat) by (rewrite <- W; apply (nth_error_len _ _ _ (proj1 Sp))).
      destruct (set_block_ok (map (fun i => nth i values 0) (seq (m * 7) 7)) res (k' * 7)) as (r' & E' & L' & N'); [rewrite map_length, seq_length, Lr; lia|].
      rewrite map_length, seq_length in N'. exists r'. split; [exact E'|]. split; [lia|]. intros k Hk.
      destruct (step_source (fc_names c) names m k k' nm En Sp) as [S1 S2]. destruct (Nat.eq_dec k k') as [->|D].
      * left. exists m. split; [apply S1; reflexivity|]. intros d Hd. rewrite N'. destruct (Nat.leb_spec (k' * 7) (7 * k' + d)); [|lia].
        destruct (Nat.ltb_spec (7 * k' + d) (k' * 7 + 7)); [|lia]. cbn [andb]. replace (7 * k' + d - k' * 7)%nat with d by lia.
        rewrite (nth_indep _ 0 (nth 0 values 0)) by (rewrite map_length, seq_length; exact Hd). rewrite (map_nth (fun i => nth i values 0)), seq_nth by exact Hd. f_equal. lia.
      * destruct (S2 D) as [S3 S4]. assert (Same : forall d, (d < 7)%nat -> nth (7 * k + d) r' 0 = nth (7 * k + d) res 0).
        { intros d Hd. rewrite N'. destruct (Nat.leb_spec (k' * 7) (7 * k + d)); [|reflexivity]. destruct (Nat.ltb_spec (7 * k + d) (k' * 7 + 7)); [lia|reflexivity]. }
        destruct (N k Hk) as [(i & A & B)|[A B]]; [left; exists i; split; [auto|]|right; split; [auto|]]; intros d Hd; rewrite Same by exact Hd; auto.
    + exists res. split; [reflexivity|]. split; [exact Lr|]. intros k Hk. destruct (step_unknown (fc_names c) names m k nm En Sp) as [S3 S4].
      destruct (N k Hk) as [(i & A & B)|[A B]]; [left; exists i; auto|right; auto].
Qed.

(** An identity needs seven values for every name. *)
Theorem identity_size names values c : (List.length names * 7 <> List.length values)%nat -> map_identity names values c = CheckFail.
Proof. intros H. unfold map_identity. apply Nat.eqb_neq in H. rewrite H. reflexivity. Qed.
Print Assumptions identity_size.

(** The joint that is found by a name gets the seven values of the (last) joint with this name; all other values are zero. *)
Theorem identity_blocks names values c : (List.length names * 7 = List.length values)%nat -> List.length (fc_names c) = List.length (fc_joints c) ->
  exists res, map_identity names values c = Ok res /\ List.length res = (7 * List.length (fc_joints c))%nat /\
    (forall nm k i d, first_named (fc_names c) nm k -> last_named names nm i -> (d < 7)%nat -> nth (7 * k + d) res 0 = nth (7 * i + d) values 0) /\
    (forall nm k d, nth_error (fc_names c) k = Some nm -> ~ In nm names \/ ~ first_named (fc_names c) nm k -> (d < 7)%nat -> nth (7 * k + d) res 0 = 0).
Proof.
  intros L W. destruct (map_identity_ok names values c L W) as (res & E & Lr & N). exists res. split; [exact E|]. split; [exact Lr|]. split.
  - intros nm k i d F La Hd. assert (Hk : (k < List.length (fc_joints c))%nat) by (rewrite <- W; apply (nth_error_len _ _ _ (proj1 F))).
    destruct (N k Hk) as [(i' & So & X)|[No _]].
    + rewrite (source_end _ _ _ _ _ F La i' So) in X. apply X, Hd.
    + destruct (No nm i F (nth_error_len _ _ _ (proj1 La)) (proj1 La)).
  - intros nm k d Ek H Hd. assert (Hk : (k < List.length (fc_joints c))%nat) by (rewrite <- W; apply (nth_error_len _ _ _ Ek)).
    destruct (N k Hk) as [(i' & (nm' & F & _ & Ei & _) & X)|[_ X]]; [|apply X, Hd]. exfalso. assert (nm' = nm) as -> by (destruct F; congruence).
    destruct H as [H|H]; [apply H; eapply nth_error_In; exact Ei|exact (H F)].
Qed.
Print Assumptions identity_blocks.

(** A character's own identity comes back as it was, if the joints have distinct names. *)
Theorem identity_own values c : List.length (fc_names c) = List.length (fc_joints c) -> List.length values = (7 * List.length (fc_joints c))%nat -> NoDup (fc_names c) ->
  map_identity (fc_names c) values c = Ok values.
Proof.
  intros W L D. destruct (identity_blocks (fc_names c) values c) as (res & E & Lr & A & _); [lia|exact W|]. rewrite E. f_equal.
  apply (nth_ext _ _ 0 0); [congruence|]. intros r Hr. set (k := (r / 7)%nat). assert (Er : (r = 7 * k + r mod 7)%nat) by (apply Nat.div_mod; lia).
  assert (Hk : (k < List.length (fc_joints c))%nat) by (apply Nat.div_lt_upper_bound; lia). destruct (nth_error_lt (fc_names c) k) as [nm En]; [lia|].
  rewrite Er. apply (A nm k k); [apply nodup_first|apply nodup_last|apply Nat.mod_upper_bound; lia]; assumption.
Qed.
Print Assumptions identity_own.

(** Two of three parameters are known. *)
Example motion_case : let pt := PT ["a"%string; "b"%string; "c"%string] 7 3 [] (repeat 0 7) (repeat false 7) [] [] [] [] in
  map_motion ["c"%string; "x"%string; "a"%string] [[1; 2]; [3; 4]; [5; 6]] 2 pt = Ok [[5; 6]; [0; 0]; [1; 2]] /\ NoDup (pt_name pt) /\
  first_named ["a"%string; "b"%string; "a"%string] "a" 0 /\ last_named ["a"%string; "b"%string; "a"%string] "a" 2.
Proof.
  cbv zeta. split; [reflexivity|]. split.
  - repeat constructor; cbn; intros H; repeat (destruct H as [H|H]; [discriminate|]); exact H.
  - split; (split; [reflexivity|]); intros k Hk; [lia|]. destruct k as [|[|[|[|k]]]]; try lia; discriminate.
Qed.
