(** Proofs about PoseConstraint::operator==. *)

From Coq Require Import Reals List Arith Lia Lra Sorted Permutation.
From Verif Require Import Prelude PoseConstraint_model PoseConstraint_spec.
Import ListNotations.
Local Open Scope R_scope.

Definition keys_above (k : nat) (m : list (nat * R)) : Prop := forall k' v, In (k', v) m -> (k < k')%nat.
Inductive sorted_map : list (nat * R) -> Prop :=
| sm_nil : sorted_map []
| sm_cons k v m : keys_above k m -> sorted_map m -> sorted_map ((k, v) :: m).

Lemma map_insert_keys k v m k' v' : In (k', v') (map_insert k v m) -> k' = k \/ In (k', v') m.
Proof.
  induction m as [|[a x] m IH]; cbn [map_insert In].
  - intros [H|[]]. injection H as <- <-. auto.
  - destruct (Nat.ltb k a); [|destruct (Nat.eqb k a)]; cbn [In].
    + intros [H|H]; [injection H as <- <-; auto|auto].
    + auto.
    + intros [H|H]; [auto|]. destruct (IH H); auto.
Qed.

Lemma map_insert_sorted k v m : sorted_map m -> sorted_map (map_insert k v m).
Proof.
  induction 1 as [|a x m A S IH]; cbn [map_insert].
  - constructor; [intros ? ? []|constructor].
  - destruct (Nat.ltb_spec k a) as [L|L].
    + constructor; [|constructor; assumption]. intros k' v' [H|H].
      * injection H as <- <-. exact L.
      * specialize (A k' v' H). lia.
    + destruct (Nat.eqb_spec k a) as [->|N]; [constructor; assumption|].
      constructor; [|exact IH]. intros k' v' H. apply map_insert_keys in H as [->|H]; [lia|eauto].
Qed.

Lemma value_above k m : keys_above k m -> value_of k m = None.
Proof.
  induction m as [|[a x] m IH]; cbn; intros A; [reflexivity|].
  destruct (Nat.eqb_spec k a) as [->|N].
  - specialize (A a x (or_introl eq_refl)). lia.
  - apply IH. intros k' v' H. apply (A k' v'). right. exact H.
Qed.
Lemma value_below k m j v : keys_above k m -> (j <= k)%nat -> value_of j ((k, v) :: m) = if Nat.eqb j k then Some v else None.
Proof.
  intros A L. cbn. destruct (Nat.eqb_spec j k); [reflexivity|].
  apply value_above. intros k' v' H. specialize (A k' v' H). lia.
Qed.

Lemma map_insert_value k v m j : sorted_map m ->
  value_of j (map_insert k v m) =
  match value_of j m with Some x => Some x | None => if Nat.eqb j k then Some v else None end.
Proof.
  induction 1 as [|a x m A S IH].
  - reflexivity.
  - cbn [map_insert]. destruct (Nat.ltb_spec k a) as [L|L].
    + cbn [value_of]. destruct (Nat.eqb_spec j k) as [->|N].
      * destruct (Nat.eqb_spec k a); [lia|].
        rewrite value_above; [reflexivity|]. intros k' v' H. specialize (A k' v' H). lia.
      * destruct (Nat.eqb j a); [reflexivity|]. destruct (value_of j m); reflexivity.
    + destruct (Nat.eqb_spec k a) as [->|N].
      * cbn [value_of]. destruct (Nat.eqb j a); [reflexivity|]. destruct (value_of j m); reflexivity.
      * cbn [value_of]. destruct (Nat.eqb_spec j a) as [->|N2]; [reflexivity|exact IH].
Qed.

Lemma to_map_spec l : forall m, sorted_map m -> sorted_map (to_map m l) /\
  forall j, value_of j (to_map m l) = match value_of j m with Some x => Some x | None => value_of j l end.
Proof.
  induction l as [|[k v] r IH]; intros m S; cbn [to_map].
  - split; [exact S|]. intros j. destruct (value_of j m); reflexivity.
  - destruct (IH (map_insert k v m) (map_insert_sorted k v m S)) as [S' V]. split; [exact S'|].
    intros j. rewrite V, map_insert_value by exact S. destruct (value_of j m); [reflexivity|].
    cbn. destruct (Nat.eqb j k); reflexivity.
Qed.

Lemma value_of_in k l : value_of k l <> None <-> In k (map fst l).
Proof.
  induction l as [|[a x] l IH]; cbn; [tauto|].
  destruct (Nat.eqb_spec k a) as [->|N].
  - split; [auto|discriminate].
  - rewrite IH. intuition congruence.
Qed.

Lemma sorted_nodup m : sorted_map m -> NoDup (map fst m).
Proof.
  induction 1 as [|a x m A S IH]; cbn; constructor; [|exact IH].
  intros H. apply in_map_iff in H as [[k v] [E H]]. cbn in E. subst. specialize (A a v H). lia.
Qed.

Lemma to_map_length l : length (to_map [] l) = num_params l.
Proof.
  destruct (to_map_spec l [] sm_nil) as [S V]. unfold num_params.
  rewrite <- (map_length fst). apply Permutation_length. apply NoDup_Permutation.
  - apply sorted_nodup. exact S.
  - apply NoDup_nodup.
  - intros k. rewrite nodup_In, <- !value_of_in, V. reflexivity.
Qed.

Lemma is_approx_true x y : is_approx x y = true <-> Rabs (x - y) < 1 / 10000.
Proof. unfold is_approx. destruct (Rlt_dec _ _); split; auto; discriminate. Qed.

Lemma equal3_ok a b : length a = length b -> exists r, equal3 a b = Ok r.
Proof.
  revert b; induction a as [|[k v] a IH]; intros [|[k' v'] b] L; cbn in *; try discriminate; eauto.
  destruct (Nat.eqb k k' && is_approx v v')%bool; eauto.
Qed.

Lemma equal3_true a b : sorted_map a -> sorted_map b -> length a = length b ->
  (equal3 a b = Ok true <-> same_constraint a b).
Proof.
  intros Sa. revert b. induction Sa as [|k v a A Sa IH]; intros b Sb L.
  - destruct b; [|discriminate]. cbn. split; [intros _ j; exact I|reflexivity].
  - destruct b as [|[k' v'] b]; [discriminate|]. injection L as L.
    inversion Sb as [|? ? ? B Sb']; subst. specialize (IH b Sb' L). cbn [equal3].
    destruct (Nat.eqb_spec k k') as [->|N]; cbn [andb].
    + destruct (is_approx v v') eqn:E.
      * rewrite IH. apply is_approx_true in E. split; intros H j; specialize (H j); cbn [value_of] in *.
        -- destruct (Nat.eqb j k'); [exact E|exact H].
        -- destruct (Nat.eqb_spec j k') as [Ej|]; [|exact H]. rewrite Ej.
           rewrite !value_above by assumption. exact I.
      * split; [discriminate|]. intros H. specialize (H k'). cbn in H. rewrite Nat.eqb_refl in H.
        apply is_approx_true in H. congruence.
    + split; [discriminate|]. intros H. exfalso.
      destruct (Nat.lt_ge_cases k k') as [Lt|Ge].
      * specialize (H k). cbn [value_of] in H. rewrite Nat.eqb_refl in H.
        destruct (Nat.eqb_spec k k'); [lia|].
        rewrite (value_above k b) in H; [exact H|]. intros x y Hx. specialize (B x y Hx). lia.
      * specialize (H k'). cbn [value_of] in H. rewrite Nat.eqb_refl in H.
        destruct (Nat.eqb_spec k' k); [lia|].
        rewrite (value_above k' a) in H; [exact H|]. intros x y Hx. specialize (A x y Hx). lia.
Qed.

Lemma pose_eq_lemma a b : num_params a = num_params b ->
  exists r, pose_eq a b = Ok r /\ (r = true <-> same_constraint a b).
Proof.
  intros H. destruct (to_map_spec a [] sm_nil) as [Sa Va], (to_map_spec b [] sm_nil) as [Sb Vb].
  assert (L : length (to_map [] a) = length (to_map [] b)) by (rewrite !to_map_length; exact H).
  destruct (equal3_ok _ _ L) as [r E]. exists r. unfold pose_eq. split; [exact E|].
  pose proof (equal3_true _ _ Sa Sb L) as T. rewrite E in T.
  assert (SC : same_constraint (to_map [] a) (to_map [] b) <-> same_constraint a b).
  { split; intros G k; specialize (G k); rewrite Va, Vb in *; exact G. }
  rewrite <- SC, <- T. split; [intros ->; reflexivity|intros G; injection G as ->; reflexivity].
Qed.

Lemma same_constraint_sym a b : same_constraint a b -> same_constraint b a.
Proof.
  intros H k. specialize (H k). destruct (value_of k a), (value_of k b); auto.
  rewrite Rabs_minus_sym. exact H.
Qed.

Lemma pose_eq_sym_lemma a b : num_params a = num_params b -> pose_eq a b = pose_eq b a.
Proof.
  intros H. destruct (pose_eq_lemma a b H) as [r [E1 P1]], (pose_eq_lemma b a (eq_sym H)) as [s [E2 P2]].
  rewrite E1, E2. f_equal. destruct r, s; auto.
  - symmetry. apply P2, same_constraint_sym, P1. reflexivity.
  - apply P1, same_constraint_sym, P2. reflexivity.
Qed.

(** A value comparison that runs out of the second range. *)
Lemma pose_eq_longer_lemma a b : (num_params b < num_params a)%nat ->
  pose_eq a b = UB \/ pose_eq a b = Ok false.
Proof.
  rewrite <- !to_map_length. unfold pose_eq. generalize (to_map [] b). generalize (to_map [] a). clear.
  induction l as [|[k v] l IH]; intros m H; cbn in *; [lia|].
  destruct m as [|[k' v'] m]; [auto|]. destruct (Nat.eqb k k' && is_approx v v')%bool; [|auto].
  apply IH. cbn in H. lia.
Qed.
