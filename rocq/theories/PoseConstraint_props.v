(** Properties of pose constraint equality (C61). *)

From Coq Require Import Reals List Arith Lia Lra.
From Verif Require Import Prelude PoseConstraint_model PoseConstraint_spec PoseConstraint_proofs.
Import ListNotations.
Local Open Scope R_scope.

(** C61: with the same number of distinct parameters the comparison is defined
    and decides equality as sets (order of entries does not matter). *)
Theorem pose_constraint_equality_compares_sets :
  forall a b, num_params a = num_params b ->
  exists r, pose_eq a b = Ok r /\ (r = true <-> same_constraint a b).
Proof. exact pose_eq_lemma. Qed.
Print Assumptions pose_constraint_equality_compares_sets.

Example ex_pose_counts : num_params [(3%nat, 1); (1%nat, 2); (3%nat, 9)] = num_params [(1%nat, 2); (3%nat, 1)].
Proof. reflexivity. Qed.
Example ex_pose_same : same_constraint [(3%nat, 1); (1%nat, 2); (3%nat, 9)] [(1%nat, 2); (3%nat, 1)].
Proof.
  intros k. cbn [value_of]. destruct (Nat.eqb_spec k 3) as [E|N].
  - rewrite E. cbn. rewrite Rminus_eq_0, Rabs_R0. lra.
  - destruct (Nat.eqb k 1); [rewrite Rminus_eq_0, Rabs_R0; lra|exact I].
Qed.

(** C61: and it is then symmetric. *)
Theorem pose_constraint_equality_symmetric :
  forall a b, num_params a = num_params b -> pose_eq a b = pose_eq b a.
Proof. exact pose_eq_sym_lemma. Qed.
Print Assumptions pose_constraint_equality_symmetric.

(** C61 refuted: in general it is neither symmetric nor memory safe: the empty
    constraint equals every other, and comparing the other way round reads past
    the end of the empty map. *)
Theorem pose_constraint_equality_symmetric_refuted :
  exists a b, pose_eq a b = Ok true /\ pose_eq b a = UB /\ ~ same_constraint a b.
Proof.
  exists [], [(0%nat, 1)]. split; [reflexivity|]. split; [reflexivity|].
  intros H. exact (H 0%nat).
Qed.
Print Assumptions pose_constraint_equality_symmetric_refuted.

(** C61: a constraint with more parameters on the left never compares equal. *)
Theorem pose_constraint_longer_left_not_equal :
  forall a b, (num_params b < num_params a)%nat -> pose_eq a b = UB \/ pose_eq a b = Ok false.
Proof. exact pose_eq_longer_lemma. Qed.
Print Assumptions pose_constraint_longer_left_not_equal.
