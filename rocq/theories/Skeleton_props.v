(** Properties of the joint hierarchy (C06, C07). *)

From Coq Require Import List Arith Lia.
From Verif Require Import Prelude Skeleton_model Skeleton_spec Skeleton_proofs.
Import ListNotations.

(** A skeleton with a branch: 0 <- 1 <- 2, 0 <- 3 <- 4. *)
Definition ex_tree : parents := [None; Some 0; Some 1; Some 0; Some 3].
(** Two roots 0 and 1. *)
Definition ex_forest : parents := [None; None; Some 0; Some 1].

Example ex_tree_valid : make_skeleton ex_tree = Ok ex_tree.
Proof. reflexivity. Qed.
Example ex_forest_valid : make_skeleton ex_forest = Ok ex_forest.
Proof. reflexivity. Qed.
Example ex_tree_parents_first : parents_first ex_tree /\ single_root ex_tree.
Proof.
  split.
  - apply make_skeleton_iff. reflexivity.
  - intros i H. do 5 (destruct i as [|i]; [try reflexivity; discriminate H|]).
    destruct i; discriminate H.
Qed.
Example ex_tree_run :
  is_ancestor 6 ex_tree 4 0 = Ok true /\ is_ancestor 6 ex_tree 4 1 = Ok false /\
  common_ancestor 11 ex_tree (Some 2) (Some 4) = Ok (Some 0) /\
  common_ancestor 11 ex_tree (Some 2) (Some 1) = Ok (Some 1).
Proof. repeat split; reflexivity. Qed.
Example bad_skeleton_rejected : make_skeleton [None; Some 1] = CheckFail.
Proof. reflexivity. Qed.

(** C06: the constructor accepts exactly the parents-first hierarchies. *)
Theorem skeleton_ctor_accepts_exactly_parents_first :
  forall ps,
  (make_skeleton ps = Ok ps <-> parents_first ps) /\
  (make_skeleton ps = CheckFail <-> ~ parents_first ps).
Proof. exact make_skeleton_iff. Qed.
Print Assumptions skeleton_ctor_accepts_exactly_parents_first.

(** C06: isAncestor terminates, reads in bounds and decides the relation. *)
Theorem is_ancestor_decides_ancestry :
  forall ps j a fuel,
  parents_first ps -> j < length ps -> a < length ps -> length ps < fuel ->
  exists b, is_ancestor fuel ps j a = Ok b /\ (b = true <-> ancestor ps j a).
Proof. exact is_ancestor_correct. Qed.
Print Assumptions is_ancestor_decides_ancestry.

(** C07: whenever the two joints have a common ancestor, commonAncestor
    terminates and returns the deepest one. *)
Theorem common_ancestor_is_deepest :
  forall ps a b fuel,
  parents_first ps -> a < length ps -> b < length ps -> 2 * length ps < fuel ->
  (exists c, common_anc ps a b c) ->
  exists c, common_ancestor fuel ps (Some a) (Some b) = Ok (Some c) /\
            deepest_common ps a b c.
Proof. exact common_ancestor_deepest. Qed.
Print Assumptions common_ancestor_is_deepest.

(** C07: on every valid hierarchy, also one with several roots, the loop ends
    without an out-of-range read. *)
Theorem common_ancestor_terminates :
  forall ps a b fuel,
  parents_first ps -> a < length ps -> b < length ps -> 2 * length ps < fuel ->
  exists r, common_ancestor fuel ps (Some a) (Some b) = Ok r.
Proof. exact common_ancestor_total. Qed.
Print Assumptions common_ancestor_terminates.

(** C07: with one root the result is the deepest common ancestor in either
    argument order. *)
Theorem common_ancestor_one_root_symmetric :
  forall ps a b fuel,
  parents_first ps -> single_root ps -> a < length ps -> b < length ps ->
  2 * length ps < fuel ->
  exists c, common_ancestor fuel ps (Some a) (Some b) = Ok (Some c) /\
            common_ancestor fuel ps (Some b) (Some a) = Ok (Some c) /\
            deepest_common ps a b c.
Proof. exact common_ancestor_single_root. Qed.
Print Assumptions common_ancestor_one_root_symmetric.

(** C07, finding: with two roots commonAncestor can return a joint that is not
    a common ancestor, and swapping the arguments changes the answer. *)
Theorem common_ancestor_forest_refuted :
  exists ps a b c, parents_first ps /\ a < length ps /\ b < length ps /\
    (forall d, ~ common_anc ps a b d) /\
    (forall fuel, 2 * length ps < fuel ->
       common_ancestor fuel ps (Some a) (Some b) = Ok (Some c) /\
       common_ancestor fuel ps (Some b) (Some a) = Ok None).
Proof.
  exists ex_forest, 2, 3, 0.
  assert (V : parents_first ex_forest) by (apply make_skeleton_iff; reflexivity).
  split; [exact V|]. split; [simpl; lia|]. split; [simpl; lia|]. split.
  - intros d [H1 H2].
    apply ancestor_inv in H1. destruct H1 as [H1|[p [E1 H1]]].
    + subst. apply ancestor_inv in H2. destruct H2 as [H2|[p [E2 H2]]]; [lia|].
      injection E2 as <-. apply ancestor_le in H2; [lia|exact V].
    + injection E1 as <-. apply ancestor_le in H1; [|exact V].
      assert (d = 0) by lia. subst.
      apply ancestor_inv in H2. destruct H2 as [H2|[p [E2 H2]]]; [lia|].
      injection E2 as <-.
      apply ancestor_inv in H2. destruct H2 as [H2|[p [E2 H2]]]; [lia|discriminate].
  - intros fuel Hf. simpl in Hf.
    do 6 (destruct fuel as [|fuel]; [lia|]). split; reflexivity.
Qed.
Print Assumptions common_ancestor_forest_refuted.

(** Joint lookup by name returns the first joint with that name, and
    kInvalidIndex only when there is none. *)
Theorem joint_lookup_first_match :
  forall (name : Type) (eqb : name -> name -> bool) names nm,
  match joint_id_by_name eqb names nm with
  | Some k => exists x, nth_error names k = Some x /\ eqb x nm = true /\
              (forall k' y, k' < k -> nth_error names k' = Some y -> eqb y nm = false)
  | None => forall k x, nth_error names k = Some x -> eqb x nm = false
  end.
Proof. exact @joint_id_by_name_spec. Qed.
Print Assumptions joint_lookup_first_match.
