(** What "ancestor" and "deepest common ancestor" mean, independently of the
    code. *)

From Coq Require Import List.
Import ListNotations.

(** Each joint's parent, if any, comes before it. *)
Definition parents_first (ps : list (option nat)) : Prop :=
  forall i p, nth_error ps i = Some (Some p) -> p < i.

(** [ancestor ps j a]: [a] is reached from joint [j] by zero or more parent
    steps. *)
Inductive ancestor (ps : list (option nat)) : nat -> nat -> Prop :=
| ancestor_self j : j < length ps -> ancestor ps j j
| ancestor_up j p a :
    nth_error ps j = Some (Some p) -> ancestor ps p a -> ancestor ps j a.

Definition common_anc (ps : list (option nat)) (a b c : nat) : Prop :=
  ancestor ps a c /\ ancestor ps b c.

(** [c] is a common ancestor and every common ancestor is an ancestor of it. *)
Definition deepest_common (ps : list (option nat)) (a b c : nat) : Prop :=
  common_anc ps a b c /\ forall d, common_anc ps a b d -> ancestor ps c d.

(** Only joint 0 has no parent. *)
Definition single_root (ps : list (option nat)) : Prop :=
  forall i, nth_error ps i = Some None -> i = 0.
