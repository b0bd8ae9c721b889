(** Overwriting one element of a list, and facts about it. *)

From Coq Require Import Bool List Arith Lia.
Import ListNotations.

(** [l] with element [k] replaced by [x]; unchanged when there is no such element. *)
Fixpoint store {A} (l : list A) (k : nat) (x : A) : list A :=
  match l, k with
  | [], _ => []
  | _ :: r, O => x :: r
  | y :: r, S k' => y :: store r k' x
  end.

Lemma store_length {A} (l : list A) k x : length (store l k x) = length l.
Proof. revert k. induction l as [|y l IH]; intros [|k]; cbn; congruence. Qed.
Lemma store_nth {A} (l : list A) k x i d :
  nth i (store l k x) d = if (i =? k)%nat && (k <? length l)%nat then x else nth i l d.
Proof.
  revert k i. induction l as [|y l IH]; intros [|k] [|i]; cbn; try reflexivity.
  - destruct (i =? k)%nat; reflexivity.
  - rewrite IH. reflexivity.
Qed.
Lemma store_nth_same {A} (l : list A) k x d : (k < length l)%nat -> nth k (store l k x) d = x.
Proof.
  intros H. rewrite store_nth, Nat.eqb_refl. apply Nat.ltb_lt in H. rewrite H. reflexivity.
Qed.
Lemma store_nth_other {A} (l : list A) k x i d : i <> k -> nth i (store l k x) d = nth i l d.
Proof. intros H. rewrite store_nth. apply Nat.eqb_neq in H. rewrite H. reflexivity. Qed.
Lemma store_nth_error_same {A} (l : list A) k x :
  (k < length l)%nat -> nth_error (store l k x) k = Some x.
Proof. revert k. induction l as [|y l IH]; intros [|k]; cbn; intros H; try lia; auto. apply IH. lia. Qed.
Lemma store_nth_error_other {A} (l : list A) k x i :
  i <> k -> nth_error (store l k x) i = nth_error l i.
Proof.
  revert k i. induction l as [|y l IH]; intros [|k] [|i] H; cbn; try congruence; auto.
Qed.
Lemma store_out {A} (l : list A) k x : (length l <= k)%nat -> store l k x = l.
Proof. revert k. induction l as [|y l IH]; intros [|k]; cbn; intros H; auto; try lia. f_equal. apply IH. lia. Qed.

Lemma nth_map_gen {A B} (f : A -> B) l i d d' :
  (i < length l)%nat -> nth i (map f l) d' = f (nth i l d).
Proof. intros H. rewrite (nth_indep _ d' (f d)) by (rewrite map_length; exact H). apply map_nth. Qed.
Lemma nth_map_seq {B} (f : nat -> B) n i d : (i < n)%nat -> nth i (map f (seq 0 n)) d = f i.
Proof.
  intros H. rewrite (nth_map_gen f _ i 0%nat) by (rewrite seq_length; exact H).
  rewrite seq_nth by exact H. reflexivity.
Qed.
