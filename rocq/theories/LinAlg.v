(** Finite sums of reals over lists and index ranges. *)

From Coq Require Import Reals List Arith Lia Lra.
Import ListNotations.
Local Open Scope R_scope.

Fixpoint rsum (l : list R) : R :=
  match l with [] => 0 | x :: r => x + rsum r end.

(** Sum of [f i] for i = 0 .. n-1. *)
Definition sumn (n : nat) (f : nat -> R) : R := rsum (map f (seq 0 n)).

Lemma rsum_app l1 l2 : rsum (l1 ++ l2) = rsum l1 + rsum l2.
Proof. induction l1 as [|x l IH]; cbn; [ring|rewrite IH; ring]. Qed.

Lemma rsum_map_ext {A} (f g : A -> R) l :
  (forall x, In x l -> f x = g x) -> rsum (map f l) = rsum (map g l).
Proof.
  induction l as [|x l IH]; cbn; intros H; [reflexivity|].
  rewrite H by auto. rewrite IH; auto.
Qed.
Lemma rsum_map_plus {A} (f g : A -> R) l :
  rsum (map (fun x => f x + g x) l) = rsum (map f l) + rsum (map g l).
Proof. induction l as [|x l IH]; cbn; [ring|rewrite IH; ring]. Qed.
Lemma rsum_map_minus {A} (f g : A -> R) l :
  rsum (map (fun x => f x - g x) l) = rsum (map f l) - rsum (map g l).
Proof. induction l as [|x l IH]; cbn; [ring|rewrite IH; ring]. Qed.
Lemma rsum_map_scal {A} (c : R) (f : A -> R) l :
  rsum (map (fun x => c * f x) l) = c * rsum (map f l).
Proof. induction l as [|x l IH]; cbn; [ring|rewrite IH; ring]. Qed.
Lemma rsum_map_zero {A} (f : A -> R) l : (forall x, In x l -> f x = 0) -> rsum (map f l) = 0.
Proof.
  induction l as [|x l IH]; cbn; intros H; [reflexivity|].
  rewrite H by auto. rewrite IH by auto. ring.
Qed.
Lemma rsum_map_swap {A B} (f : A -> B -> R) la lb :
  rsum (map (fun a => rsum (map (fun b => f a b) lb)) la) =
  rsum (map (fun b => rsum (map (fun a => f a b) la)) lb).
Proof.
  induction la as [|a la IH]; cbn.
  - symmetry. apply rsum_map_zero. reflexivity.
  - rewrite IH. rewrite <- rsum_map_plus. reflexivity.
Qed.
Lemma rsum_filter {A} (P : A -> bool) (f : A -> R) l :
  rsum (map f (filter P l)) = rsum (map (fun x => if P x then f x else 0) l).
Proof. induction l as [|x l IH]; cbn; [reflexivity|]. destruct (P x); cbn; rewrite IH; ring. Qed.
Lemma rsum_nonneg {A} (f : A -> R) l : (forall x, In x l -> 0 <= f x) -> 0 <= rsum (map f l).
Proof.
  induction l as [|x l IH]; cbn; intros H; [lra|].
  pose proof (H x (or_introl eq_refl)). specialize (IH (fun y Hy => H y (or_intror Hy))). lra.
Qed.
Lemma rsum_zero_iff {A} (f : A -> R) l :
  (forall x, In x l -> 0 <= f x) -> (rsum (map f l) = 0 <-> forall x, In x l -> f x = 0).
Proof.
  intros H. split.
  - induction l as [|x l IH]; cbn; intros E y Hy; [contradiction|].
    cbn in H. pose proof (H x (or_introl eq_refl)) as Hx.
    assert (Hl : 0 <= rsum (map f l)) by (apply rsum_nonneg; intros; apply H; auto).
    destruct Hy as [<-|Hy]; [lra|]. apply IH; auto. lra.
  - apply rsum_map_zero.
Qed.
Lemma rsum_map_const0 {A} (l : list A) : rsum (map (fun _ => 0) l) = 0.
Proof. apply rsum_map_zero. reflexivity. Qed.

Lemma sumn_0 f : sumn 0 f = 0. Proof. reflexivity. Qed.
Lemma sumn_S n f : sumn (S n) f = sumn n f + f n.
Proof.
  unfold sumn. rewrite seq_S, map_app, rsum_app. cbn. ring.
Qed.
Lemma sumn_ext n f g : (forall i, (i < n)%nat -> f i = g i) -> sumn n f = sumn n g.
Proof. intros H. apply rsum_map_ext. intros x Hx. apply in_seq in Hx. apply H. lia. Qed.
Lemma sumn_plus n f g : sumn n (fun i => f i + g i) = sumn n f + sumn n g.
Proof. apply rsum_map_plus. Qed.
Lemma sumn_minus n f g : sumn n (fun i => f i - g i) = sumn n f - sumn n g.
Proof. apply rsum_map_minus. Qed.
Lemma sumn_scal n c f : sumn n (fun i => c * f i) = c * sumn n f.
Proof. apply rsum_map_scal. Qed.
Lemma sumn_scal_r n c f : sumn n (fun i => f i * c) = sumn n f * c.
Proof. rewrite Rmult_comm, <- sumn_scal. apply sumn_ext. intros; ring. Qed.
Lemma sumn_zero n f : (forall i, (i < n)%nat -> f i = 0) -> sumn n f = 0.
Proof. intros H. apply rsum_map_zero. intros x Hx. apply in_seq in Hx. apply H. lia. Qed.
Lemma sumn_swap n m f :
  sumn n (fun i => sumn m (fun j => f i j)) = sumn m (fun j => sumn n (fun i => f i j)).
Proof. apply rsum_map_swap. Qed.
Lemma sumn_nonneg n f : (forall i, (i < n)%nat -> 0 <= f i) -> 0 <= sumn n f.
Proof. intros H. apply rsum_nonneg. intros x Hx. apply in_seq in Hx. apply H. lia. Qed.
Lemma sumn_single n k f :
  (k < n)%nat -> (forall i, (i < n)%nat -> i <> k -> f i = 0) -> sumn n f = f k.
Proof.
  revert k. induction n as [|n IH]; intros k Hk H; [lia|].
  rewrite sumn_S. destruct (Nat.eq_dec k n) as [->|Hne].
  - rewrite sumn_zero; [ring|]. intros i Hi. apply H; lia.
  - rewrite (IH k); [|lia|intros i Hi; apply H; lia]. rewrite (H n); [ring|lia|lia].
Qed.
Lemma sumn_split n m f : sumn (n + m) f = sumn n f + sumn m (fun i => f (n + i)%nat).
Proof.
  induction m as [|m IH].
  - rewrite Nat.add_0_r, sumn_0. ring.
  - rewrite Nat.add_succ_r, !sumn_S, IH. ring.
Qed.
Lemma sumn_shift n f : sumn (S n) f = f 0%nat + sumn n (fun i => f (S i)).
Proof.
  induction n as [|n IH]; [rewrite sumn_S, !sumn_0; ring|].
  rewrite sumn_S, IH, sumn_S. ring.
Qed.
Lemma sumn_rsum_swap {A} n (f : nat -> A -> R) (l : list A) :
  sumn n (fun i => rsum (map (f i) l)) = rsum (map (fun a => sumn n (fun i => f i a)) l).
Proof. unfold sumn. apply rsum_map_swap. Qed.

Lemma rsum_nth (l : list R) : rsum l = sumn (length l) (fun i => nth i l 0).
Proof.
  induction l as [|x l IH]; [reflexivity|].
  cbn [length rsum]. rewrite sumn_shift, IH. reflexivity.
Qed.
