(** Loops whose body may fail, and invariant rules for them. *)

From Coq Require Import Bool List Arith Lia.
From Verif Require Import Prelude.
Import ListNotations.
Local Open Scope outcome_scope.

(** [for (b : l) s = f(b, s)]; the first failure ends the loop. *)
Fixpoint ofold {B S : Type} (f : B -> S -> outcome S) (l : list B) (s : S) : outcome S :=
  match l with
  | [] => Ok s
  | b :: r => let* s' := f b s in ofold f r s'
  end.

Lemma ofold_app {B S} (f : B -> S -> outcome S) l1 l2 s :
  ofold f (l1 ++ l2) s = obind (ofold f l1 s) (ofold f l2).
Proof.
  revert s. induction l1 as [|b l1 IH]; intros s; cbn; [reflexivity|].
  destruct (f b s); cbn; auto.
Qed.

Lemma ofold_seq_inv {S} (f : nat -> S -> outcome S) (P : nat -> S -> Prop) n s :
  P 0 s ->
  (forall k s, k < n -> P k s -> exists s', f k s = Ok s' /\ P (Datatypes.S k) s') ->
  exists s', ofold f (seq 0 n) s = Ok s' /\ P n s'.
Proof.
  intros H0. induction n as [|n IH]; intros Hs; [exists s; auto|].
  destruct IH as (s1 & E1 & P1); [intros; apply Hs; auto; lia|].
  rewrite seq_S, ofold_app, E1. cbn.
  destruct (Hs n s1) as (s2 & E2 & P2); [lia|exact P1|].
  exists s2. rewrite E2. auto.
Qed.

Lemma wr_ok {A} (l : list A) i a : i < length l ->
  exists l', wr l i a = Ok l' /\ length l' = length l /\
    nth_error l' i = Some a /\ (forall k, k <> i -> nth_error l' k = nth_error l k).
Proof.
  intros H. destruct (upd_some l i a H) as [l' E]. exists l'. unfold wr. rewrite E.
  pose proof (upd_length _ _ _ _ E) as L. pose proof (upd_nth _ _ _ _ E) as N.
  repeat split; auto.
  - rewrite N, Nat.eqb_refl. reflexivity.
  - intros k Hk. rewrite N. apply Nat.eqb_neq in Hk. rewrite Hk. reflexivity.
Qed.

Lemma wr_ok_inv {A} (l : list A) i a l' : wr l i a = Ok l' ->
  i < length l /\ length l' = length l /\
    nth_error l' i = Some a /\ (forall k, k <> i -> nth_error l' k = nth_error l k).
Proof.
  intros H. assert (i < length l) as Hi.
  { unfold wr in H. destruct (upd l i a) as [x|] eqn:E; [|discriminate].
    destruct (Nat.lt_ge_cases i (length l)) as [|C]; [assumption|].
    exfalso. clear H. revert i x E C. induction l as [|y l IH]; intros [|i] x; cbn; try discriminate; try lia.
    destruct (upd l i a) eqn:E; [|discriminate]. intros _ C. eapply IH; [exact E|lia]. }
  destruct (wr_ok l i a Hi) as (l2 & E & R). rewrite E in H. injection H as <-. auto.
Qed.

(** A loop that copies values to given places. *)
Lemma copy_loop {A B} (st : B -> list A -> outcome (list A)) (pos : B -> nat) (val : B -> A) l :
  forall res,
  (forall b r, In b l -> length r = length res -> st b r = wr r (pos b) (val b)) ->
  (forall b, In b l -> pos b < length res) ->
  (forall b b', In b l -> In b' l -> pos b = pos b' -> val b = val b') ->
  exists res', ofold st l res = Ok res' /\ length res' = length res /\
    (forall b, In b l -> nth_error res' (pos b) = Some (val b)) /\
    (forall i, (forall b, In b l -> pos b <> i) -> nth_error res' i = nth_error res i).
Proof.
  induction l as [|b l IH]; intros res Hst Hpos Hval.
  - exists res. cbn. repeat split; auto. intros b [].
  - cbn [ofold]. rewrite Hst by (cbn; auto).
    destruct (wr_ok res (pos b) (val b)) as (r1 & E1 & L1 & S1 & O1); [apply Hpos; cbn; auto|].
    rewrite E1. cbn [obind].
    destruct (IH r1) as (r2 & E2 & L2 & S2 & O2).
    + intros b' r Hb Hl. apply Hst; [cbn; auto|congruence].
    + intros b' Hb. rewrite L1. apply Hpos. cbn; auto.
    + intros; apply Hval; cbn; auto.
    + exists r2. repeat split; [exact E2|congruence| |].
      * intros b' [<-|Hb]; [|auto].
        (* the place of b may be written again, with the same value *)
        assert ((exists b', In b' l /\ pos b' = pos b) \/ (forall b', In b' l -> pos b' <> pos b)) as [ (b' & Hb & E) | N].
        { clear. induction l as [|c l IH]; [right; intros ? []|].
          destruct IH as [(b' & Hb & E)|N]; [left; exists b'; cbn; auto|].
          destruct (Nat.eq_dec (pos c) (pos b)) as [E|E]; [left; exists c; cbn; auto|].
          right. intros b' [<-|Hb]; auto. }
        -- rewrite <- E, (S2 b' Hb). f_equal. apply Hval; cbn; auto.
        -- rewrite O2 by exact N. exact S1.
      * intros i Hi. rewrite O2 by (intros b' Hb; apply Hi; cbn; auto).
        apply O1. intros ->. exact (Hi b (or_introl eq_refl) eq_refl).
Qed.

Lemma nth_error_ext {A} (l l' : list A) :
  (forall i, nth_error l i = nth_error l' i) -> l = l'.
Proof.
  revert l'. induction l as [|x l IH]; intros [|y l'] H; auto.
  - specialize (H 0). discriminate.
  - specialize (H 0). discriminate.
  - f_equal; [specialize (H 0); cbn in H; congruence|]. apply IH. intros i. exact (H (S i)).
Qed.

Lemma nth_error_ext_len {A} (l l' : list A) :
  length l = length l' ->
  (forall i, i < length l -> nth_error l i = nth_error l' i) -> l = l'.
Proof.
  intros L H. apply nth_error_ext. intros i.
  destruct (Nat.lt_ge_cases i (length l)) as [Hi|Hi]; [auto|].
  rewrite (proj2 (nth_error_None l i)), (proj2 (nth_error_None l' i)) by lia. reflexivity.
Qed.

Lemma nth_error_lt {A} (l : list A) i : i < length l -> exists x, nth_error l i = Some x.
Proof.
  intros H. destruct (nth_error l i) eqn:E; eauto. apply nth_error_None in E. lia.
Qed.
Lemma nth_error_len {A} (l : list A) i x : nth_error l i = Some x -> i < length l.
Proof. intros H. apply nth_error_Some. congruence. Qed.
Lemma rd_some {A} (l : list A) i x : nth_error l i = Some x -> rd l i = Ok x.
Proof. unfold rd. intros ->. reflexivity. Qed.
Lemma rd_inv {A} (l : list A) i x : rd l i = Ok x -> nth_error l i = Some x.
Proof. unfold rd. destruct (nth_error l i); congruence. Qed.
