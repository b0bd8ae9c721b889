(** Proofs about the solver loop and the iterations. *)

From Coq Require Import Reals List Arith Bool Lia Lra Psatz.
From Verif Require Import ListUtil LinAlg Rbool Solver_spec Solver_model.
Import ListNotations.
Local Open Scope R_scope.

(** ** The loop *)

Section Loop.
  Context {St : Type} (params_of : St -> list R) (error_of : St -> R) (iterate : St -> St).
  Variables (o : options) (s0 : St) (z : list R).
  Let st (k : nat) : St := Nat.iter k iterate s0.
  Let e (k : nat) : R := error_of (st (S k)).

  Lemma stop_test it :
    ((o_min o <=? it)%nat && converged o (error_before e it) (e it) = true) <-> may_stop o e it.
  Proof.
    unfold converged, may_stop. rewrite andb_true_iff, Nat.leb_le, Rleb_true. reflexivity.
  Qed.

  Definition hist_ok (n : nat) (h : history) : Prop :=
    length (h_params h) = o_max o /\ length (h_error h) = o_max o /\
    forall k, (k < o_max o)%nat ->
      nth k (h_params h) [] = (if (k <? n)%nat then params_of (st (S k)) else z) /\
      nth k (h_error h) 0 = (if (k <? n)%nat then e k else 0).

  Lemma hist_store it h :
    (it < o_max o)%nat -> hist_ok it h ->
    hist_ok (S it) {| h_params := store (h_params h) it (params_of (st (S it)));
                      h_error := store (h_error h) it (e it); h_iterations := 0 |}.
  Proof.
    intros Hi (H1 & H2 & H3). unfold hist_ok. cbn [h_params h_error].
    rewrite !store_length. repeat split; auto.
    - destruct (Nat.eq_dec k it) as [->|N].
      + rewrite store_nth_same by lia. replace (it <? S it)%nat with true by (symmetry; apply Nat.ltb_lt; lia). reflexivity.
      + rewrite store_nth_other by lia. rewrite (proj1 (H3 k H)).
        destruct (Nat.ltb_spec k it); destruct (Nat.ltb_spec k (S it)); try lia; reflexivity.
    - destruct (Nat.eq_dec k it) as [->|N].
      + rewrite store_nth_same by lia. replace (it <? S it)%nat with true by (symmetry; apply Nat.ltb_lt; lia). reflexivity.
      + rewrite store_nth_other by lia. rewrite (proj2 (H3 k H)).
        destruct (Nat.ltb_spec k it); destruct (Nat.ltb_spec k (S it)); try lia; reflexivity.
  Qed.

  Lemma hist_relabel n h i :
    hist_ok n h -> hist_ok n {| h_params := h_params h; h_error := h_error h; h_iterations := i |}.
  Proof. intros H. exact H. Qed.

  Lemma solve_loop_spec : forall fuel it h,
    (fuel + it = o_max o)%nat -> hist_ok it h ->
    (forall k, (k < it)%nat -> ~ may_stop o e k) ->
    exists n,
      fst (solve_loop params_of error_of iterate o fuel it (error_before e it) (st it) h) = st n /\
      runs_for o e n /\ (it <= n)%nat /\
      hist_ok n (snd (solve_loop params_of error_of iterate o fuel it (error_before e it) (st it) h)) /\
      ((exists k, n = S k /\ may_stop o e k /\
        h_iterations (snd (solve_loop params_of error_of iterate o fuel it (error_before e it) (st it) h)) = k) \/
       (n = o_max o /\ (forall k, (k < n)%nat -> ~ may_stop o e k) /\
        h_iterations (snd (solve_loop params_of error_of iterate o fuel it (error_before e it) (st it) h)) = n)).
  Proof.
    induction fuel as [|fuel IH]; intros it h Hf Hh Hn.
    - exists it. cbn [solve_loop fst snd]. split; [reflexivity|]. split.
      { split; [lia|]. split; [intros k Hk; apply Hn; lia|]. intros; lia. }
      split; [lia|]. split; [apply hist_relabel; exact Hh|].
      right. split; [lia|]. split; [exact Hn|reflexivity].
    - cbn [solve_loop].
      change (iterate (st it)) with (st (S it)).
      change (error_of (st (S it))) with (e it).
      assert (Hs : hist_ok (S it) {| h_params := store (h_params h) it (params_of (st (S it)));
                      h_error := store (h_error h) it (e it); h_iterations := 0 |})
        by (apply hist_store; [lia|exact Hh]).
      destruct ((o_min o <=? it)%nat && converged o (error_before e it) (e it)) eqn:E.
      + apply (proj1 (stop_test it)) in E. exists (S it). cbn [fst snd]. split; [reflexivity|].
        split.
        { split; [lia|]. split; [intros k Hk; apply Hn; lia|]. intros _. exists it. split; [reflexivity|exact E]. }
        split; [lia|]. split; [apply (hist_relabel _ _ it Hs)|].
        left. exists it. split; [reflexivity|]. split; [exact E|reflexivity].
      + assert (Hn' : forall k, (k < S it)%nat -> ~ may_stop o e k).
        { intros k Hk. destruct (Nat.eq_dec k it) as [->|N]; [|apply Hn; lia].
          intros M. apply (proj2 (stop_test it)) in M. congruence. }
        destruct (IH (S it) _ ltac:(lia) Hs Hn') as (n & A & B & C & D & F).
        change (error_before e (S it)) with (e it) in *.
        exists n. repeat split; auto; try lia; try apply B. 
        1-2: apply D. apply D. assumption. apply D. assumption.
  Qed.
End Loop.
