(** The determinant of a matrix of reals, as defined in mathcomp.

    The reals of the standard library are given the structures (decidable equality, choice,
    commutative ring) that mathcomp's definition asks for. *)

From Coq Require Import Reals ClassicalEpsilon.
From mathcomp Require Import all_ssreflect all_algebra.
From Verif Require Import LinAlg.
Import GRing.Theory.
Definition Req_b (x y : R) : bool := if Req_EM_T x y then true else false.
Lemma Req_bP : Equality.axiom Req_b.
Proof. move=> x y; rewrite /Req_b; case: (Req_EM_T x y) => H; by constructor. Qed.
Definition R_eqMixin := EqMixin Req_bP.
Canonical R_eqType := Eval hnf in EqType R R_eqMixin.
Definition R_find (P : pred R) (n : nat) : option R :=
  match excluded_middle_informative (exists x, P x = true) with
  | left H => Some (proj1_sig (constructive_indefinite_description _ H))
  | right _ => None end.
Lemma R_findP (P : pred R) n x : R_find P n = Some x -> P x.
Proof. rewrite /R_find; case: (excluded_middle_informative _) => // H [<-]. by case: (constructive_indefinite_description _ _). Qed.
Lemma R_find_ex (P : pred R) : (exists x : R, P x) -> exists n, R_find P n.
Proof. move=> H; exists 0%N; rewrite /R_find; by case: (excluded_middle_informative _). Qed.
Lemma R_find_ext (P Q : pred R) : P =1 Q -> R_find P =1 R_find Q.
Proof. move=> H n; have -> : P = Q by apply: FunctionalExtensionality.functional_extensionality. by []. Qed.
Definition R_choiceMixin : choiceMixin R := Choice.Mixin R_findP R_find_ex R_find_ext.
Canonical R_choiceType := Eval hnf in ChoiceType R R_choiceMixin.
Fact RplusA : associative Rplus. Proof. move=> x y z; by rewrite Rplus_assoc. Qed.
Definition R_zmodMixin := ZmodMixin RplusA Rplus_comm Rplus_0_l Rplus_opp_l.
Canonical R_zmodType := Eval hnf in ZmodType R R_zmodMixin.
Fact RmultA : associative Rmult. Proof. move=> x y z; by rewrite Rmult_assoc. Qed.
Fact R1n0 : R1 != R0 :> R. Proof. apply/eqP; exact: R1_neq_R0. Qed.
Definition R_ringMixin := ComRingMixin RmultA Rmult_comm Rmult_1_l Rmult_plus_distr_r R1n0.
Canonical R_ringType := Eval hnf in RingType R R_ringMixin.
Canonical R_comRingType := Eval hnf in ComRingType R Rmult_comm.

(** The determinant of the first [n] rows and columns of [A]. *)
Definition mdet (n : nat) (A : nat -> nat -> R) : R := (\det (\matrix_(i < n, j < n) A i j : 'M[R]_n))%R.

(** The product of [f 0], ..., [f (n - 1)]. *)
Fixpoint prodn (n : nat) (f : nat -> R) : R := match n with O => 1%R | S m => Rmult (prodn m f) (f m) end.

Lemma prodn_big n (f : nat -> R) : (\prod_(i < n) f i)%R = prodn n f.
Proof. elim: n => [|n IH]; first by rewrite big_ord0. by rewrite big_ord_recr /= IH. Qed.
Lemma sumn_big n (f : nat -> R) : (\sum_(i < n) f i)%R = sumn n f.
Proof. elim: n => [|n IH]; first by rewrite big_ord0. by rewrite big_ord_recr /= IH sumn_S. Qed.

(** If C = U^T U with U upper triangular, its determinant is the square of the product of U's diagonal. *)
Lemma mdet_gram n (U C : nat -> nat -> R) :
  (forall i j, (i < n)%coq_nat -> (j < i)%coq_nat -> U i j = 0%R) ->
  (forall i j, (i < n)%coq_nat -> (j < n)%coq_nat -> sumn n (fun r => Rmult (U r i) (U r j)) = C i j) ->
  mdet n C = Rmult (prodn n (fun i => U i i)) (prodn n (fun i => U i i)).
Proof.
move=> HU HC. rewrite /mdet.
have -> : (\matrix_(i < n, j < n) C i j = (\matrix_(i < n, j < n) U i j)^T *m (\matrix_(i < n, j < n) U i j) :> 'M[R]_n)%R.
  apply/matrixP => i j; rewrite !mxE -HC; [|by apply/ltP|by apply/ltP].
  rewrite -sumn_big. apply: eq_bigr => k _; by rewrite !mxE.
rewrite det_mulmx det_tr. set d := (\det _)%R. have -> : d = prodn n (fun i => U i i); last by [].
rewrite /d -det_tr det_trig.
- rewrite -prodn_big. apply: eq_bigr => i _; by rewrite !mxE.
- apply/is_trig_mxP => i j H; rewrite !mxE HU //; by apply/ltP.
Qed.

(** The two by two determinant, as a check. *)
Example mdet2 A : mdet 2 A = Rminus (Rmult (A 0 0) (A 1 1)) (Rmult (A 0 1) (A 1 0)).
Proof.
rewrite /mdet (expand_det_row _ ord0) !big_ord_recl big_ord0 /cofactor !det_mx11 !mxE /=.
rewrite expr0 expr1 mul1r addr0. rewrite /bump /= mulN1r mulrN. reflexivity.
Qed.
Lemma mdet_ext n A B : (forall i j, (i < n)%coq_nat -> (j < n)%coq_nat -> A i j = B i j) -> mdet n A = mdet n B.
Proof. move=> H. rewrite /mdet. congr (\det _)%R. apply/matrixP => i j; rewrite !mxE. apply: H; by apply/ltP. Qed.
