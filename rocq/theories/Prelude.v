(** Outcomes shared by all models.

    [Throw]     a C++ exception (MT_THROW, MT_THROW_IF, std::vector::at, ...)
    [CheckFail] a failed MT_CHECK / XR_CHECK (momentum/common/checks.h,
                axel/axel/Checks.h): aborts in debug builds
    [UB]        undefined behaviour (out-of-bounds access, overrun, ...)
    [OutOfFuel] the model's step budget ran out: the loop did not terminate
                within it *)

From Coq Require Import List Arith Lia.
Import ListNotations.

Inductive outcome (A : Type) : Type :=
| Ok (a : A)
| Throw
| CheckFail
| UB
| OutOfFuel.
Arguments Ok {A} a.
Arguments Throw {A}.
Arguments CheckFail {A}.
Arguments UB {A}.
Arguments OutOfFuel {A}.

Definition obind {A B : Type} (x : outcome A) (f : A -> outcome B) : outcome B :=
  match x with
  | Ok a => f a
  | Throw => Throw
  | CheckFail => CheckFail
  | UB => UB
  | OutOfFuel => OutOfFuel
  end.

Definition omap {A B : Type} (f : A -> B) (x : outcome A) : outcome B :=
  obind x (fun a => Ok (f a)).

(** A checked array read: out of range is undefined behaviour, as for
    std::vector::operator[] and Eigen's operator() without assertions. *)
Definition rd {A : Type} (l : list A) (i : nat) : outcome A :=
  match nth_error l i with
  | Some a => Ok a
  | None => UB
  end.

(** A checked array write. *)
Fixpoint upd {A : Type} (l : list A) (i : nat) (a : A) : option (list A) :=
  match l, i with
  | [], _ => None
  | _ :: t, 0 => Some (a :: t)
  | x :: t, S j => match upd t j a with
                   | Some t' => Some (x :: t')
                   | None => None
                   end
  end.

Definition wr {A : Type} (l : list A) (i : nat) (a : A) : outcome (list A) :=
  match upd l i a with
  | Some l' => Ok l'
  | None => UB
  end.

Declare Scope outcome_scope.
Delimit Scope outcome_scope with out.
Notation "'let*' x := e 'in' f" := (obind e (fun x => f))
  (at level 200, x pattern, e at level 100, f at level 200) : outcome_scope.

Lemma upd_length {A} (l : list A) i a l' : upd l i a = Some l' -> length l' = length l.
Proof.
  revert i l'; induction l as [|x l IH]; intros i l'; simpl; [discriminate|].
  destruct i as [|i]; simpl.
  - intros H; injection H as <-; reflexivity.
  - destruct (upd l i a) as [t|] eqn:E; [|discriminate].
    intros H; injection H as <-; simpl; f_equal; eauto.
Qed.

Lemma upd_some {A} (l : list A) i a : i < length l -> exists l', upd l i a = Some l'.
Proof.
  revert i; induction l as [|x l IH]; intros i Hi; simpl in *; [lia|].
  destruct i as [|i]; [eauto|].
  destruct (IH i) as [l' Hl']; [lia|]. rewrite Hl'. eauto.
Qed.

Lemma upd_nth {A} (l : list A) i a l' :
  upd l i a = Some l' ->
  forall k, nth_error l' k = if Nat.eqb k i then Some a else nth_error l k.
Proof.
  revert i l'; induction l as [|x l IH]; intros i l'; simpl; [discriminate|].
  destruct i as [|i]; simpl.
  - intros H; injection H as <-. intros [|k]; reflexivity.
  - destruct (upd l i a) as [t|] eqn:E; [|discriminate].
    intros H; injection H as <-. intros [|k]; simpl; [reflexivity|].
    exact (IH i t E k).
Qed.

Lemma upd_none {A} (l : list A) i a : upd l i a = None -> length l <= i.
Proof.
  intros H. destruct (Nat.lt_ge_cases i (length l)) as [Hi|Hi]; [|exact Hi].
  destruct (upd_some l i a Hi) as [l' E]; congruence.
Qed.

Lemma rd_ok {A} (l : list A) i : i < length l -> exists a, rd l i = Ok a /\ nth_error l i = Some a.
Proof.
  intros H. unfold rd. destruct (nth_error l i) as [a|] eqn:E.
  - eauto.
  - apply nth_error_None in E; lia.
Qed.
