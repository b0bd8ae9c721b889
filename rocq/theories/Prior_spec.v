(** Pose priors (C88, C89): the energy that is meant. *)

From Coq Require Import Reals List Arith String.
From Verif Require Import Prelude LinAlg Cov_spec Mppca_spec Mppca_model.
Import ListNotations.
Local Open Scope R_scope.

(** The value of the parameter called [n], zero if there is none. *)
Fixpoint named_value (pnames : list string) (p : list R) (n : string) : R :=
  match pnames, p with
  | a :: pnames, x :: p => if String.eqb a n then x else named_value pnames p n
  | _, _ => 0
  end.

(** The point at which the mixture is taken: its coordinates are looked up by name. *)
Definition prior_point (m : mixture) (pnames : list string) (p : list R) (i : nat) : R :=
  named_value pnames p (nth i (mx_names m) EmptyString).

(** Half of the squared distance to the mean of mode [c], and the score of the mode: the logarithm of
    its weighted density (C87). *)
Definition mode_dist (m : mixture) (x : nat -> R) (c : nat) : R :=
  / 2 * quad (mx_d m) (nth c (mx_Cinv m) (fun _ _ => 0)) (fun i => x i - nth i (nth c (mx_mu m) []) 0).
Definition mode_score (m : mixture) (x : nat -> R) (c : nat) : R := nth c (mx_Rpre m) 0 - mode_dist m x c.

(** [c] has the highest score; the first one, if several have it. *)
Definition best_mode (m : mixture) (x : nat -> R) (c : nat) : Prop :=
  (c < mx_p m)%nat /\ forall c', (c' < mx_p m)%nat -> mode_score m x c' <= mode_score m x c /\ ((c' < c)%nat -> mode_score m x c' < mode_score m x c).
(** It is the only one. *)
Definition only_best_mode (m : mixture) (x : nat -> R) (c : nat) : Prop :=
  (c < mx_p m)%nat /\ forall c', (c' < mx_p m)%nat -> c' <> c -> mode_score m x c' < mode_score m x c.

(** The parts of a mixture have the sizes they should have. *)
Record mixture_wf (m : mixture) : Prop := {
  xw_names : List.length (mx_names m) = mx_d m;
  xw_mu : List.length (mx_mu m) = mx_p m;
  xw_mean : forall r, In r (mx_mu m) -> List.length r = mx_d m;
  xw_cinv : List.length (mx_Cinv m) = mx_p m;
  xw_l : List.length (mx_L m) = mx_p m;
  xw_rpre : List.length (mx_Rpre m) = mx_p m;
  xw_sym : forall C i j, In C (mx_Cinv m) -> (i < mx_d m)%nat -> (j < mx_d m)%nat -> C i j = C j i;
  xw_root : forall c, (c < mx_p m)%nat -> is_root (mx_d m) (nth c (mx_Cinv m) (fun _ _ => 0)) (nth c (mx_L m) (fun _ _ => 0))
}.
