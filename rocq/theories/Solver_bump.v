(** A least-squares objective on which ten halvings are not enough (used by the refutations). *)

From Coq Require Import Reals List Arith Bool Lia Lra Psatz.
From Coquelicot Require Import Coquelicot.
From Verif Require Import ListUtil LinAlg Rbool Solver_spec Solver_model Solver_proofs
  Solver_lin_proofs Solver_step_proofs.
Import ListNotations.
Local Open Scope R_scope.

(** One parameter x, one residual 1 + x + 1000 x^2. *)
Definition bump_r (x : R) : R := 1 + x + 1000 * (x * x).
Definition bump : objfn :=
  {| ob_n := 1; ob_actual := 1;
     ob_error := fun p => bump_r (nth 0 p 0) * bump_r (nth 0 p 0);
     ob_gradient := fun p => (bump_r (nth 0 p 0) * bump_r (nth 0 p 0),
                              [2 * bump_r (nth 0 p 0) * (1 + 2000 * nth 0 p 0)]);
     ob_jacobian := fun p => (bump_r (nth 0 p 0) * bump_r (nth 0 p 0),
                              [([1 + 2000 * nth 0 p 0], bump_r (nth 0 p 0))]) |}.
Definition bump_start : sstate := start [0] (fresh bump).

Lemma bump_wf : obj_wf bump.
Proof.
  split; [cbn; lia|]. intros p Hp. cbn. split; [reflexivity|].
  intros row [<-|[]]. reflexivity.
Qed.
Lemma bump_reports : reports bump.
Proof. intros p Hp. split; reflexivity. Qed.
Lemma bump_least_squares : least_squares bump.
Proof.
  intros p Hp. cbn in Hp. destruct p as [|x [|]]; try discriminate Hp.
  cbv zeta. cbn. split; [ring|].
  intros [|i] Hi; [|lia]. cbn. unfold normal_rhs. cbn. unfold bump_r.
  auto_derive; [exact I|ring].
Qed.

Lemma bump_any_step delta k q :
  step_solves (snd (ob_jacobian bump [0])) (1 / 20) (fun _ => true) 1 delta ->
  (k < 10)%nat -> moved [0] delta ((1 / 2) ^ k) q ->
  ob_error bump [0] < ob_error bump q.
Proof.
  intros (L & _ & H) Hk (Lq & Hm).
  specialize (H 0%nat ltac:(lia) eq_refl). specialize (Hm 0%nat ltac:(cbn; lia)).
  unfold normal_matrix, normal_rhs in H. cbn in H. unfold bump_r in H. cbn in Hm.
  destruct delta as [|d [|]]; try discriminate L. cbn [nth] in *.
  unfold sumn in H. cbn in H.
  assert (Hd : d = 20 / 21) by lra. subst d.
  cbn [ob_error bump nth]. rewrite Hm.
  assert (Hp : 1 / 512 <= (1 / 2) ^ k <= 1).
  { split; [|apply pow_half_le1].
    do 10 (destruct k as [|k]; [cbn [pow]; lra|]). lia. }
  set (t := (1 / 2) ^ k) in *. unfold bump_r.
  assert (0 < 1000 * (t * (20 / 21)) - 1) by lra.
  assert (1 < 1 + (0 - t * (20 / 21)) + 1000 * ((0 - t * (20 / 21)) * (0 - t * (20 / 21)))) by nra.
  nra.
Qed.

Lemma bump_gn_start : length (s_params bump_start) = 1%nat /\ sub_inv bump (fun _ => true) bump_start.
Proof.
  split; [reflexivity|]. split; [reflexivity|]. split; [reflexivity|]. split; [reflexivity|].
  intros i _ E. discriminate E.
Qed.

Lemma bump_gn :
  ob_error bump (s_params bump_start) <
  ob_error bump (s_params (gn_iterate gsolve bump (1 / 20) true bump_start)).
Proof.
  unfold gn_iterate. cbn [s_params bump_start start].
  destruct (ob_jacobian bump [0]) as [e rows] eqn:EJ. cbn [s_params].
  destruct (gn_update_moved bump true e [0] (gn_delta gsolve (1 / 20) (ob_n bump) (ob_actual bump) rows))
    as (k & Hk & _ & Hm & _); [rewrite gn_delta_length; reflexivity|].
  apply (bump_any_step (gn_delta gsolve (1 / 20) (ob_n bump) (ob_actual bump) rows) k); auto.
  rewrite EJ. cbn [snd].
  destruct (gn_delta_solves gsolve (1 / 20) 1 1 rows gsolve_ok ltac:(lra) (le_n _)) as (A & _ & B).
  split; [exact A|]. split; [discriminate|].
  intros i Hi _. apply B; [exact Hi|]. apply Nat.ltb_lt. exact Hi.
Qed.

Lemma bump_sub :
  ob_error bump (s_params bump_start) <
  ob_error bump (s_params (sub_iterate gsolve bump (1 / 20) true bump_start)).
Proof.
  destruct (sub_iterate_spec gsolve bump (1 / 20) true (fun _ => true) bump_start bump_wf (proj2 bump_gn_start))
    as (_ & _ & Hs & (k & Hk & _ & Hm & _)).
  apply (bump_any_step (s_delta (sub_iterate gsolve bump (1 / 20) true bump_start)) k); auto.
  apply Hs; [exact gsolve_ok|lra].
Qed.
