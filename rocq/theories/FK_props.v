(** Properties of forward kinematics (C01, C02, C03, C05). *)

From Coq Require Import Reals List Arith Lia Lra.
From Coquelicot Require Import Coquelicot.
From Verif Require Import Prelude R3 Transform_model Skeleton_model Skeleton_spec FK_model FK_spec
  FK_proofs FK_deriv_proofs.
Import ListNotations.
Local Open Scope R_scope.

(** A concrete skeleton that meets the hypotheses: a root with two children,
    the second of which has a rotated child. *)
Definition ex_sk : skeleton :=
  [ Joint None (V3 0 0 0) qid;
    Joint (Some 0%nat) (V3 0 1 0) (Q4 (3/5) 0 0 (4/5));
    Joint (Some 0%nat) (V3 1 0 0) qid;
    Joint (Some 2%nat) (V3 1 0 0) (Q4 0 1 0 0) ].
Definition ex_params : list R := map INR (seq 0 28).

Example ex_sk_valid : parents_first (sk_parents ex_sk).
Proof. intros [|[|[|[|[|i]]]]] p H; cbn in H; try discriminate; injection H as <-; lia. Qed.
Example ex_sk_unit : unit_prerotations ex_sk.
Proof.
  intros [|[|[|[|[|i]]]]] jt H; cbn in H; try discriminate; injection H as <-;
    unfold qunit, qnorm2; cbn; lra.
Qed.
Example ex_sk_chain : chain ex_sk 3 [0; 2; 3]%nat.
Proof.
  apply (chain_child ex_sk 3 (Joint (Some 2%nat) (V3 1 0 0) (Q4 0 1 0 0)) 2 [0; 2]%nat); [reflexivity|reflexivity|].
  apply (chain_child ex_sk 2 (Joint (Some 0%nat) (V3 1 0 0) qid) 0 [0]%nat); [reflexivity|reflexivity|].
  apply (chain_root ex_sk 0 (Joint None (V3 0 0 0) qid)); reflexivity.
Qed.
Example ex_sk_runs : exists sts, fk ex_sk ex_params = Ok sts /\ length sts = 4%nat.
Proof.
  destruct (fk_ok ex_sk ex_params ex_sk_valid) as [sts [E [L _]]]; [reflexivity|].
  exists sts. split; [exact E|exact L].
Qed.

(** C01: on a valid skeleton forward kinematics succeeds, one state per joint,
    and each world transform is the composition of the joint maps along the
    path from the root. *)
Theorem fk_composes_parent_chain :
  forall sk params,
  parents_first (sk_parents sk) -> unit_prerotations sk ->
  length params = (7 * length sk)%nat ->
  exists sts, fk sk params = Ok sts /\ length sts = length sk /\
    forall j s, nth_error sts j = Some s ->
      exists l, chain sk j l /\
        forall x, tf_point (js_world s) x = chain_map sk params l x.
Proof. exact fk_composes_lemma. Qed.
Print Assumptions fk_composes_parent_chain.

(** C01: a parameter vector of the wrong size is rejected. *)
Theorem fk_rejects_wrong_size :
  forall sk params, length params <> (7 * length sk)%nat -> fk sk params = CheckFail.
Proof. exact fk_wrong_size_lemma. Qed.
Print Assumptions fk_rejects_wrong_size.

(** C02: parameters of joint [a] only affect [a] and its descendants; the whole
    state (world and local transform, derivative axes) of the others is equal. *)
Theorem fk_local_to_subtree :
  forall sk params params' sts sts' a,
  parents_first (sk_parents sk) ->
  fk sk params = Ok sts -> fk sk params' = Ok sts' ->
  (forall j, (j < length sk)%nat -> j <> a -> jparam_at params j = jparam_at params' j) ->
  forall j, ~ ancestor (sk_parents sk) j a -> nth_error sts j = nth_error sts' j.
Proof.
  exact (fun sk params params' sts sts' a V E E' =>
    fk_local sk params params' sts sts' V a
      (proj2 (fk_inv sk params sts V E)) (proj2 (fk_inv sk params' sts' V E'))).
Qed.
Print Assumptions fk_local_to_subtree.

(** C05: unit rotations and positive scales everywhere. *)
Theorem fk_rotations_unit_scales_positive :
  forall sk params sts,
  parents_first (sk_parents sk) -> unit_prerotations sk -> fk sk params = Ok sts ->
  forall j s, nth_error sts j = Some s ->
    (qunit (rot (js_local s)) /\ 0 < scl (js_local s)) /\
    (qunit (rot (js_world s)) /\ 0 < scl (js_world s)).
Proof.
  exact (fun sk params sts V U E => fk_good sk params sts V U (proj2 (fk_inv sk params sts V E))).
Qed.
Print Assumptions fk_rotations_unit_scales_positive.

(** C03: the accessors are the partial derivatives. [S t] is the state of joint
    [j] when parameter [k] of joint [a] is set to [t]; [c] is a point fixed in
    joint [j]'s frame and [x] its world position. For joints that do not have
    [a] as an ancestor the derivative is zero. *)
Theorem joint_accessors_are_partial_derivatives :
  forall sk params sts j a k (S : R -> jstate),
  parents_first (sk_parents sk) -> unit_prerotations sk ->
  fk sk params = Ok sts ->
  (a < length sk)%nat -> (j < length sk)%nat -> (k < 7)%nat ->
  (forall t, exists sts', fk sk (set_nth params (7 * a + k) t) = Ok sts' /\
                          nth_error sts' j = Some (S t)) ->
  forall c,
  let t0 := nth (7 * a + k) params 0 in
  let x := tf_point (js_world (S t0)) c in
  (ancestor (sk_parents sk) j a ->
     exists sa, nth_error sts a = Some sa /\
       is_vderive (fun t => tf_point (js_world (S t)) c) t0
         (accessor_partial sa k (vsub x (trans (js_world sa))))) /\
  (~ ancestor (sk_parents sk) j a ->
     is_vderive (fun t => tf_point (js_world (S t)) c) t0 vzero).
Proof. exact accessor_partials_lemma. Qed.
Print Assumptions joint_accessors_are_partial_derivatives.

(** C03: along any differentiable curve of joint parameters the velocity of an
    attached point is the sum over the joint's chain of the accessor values
    times the parameter velocities. *)
Theorem fk_total_derivative :
  forall sk P P' t0 sts0 j l (S : R -> jstate),
  parents_first (sk_parents sk) -> unit_prerotations sk -> chain sk j l ->
  (forall t, exists sts, fk sk (P t) = Ok sts /\ nth_error sts j = Some (S t)) ->
  fk sk (P t0) = Ok sts0 ->
  (forall i, (i < 7 * length sk)%nat -> is_derive (fun t => nth i (P t) 0) t0 (nth i P' 0)) ->
  forall c, let x := tf_point (js_world (S t0)) c in
  is_vderive (fun t => tf_point (js_world (S t)) c) t0
    (vsum (map (fun a => match nth_error sts0 a with
                         | Some sa => joint_velocity sa (jparam_at P' a) x
                         | None => vzero end) l)).
Proof. exact fk_total_derivative_lemma. Qed.
Print Assumptions fk_total_derivative.

(** The functions [S] that the two theorems quantify over exist. *)
Theorem fk_state_function_exists :
  forall sk, parents_first (sk_parents sk) -> forall (P : R -> list R) j,
  (forall t, length (P t) = 7 * length sk)%nat -> (j < length sk)%nat ->
  exists S : R -> jstate,
    forall t, exists sts, fk sk (P t) = Ok sts /\ nth_error sts j = Some (S t).
Proof. exact fk_states_function. Qed.
Print Assumptions fk_state_function_exists.
