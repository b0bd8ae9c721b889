(** Proofs about whole solves. *)

From Coq Require Import Reals List Arith Bool Lia Lra Psatz.
From Coquelicot Require Import Coquelicot.
From Verif Require Import ListUtil LinAlg Rbool Solver_spec Solver_model Solver_proofs
  Solver_lin_proofs Solver_step_proofs.
Import ListNotations.
Local Open Scope R_scope.

Lemma solve_spec {St} (params_of : St -> list R) error_of iterate o n s0 :
  let r := solve params_of error_of iterate o n s0 in
  let st := fun k => Nat.iter k iterate s0 in
  let e := fun k => error_of (st (S k)) in
  exists k, runs_for o e k /\ r_params r = params_of (st k) /\ r_error r = error_of (st k) /\
    hist_ok params_of error_of iterate o s0 (repeat 0 n) k (r_history r) /\
    ((exists j, k = S j /\ may_stop o e j /\ h_iterations (r_history r) = j) \/
     (k = o_max o /\ (forall j, (j < k)%nat -> ~ may_stop o e j) /\ h_iterations (r_history r) = k)).
Proof.
  cbv zeta. unfold solve.
  set (h0 := {| h_params := repeat (repeat 0 n) (o_max o); h_error := repeat 0 (o_max o); h_iterations := 0 |}).
  assert (H0 : hist_ok params_of error_of iterate o s0 (repeat 0 n) 0 h0).
  { unfold hist_ok, h0. cbn [h_params h_error]. rewrite !repeat_length. repeat split.
    - rewrite (nth_indep _ [] (repeat 0 n)) by (rewrite repeat_length; exact H). apply nth_repeat.
    - apply nth_repeat. }
  destruct (solve_loop_spec params_of error_of iterate o s0 (repeat 0 n) (o_max o) 0 h0
    ltac:(lia) H0 ltac:(intros; lia)) as (k & A & B & _ & D & F).
  cbn [error_before Nat.iter] in *.
  change (Nat.iter 0 iterate s0) with s0 in *.
  destruct (solve_loop params_of error_of iterate o (o_max o) 0 dbl_max s0 h0) as [s h] eqn:E.
  cbn [fst snd] in *. exists k. cbn [r_params r_error r_history]. subst s. auto 10.
Qed.

Lemma runs_for_bounds o e k :
  runs_for o e k -> (Nat.min (o_max o) (S (o_min o)) <= k <= o_max o)%nat.
Proof.
  intros (H1 & H2 & H3). split; [|exact H1].
  destruct (Nat.eq_dec k (o_max o)) as [->|N]; [lia|].
  destruct H3 as (j & -> & (M & _)); [lia|]. lia.
Qed.

Lemma runs_for_unique o e k k' : runs_for o e k -> runs_for o e k' -> k = k'.
Proof.
  assert (G : forall a b, runs_for o e a -> runs_for o e b -> ~ (a < b)%nat).
  { intros a b (A1 & A2 & A3) (B1 & B2 & B3) L. destruct A3 as (j & -> & M); [lia|].
    apply (B2 j); [lia|exact M]. }
  intros A B. pose proof (G _ _ A B). pose proof (G _ _ B A). lia.
Qed.

Lemma solve_loop_iter {St} (params_of : St -> list R) error_of iterate o : forall fuel it last s h,
  exists k, fst (solve_loop params_of error_of iterate o fuel it last s h) = Nat.iter k iterate s.
Proof.
  induction fuel as [|fuel IH]; intros it last s h; cbn [solve_loop].
  - exists 0%nat. reflexivity.
  - match goal with |- context [if ?b then _ else _] => destruct b end.
    + exists 1%nat. reflexivity.
    + match goal with |- context [solve_loop _ _ _ _ fuel ?a ?b ?c ?d] =>
        destruct (IH a b c d) as (k & Hk) end.
      exists (S k). rewrite Hk. clear.
      induction k as [|k IHk]; cbn [Nat.iter]; [reflexivity|].
      change (iterate (Nat.iter k iterate (iterate s)) = iterate (Nat.iter (S k) iterate s)).
      rewrite IHk. reflexivity.
Qed.

Lemma iter_inv {St} (P : St -> Prop) (iterate : St -> St) :
  (forall s, P s -> P (iterate s)) -> forall k s, P s -> P (Nat.iter k iterate s).
Proof. intros H k. induction k as [|k IH]; intros s Hs; [exact Hs|]. cbn. apply H, IH, Hs. Qed.

(** ** Sizes *)

Definition sizes (f : objfn) (s : sstate) : Prop :=
  length (s_params s) = ob_n f /\ length (s_delta s) = ob_n f.

Lemma fold_store_length (E : list nat) (sub : nat -> R) ks : forall d : list R,
  length (fold_left (fun d k => store d (nth k E 0%nat) (sub k)) ks d) = length d.
Proof.
  induction ks as [|k ks IH]; intros d; cbn [fold_left]; [reflexivity|].
  rewrite IH. apply store_length.
Qed.

Lemma iterate_sizes lin m f s :
  obj_wf f -> sizes f s -> sizes f (iterate lin m f s) /\
  s_error (iterate lin m f s) =
    (match m with GradientDescent _ => fst (ob_gradient f (s_params s))
     | _ => fst (ob_jacobian f (s_params s)) end).
Proof.
  intros (_ & Hwf) (Lp & Ld). specialize (Hwf _ Lp). destruct m as [rate|alpha search|reg search]; cbn [iterate].
  - unfold gd_iterate. destruct (ob_gradient f (s_params s)) as [e g]. cbn [fst snd] in *. split; [|reflexivity].
    split; cbn [s_params s_delta]; [|exact Ld].
    rewrite lsub_length; [exact Lp|]. rewrite lscale_length. lia.
  - unfold gn_iterate. destruct (ob_jacobian f (s_params s)) as [e rows]. cbn [fst snd] in *. split; [|reflexivity].
    split; cbn [s_params s_delta]; [|exact Ld].
    destruct (gn_update_moved f search e (s_params s) (gn_delta lin alpha (ob_n f) (ob_actual f) rows))
      as (k & _ & _ & (L & _) & _); [rewrite gn_delta_length; lia|]. lia.
  - unfold sub_iterate. destruct (ob_jacobian f (s_params s)) as [e rows]. cbn [fst snd] in *. split; [|reflexivity].
    split; cbn [s_params s_delta].
    + assert (L : forall d, length d = ob_n f -> length (lsub (s_params s) d) = ob_n f)
        by (intros d Hd; rewrite lsub_length; lia).
      destruct search.
      * match goal with |- length (line_search ?a ?b ?c ?d ?e ?g ?h) = _ =>
          destruct (line_search_spec a b c d e g h ltac:(lia)) as (k & _ & -> & _) end.
        apply L. rewrite lscale_length, fold_store_length. exact Ld.
      * apply L. rewrite fold_store_length. exact Ld.
    + rewrite fold_store_length. exact Ld.
Qed.

(** ** The returned error *)

Lemma returned_error lin m f o s p :
  obj_wf f -> reports f -> length p = ob_n f -> length (s_delta s) = ob_n f ->
  let r := run lin m f o s p in
  let st := fun k => Nat.iter k (iterate lin m f) (start p s) in
  exists k, runs_for o (fun i => ob_error f (s_params (st i))) k /\
    r_params r = s_params (st k) /\
    r_error r = (match k with O => dbl_max | S j => ob_error f (s_params (st j)) end).
Proof.
  intros Hwf Hrep Lp Ld. cbv zeta. unfold run.
  destruct (solve_spec s_params s_error (iterate lin m f) o (ob_n f) (start p s))
    as (k & Hr & Hp & He & _).
  assert (Hs : forall k, sizes f (Nat.iter k (iterate lin m f) (start p s))).
  { intros j. apply (iter_inv (sizes f)); [intros s' H'; apply iterate_sizes; assumption|].
    split; [exact Lp|exact Ld]. }
  assert (HE : forall j, s_error (Nat.iter (S j) (iterate lin m f) (start p s)) =
                         ob_error f (s_params (Nat.iter j (iterate lin m f) (start p s)))).
  { intros j.
    change (Nat.iter (S j) (iterate lin m f) (start p s))
      with (iterate lin m f (Nat.iter j (iterate lin m f) (start p s))).
    rewrite (proj2 (iterate_sizes lin m f _ Hwf (Hs j))).
    destruct (Hrep _ (proj1 (Hs j))) as [E1 E2]. destruct m; assumption. }
  exists k. split; [|split; [exact Hp|]].
  - assert (EB : forall j, error_before (fun i => ob_error f (s_params (Nat.iter i (iterate lin m f) (start p s)))) j =
       error_before (fun i => s_error (Nat.iter (S i) (iterate lin m f) (start p s))) j).
    { intros [|j]; cbn [error_before]; [reflexivity|]. symmetry. apply HE. }
    assert (EM : forall j, may_stop o (fun i => ob_error f (s_params (Nat.iter i (iterate lin m f) (start p s)))) j <->
       may_stop o (fun i => s_error (Nat.iter (S i) (iterate lin m f) (start p s))) j).
    { intros j. unfold may_stop. rewrite EB, HE. reflexivity. }
    destruct Hr as (R1 & R2 & R3). split; [exact R1|]. split.
    + intros j Hj M. apply EM in M. apply (R2 j Hj M).
    + intros L. destruct (R3 L) as (j & E & M). exists j. split; [exact E|]. apply EM. exact M.
  - rewrite He. destruct k as [|j]; [reflexivity|]. apply HE.
Qed.

(** ** The subset solver over its life *)

Definition sub_live (f : objfn) (en : nat -> bool) (s : sstate) : Prop :=
  length (s_delta s) = ob_n f /\ s_enabled s = enabled_indices (ob_n f) en /\
  forall i, (i < ob_n f)%nat -> en i = false -> nth i (s_delta s) 0 = 0.

Lemma sub_inv_live f en s : sub_inv f en s -> sub_live f en s.
Proof. intros (_ & A & B & C). split; auto. Qed.
Lemma sub_live_start f en s p : length p = ob_n f -> sub_live f en s -> sub_inv f en (start p s).
Proof. intros L (A & B & C). split; auto. Qed.

Lemma sub_iter_frame lin f reg search en k s :
  obj_wf f -> sub_inv f en s ->
  let s' := Nat.iter k (iterate lin (SubsetGaussNewton reg search) f) s in
  sub_inv f en s' /\
  forall i, (i < ob_n f)%nat -> en i = false -> nth i (s_params s') 0 = nth i (s_params s) 0.
Proof.
  intros Hwf. cbv zeta. induction k as [|k IH]; intros Hs; [split; [exact Hs|reflexivity]|].
  destruct (IH Hs) as (Hi & Hf). 
  change (Nat.iter (S k) (iterate lin (SubsetGaussNewton reg search) f) s)
    with (iterate lin (SubsetGaussNewton reg search) f (Nat.iter k (iterate lin (SubsetGaussNewton reg search) f) s)).
  set (s1 := Nat.iter k (iterate lin (SubsetGaussNewton reg search) f) s) in *.
  cbn [iterate].
  destruct (sub_iterate_spec lin f reg search en s1 Hwf Hi) as (A & _ & _ & (j & _ & _ & (_ & Hm) & _)).
  split; [exact A|]. intros i Hlt Hen.
  destruct Hi as (Li & _). destruct A as (_ & _ & _ & Hz).
  rewrite Hm by lia. rewrite Hz by assumption. rewrite (Hf i Hlt Hen). ring.
Qed.

Lemma filter_all {A} (l : list A) : filter (fun _ => true) l = l.
Proof. induction l as [|x l IH]; cbn; [reflexivity|]. rewrite IH. reflexivity. Qed.

Lemma sub_history lin f ops :
  obj_wf f -> List.Forall (sizes_ok f) ops ->
  sub_live f (last_enabled (enabled_sets ops)) (fold_left (sub_do lin f) ops (fresh f)).
Proof.
  intros Hwf. induction ops as [|op ops IH] using rev_ind; intros H.
  - cbn. split; [apply repeat_length|]. split.
    + unfold enabled_indices, last_enabled. cbn. rewrite filter_all. reflexivity.
    + cbn. intros i _ E. discriminate E.
  - apply Forall_app in H. destruct H as [H1 H2]. inversion H2 as [|? ? H3 _]; subst.
    specialize (IH H1). rewrite fold_left_app. cbn [fold_left].
    assert (Es : enabled_sets (ops ++ [op]) =
      enabled_sets ops ++ (match op with OpEnable en => [en] | _ => [] end)).
    { unfold enabled_sets. rewrite flat_map_app. cbn. rewrite app_nil_r. reflexivity. }
    rewrite Es. destruct op as [en|reg search o p]; cbn [sub_do].
    + unfold last_enabled. rewrite last_last. unfold sub_live, sub_set_enabled.
      cbn [s_delta s_enabled]. split; [apply repeat_length|]. split; [reflexivity|].
      intros i Hi _. apply nth_repeat.
    + rewrite app_nil_r. unfold solve_state.
      match goal with |- context [solve_loop ?a ?b ?c ?d ?e ?g ?h ?i ?j] =>
        destruct (solve_loop_iter a b c d e g h i j) as (k & ->) end.
      apply sub_inv_live. apply sub_iter_frame; [exact Hwf|].
      apply sub_live_start; assumption.
Qed.

Lemma sub_frame lin f ops reg search o p :
  obj_wf f -> List.Forall (sizes_ok f) ops -> length p = ob_n f ->
  let s := fold_left (sub_do lin f) ops (fresh f) in
  let r := run lin (SubsetGaussNewton reg search) f o s p in
  length (r_params r) = ob_n f /\
  forall i, (i < ob_n f)%nat -> last_enabled (enabled_sets ops) i = false ->
    nth i (r_params r) 0 = nth i p 0.
Proof.
  intros Hwf Ho Lp. cbv zeta. pose proof (sub_history lin f ops Hwf Ho) as HL.
  set (s := fold_left _ ops _) in *. unfold run.
  destruct (solve_spec s_params s_error (iterate lin (SubsetGaussNewton reg search) f) o (ob_n f) (start p s))
    as (k & _ & Hp & _). rewrite Hp.
  destruct (sub_iter_frame lin f reg search _ k _ Hwf (sub_live_start f _ s p Lp HL)) as ((L & _) & Hf).
  split; [exact L|]. intros i Hi He. rewrite (Hf i Hi He). reflexivity.
Qed.

Lemma sub_step_solves lin f ops reg search p :
  solves_spd lin -> obj_wf f -> List.Forall (sizes_ok f) ops -> length p = ob_n f -> 0 < reg ->
  let s := start p (fold_left (sub_do lin f) ops (fresh f)) in
  exists delta t,
    step_solves (snd (ob_jacobian f p)) reg (last_enabled (enabled_sets ops)) (ob_n f) delta /\
    0 < t <= 1 /\ (search = false -> t = 1) /\
    moved p delta t (s_params (sub_iterate lin f reg search s)).
Proof.
  intros Hl Hwf Ho Lp Hr. cbv zeta. pose proof (sub_history lin f ops Hwf Ho) as HL.
  set (s := fold_left _ ops _) in *.
  destruct (sub_iterate_spec lin f reg search _ _ Hwf (sub_live_start f _ s p Lp HL))
    as (_ & _ & Hs & (k & _ & Hk & Hm & _)).
  exists (s_delta (sub_iterate lin f reg search (start p s))), ((1 / 2) ^ k).
  split; [exact (Hs Hl Hr)|]. split; [split; [apply pow_half_pos|apply pow_half_le1]|].
  split; [intros E; rewrite (Hk E); reflexivity|exact Hm].
Qed.

Lemma gn_step_solves lin f alpha search s :
  solves_spd lin -> obj_wf f -> 0 < alpha -> length (s_params s) = ob_n f ->
  exists delta t,
    step_solves (snd (ob_jacobian f (s_params s))) alpha (fun i => (i <? ob_actual f)%nat) (ob_n f) delta /\
    0 < t <= 1 /\ (search = false -> t = 1) /\
    moved (s_params s) delta t (s_params (gn_iterate lin f alpha search s)).
Proof.
  intros Hl (Hac & _) Ha Lp. unfold gn_iterate. destruct (ob_jacobian f (s_params s)) as [e rows].
  cbn [snd s_params].
  destruct (gn_update_moved f search e (s_params s) (gn_delta lin alpha (ob_n f) (ob_actual f) rows))
    as (k & _ & Hk & Hm & _); [rewrite gn_delta_length; lia|].
  exists (gn_delta lin alpha (ob_n f) (ob_actual f) rows), ((1 / 2) ^ k).
  split; [apply gn_delta_solves; assumption|].
  split; [split; [apply pow_half_pos|apply pow_half_le1]|].
  split; [intros E; rewrite (Hk E); reflexivity|exact Hm].
Qed.

Lemma gn_search_first lin f alpha s j q :
  let p := s_params s in
  let '(e, rows) := ob_jacobian f p in
  let delta := gn_delta lin alpha (ob_n f) (ob_actual f) rows in
  length p = ob_n f -> 0 <= e ->
  (j < 10)%nat -> moved p delta ((1 / 2) ^ j) q ->
  (1 / 2) ^ j * (1 / 1000 * e) <= e - ob_error f q ->
  let p' := s_params (gn_iterate lin f alpha true s) in
  ob_error f p' <= e /\
  exists k, (k <= j)%nat /\ moved p delta ((1 / 2) ^ k) p' /\
    (1 / 2) ^ k * (1 / 1000 * e) <= e - ob_error f p' /\
    forall i qi, (i < k)%nat -> moved p delta ((1 / 2) ^ i) qi ->
      e - ob_error f qi < (1 / 2) ^ i * (1 / 1000 * e).
Proof.
  cbv zeta. unfold gn_iterate. destruct (ob_jacobian f (s_params s)) as [e rows]. cbn [s_params].
  intros Lp He Hj Hq Hok. set (delta := gn_delta lin alpha (ob_n f) (ob_actual f) rows) in *.
  destruct (gn_update_moved f true e (s_params s) delta) as (k & Hk & _ & Hm & Hr & Ha);
    [unfold delta; rewrite gn_delta_length; lia|].
  specialize (Hr eq_refl). specialize (Ha eq_refl).
  assert (Hkj : (k <= j)%nat).
  { destruct (Nat.le_gt_cases k j) as [|G]; [assumption|]. specialize (Hr j G q Hq). lra. }
  assert (Hpass : (1 / 2) ^ k * (1 / 1000 * e) <= e - ob_error f (gn_update f true e (s_params s) delta)).
  { destruct Ha as [E|E]; [|exact E].
    assert (k = j) by lia. subst j. rewrite (moved_unique _ _ _ _ _ Hq Hm) in Hok. exact Hok. }
  pose proof (pow_half_pos k). split; [nra|].
  exists k. split; [exact Hkj|]. split; [exact Hm|]. split; [exact Hpass|].
  intros i qi Hi Hqi. exact (Hr i Hi qi Hqi).
Qed.

Lemma step_descends rows alpha active n delta :
  0 < alpha -> step_solves rows alpha active n delta ->
  sumn n (fun i => normal_rhs rows i * nth i delta 0) =
    rsum (map (fun row => sumn n (fun j => nth j (fst row) 0 * nth j delta 0) ^ 2) rows) +
    alpha * sumn n (fun j => nth j delta 0 ^ 2) /\
  ((exists i, (i < n)%nat /\ nth i delta 0 <> 0) ->
     0 < sumn n (fun i => normal_rhs rows i * nth i delta 0)) /\
  ((forall i, (i < n)%nat -> nth i delta 0 = 0) <->
   (forall i, (i < n)%nat -> active i = true -> normal_rhs rows i = 0)).
Proof.
  intros Ha Hs. pose proof (step_inner _ _ _ _ _ Hs) as E.
  assert (E2 : sumn n (fun i => normal_rhs rows i * nth i delta 0) =
    rsum (map (fun row => sumn n (fun j => nth j (fst row) 0 * nth j delta 0) ^ 2) rows) +
    alpha * sumn n (fun j => nth j delta 0 ^ 2)).
  { rewrite E. f_equal; [apply rsum_map_ext; intros; ring|]. f_equal. apply sumn_ext. intros; ring. }
  split; [exact E2|].
  assert (P : (exists i, (i < n)%nat /\ nth i delta 0 <> 0) ->
     0 < sumn n (fun i => normal_rhs rows i * nth i delta 0)).
  { intros Hx. rewrite E. pose proof (sumsq_pos n (fun i => nth i delta 0) Hx) as Q.
    assert (0 <= rsum (map (fun row => sumn n (fun j => nth j (fst row) 0 * nth j delta 0) *
                        sumn n (fun j => nth j (fst row) 0 * nth j delta 0)) rows))
      by (apply rsum_nonneg; intros; nra).
    nra. }
  split; [exact P|]. destruct Hs as (_ & H0 & H1). split.
  - intros Z i Hi Hact. rewrite <- (H1 i Hi Hact). apply sumn_zero. intros j Hj. rewrite Z by exact Hj. ring.
  - intros Z i Hi. destruct (Req_dec (nth i delta 0) 0) as [|N]; [assumption|]. exfalso.
    assert (0 < sumn n (fun i => normal_rhs rows i * nth i delta 0)) by (apply P; exists i; auto).
    rewrite (sumn_zero n (fun i => normal_rhs rows i * nth i delta 0)) in H; [lra|].
    intros j Hj. destruct (active j) eqn:Ej; [rewrite Z by assumption; ring|rewrite H0 by assumption; ring].
Qed.

Lemma step_unused rows alpha active n delta i :
  0 < alpha -> step_solves rows alpha active n delta -> (i < n)%nat ->
  (forall row, In row rows -> nth i (fst row) 0 = 0) -> nth i delta 0 = 0.
Proof.
  intros Ha (_ & H0 & H1) Hi Hz. destruct (active i) eqn:E; [|apply H0; assumption].
  specialize (H1 i Hi E).
  assert (Er : normal_rhs rows i = 0).
  { unfold normal_rhs. apply rsum_map_zero. intros row Hr. rewrite Hz by exact Hr. ring. }
  rewrite Er in H1. rewrite (sumn_single n i) in H1; [| exact Hi|].
  - unfold normal_matrix in H1. rewrite Nat.eqb_refl in H1.
    rewrite (rsum_map_zero (fun row : list R * R => nth i (fst row) 0 * nth i (fst row) 0)) in H1
      by (intros row Hr; rewrite Hz by exact Hr; ring).
    nra.
  - intros j Hj Hne. unfold normal_matrix.
    rewrite (rsum_map_zero (fun row : list R * R => nth i (fst row) 0 * nth j (fst row) 0))
      by (intros row Hr; rewrite Hz by exact Hr; ring).
    destruct (Nat.eqb_spec i j); [lia|ring].
Qed.

Lemma sub_search_first lin f reg en s j q :
  obj_wf f -> sub_inv f en s -> solves_spd lin -> 0 < reg ->
  let p := s_params s in
  let '(e, rows) := ob_jacobian f p in
  let s' := sub_iterate lin f reg true s in
  let slope := sumn (ob_n f) (fun i => if en i then normal_rhs rows i * nth i (s_delta s') 0 else 0) in
  (j < 10)%nat -> moved p (s_delta s') ((1 / 2) ^ j) q ->
  1 / 10000 * (1 / 2) ^ j * slope <= e - ob_error f q ->
  ob_error f (s_params s') <= e /\
  exists k, (k <= j)%nat /\ moved p (s_delta s') ((1 / 2) ^ k) (s_params s') /\
    1 / 10000 * (1 / 2) ^ k * slope <= e - ob_error f (s_params s').
Proof.
  intros Hwf Hi Hl Hr. cbv zeta.
  destruct (sub_iterate_spec lin f reg true en s Hwf Hi) as (_ & He & Hs & (k & Hk & _ & Hm & Ha)).
  set (s' := sub_iterate lin f reg true s) in *.
  destruct (ob_jacobian f (s_params s)) as [e rows]. cbn [fst snd] in *.
  intros Hj Hq Hok. specialize (Hs Hl Hr).
  set (slope := sumn (ob_n f) (fun i => if en i then normal_rhs rows i * nth i (s_delta s') 0 else 0)) in *.
  destruct (Ha eq_refl slope eq_refl) as (Ha1 & Ha2). rewrite He in *.
  assert (Hslope : 0 <= slope).
  { assert (E : slope = sumn (ob_n f) (fun i => normal_rhs rows i * nth i (s_delta s') 0)).
    { unfold slope. apply sumn_ext. intros i Hlt. destruct (en i) eqn:E; [reflexivity|].
      destruct Hs as (_ & H0 & _). rewrite H0 by assumption. ring. }
    rewrite E, (step_inner _ _ _ _ _ Hs).
    assert (0 <= rsum (map (fun row => sumn (ob_n f) (fun j => nth j (fst row) 0 * nth j (s_delta s') 0) *
                        sumn (ob_n f) (fun j => nth j (fst row) 0 * nth j (s_delta s') 0)) rows))
      by (apply rsum_nonneg; intros; nra).
    assert (0 <= sumn (ob_n f) (fun j => nth j (s_delta s') 0 * nth j (s_delta s') 0))
      by (apply sumn_nonneg; intros; nra).
    nra. }
  assert (Hkj : (k <= j)%nat).
  { destruct (Nat.le_gt_cases k j) as [|G]; [assumption|]. specialize (Ha1 j G q Hq). lra. }
  assert (Hpass : 1 / 10000 * (1 / 2) ^ k * slope <= e - ob_error f (s_params s')).
  { destruct Ha2 as [E|E]; [|exact E].
    assert (k = j) by lia. subst j. rewrite (moved_unique _ _ _ _ _ Hq Hm) in Hok. exact Hok. }
  pose proof (pow_half_pos k). split; [nra|].
  exists k. auto.
Qed.

Lemma sub_search_first_ops lin f ops reg p j q :
  obj_wf f -> List.Forall (sizes_ok f) ops -> length p = ob_n f -> solves_spd lin -> 0 < reg ->
  let en := last_enabled (enabled_sets ops) in
  let s := start p (fold_left (sub_do lin f) ops (fresh f)) in
  let '(e, rows) := ob_jacobian f p in
  let s' := sub_iterate lin f reg true s in
  let slope := sumn (ob_n f) (fun i => if en i then normal_rhs rows i * nth i (s_delta s') 0 else 0) in
  (j < 10)%nat -> moved p (s_delta s') ((1 / 2) ^ j) q ->
  1 / 10000 * (1 / 2) ^ j * slope <= e - ob_error f q ->
  ob_error f (s_params s') <= e /\
  exists k, (k <= j)%nat /\ moved p (s_delta s') ((1 / 2) ^ k) (s_params s') /\
    1 / 10000 * (1 / 2) ^ k * slope <= e - ob_error f (s_params s').
Proof.
  intros Hwf Ho Lp Hl Hr. cbv zeta.
  pose proof (sub_live_start f _ _ p Lp (sub_history lin f ops Hwf Ho)) as Hi.
  exact (sub_search_first lin f reg _ _ j q Hwf Hi Hl Hr).
Qed.
