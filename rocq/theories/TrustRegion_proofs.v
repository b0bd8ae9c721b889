(** Proofs about the trust-region solver. *)

From Coq Require Import Reals List Arith Bool Lia Lra Psatz.
From Verif Require Import ListUtil LinAlg Rbool QR_spec QR_model QR_gen_proofs QR_proofs
  Solver_spec Solver_model Solver_proofs Solver_step_proofs Solver_run_proofs TrustRegion_spec TrustRegion_model.
Import ListNotations.
Local Open Scope R_scope.

Definition diag_block (n : nat) (y : R) : lsq_block :=
  {| lb_rows := n; lb_A := fun i j => if (i =? j)%nat then y else 0; lb_b := fun _ => 0 |}.

Lemma qr_run_snoc n lambda Bs B :
  qr_run n lambda (Bs ++ [B]) = qr_add (qr_run n lambda Bs) (lb_rows B) (lb_A B) (lb_b B).
Proof. unfold qr_run. rewrite fold_left_app. reflexivity. Qed.

Definition ysum (ys : list R) : R := rsum (map (fun y => y * y) ys).

Lemma gram_diag n lambda Bs ys i j :
  (i < n)%nat -> (j < n)%nat ->
  gram lambda (Bs ++ map (diag_block n) ys) i j =
  gram lambda Bs i j + (if (i =? j)%nat then ysum ys else 0).
Proof.
  intros Hi Hj. induction ys as [|y ys IH] using rev_ind.
  - cbn. rewrite app_nil_r. unfold ysum. cbn. destruct (i =? j)%nat; ring.
  - rewrite map_app, app_assoc. cbn [map]. rewrite gram_snoc, IH.
    unfold ysum. rewrite map_app, rsum_app. cbn [map rsum diag_block lb_rows lb_A].
    rewrite (sumn_single n i); [|exact Hi|].
    + rewrite Nat.eqb_refl. destruct (i =? j)%nat; ring.
    + intros k Hk Hne. destruct (Nat.eqb_spec k i); [lia|ring].
Qed.
Lemma rhs_diag n Bs ys i : rhs (Bs ++ map (diag_block n) ys) i = rhs Bs i.
Proof.
  induction ys as [|y ys IH] using rev_ind; [cbn; rewrite app_nil_r; reflexivity|].
  rewrite map_app, app_assoc. cbn [map]. rewrite rhs_snoc, IH. cbn [diag_block lb_rows lb_A lb_b].
  rewrite (sumn_zero n (fun k => (if (k =? i)%nat then y else 0) * 0)) by (intros; ring). ring.
Qed.
Lemma ysum_nonneg ys : 0 <= ysum ys.
Proof. apply rsum_nonneg. intros; nra. Qed.

(** The result of the factorisation solves the regularised normal equations. *)
Lemma result_normal n lambda Bs :
  lambda <> 0 ->
  forall i, (i < n)%nat ->
  sumn n (fun j => gram lambda Bs i j * qr_result (qr_run n lambda Bs) j) = rhs Bs i.
Proof.
  intros Hl i Hi. destruct (qr_run_spec n lambda Bs) as (En & Hu & HG & Hr & Hd).
  set (q := qr_run n lambda Bs) in *. unfold qr_result. rewrite En.
  assert (Hdiag : forall r, (r < n)%nat -> q_R q r r <> 0).
  { intros r Hr2 E. specialize (Hd r Hr2). rewrite E in Hd. nra. }
  set (x := tri_solve n (q_R q) (q_y q)).
  assert (Hx : forall r, (r < n)%nat -> sumn n (fun j => q_R q r j * x j) = q_y q r)
    by (apply tri_solve_eqs; assumption).
  rewrite <- (Hr i Hi).
  rewrite (sumn_ext n (fun j => gram lambda Bs i j * x j)
     (fun j => sumn n (fun r => q_R q r i * (q_R q r j * x j)))).
  2:{ intros j Hj. rewrite <- (HG i j Hi Hj), <- sumn_scal_r. apply sumn_ext. intros; ring. }
  rewrite sumn_swap. apply sumn_ext. intros r Hr2. rewrite sumn_scal, Hx by exact Hr2. reflexivity.
Qed.

(** The squared length of R x is the quadratic form of the Gram matrix. *)
Lemma factor_quad n lambda Bs x :
  norm2 n (fun i => sumn n (fun j => (if (i <=? j)%nat then q_R (qr_run n lambda Bs) i j else 0) * x j)) =
  sumn n (fun i => x i * sumn n (fun j => gram lambda Bs i j * x j)).
Proof.
  destruct (qr_run_spec n lambda Bs) as (_ & Hu & HG & _).
  set (U := q_R (qr_run n lambda Bs)) in *. unfold norm2.
  rewrite (sumn_ext n _ (fun r => sumn n (fun i => x i * (U r i * sumn n (fun j => U r j * x j))))).
  2:{ intros r Hr.
      assert (E : sumn n (fun j => (if (r <=? j)%nat then U r j else 0) * x j) = sumn n (fun j => U r j * x j)).
      { apply sumn_ext. intros j Hj. destruct (Nat.leb_spec r j); [reflexivity|]. rewrite Hu by assumption. ring. }
      rewrite E. rewrite <- sumn_scal_r. apply sumn_ext. intros; ring. }
  rewrite sumn_swap. apply sumn_ext. intros i Hi. rewrite sumn_scal. f_equal.
  rewrite (sumn_ext n (fun j => gram lambda Bs i j * x j)
     (fun j => sumn n (fun r => U r i * (U r j * x j)))).
  2:{ intros j Hj. rewrite <- (HG i j Hi Hj), <- sumn_scal_r. apply sumn_ext. intros; ring. }
  rewrite sumn_swap. apply sumn_ext. intros r Hr. rewrite <- sumn_scal. reflexivity.
Qed.

(** The model predicts a decrease for every step the loops can produce. *)
Lemma model_decreases n lambda Bs ys err :
  lambda <> 0 ->
  (exists i, (i < n)%nat /\ rhs Bs i <> 0) ->
  0 < err - quadratic_model n err (fun i => 2 * rhs Bs i) (q_R (qr_run n lambda Bs))
        (qr_result (qr_run n lambda (Bs ++ map (diag_block n) ys))).
Proof.
  intros Hl (i0 & Hi0 & Hr0). unfold quadratic_model. rewrite factor_quad.
  set (x := qr_result (qr_run n lambda (Bs ++ map (diag_block n) ys))).
  assert (Hx : forall i, (i < n)%nat ->
     sumn n (fun j => gram lambda Bs i j * x j) + ysum ys * x i = rhs Bs i).
  { intros i Hi. rewrite <- (rhs_diag n Bs ys i), <- (result_normal n lambda _ Hl i Hi). fold x.
    rewrite (sumn_ext n (fun j => gram lambda (Bs ++ map (diag_block n) ys) i j * x j)
       (fun j => gram lambda Bs i j * x j + (if (i =? j)%nat then ysum ys else 0) * x j)).
    2:{ intros j Hj. rewrite (gram_diag n) by assumption. ring. }
    rewrite sumn_plus. f_equal. rewrite (sumn_single n i); [rewrite Nat.eqb_refl; reflexivity|exact Hi|].
    intros j Hj Hne. destruct (Nat.eqb_spec i j); [lia|ring]. }
  set (Q := sumn n (fun i => x i * sumn n (fun j => gram lambda Bs i j * x j))).
  assert (E : sumn n (fun i => 2 * rhs Bs i * x i) = 2 * Q + 2 * ysum ys * norm2 n x).
  { unfold Q, norm2. rewrite <- !sumn_scal, <- sumn_plus. apply sumn_ext. intros i Hi.
    rewrite <- (Hx i Hi). ring. }
  rewrite E.
  assert (Q0 : 0 <= Q).
  { unfold Q. rewrite <- factor_quad. unfold norm2. apply sumn_nonneg. intros; nra. }
  pose proof (ysum_nonneg ys) as Y0.
  assert (N0 : 0 <= norm2 n x) by (apply sumn_nonneg; intros; nra).
  assert (Pos : 0 < Q + 2 * ysum ys * norm2 n x).
  { destruct (Req_dec Q 0) as [EQ|NQ]; [|assert (0 <= ysum ys * norm2 n x) by (apply Rmult_le_pos; assumption); lra].
    (* then R x = 0, so the Gram part vanishes *)
    assert (G0 : forall i, (i < n)%nat -> sumn n (fun j => gram lambda Bs i j * x j) = 0).
    { unfold Q in EQ. rewrite <- factor_quad in EQ.
      destruct (qr_run_spec n lambda Bs) as (_ & Hu & HG & _).
      set (U := q_R (qr_run n lambda Bs)) in *.
      pose proof (sumn_sq_zero n _ EQ) as Z. cbv beta in Z.
      intros i Hi.
      rewrite (sumn_ext n (fun j => gram lambda Bs i j * x j)
         (fun j => sumn n (fun r => U r i * (U r j * x j)))).
      2:{ intros j Hj. rewrite <- (HG i j Hi Hj), <- sumn_scal_r. apply sumn_ext. intros; ring. }
      rewrite sumn_swap. apply sumn_zero. intros r Hr. rewrite sumn_scal.
      assert (E2 : sumn n (fun j => U r j * x j) = 0).
      { rewrite <- (Z r Hr). apply sumn_ext. intros j Hj. destruct (Nat.leb_spec r j); [reflexivity|].
        rewrite Hu by assumption. ring. }
      rewrite E2. ring. }
    pose proof (Hx i0 Hi0) as H1. rewrite (G0 i0 Hi0) in H1.
    assert (Yne : ysum ys <> 0) by (intros Z; rewrite Z in H1; lra).
    assert (Nne : norm2 n x <> 0).
    { intros Z. pose proof (sumn_sq_zero n x Z i0 Hi0) as Z2. rewrite Z2 in H1. lra. }
    assert (0 < ysum ys * norm2 n x) by (apply Rmult_lt_0_compat; lra). lra. }
  lra.
Qed.

(** ** The loops *)

Lemma lambda_loop_spec n g radius l0 Bs : forall fuel ys lambda q' lambda' dir',
  0 < lambda ->
  lambda_loop n g radius fuel (qr_run n l0 (Bs ++ map (diag_block n) ys)) lambda
    (qr_result (qr_run n l0 (Bs ++ map (diag_block n) ys))) = (q', lambda', dir') ->
  exists ys', q' = qr_run n l0 (Bs ++ map (diag_block n) ys') /\ dir' = qr_result q' /\ 0 < lambda'.
Proof.
  induction fuel as [|fuel IH]; intros ys lambda q' lambda' dir' Hl H; cbn [lambda_loop] in H.
  - injection H as <- <- <-. exists ys. auto.
  - revert H. destruct (Rltb _ (105 / 100 * radius)).
    { intros H. injection H as <- <- <-. exists ys. auto. }
    cbv zeta.
    destruct (Rltb _ flt_epsilon).
    { intros H. injection H as <- <- <-. exists ys. auto. }
    match goal with |- context [Rleb ?d 0] => set (dl := d) end.
    destruct (Rleb_spec dl 0) as [|N].
    { intros H. injection H as <- <- <-. exists ys. auto. }
    intros H.
    set (y := sqrt (lambda + dl - lambda)) in *.
    apply (IH (ys ++ [y]) (lambda + dl)); [lra|].
    rewrite map_app, app_assoc. cbn [map]. rewrite qr_run_snoc. exact H.
Qed.

Lemma tr_full_spec n en v :
  length (tr_full n (enabled_indices n en) v) = n /\
  forall i, (i < n)%nat -> en i = false -> nth i (tr_full n (enabled_indices n en) v) 0 = 0.
Proof.
  unfold tr_full.
  destruct (scatter_spec (enabled_indices n en) v (repeat 0 n) (enabled_NoDup n en)) as (A & _ & B).
  { intros i Hi. apply enabled_in in Hi. rewrite repeat_length. apply Hi. }
  rewrite repeat_length in A. split; [exact A|].
  intros i Hi He. rewrite B; [apply nth_repeat|]. intros Hin. apply enabled_in in Hin. destruct Hin; congruence.
Qed.

Lemma classic_dec n (v : nat -> R) :
  (exists i, (i < n)%nat /\ v i <> 0) \/ (forall i, (i < n)%nat -> v i = 0).
Proof.
  induction n as [|n IH]; [right; intros; lia|].
  destruct IH as [(i & Hi & H)|H]; [left; exists i; split; [lia|exact H]|].
  destruct (Req_dec (v n) 0) as [E|N]; [right|left; exists n; split; [lia|exact N]].
  intros i Hi. destruct (Nat.eq_dec i n) as [->|]; [exact E|apply H; lia].
Qed.

Lemma flt_epsilon_pos : 0 < flt_epsilon.
Proof. unfold flt_epsilon. apply Rinv_0_lt_compat, pow_lt. lra. Qed.

Lemma quadratic_model_ext n err g g' R0 x :
  (forall i, (i < n)%nat -> g i = g' i) ->
  quadratic_model n err g R0 x = quadratic_model n err g' R0 x.
Proof.
  intros H. unfold quadratic_model. f_equal. f_equal. apply sumn_ext. intros i Hi. rewrite H by exact Hi. reflexivity.
Qed.

Lemma trust_loop_spec f en err g l0 Bs params :
  let E := enabled_indices (tr_n f) en in
  let n := length E in
  l0 <> 0 -> 0 <= err -> length params = tr_n f ->
  (forall i, (i < n)%nat -> g i = 2 * rhs Bs i) ->
  forall fuel ys lambda radius params' radius',
  0 < lambda -> 0 < radius ->
  trust_loop f E err g (q_R (qr_run n l0 Bs)) fuel (qr_run n l0 (Bs ++ map (diag_block n) ys)) lambda params radius
    = (params', radius') ->
  (params' = params \/ tr_error f params' < err) /\
  0 < radius' <= Rmax radius 10 /\
  length params' = tr_n f /\
  (forall i, (i < tr_n f)%nat -> en i = false -> nth i params' 0 = nth i params 0).
Proof.
  intros E n Hl0 Herr Lp Hg. induction fuel as [|fuel IH]; intros ys lambda radius params' radius' Hl Hr H;
    cbn [trust_loop] in H; fold n in H.
  - injection H as <- <-. split; [left; reflexivity|]. pose proof (Rmax_l radius 10). split; [lra|]. auto.
  - revert H. destruct (Rltb_spec (sumn n (fun i => qr_result (qr_run n l0 (Bs ++ map (diag_block n) ys)) i * g i))
      (flt_epsilon * (1 + err))) as [Hs|Hs].
    { intros H. injection H as <- <-. split; [left; reflexivity|]. pose proof (Rmax_l radius 10). split; [lra|]. auto. }
    assert (Hrhs : exists i, (i < n)%nat /\ rhs Bs i <> 0).
    { destruct (classic_dec n (rhs Bs)) as [D|D]; [exact D|]. exfalso. apply Hs.
      rewrite (sumn_zero n). 
      - pose proof flt_epsilon_pos. nra.
      - intros i Hi. rewrite (Hg i Hi), (D i Hi). ring. }
    destruct (lambda_loop n g radius 3 _ lambda _) as [[q1 lambda1] dir] eqn:EL.
    destruct (lambda_loop_spec n g radius l0 Bs 3 ys lambda q1 lambda1 dir Hl EL) as (ys1 & -> & -> & Hl1).
    cbv zeta. intros H.
    set (dir := qr_result (qr_run n l0 (Bs ++ map (diag_block n) ys1))) in *.
    set (trial := lsub params (tr_full (tr_n f) E dir)) in *.
    pose proof (model_decreases n l0 Bs ys1 err Hl0 Hrhs) as Hm. fold dir in Hm.
    rewrite <- (quadratic_model_ext n err g (fun i => 2 * rhs Bs i) _ dir Hg) in Hm.
    set (rho := (err - tr_error f trial) / (err - quadratic_model n err g (q_R (qr_run n l0 Bs)) dir)) in *.
    destruct (tr_full_spec (tr_n f) en dir) as (Lf & Hf). fold E in Lf, Hf.
    set (r1 := if Rltb rho (1 / 4) then 1 / 4 * radius
               else if Rltb (3 / 4) rho && Rltb 0 lambda1 then Rmin (2 * radius) 10 else radius) in *.
    assert (Hr1 : 0 < r1 <= Rmax radius 10).
    { unfold r1. pose proof (Rmax_l radius 10). pose proof (Rmax_r radius 10).
      destruct (Rltb rho (1 / 4)); [lra|]. destruct (Rltb (3 / 4) rho && Rltb 0 lambda1); [|lra].
      split; [apply Rmin_glb_lt; lra|]. pose proof (Rmin_r (2 * radius) 10). lra. }
    revert H. destruct (Rltb_spec 0 rho) as [Hrho|Hrho]; intros H.
    + injection H as <- <-. split.
      * right. unfold rho in Hrho.
        assert (Hi : 0 < / (err - quadratic_model n err g (q_R (qr_run n l0 Bs)) dir)) by (apply Rinv_0_lt_compat; exact Hm).
        unfold Rdiv in Hrho. nra.
      * split; [exact Hr1|]. split; [unfold trial; rewrite lsub_length; lia|].
        intros i Hi He. unfold trial. rewrite lsub_nth by lia. rewrite Hf by assumption. ring.
    + destruct (IH ys1 lambda1 r1 params' radius' Hl1 (proj1 Hr1) H) as (A & B & C & D).
      split; [exact A|]. split; [|split; assumption].
      split; [lra|]. apply (Rle_trans _ (Rmax r1 10)); [lra|].
      apply Rmax_lub; [lra|apply Rmax_r].
Qed.

Lemma tr_factor_run f E p :
  tr_factor f E p =
  qr_run (length E) tr_lambda0
    (map (tr_lsq E) (filter (fun rows => negb (length rows =? 0)%nat) (map snd (tr_blocks f p)))).
Proof.
  unfold tr_factor, qr_run. generalize (qr_reset (length E) tr_lambda0).
  induction (filter _ _) as [|r l IH]; intros q; cbn [fold_left map]; [reflexivity|]. apply IH.
Qed.

Lemma tr_lambda0_pos : 0 < tr_lambda0.
Proof. unfold tr_lambda0. apply Rinv_0_lt_compat, pow_lt. lra. Qed.

Lemma tr_iterate_spec f s :
  tr_nonneg f -> length (t_params s) = tr_n f -> 0 < t_radius s ->
  let s' := tr_iterate f s in
  t_error s' = tr_reported f (t_params s) /\
  (t_params s' = t_params s \/ tr_error f (t_params s') < tr_reported f (t_params s)) /\
  0 < t_radius s' <= Rmax (t_radius s) 10 /\
  t_active s' = t_active s /\
  length (t_params s') = tr_n f /\
  (forall i, (i < tr_n f)%nat -> t_active s i = false -> nth i (t_params s') 0 = nth i (t_params s) 0).
Proof.
  intros Hn Lp Hr. cbv zeta. unfold tr_iterate.
  set (E := enabled_indices (tr_n f) (t_active s)).
  rewrite tr_factor_run. set (Bs := map (tr_lsq E) _).
  set (g := fun i => 2 * nth i (qr_At_times_b (qr_run (length E) tr_lambda0 Bs)) 0).
  assert (Hg : forall i, (i < length E)%nat -> g i = 2 * rhs Bs i).
  { intros i Hi. unfold g. rewrite qr_At_times_b_spec, nth_map_seq by exact Hi. reflexivity. }
  destruct (trust_loop f E _ g _ 10 _ tr_lambda0 (t_params s) (t_radius s)) as [p' r'] eqn:EL.
  cbn [t_error t_params t_radius t_active]. split; [reflexivity|].
  pose proof tr_lambda0_pos as Hl.
  destruct (trust_loop_spec f (t_active s) (rsum (map fst (tr_blocks f (t_params s)))) g tr_lambda0 Bs (t_params s)
    ltac:(lra) (Hn _ Lp) Lp Hg 10 [] tr_lambda0 (t_radius s) p' r' Hl Hr) as (A & B & C & D).
  { cbn [map]. rewrite app_nil_r. exact EL. }
  split; [exact A|]. auto.
Qed.

Lemma tr_run_spec f o active radius p :
  tr_nonneg f -> tr_consistent f -> length p = tr_n f -> 0 < radius ->
  let r := tr_run f o active radius p in
  let st := fun k => Nat.iter k (tr_iterate f)
       {| t_params := p; t_error := dbl_max; t_radius := radius; t_active := active |} in
  (forall k, tr_error f (t_params (st (S k))) <= tr_error f (t_params (st k)) /\
     0 < t_radius (st k) <= Rmax radius 10) /\
  (exists k, runs_for o (fun i => tr_error f (t_params (st i))) k /\ r_params r = t_params (st k)) /\
  tr_error f (r_params r) <= tr_error f p /\
  ((0 < o_max o)%nat -> tr_error f (r_params r) <= r_error r <= tr_error f p) /\
  (forall i, (i < tr_n f)%nat -> active i = false -> nth i (r_params r) 0 = nth i p 0).
Proof.
  intros Hn Hc Lp Hr. cbv zeta.
  set (s0 := {| t_params := p; t_error := dbl_max; t_radius := radius; t_active := active |}).
  assert (Inv : forall k, let s := Nat.iter k (tr_iterate f) s0 in
     length (t_params s) = tr_n f /\ 0 < t_radius s <= Rmax radius 10 /\ t_active s = active /\
     (forall i, (i < tr_n f)%nat -> active i = false -> nth i (t_params s) 0 = nth i p 0)).
  { induction k as [|k IH]; cbv zeta.
    - cbn. pose proof (Rmax_l radius 10). split; [exact Lp|]. split; [lra|]. auto.
    - change (Nat.iter (S k) (tr_iterate f) s0) with (tr_iterate f (Nat.iter k (tr_iterate f) s0)).
      destruct IH as (L & R1 & Ea & Hf). set (s := Nat.iter k (tr_iterate f) s0) in *.
      destruct (tr_iterate_spec f s Hn L (proj1 R1)) as (_ & _ & R2 & E2 & L2 & F2).
      split; [exact L2|]. split; [split; [lra|]|].
      + apply (Rle_trans _ (Rmax (t_radius s) 10)); [lra|]. apply Rmax_lub; [lra|apply Rmax_r].
      + split; [congruence|]. intros i Hi He. rewrite F2 by (try rewrite Ea; assumption). apply Hf; assumption. }
  assert (Mono : forall k, tr_error f (t_params (Nat.iter (S k) (tr_iterate f) s0)) <=
                           tr_error f (t_params (Nat.iter k (tr_iterate f) s0)) /\
     t_error (Nat.iter (S k) (tr_iterate f) s0) =
                           tr_error f (t_params (Nat.iter k (tr_iterate f) s0))).
  { intros k. destruct (Inv k) as (L & R1 & _).
    change (Nat.iter (S k) (tr_iterate f) s0) with (tr_iterate f (Nat.iter k (tr_iterate f) s0)).
    set (s := Nat.iter k (tr_iterate f) s0) in *.
    destruct (tr_iterate_spec f s Hn L (proj1 R1)) as (E1 & A & _).
    rewrite (Hc _ L) in *. split; [|exact E1]. destruct A as [->|A]; lra. }
  assert (Dec : forall k, tr_error f (t_params (Nat.iter k (tr_iterate f) s0)) <= tr_error f p).
  { induction k as [|k IH]; [cbn; lra|]. destruct (Mono k) as [M _]. lra. }
  unfold tr_run. fold s0.
  destruct (solve_spec t_params t_error (tr_iterate f) o (tr_n f) s0) as (k & Hk & Hp & He & _).
  rewrite Hp, He. split.
  { intros j. split; [apply Mono|]. apply Inv. }
  split.
  { exists k. split; [|reflexivity].
    assert (HE : forall j, t_error (Nat.iter (S j) (tr_iterate f) s0) = tr_error f (t_params (Nat.iter j (tr_iterate f) s0)))
      by (intros j; apply Mono).
    assert (EM : forall j, may_stop o (fun i => tr_error f (t_params (Nat.iter i (tr_iterate f) s0))) j <->
       may_stop o (fun i => t_error (Nat.iter (S i) (tr_iterate f) s0)) j).
    { intros j. unfold may_stop. rewrite (HE j).
      destruct j as [|j]; cbn [error_before]; [reflexivity|]. rewrite (HE j). reflexivity. }
    destruct Hk as (K1 & K2 & K3). split; [exact K1|]. split.
    - intros j Hj M. apply EM in M. exact (K2 j Hj M).
    - intros L. destruct (K3 L) as (j & Ej & M). exists j. split; [exact Ej|]. apply EM. exact M. }
  split; [apply Dec|]. split.
  - intros Hm. destruct k as [|k].
    + pose proof (runs_for_bounds _ _ _ Hk). lia.
    + destruct (Mono k) as [M1 M2]. rewrite M2. split; [exact M1|apply Dec].
  - apply Inv.
Qed.
