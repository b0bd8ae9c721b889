(** Lemmas for C114. *)

From Coq Require Import String Bool Reals List Arith NArith Lia Lra.
From Verif Require Import Prelude Loops Rbool R3 LinAlg Transform_model Transform_proofs Skeleton_spec Skeleton_proofs FK_model FK_spec FK_proofs
  ParamTransform_model ParamTransform_spec ParamTransform_proofs ParamTransform_map_proofs
  Simplify_model Simplify_spec Simplify_proofs Simplify_props TPose_model TPose_spec.
Import ListNotations.
Local Open Scope nat_scope.

(** ** Names *)

Lemma prefix_app sub s : String.prefix sub s = true <-> exists b, s = (sub ++ b)%string.
Proof.
  revert s. induction sub as [|a sub IH]; intros s; cbn.
  - split; [intros _; exists s; reflexivity|destruct s; reflexivity].
  - destruct s as [|b s]; [split; [discriminate|intros [x X]; discriminate]|].
    cbn [String.prefix]. destruct (Ascii.ascii_dec a b) as [->|N].
    + rewrite IH. split; intros [x X]; exists x; [rewrite X; reflexivity|injection X as ->; reflexivity].
    + split; [discriminate|]. intros [x X]. injection X as -> _. contradiction.
Qed.

Lemma has_sub_spec sub s : has_sub sub s = true <-> exists a b, s = (a ++ sub ++ b)%string.
Proof.
  induction s as [|c s IH]; cbn [has_sub]; rewrite orb_true_iff, prefix_app.
  - split; [intros [[b X]|X]; [exists EmptyString, b; exact X|discriminate]|].
    intros (a & b & X). left. destruct a; [exists b; exact X|discriminate].
  - rewrite IH. split.
    + intros [[b X]|(a & b & X)]; [exists EmptyString, b; exact X|]. exists (String c a), b. rewrite X. reflexivity.
    + intros (a & b & X). destruct a as [|c' a]; [left; exists b; exact X|]. right. injection X as _ X. exists a, b. exact X.
Qed.

Lemma rigid_name_spec nm : (has_sub "root_" nm || has_sub "hips" nm)%bool = true <-> rigid_name nm.
Proof.
  rewrite orb_true_iff, !has_sub_spec. split.
  - intros [(a & b & X)|(a & b & X)]; exists a, b; auto.
  - intros (a & b & [X|X]); [left|right]; exists a, b; exact X.
Qed.

Lemma rigid_parameters_spec pt i : rigid_parameters pt i = true <-> is_rigid pt i.
Proof.
  unfold rigid_parameters, is_rigid. destruct (nth_error (pt_name pt) i) as [nm|].
  - rewrite rigid_name_spec. split; [intros H; exists nm; auto|]. intros (n & E & H). injection E as <-. exact H.
  - split; [discriminate|]. intros (n & E & _). discriminate.
Qed.

Lemma find_name_ok names : forall k i nm, nth_error names i = Some nm -> NoDup names -> find_name_from k names nm = Some (k + i).
Proof.
  induction names as [|x r IH]; intros k i nm E N; [destruct i; discriminate|].
  inversion N as [|? ? N1 N2]; subst. destruct i as [|i]; cbn in E |- *.
  - injection E as ->. rewrite String.eqb_refl. f_equal. lia.
  - destruct (String.eqb_spec x nm) as [->|_]; [exfalso; apply N1; eapply nth_error_In; exact E|].
    rewrite (IH (S k) i nm E N2). f_equal. lia.
Qed.

Lemma find_all_ok pt : NoDup (pt_name pt) -> forall is, (forall i, In i is -> i < List.length (pt_name pt)) ->
  find_all pt (map (fun i => nth i (pt_name pt) EmptyString) is) = Ok is.
Proof.
  intros N. induction is as [|i r IH]; intros H; cbn [map find_all]; [reflexivity|].
  unfold get_parameter_id_by_name. rewrite (find_name_ok _ 0 i); [|apply nth_error_nth', H; left; reflexivity|exact N].
  rewrite IH by (intros; apply H; right; assumption). reflexivity.
Qed.

(** ** The last joint that is set *)

Lemma count_last_from rj : forall n, let m := fold_left (fun m i => if nth i rj false then S i else m) (seq 0 n) O in
  m <= n /\ (m = 0 -> forall i, i < n -> nth i rj false = false) /\
  (forall k, m = S k -> k < n /\ nth k rj false = true /\ forall i, i < n -> nth i rj false = true -> i <= k).
Proof.
  induction n as [|n (I0 & I1 & I2)]; [cbn; split; [lia|]; split; [intros _ i Hi; lia|intros k X; discriminate]|].
  rewrite seq_S, fold_left_app. cbn [fold_left Nat.add]. set (m := fold_left _ (seq 0 n) O) in *. clearbody m. cbv zeta.
  destruct (nth n rj false) eqn:E.
  - split; [lia|]. split; [discriminate|]. intros k X. injection X as <-. split; [lia|]. split; [exact E|]. intros i Hi _. lia.
  - split; [lia|]. split.
    + intros X i Hi. destruct (Nat.eq_dec i n) as [->|]; [exact E|apply I1; [exact X|lia]].
    + intros k X. destruct (I2 k X) as (A & B & C). split; [lia|]. split; [exact B|]. intros i Hi Y.
      destruct (Nat.eq_dec i n) as [->|]; [congruence|apply C; [lia|exact Y]].
Qed.

(** ** Rows of the transform *)

Lemma apply_row pt p : pt_wf pt -> List.length p = pt_cols pt ->
  exists q, pt_apply pt p = Ok q /\ List.length q = pt_rows pt /\
    forall r, r < pt_rows pt -> nth r q 0%R = (row_dot (pt_entries pt) p r + nth r (pt_offsets pt) 0)%R.
Proof.
  intros W L. destruct (apply_affine_lemma pt p W L) as (q & E & Lq & N). exists q. split; [exact E|]. split; [exact Lq|].
  intros r Hr. rewrite N by exact Hr. rewrite row_dot_coeff; [reflexivity|]. intros e He. apply (wf_entries _ W e He).
Qed.

Lemma row_dot_ext es p p' r : (forall e, In e es -> erow e = r -> nth (ecol e) p 0%R = nth (ecol e) p' 0%R) ->
  row_dot es p r = row_dot es p' r.
Proof.
  intros H. unfold row_dot. f_equal. apply map_ext_in. intros e He. destruct (Nat.eqb_spec (erow e) r) as [E|]; [|reflexivity].
  rewrite (H e He E). reflexivity.
Qed.

(** ** Forward kinematics of two skeletons that agree on some joints *)

Lemma fk_same sk1 q1 sts1 sk2 q2 sts2 (P : nat -> Prop) : valid_sk sk1 -> fk_states sk1 q1 sts1 -> fk_states sk2 q2 sts2 ->
  (forall a, P a -> nth_error sk1 a = nth_error sk2 a /\ jparam_at q1 a = jparam_at q2 a) ->
  (forall a jt p, P a -> nth_error sk1 a = Some jt -> jparent jt = Some p -> P p) ->
  forall j, P j -> nth_error sts1 j = nth_error sts2 j.
Proof.
  intros V F1 F2 A C j. induction (lt_wf j) as [j _ IH]. intros Pj. destruct (A j Pj) as [As Aq].
  destruct F1 as [L1 F1], F2 as [L2 F2]. destruct (nth_error sk1 j) as [jt|] eqn:E.
  - destruct (F1 j jt E) as (ps1 & P1 & N1). destruct (F2 j jt (eq_sym As)) as (ps2 & P2 & N2).
    rewrite N1, N2, Aq. do 2 f_equal. unfold parent_state in P1, P2. destruct (jparent jt) as [p|] eqn:Ep.
    + pose proof (valid_sk_parent sk1 j jt p V E Ep) as Hp. destruct P1 as (t1 & T1 & ->), P2 as (t2 & T2 & ->).
      rewrite (IH p Hp (C j jt p Pj E Ep)) in T1. congruence.
    + congruence.
  - apply nth_error_None in E. assert (X : nth_error sk2 j = None) by congruence. apply nth_error_None in X.
    transitivity (@None jstate); [|symmetry]; apply nth_error_None; lia.
Qed.

(** ** Overwriting, reading *)

Lemma nth_map_seq0 {A} (f : nat -> A) d n i : i < n -> nth i (map f (seq 0 n)) d = f i.
Proof. intros H. rewrite (nth_indep _ d (f 0)) by (rewrite map_length, seq_length; exact H). rewrite map_nth, seq_nth by exact H. reflexivity. Qed.

Lemma overwrite_length rig new old : List.length (overwrite rig new old) = List.length old.
Proof. unfold overwrite. rewrite map_length, seq_length. reflexivity. Qed.
Lemma overwrite_nth rig new old k : k < List.length old -> nth k (overwrite rig new old) 0%R = if rig k then nth k new 0%R else nth k old 0%R.
Proof.
  intros H. unfold overwrite. apply (nth_map_seq0 (fun k => if rig k then nth k new 0%R else nth k old 0%R)), H.
Qed.

Lemma rd_all_ok (l : list R) : forall is, (forall i, In i is -> i < List.length l) -> rd_all l is = Ok (map (fun i => nth i l 0%R) is).
Proof.
  induction is as [|i r IH]; intros H; cbn [rd_all map]; [reflexivity|].
  unfold rd. rewrite (nth_error_nth' l 0%R) by (apply H; left; reflexivity). cbn [obind].
  rewrite IH by (intros; apply H; right; assumption). reflexivity.
Qed.

(** ** The solver for a character *)

Record tp_good (sk : skeleton) (pt : ptransform) (m : nat) (keep : pset) (s : tpsolver) : Prop := {
  tg_lt : m < List.length sk;
  tg_full : tp_full s = pt_cols pt;
  tg_skel : tp_skel s = firstn (S m) sk;
  tg_root : tp_root s = m;
  tg_rigid : forall k i, nth_error (kept (pt_cols pt) keep) k = Some i -> (tp_rigid s k = true <-> is_rigid pt i);
  tg_map : tp_map s = kept (pt_cols pt) keep;
  tg_cols : pt_cols (tp_pt s) = List.length (kept (pt_cols pt) keep);
  tg_keep : forall i, keep i = true <-> exists e, In e (pt_entries pt) /\ ecol e = i /\ erow e / 7 <= m;
  tg_apply : forall sol, List.length sol = List.length (kept (pt_cols pt) keep) ->
    exists q', pt_apply (tp_pt s) sol = Ok q' /\ List.length q' = 7 * S m /\
      forall p, List.length p = pt_cols pt -> (forall k i, nth_error (kept (pt_cols pt) keep) k = Some i -> nth k sol 0%R = nth i p 0%R) ->
        exists q, pt_apply pt p = Ok q /\ forall r, r < 7 * S m -> nth r q' 0%R = nth r q 0%R
}.


Lemma p2j sk pt (W : poseable sk pt) S : exists act, parameters_to_joints (List.length sk) pt S = Ok act /\ List.length act = List.length sk /\
  forall j, nth j act false = true <-> exists e, In e (pt_entries pt) /\ erow e / 7 = j /\ S (ecol e) = true.
Proof.
  destruct (p2j_loop (List.length sk) S (pt_entries pt) (repeat false (List.length sk))) as (act & E & L & A).
  - apply repeat_length.
  - intros e He. destruct (wf_entries _ (po_pt _ _ W) e He) as [H1 H2]. rewrite (po_rows _ _ W) in H1. split; [apply div_bound, H1|].
    pose proof (wf_max _ (po_pt _ _ W)). lia.
  - exists act. split; [exact E|]. split; [exact L|]. intros j. split.
    + intros N. assert (X : nth_error act j = Some true).
      { destruct (Nat.lt_ge_cases j (List.length act)) as [H|H]; [rewrite <- N; apply nth_error_nth', H|rewrite nth_overflow in N by exact H; discriminate]. }
      apply A in X as [X|X]; [|exact X]. apply nth_error_In, repeat_spec in X. discriminate X.
    + intros X. apply nth_error_nth. apply A. right. exact X.
Qed.

Lemma tp_none sk pt (W : poseable sk pt) : (forall j, ~ rigid_joint pt j) -> new_tpsolver sk pt = Throw.
Proof.
  intros N. unfold new_tpsolver, rigid_body_skeleton.
  destruct (p2j sk pt W (rigid_parameters pt)) as (act & E & L & A). rewrite E. cbn [obind].
  unfold count_to_last. pose proof (count_last_from act (List.length act)) as (H0 & H1 & H2).
  destruct (fold_left _ _ _) as [|k] eqn:F; [reflexivity|]. exfalso. destruct (H2 k eq_refl) as (_ & X & _).
  apply A in X as (e & He & Er & Sr). apply (N k). exists e. rewrite rigid_parameters_spec in Sr. auto.
Qed.

Lemma kept_ext n (s1 s2 : pset) : (forall i, s1 i = true <-> s2 i = true) -> kept n s1 = kept n s2.
Proof.
  intros H. unfold kept. apply filter_ext. intros i. specialize (H i). destruct (s1 i), (s2 i); try reflexivity; exfalso; intuition congruence.
Qed.

Lemma tp_new sk pt m (W : poseable sk pt) : last_rigid_joint pt m -> exists keep s, new_tpsolver sk pt = Ok s /\ tp_good sk pt m keep s.
Proof.
  intros [Rm Mx]. unfold new_tpsolver, rigid_body_skeleton.
  destruct (p2j sk pt W (rigid_parameters pt)) as (act & E & L & A). rewrite E. cbn [obind].
  assert (Rj : forall j, nth j act false = true <-> rigid_joint pt j).
  { intros j. rewrite A. split; intros (e & He & Er & Sr); exists e; rewrite rigid_parameters_spec in *; auto. }
  assert (Hm : m < List.length sk).
  { destruct (Nat.lt_ge_cases m (List.length act)) as [|H]; [lia|]. apply Rj in Rm. rewrite nth_overflow in Rm by exact H. discriminate. }
  assert (C : count_to_last act = S m).
  { unfold count_to_last. pose proof (count_last_from act (List.length act)) as (H0 & H1 & H2). destruct (fold_left _ _ _) as [|k] eqn:F.
    - exfalso. apply Rj in Rm. rewrite (H1 eq_refl m) in Rm by lia. discriminate.
    - destruct (H2 k eq_refl) as (X & Y & Z). f_equal. apply Rj in Y. pose proof (Mx k Y). apply Rj in Rm. pose proof (Z m ltac:(lia) Rm). lia. }
  rewrite C. cbn [Nat.eqb].
  unfold joints_to_parameters.
  assert (La : List.length (repeat true (S m) ++ skipn (S m) act) = List.length sk) by (rewrite app_length, repeat_length, skipn_length; lia).
  rewrite La, Nat.eqb_refl. cbn [negb].
  destruct (j2p_loop pt (List.length sk) (repeat true (S m) ++ skipn (S m) act) La (pt_entries pt) (fun _ => false)) as (keep & Ek & Ak).
  { intros e He. destruct (wf_entries _ (po_pt _ _ W) e He) as [H1 H2]. rewrite (po_rows _ _ W) in H1. split; [apply div_bound, H1|exact H2]. }
  { apply (wf_max _ (po_pt _ _ W)). }
  rewrite Ek. cbn [obind].
  assert (K : forall i, keep i = true <-> exists e, In e (pt_entries pt) /\ ecol e = i /\ erow e / 7 <= m).
  { intros i. rewrite Ak. split.
    - intros [X|(e & He & Ec & N)]; [discriminate|]. exists e. split; [exact He|]. split; [exact Ec|].
      destruct (Nat.le_gt_cases (erow e / 7) m) as [|G]; [assumption|]. exfalso.
      rewrite nth_error_app2 in N by (rewrite repeat_length; lia). rewrite repeat_length in N.
      assert (X : nth (erow e / 7) act false = true).
      { apply (nth_error_nth _ _ false) in N. rewrite <- N. rewrite <- (firstn_skipn (S m) act) at 1.
        rewrite app_nth2 by (rewrite firstn_length; lia). rewrite firstn_length. f_equal. lia. }
      apply Rj in X. pose proof (Mx _ X). lia.
    - intros (e & He & Ec & N). right. exists e. split; [exact He|]. split; [exact Ec|].
      rewrite nth_error_app1 by (rewrite repeat_length; lia). apply nth_error_repeat. lia. }
  set (cols := pt_cols pt).
  destruct (subset_full pt [] keep (po_pt _ _ W)) as (ipt & li & Es & Nm & Rw & Cl & Of & F1 & _). { intros l i []. }
  destruct (subset_apply_lemma pt [] keep (po_pt _ _ W)) as (ipt' & li' & Es' & _ & _ & Ap & _). { intros l i []. }
  rewrite Es in Es'. injection Es' as <- <-.
  destruct (subset_consistent_lemma pt [] keep ipt li (po_pt _ _ W)) as (_ & _ & _ & Wi & _). { intros l i []. } { exact Es. }
  rewrite Es. cbn [obind]. fold cols in Nm, Cl.
  assert (Lf : List.length (firstn (S m) sk) = S m) by (rewrite firstn_length; lia). rewrite Lf.
  set (jmap := map Some (seq 0 (S m)) ++ repeat None (List.length sk - S m)).
  assert (Lj : List.length jmap = List.length sk).
  { unfold jmap. rewrite app_length, map_length, seq_length, repeat_length. lia. }
  assert (Jm : forall a j, nth_error jmap a = Some (Some j) -> a = j /\ j < S m).
  { intros a j X. unfold jmap in X. destruct (Nat.lt_ge_cases a (S m)) as [Ha|Ha].
    - rewrite nth_error_app1 in X by (rewrite map_length, seq_length; exact Ha). rewrite nth_error_map in X.
      rewrite (nth_error_nth' (seq 0 (S m)) 0) in X by (rewrite seq_length; exact Ha). cbn [option_map] in X. rewrite seq_nth in X by exact Ha. injection X as <-. lia.
    - rewrite nth_error_app2 in X by (rewrite map_length, seq_length; exact Ha). apply nth_error_In, repeat_spec in X. discriminate. }
  assert (Jm' : forall j, j < S m -> nth_error jmap j = Some (Some j)).
  { intros j Hj. unfold jmap. rewrite nth_error_app1 by (rewrite map_length, seq_length; exact Hj). rewrite nth_error_map.
    rewrite (nth_error_nth' (seq 0 (S m)) 0) by (rewrite seq_length; exact Hj). cbn [option_map]. rewrite seq_nth by exact Hj. reflexivity. }
  destruct (map_joints_lemma ipt (S m) jmap Wi) as (rpt & Em & Nr & Cr & _ & _ & Hq).
  { rewrite Rw, (po_rows _ _ W), Lj. reflexivity. }
  { intros a b j X Y. apply Jm in X as [-> _], Y as [-> _]. reflexivity. }
  { intros a j X. apply Jm in X. apply X. }
  rewrite Em. cbn [obind]. rewrite Lf. cbn [Nat.eqb]. rewrite Nr, Nm.
  rewrite find_all_ok; [|apply (po_names _ _ W)|intros i Hi; apply kept_in in Hi; rewrite (wf_names _ (po_pt _ _ W)); apply Hi].
  cbn [obind]. eexists keep, _. split; [reflexivity|]. constructor; cbn [tp_full tp_skel tp_pt tp_root tp_rigid tp_map]; auto.
  - lia.
  - intros k i X. fold cols in X. unfold rigid_parameters. rewrite Nr, Nm, nth_error_map, X. cbn [option_map].
    rewrite rigid_name_spec. unfold is_rigid. assert (Hi : i < cols) by (apply nth_error_In, kept_in in X; apply X).
    rewrite (nth_error_nth' (pt_name pt) EmptyString) by (rewrite (wf_names _ (po_pt _ _ W)); exact Hi).
    split; [intros H; eexists; split; [reflexivity|exact H]|]. intros (nm & Y & H). injection Y as <-. exact H.
  - rewrite Cr, Cl. reflexivity.
  - intros sol Ls. fold cols in Ls. destruct (Hq sol) as (q0 & q' & Eq0 & Eq' & Lq' & Hd & _). { rewrite Cl. exact Ls. }
    exists q'. split; [exact Eq'|]. split; [exact Lq'|]. intros p Lp Ag. fold cols in Ag.
    set (pz := map (fun i => if keep i then nth i p 0%R else 0%R) (seq 0 cols)).
    assert (Lz : List.length pz = cols) by (unfold pz; rewrite map_length, seq_length; reflexivity).
    assert (Nz : forall i, i < cols -> nth i pz 0%R = if keep i then nth i p 0%R else 0%R) by (intros i Hi; unfold pz; apply (nth_map_seq0 (fun i => if keep i then nth i p 0%R else 0%R)), Hi).
    assert (Sz : map (fun i => nth i pz 0%R) (kept cols keep) = sol).
    { apply nth_ext with (d := 0%R) (d' := 0%R); [rewrite map_length; symmetry; exact Ls|]. intros k Hk. rewrite map_length in Hk.
      assert (X : nth_error (kept cols keep) k = Some (nth k (kept cols keep) 0)) by (apply nth_error_nth', Hk).
      rewrite (nth_indep _ 0%R ((fun i => nth i pz 0%R) 0)) by (rewrite map_length; exact Hk). rewrite (map_nth (fun i => nth i pz 0%R)).
      rewrite (Ag k _ X). apply nth_error_In, kept_in in X as [X1 X2]. rewrite Nz by exact X1. rewrite X2. reflexivity. }
    specialize (Ap pz Lz). fold cols in Ap. rewrite Sz in Ap. rewrite Ap in Eq0 by (intros i Hi Hk; rewrite Nz by exact Hi; rewrite Hk; reflexivity).
    destruct (apply_row pt p (po_pt _ _ W) Lp) as (q & Eq & _ & Nq). destruct (apply_row pt pz (po_pt _ _ W) Lz) as (qz & Eqz & _ & Nqz).
    rewrite Eqz in Eq0. injection Eq0 as <-. exists q. split; [exact Eq|]. intros r Hr.
    assert (Hr' : r < pt_rows pt) by (rewrite (po_rows _ _ W); lia).
    pose proof (Nat.div_mod r 7 ltac:(lia)) as Dm. pose proof (Nat.mod_upper_bound r 7 ltac:(lia)) as Ub.
    assert (Hj : r / 7 < S m) by (apply Nat.div_lt_upper_bound; lia).
    rewrite Dm at 1. rewrite (Hd (r / 7) (r / 7) (r mod 7) (Jm' _ Hj) Ub), <- Dm. rewrite Nqz, Nq by exact Hr'. f_equal.
    apply row_dot_ext. intros e He Er. rewrite Nz by (apply (wf_entries _ (po_pt _ _ W) e He)).
    assert (X : keep (ecol e) = true). { apply K. exists e. split; [exact He|]. split; [reflexivity|]. rewrite Er. lia. }
    rewrite X. reflexivity.
Qed.

(** ** One pose *)

Lemma pose_unique sk pt p w w' : pose_of sk pt p w -> pose_of sk pt p w' -> w = w'.
Proof. intros (q & st & E1 & E2 & ->) (q' & st' & E1' & E2' & ->). congruence. Qed.

Lemma pose_exists sk pt p : poseable sk pt -> List.length p = pt_cols pt -> exists w, pose_of sk pt p w /\ List.length w = List.length sk.
Proof.
  intros W L. destruct (apply_row pt p (po_pt _ _ W) L) as (q & Eq & Lq & _). rewrite (po_rows _ _ W) in Lq.
  destruct (fk_ok sk q (po_parents _ _ W) Lq) as (sts & Ef & F). exists (map js_world sts). split; [exists q, sts; auto|].
  rewrite map_length. apply F.
Qed.

Lemma firstn_valid sk n : valid_sk sk -> valid_sk (firstn n sk).
Proof.
  intros V i p E. apply (V i p). unfold sk_parents in *. rewrite nth_error_map in E |- *.
  destruct (nth_error (firstn n sk) i) as [jt|] eqn:X; [|discriminate].
  destruct (Nat.lt_ge_cases i n) as [Hi|Hi].
  - rewrite <- (firstn_skipn n sk). rewrite nth_error_app1; [rewrite X; exact E|apply nth_error_Some; congruence].
  - exfalso. assert (Y : nth_error (firstn n sk) i <> None) by congruence. apply nth_error_Some in Y. rewrite firstn_length in Y. lia.
Qed.

Lemma nth_error_firstn_lt {A} (l : list A) n i : i < n -> nth_error (firstn n l) i = nth_error l i.
Proof.
  revert n i. induction l as [|x l IH]; intros [|n] [|i] H; cbn; try reflexivity; try lia. apply IH. lia.
Qed.

Section Run.
Variables (sk : skeleton) (pt : ptransform) (m : nat) (keep : pset) (s : tpsolver).
Hypothesis W : poseable sk pt.
Hypothesis G : tp_good sk pt m keep s.
Variable solve : nat -> tf -> list R -> list R.
Variable rnd : nat -> nat -> R.
Local Notation K := (kept (pt_cols pt) keep).

Definition agrees (sol p : list R) : Prop := forall k i, nth_error K k = Some i -> nth k sol 0%R = nth i p 0%R.

Lemma root_state_total sol : List.length sol = List.length K -> exists t, root_state s sol = Ok t.
Proof.
  intros L. unfold root_state. destruct (tg_apply _ _ _ _ _ G sol L) as (q & E & Lq & _). rewrite E. cbn [obind].
  rewrite (tg_skel _ _ _ _ _ G). pose proof (tg_lt _ _ _ _ _ G) as Hm. assert (Lf : List.length (firstn (S m) sk) = S m) by (rewrite firstn_length; lia).
  destruct (fk_ok (firstn (S m) sk) q) as (sts & Ef & F). { apply firstn_valid, (po_parents _ _ W). } { rewrite Lf. exact Lq. }
  rewrite Ef. cbn [obind]. rewrite (tg_root _ _ _ _ _ G). destruct (rd_ok sts m) as (st & Er & _). { destruct F as [-> _]. lia. }
  rewrite Er. cbn [obind]. eauto.
Qed.

Lemma root_state_of sol p w : List.length sol = List.length K -> List.length p = pt_cols pt -> agrees sol p -> pose_of sk pt p w ->
  exists t, root_state s sol = Ok t /\ nth_error w m = Some t.
Proof.
  intros L Lp A (q & sts & Eq & Ef & ->). unfold root_state. destruct (tg_apply _ _ _ _ _ G sol L) as (q' & E & Lq & H). rewrite E. cbn [obind].
  destruct (H p Lp A) as (q0 & Eq0 & Hq). rewrite Eq in Eq0. injection Eq0 as <-.
  rewrite (tg_skel _ _ _ _ _ G). pose proof (tg_lt _ _ _ _ _ G) as Hm. assert (Lf : List.length (firstn (S m) sk) = S m) by (rewrite firstn_length; lia).
  assert (Vf : valid_sk (firstn (S m) sk)) by (apply firstn_valid, (po_parents _ _ W)).
  destruct (fk_ok (firstn (S m) sk) q' Vf) as (sts' & Ef' & F). { rewrite Lf. exact Lq. }
  rewrite Ef'. cbn [obind]. rewrite (tg_root _ _ _ _ _ G). destruct (rd_ok sts' m) as (st & Er & N). { destruct F as [-> _]. lia. }
  rewrite Er. cbn [obind]. exists (js_world st). split; [reflexivity|].
  apply fk_inv in Ef as [_ F0]; [|apply (po_parents _ _ W)].
  assert (X : nth_error sts' m = nth_error sts m).
  { apply (fk_same (firstn (S m) sk) q' sts' sk q sts (fun a => a < S m) Vf F F0); [| |lia].
    - intros a Ha. split; [apply nth_error_firstn_lt, Ha|]. apply jparam_ext. intros d Hd. apply Hq. lia.
    - intros a jt p0 Ha Ea Ep. pose proof (valid_sk_parent _ _ _ _ Vf Ea Ep). lia. }
  rewrite nth_error_map, <- X, N. reflexivity.
Qed.

Hypothesis Sv : forall k t p, List.length (solve k t p) = List.length p /\
  forall a i, nth_error K a = Some i -> ~ is_rigid pt i -> nth a (solve k t p) 0%R = nth a p 0%R.

Definition keeps_rest (full sol : list R) : Prop :=
  List.length sol = List.length K /\ forall k i, nth_error K k = Some i -> ~ is_rigid pt i -> nth k sol 0%R = nth i full 0%R.

Lemma keeps_solve full k t sol : keeps_rest full sol -> keeps_rest full (solve k t sol).
Proof.
  intros [L H]. destruct (Sv k t sol) as [L' H']. split; [lia|]. intros a i E N. rewrite (H' a i E N). apply H; assumption.
Qed.
Lemma keeps_overwrite full new sol : keeps_rest full sol -> keeps_rest full (overwrite (tp_rigid s) new sol).
Proof.
  intros [L H]. split; [rewrite overwrite_length; exact L|]. intros k i E N.
  assert (Hk : k < List.length K) by (apply nth_error_Some; congruence). rewrite overwrite_nth by lia.
  destruct (tp_rigid s k) eqn:Rk; [exfalso; apply N; apply (tg_rigid _ _ _ _ _ G k i E); exact Rk|]. apply H; assumption.
Qed.

Lemma attempts_ok full target : forall left k sol, keeps_rest full sol ->
  exists sol' w, attempts solve rnd s target left k sol = Ok (sol', w) /\ keeps_rest full sol' /\
    (w = false -> exists t, root_state s sol' = Ok t /\ (mat_dist (qmat (rot t)) (qmat (rot target)) < 1 / 1000)%R) /\
    (w = true -> left <> 0 -> forall a i, nth_error K a = Some i -> is_rigid pt i -> nth a sol' 0%R = rnd (k + left - 1) a).
Proof.
  induction left as [|left IH]; intros k sol H; cbn [attempts].
  - exists sol, true. split; [reflexivity|]. split; [exact H|]. split; [discriminate|]. intros _ X. contradiction.
  - cbv zeta. pose proof (keeps_solve full k target sol H) as H'. set (sol1 := solve k target sol) in *. clearbody sol1.
    destruct (root_state_total sol1) as (t & Et); [apply H'|]. rewrite Et. cbn [obind].
    destruct (Rltb_spec (mat_dist (qmat (rot t)) (qmat (rot target))) (1 / 1000)) as [C|C].
    + exists sol1, false. split; [reflexivity|]. split; [exact H'|]. split; [intros _; exists t; auto|discriminate].
    + pose proof (keeps_overwrite full (map (rnd k) (seq 0 (pt_cols (tp_pt s)))) sol1 H') as H2.
      destruct (IH (S k) _ H2) as (sol' & w & E & K' & F & T). exists sol', w. split; [exact E|]. split; [exact K'|]. split; [exact F|].
      intros Hw _ a i Ea Ri. destruct left as [|left].
      * cbn [attempts] in E. injection E as E _. rewrite <- E. assert (Ha : a < List.length K) by (apply nth_error_Some; congruence).
        rewrite overwrite_nth by (destruct H'; lia). rewrite (proj2 (tg_rigid _ _ _ _ _ G a i Ea) Ri).
        rewrite (nth_map_seq0 (rnd k)) by (rewrite (tg_cols _ _ _ _ _ G); exact Ha). f_equal. lia.
      * rewrite (T Hw ltac:(lia) a i Ea Ri). f_equal. lia.
Qed.

Lemma write_back_ok sol full : List.length sol = List.length K -> List.length full = pt_cols pt ->
  exists r, write_back s sol full = Ok r /\ List.length r = List.length full /\
    (forall a i, nth_error K a = Some i -> is_rigid pt i -> nth i r 0%R = nth a sol 0%R) /\
    (forall i, ~ is_rigid pt i -> nth i r 0%R = nth i full 0%R).
Proof.
  intros L Lf. unfold write_back. rewrite (tg_map _ _ _ _ _ G).
  destruct (ofold_seq_inv (fun k full => if tp_rigid s k then obind (rd K k) (fun i => obind (rd sol k) (fun v => wr full i v)) else Ok full)
    (fun n r => List.length r = List.length full /\ (forall a i, a < n -> nth_error K a = Some i -> is_rigid pt i -> nth i r 0%R = nth a sol 0%R) /\
       (forall i, (forall a, a < n -> nth_error K a = Some i -> ~ is_rigid pt i) -> nth i r 0%R = nth i full 0%R)) (List.length K) full) as (r & E & Lr & A & B).
  - split; [reflexivity|]. split; [intros; lia|reflexivity].
  - intros k r Hk (Lr & A & B). destruct (nth_error K k) as [i|] eqn:Ek; [|apply nth_error_None in Ek; lia].
    destruct (tp_rigid s k) eqn:Rk.
    + pose proof (proj1 (tg_rigid _ _ _ _ _ G k i Ek) Rk) as Ri.
      assert (Hi : i < List.length r). { apply nth_error_In, kept_in in Ek as [Ek _]. lia. }
      unfold rd at 1. rewrite Ek. cbn [obind]. unfold rd. rewrite (nth_error_nth' sol 0%R) by lia. cbn [obind].
      destruct (Loops.wr_ok r i (nth k sol 0%R) Hi) as (r' & E' & L' & N' & O'). exists r'. split; [exact E'|]. split; [lia|].
      assert (O2 : forall j, j <> i -> nth j r' 0%R = nth j r 0%R).
      { intros j Hj. destruct (Nat.lt_ge_cases j (List.length r)) as [X|X]; [|rewrite !nth_overflow by lia; reflexivity].
        apply nth_error_nth. rewrite (O' j Hj). apply nth_error_nth'. exact X. }
      split.
      * intros a j Ha Ea Rj. destruct (Nat.eq_dec a k) as [->|Na].
        -- assert (j = i) as -> by congruence. apply nth_error_nth, N'.
        -- assert (Nj : j <> i). { intros ->. apply Na. pose proof (kept_nodup (pt_cols pt) keep) as ND. rewrite NoDup_nth_error in ND. apply ND; [apply nth_error_Some; congruence|congruence]. }
           rewrite (O2 j Nj). apply A; [lia|exact Ea|exact Rj].
      * intros j Hj. assert (Nj : j <> i) by (intros ->; apply (Hj k); [lia|exact Ek|exact Ri]). rewrite (O2 j Nj). apply B. intros a Ha. apply Hj. lia.
    + exists r. split; [reflexivity|]. split; [exact Lr|]. split.
      * intros a j Ha Ea Rj. destruct (Nat.eq_dec a k) as [->|Na]; [|apply A; [lia|exact Ea|exact Rj]].
        assert (j = i) as -> by congruence. apply (tg_rigid _ _ _ _ _ G k i Ek) in Rj. congruence.
      * intros j Hj. apply B. intros a Ha. apply Hj. lia.
  - exists r. split; [exact E|]. split; [exact Lr|]. split.
    + intros a i Ea. apply A; [|exact Ea]. apply nth_error_Some. congruence.
    + intros i Hi. apply B. intros a _ _. exact Hi.
Qed.

Lemma kept_bound i : In i K -> i < pt_cols pt.
Proof. intros H. apply kept_in in H. apply H. Qed.

Lemma transform_pose_ok full T prev : List.length full = pt_cols pt -> List.length prev = pt_cols pt \/ prev = [] ->
  exists r w, transform_pose solve rnd s full T prev = Ok (r, w) /\ List.length r = pt_cols pt /\
    (forall i, ~ is_rigid pt i -> nth i r 0%R = nth i full 0%R) /\
    (w = false -> forall w0 w1, pose_of sk pt full w0 -> pose_of sk pt r w1 -> exists t0 t1, nth_error w0 m = Some t0 /\ nth_error w1 m = Some t1 /\
       (mat_dist (qmat (rot t1)) (qmat (rot (tf_mul T t0))) < 1 / 1000)%R) /\
    (w = true -> forall a i, nth_error K a = Some i -> is_rigid pt i -> nth i r 0%R = rnd (N.to_nat 10000) a).
Proof.
  intros Lf Lp. unfold transform_pose. rewrite (tg_full _ _ _ _ _ G), Lf, Nat.eqb_refl. cbn [negb].
  assert (Cp : (Nat.eqb (List.length prev) (pt_cols pt) || Nat.eqb (List.length prev) 0)%bool = true).
  { destruct Lp as [-> | ->]; [rewrite Nat.eqb_refl; reflexivity|apply orb_true_r]. }
  rewrite Cp. cbn [negb]. rewrite (tg_map _ _ _ _ _ G).
  rewrite rd_all_ok by (intros i Hi; rewrite Lf; apply kept_bound, Hi). cbn [obind].
  set (sol0 := map (fun i => nth i full 0%R) K).
  assert (L0 : List.length sol0 = List.length K) by apply map_length.
  assert (A0 : agrees sol0 full). { intros k i E. apply kept_vec_nth. exact E. }
  destruct (pose_exists sk pt full W Lf) as (w0 & P0 & _). destruct (root_state_of sol0 full w0 L0 Lf A0 P0) as (t0 & Et & Nt). rewrite Et. cbn [obind].
  assert (K0 : keeps_rest full sol0) by (split; [exact L0|intros k i E _; apply A0, E]).
  assert (X : exists sol1, match prev with [] => Ok sol0 | _ :: _ => obind (rd_all prev K) (fun pv => Ok (overwrite (tp_rigid s) pv sol0)) end = Ok sol1 /\ keeps_rest full sol1).
  { destruct prev as [|x pr] eqn:Ep; [exists sol0; auto|]. rewrite <- Ep in *. rewrite rd_all_ok.
    - cbn [obind]. eexists. split; [reflexivity|]. apply keeps_overwrite, K0.
    - intros i Hi. destruct Lp as [->|Y]; [apply kept_bound, Hi|rewrite Y in Ep; discriminate]. }
  destruct X as (sol1 & E1 & K1). rewrite E1. cbn [obind]. cbv zeta.
  destruct (attempts_ok full (tf_mul T t0) rounds 0 sol1 K1) as (sol & w & Ea & Ks & F & Tr). rewrite Ea. cbn [obind].
  destruct (write_back_ok sol full (proj1 Ks) Lf) as (r & Er & Lr & Rr & Nr). rewrite Er. cbn [obind].
  exists r, w. split; [reflexivity|]. split; [lia|]. split; [exact Nr|]. split.
  - intros Hw w0' w1 P0' P1. rewrite <- (pose_unique _ _ _ _ _ P0 P0') in *. destruct (F Hw) as (t & Et' & D).
    assert (A1 : agrees sol r).
    { intros a i Ha. destruct (rigid_parameters pt i) eqn:Ri.
      - apply rigid_parameters_spec in Ri. symmetry. apply (Rr a i Ha Ri).
      - assert (Ni : ~ is_rigid pt i) by (rewrite <- rigid_parameters_spec; congruence). rewrite (Nr i Ni). apply (proj2 Ks a i Ha Ni). }
    destruct (root_state_of sol r w1 (proj1 Ks) ltac:(lia) A1 P1) as (t1 & Et1 & Nt1). rewrite Et' in Et1. injection Et1 as <-.
    exists t0, t. auto.
  - intros Hw a i Ha Ri. rewrite (Rr a i Ha Ri). rewrite (Tr Hw ltac:(unfold rounds; lia) a i Ha Ri). f_equal.
Qed.
End Run.

(** ** All frames *)

Record frame_ok (sk : skeleton) (pt : ptransform) (m : nat) (T : tf) (rnd : nat -> nat -> R) (p r : list R) (w : bool) : Prop := {
  fo_len : List.length r = List.length p;
  fo_rest : forall i, ~ is_rigid pt i -> nth i r 0%R = nth i p 0%R;
  fo_rot : p <> [] -> w = false -> forall w0 w1, pose_of sk pt p w0 -> pose_of sk pt r w1 -> exists t0 t1, nth_error w0 m = Some t0 /\ nth_error w1 m = Some t1 /\
       (mat_dist (qmat (rot t1)) (qmat (rot (tf_mul T t0))) < 1 / 1000)%R;
  fo_rnd : w = true -> forall e, In e (pt_entries pt) -> is_rigid pt (ecol e) -> exists a, nth (ecol e) r 0%R = rnd (N.to_nat 10000) a
}.

Lemma transform_at_ok (ts : list tf) n f : List.length ts = 1 \/ n = List.length ts -> f < n ->
  exists t, transform_at ts f = Ok t /\ nth_error ts (if Nat.ltb f (List.length ts) then f else 0) = Some t.
Proof.
  intros H Hf. unfold transform_at. destruct (nth_error ts _) as [t|] eqn:E; [eauto|]. exfalso. apply nth_error_None in E.
  destruct (Nat.ltb_spec f (List.length ts)); lia.
Qed.

Lemma transform_poses_ok solve rnd sk pt frames ts cont m : poseable sk pt -> last_rigid_joint pt m -> solver_for pt solve ->
  List.length ts = 1 \/ List.length frames = List.length ts ->
  (forall p, In p frames -> p = [] \/ List.length p = pt_cols pt) ->
  exists res, transform_poses solve rnd sk pt frames ts cont = Ok res /\ List.length res = List.length frames /\
    forall f p r w, nth_error frames f = Some p -> nth_error res f = Some (r, w) ->
      exists T, nth_error ts (if Nat.ltb f (List.length ts) then f else 0) = Some T /\ frame_ok sk pt m T (rnd f) p r w.
Proof.
  intros W Lm Sv Lt Lp. unfold transform_poses.
  assert (C : (Nat.eqb (List.length ts) 1 || Nat.eqb (List.length frames) (List.length ts))%bool = true).
  { apply orb_true_iff. rewrite !Nat.eqb_eq. exact Lt. }
  rewrite C. cbn [negb]. destruct (tp_new sk pt m W Lm) as (keep & s & Es & G). rewrite Es. cbn [obind].
  assert (Sv' : forall f k t p, List.length (solve f k t p) = List.length p /\
    forall a i, nth_error (kept (pt_cols pt) keep) a = Some i -> ~ is_rigid pt i -> nth a (solve f k t p) 0%R = nth a p 0%R).
  { assert (X : solver_keeps (map (fun i => nth i (pt_name pt) EmptyString) (kept (pt_cols pt) keep)) solve).
    { apply (Sv m); [exact Lm|]. exists keep. split; [apply (tg_keep _ _ _ _ _ G)|reflexivity]. }
    intros f k t p. destruct (X f k t p) as [X1 X2]. split; [exact X1|]. intros a i Ea Ni.
    apply (X2 a (nth i (pt_name pt) EmptyString)); [rewrite nth_error_map, Ea; reflexivity|]. intros Y. apply Ni. exists (nth i (pt_name pt) EmptyString).
    split; [|exact Y]. apply nth_error_nth'. rewrite (wf_names _ (po_pt _ _ W)). apply nth_error_In, kept_in in Ea. apply Ea. }
  match goal with |- exists res, ofold ?F _ _ = _ /\ _ => set (f0 := F) end.
  destruct (ofold_seq_inv f0 (fun n res => List.length res = n /\ forall f p r w, nth_error frames f = Some p -> nth_error res f = Some (r, w) ->
      exists T, nth_error ts (if Nat.ltb f (List.length ts) then f else 0) = Some T /\ frame_ok sk pt m T (rnd f) p r w) (List.length frames) []) as (res & E & L & H).
  - split; [reflexivity|]. intros f p r w _ X. destruct f; discriminate X.
  - intros f res Hf (L & H). unfold f0. destruct (rd_ok frames f Hf) as (p & Ep & Np). rewrite Ep. cbn [obind].
    destruct (transform_at_ok ts (List.length frames) f Lt Hf) as (T & ET & NT).
    assert (Add : forall r w, frame_ok sk pt m T (rnd f) p r w -> List.length (res ++ [(r, w)]) = S f /\
       forall g p' r' w', nth_error frames g = Some p' -> nth_error (res ++ [(r, w)]) g = Some (r', w') ->
         exists T, nth_error ts (if Nat.ltb g (List.length ts) then g else 0) = Some T /\ frame_ok sk pt m T (rnd g) p' r' w').
    { intros r w Fo. split; [rewrite app_length; cbn; lia|]. intros g p' r' w' Eg Er. destruct (Nat.lt_ge_cases g f) as [Hg|Hg].
      - rewrite nth_error_app1 in Er by lia. apply (H g p' r' w' Eg Er).
      - assert (g = f) as ->. { assert (X : g < List.length (res ++ [(r, w)])) by (apply nth_error_Some; congruence). rewrite app_length in X. cbn in X. lia. }
        rewrite nth_error_app2 in Er by lia. rewrite L, Nat.sub_diag in Er. cbn in Er. injection Er as <- <-.
        assert (p' = p) as -> by congruence. exists T. auto. }
    destruct p as [|x pr] eqn:Epp.
    + eexists. split; [reflexivity|]. apply Add. constructor; [reflexivity|reflexivity|intros X; contradiction|discriminate].
    + rewrite <- Epp in *. assert (Lpp : List.length p = pt_cols pt). { destruct (Lp p) as [X|X]; [eapply nth_error_In; exact Np|rewrite X in Epp; discriminate|exact X]. }
      rewrite ET. cbn [obind].
      assert (Xp : exists prev, (if (0 <? f) && cont then obind (rd res (f - 1)) (fun r => Ok (fst r)) else Ok []) = Ok prev /\ (List.length prev = pt_cols pt \/ prev = [])).
      { destruct (Nat.ltb_spec 0 f) as [H0|H0]; cbn [andb]; [|exists []; auto]. destruct cont; [|exists []; auto].
        destruct (rd_ok res (f - 1)) as ([r1 w1] & E1 & N1); [lia|]. rewrite E1. cbn [obind fst]. exists r1. split; [reflexivity|].
        destruct (nth_error frames (f - 1)) as [p1|] eqn:Ep1; [|apply nth_error_None in Ep1; lia].
        destruct (H (f - 1) p1 r1 w1 Ep1 N1) as (T1 & _ & Fo). pose proof (fo_len _ _ _ _ _ _ _ _ Fo) as L1.
        destruct (Lp p1) as [->|X]; [eapply nth_error_In; exact Ep1| |left; lia]. right. destruct r1; [reflexivity|discriminate]. }
      destruct Xp as (prev & Epv & Lpv). rewrite Epv. cbn [obind].
      destruct (transform_pose_ok sk pt m keep s W G (solve f) (rnd f) (Sv' f) p T prev Lpp Lpv) as (r & w & Er & Lr & A & B & D).
      rewrite Er. cbn [obind]. eexists. split; [reflexivity|]. apply Add. constructor; [lia|exact A|intros _; exact B|].
      intros Hw e He Re. assert (Ke : keep (ecol e) = true).
      { apply (tg_keep _ _ _ _ _ G). exists e. split; [exact He|]. split; [reflexivity|]. apply (proj2 Lm). exists e. auto. }
      assert (Ie : In (ecol e) (kept (pt_cols pt) keep)). { apply kept_in. split; [apply (wf_entries _ (po_pt _ _ W) e He)|exact Ke]. }
      apply In_nth_error in Ie as [a Ea]. exists a. apply (D Hw a _ Ea Re).
  - exists res. auto.
Qed.
