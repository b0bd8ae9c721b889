From Coq Require Import Bool Reals List Arith Lia Lra Psatz.
From Coquelicot Require Import Coquelicot.
From Verif Require Import Prelude LinAlg Rbool R3 Transform_model FK_model FK_spec FK_deriv_proofs
  ParamTransform_model ParamTransform_proofs ParamTransform_map_proofs Limits_model Limits_spec Limits_proofs Loss_model Constraint_model
  ErrFn_model ErrFn_spec.
Import ListNotations.
Local Open Scope R_scope.

Definition mp_term (en : pset) (k : nat) (ps ts ws : list R) (j : nat) : R :=
  if en (k + j)%nat then (nth j ws 0 * (nth j ps 0 - nth j ts 0)) ^ 2 else 0.

Lemma mp_err_loop_ok en ps : forall k ts ws,
  length ts = length ps -> length ws = length ps -> (k + length ps <= kMaxModelParams)%nat ->
  mp_err_loop en k ps ts ws = Ok (sumn (length ps) (mp_term en k ps ts ws)).
Proof.
  induction ps as [|x ps IH]; intros k [|t ts] [|w ws] H1 H2 HM; try discriminate; [reflexivity|].
  cbn [mp_err_loop length] in *. rewrite ps_test_ok by lia. cbn [obind].
  rewrite IH by lia. cbn [obind]. f_equal. rewrite sumn_shift. unfold mp_term. rewrite Nat.add_0_r. cbn [nth].
  f_equal; [destruct (en k); ring|]. apply sumn_ext. intros j _. rewrite Nat.add_succ_comm. reflexivity.
Qed.

Lemma usable_true E p : mp_wf E (length p) -> mp_usable E p = true.
Proof. intros [H1 H2 _]. unfold mp_usable. rewrite H1, H2, !Nat.eqb_refl. reflexivity. Qed.

Lemma mp_error_lemma E p : mp_wf E (length p) -> mp_error E p = Ok (mp_objective E p).
Proof.
  intros W. unfold mp_error. rewrite (usable_true _ _ W). destruct W as [H1 H2 H3].
  rewrite mp_err_loop_ok by (first [assumption|lia]). cbn [obind]. f_equal. unfold mp_objective, kMotionWeight.
  change (sumn (length p) (mp_term (mp_enabled E) 0 p (mp_target E) (mp_weights E))) with
    (sumn (length p) (fun i => if mp_enabled E i then (nth i (mp_weights E) 0 * (nth i p 0 - nth i (mp_target E) 0)) ^ 2 else 0)).
  field.
Qed.

Definition mp_gterm (en : pset) (wt : R) (k : nat) (ps ts ws : list R) (j : nat) : R :=
  if en (k + j)%nat then 2 * nth j ws 0 * (nth j ws 0 * (nth j ps 0 - nth j ts 0)) * wt * kMotionWeight else 0.

Lemma add_at_ok g i v : (i < length g)%nat -> exists g', add_at g i v = Ok g' /\ length g' = length g /\
  forall k, nth k g' 0 = nth k g 0 + if Nat.eqb k i then v else 0.
Proof.
  intros H. unfold add_at. rewrite rd_nth by exact H. cbn [obind].
  destruct (wr_ok g i (nth i g 0 + v) 0 H) as [g1 [E1 [L1 N1]]]. exists g1. split; [exact E1|]. split; [exact L1|].
  intros k. rewrite N1. destruct (Nat.eqb_spec k i) as [E|]; [rewrite E|]; ring.
Qed.

Lemma mp_grad_loop_ok en wt ps : forall k ts ws g,
  length ts = length ps -> length ws = length ps -> (k + length ps <= kMaxModelParams)%nat ->
  (k + length ps <= length g)%nat ->
  exists g', mp_grad_loop en wt k ps ts ws g = Ok (sumn (length ps) (mp_term en k ps ts ws), g') /\
    length g' = length g /\
    forall i, nth i g' 0 = nth i g 0 +
      (if andb (Nat.leb k i) (Nat.ltb i (k + length ps)) then mp_gterm en wt k ps ts ws (i - k) else 0).
Proof.
  induction ps as [|x ps IH]; intros k [|t ts] [|w ws] g H1 H2 HM HG; try discriminate.
  - exists g. cbn [mp_grad_loop length]. split; [reflexivity|]. split; [reflexivity|]. intros i.
    destruct (Nat.leb_spec k i), (Nat.ltb_spec i (k + 0)); cbn [andb]; try lia; ring.
  - cbn [mp_grad_loop length] in *. rewrite ps_test_ok by lia. cbn [obind].
    assert (X : exists g1, (if en k then add_at g k (2 * w * (w * (x - t)) * wt * kMotionWeight) else Ok g) = Ok g1 /\
       length g1 = length g /\ forall i, nth i g1 0 = nth i g 0 +
         if Nat.eqb i k then (if en k then 2 * w * (w * (x - t)) * wt * kMotionWeight else 0) else 0).
    { destruct (en k); [apply add_at_ok; lia|]. exists g. repeat split. intros i. destruct (Nat.eqb i k); ring. }
    destruct X as [g1 [E1 [L1 N1]]]. rewrite E1. cbn [obind].
    destruct (IH (S k) ts ws g1) as [g2 [E2 [L2 N2]]]; try lia. rewrite E2. cbn [obind fst snd].
    exists g2. split; [|split; [congruence|]].
    + f_equal. f_equal. rewrite sumn_shift. unfold mp_term. rewrite Nat.add_0_r. cbn [nth].
      f_equal; [destruct (en k); ring|]. apply sumn_ext. intros j _. rewrite Nat.add_succ_comm. reflexivity.
    + intros i. rewrite N2, N1. unfold mp_gterm.
      destruct (Nat.eqb_spec i k) as [->|Ne].
      * destruct (Nat.leb_spec (S k) k); [lia|]. destruct (Nat.leb_spec k k); [|lia].
        destruct (Nat.ltb_spec k (k + S (length ps))); [|lia]. cbn [andb].
        rewrite Nat.sub_diag, Nat.add_0_r. cbn [nth]. destruct (en k); ring.
      * destruct (Nat.leb_spec k i), (Nat.leb_spec (S k) i); try lia; cbn [andb]; try ring.
        replace (k + S (length ps))%nat with (S k + length ps)%nat by lia.
        destruct (Nat.ltb i (S k + length ps)); [|ring].
        replace (i - k)%nat with (S (i - S k)) by lia. cbn [nth]. rewrite Nat.add_succ_comm. ring.
Qed.

(** The derivative. *)
Definition mp_d (E : mp_fn) (p : list R) (i : nat) : R :=
  if mp_enabled E i then 2 * nth i (mp_weights E) 0 * (nth i (mp_weights E) 0 * (nth i p 0 - nth i (mp_target E) 0)) *
                         mp_weight E * kMotionWeight else 0.

Lemma d_sumn (n : nat) (F : nat -> R -> R) (D : nat -> R) (t : R) :
  (forall j, (j < n)%nat -> is_derive (F j) t (D j)) -> is_derive (fun u => sumn n (fun j => F j u)) t (sumn n D).
Proof.
  intros H. unfold sumn. apply (d_rsum F D t (seq 0 n)). intros j Hj. apply in_seq in Hj. apply H. lia.
Qed.

Lemma set_nth_derive p i k : (i < length p)%nat ->
  is_derive (fun t => nth k (set_nth p i t) 0) (nth i p 0) (if Nat.eqb k i then 1 else 0).
Proof.
  intros Hi. destruct (Nat.eqb_spec k i) as [->|Ne].
  - apply (d_ext (fun t => t)); [|apply @is_derive_id].
    intros t. rewrite set_nth_nth by exact Hi. rewrite Nat.eqb_refl. reflexivity.
  - apply (d_ext (fun _ => nth k p 0)); [|apply d_const].
    intros t. rewrite set_nth_nth by exact Hi. apply Nat.eqb_neq in Ne. rewrite Ne. reflexivity.
Qed.

Lemma mp_derive E p i : (i < length p)%nat ->
  is_derive (fun t => mp_objective E (set_nth p i t)) (nth i p 0) (mp_d E p i).
Proof.
  intros Hi. unfold mp_objective. eapply d_ext; [intros t; rewrite set_nth_length; reflexivity|].
  eapply d_eq.
  { apply d_scal, (d_sumn (length p) (fun j t => if mp_enabled E j
        then (nth j (mp_weights E) 0 * (nth j (set_nth p i t) 0 - nth j (mp_target E) 0)) ^ 2 else 0)
      (fun j => if Nat.eqb j i then 10 / 1 * kMotionWeight * (if mp_enabled E i then
          2 * nth i (mp_weights E) 0 * (nth i (mp_weights E) 0 * (nth i p 0 - nth i (mp_target E) 0)) else 0) else 0)).
    intros j _. destruct (mp_enabled E j) eqn:EN.
    - eapply d_eq.
      + apply (d_ext (fun t => (nth j (mp_weights E) 0 * (nth j (set_nth p i t) 0 - nth j (mp_target E) 0)) *
            (nth j (mp_weights E) 0 * (nth j (set_nth p i t) 0 - nth j (mp_target E) 0)))); [intros; ring|].
        assert (B : is_derive (fun t => nth j (mp_weights E) 0 * (nth j (set_nth p i t) 0 - nth j (mp_target E) 0)) (nth i p 0)
          (nth j (mp_weights E) 0 * ((if Nat.eqb j i then 1 else 0) - 0))).
        { apply d_scal, d_minus; [apply set_nth_derive; exact Hi|apply d_const]. }
        apply (d_mult _ _ _ _ _ B B).
      + cbv beta. rewrite set_nth_nth by exact Hi. unfold kMotionWeight.
        destruct (Nat.eqb_spec j i) as [->|Ne]; [rewrite EN|]; [field|ring].
    - destruct (Nat.eqb_spec j i) as [->|Ne]; [rewrite EN|]; (eapply d_eq; [apply d_const|ring]). }
  rewrite (sumn_single _ i) by (first [exact Hi|intros j _ Hj; apply Nat.eqb_neq in Hj; rewrite Hj; reflexivity]).
  rewrite Nat.eqb_refl. unfold mp_d, kMotionWeight. destruct (mp_enabled E i); field.
Qed.

Lemma mp_gradient_ok E p g : mp_wf E (length p) -> length g = length p ->
  exists g', mp_gradient E p g = Ok (mp_objective E p, g') /\ length g' = length g /\
    forall i, nth i g' 0 = nth i g 0 + if Nat.ltb i (length p) then mp_d E p i else 0.
Proof.
  intros W HG. unfold mp_gradient. rewrite (usable_true _ _ W).
  pose proof (mp_error_lemma E p W) as ER. unfold mp_error in ER. rewrite (usable_true _ _ W) in ER.
  destruct W as [H1 H2 H3]. rewrite mp_err_loop_ok in ER by (first [assumption|lia]). cbn [obind] in ER. injection ER as ER.
  destruct (mp_grad_loop_ok (mp_enabled E) (mp_weight E) p 0 (mp_target E) (mp_weights E) g) as [g' [E1 [L1 N1]]]; try lia.
  rewrite E1. cbn [obind fst snd]. rewrite ER. exists g'. split; [reflexivity|]. split; [exact L1|].
  intros i. rewrite N1. unfold mp_gterm, mp_d. cbn [Nat.leb andb Nat.add]. rewrite Nat.sub_0_r. reflexivity.
Qed.

Lemma mp_gradient_lemma E p g i : mp_wf E (length p) -> length g = length p -> (i < length p)%nat ->
  exists g', mp_gradient E p g = Ok (mp_objective E p, g') /\ length g' = length g /\
    is_derive (fun t => mp_objective E (set_nth p i t)) (nth i p 0) (nth i g' 0 - nth i g 0) /\
    (mp_enabled E i = false -> nth i g' 0 = nth i g 0).
Proof.
  intros W HG Hi. destruct (mp_gradient_ok E p g W HG) as [g' [E1 [L1 N1]]].
  exists g'. split; [exact E1|]. split; [exact L1|]. rewrite N1. apply Nat.ltb_lt in Hi as Hb. rewrite Hb. split.
  - eapply d_eq; [apply mp_derive, Hi|]. ring.
  - intros H. unfold mp_d. rewrite H. ring.
Qed.

(** ** The Jacobian *)

Lemma unit_row_ok n i v : (i < n)%nat -> exists row, unit_row n i v = Ok row /\ length row = n /\
  forall k, nth k row 0 = if Nat.eqb k i then v else 0.
Proof.
  intros H. unfold unit_row. destruct (wr_ok (repeat 0 n) i v 0) as [r [E [L N]]]; [rewrite repeat_length; exact H|].
  exists r. rewrite repeat_length in L. split; [exact E|]. split; [exact L|].
  intros k. rewrite N, zrow_nth. reflexivity.
Qed.

Definition used_idx (en : pset) (k : nat) (ws : list R) : list nat :=
  filter (fun j => andb (en (k + j)%nat) (Rltb 0 (nth j ws 0))) (seq 0 (length ws)).

Fixpoint cnt (en : pset) (k : nat) (ws : list R) : nat :=
  match ws with
  | [] => 0
  | w :: r => ((if andb (en k) (Rltb 0 w) then 1 else 0) + cnt en (S k) r)%nat
  end.
Lemma cnt_le en k ws : (cnt en k ws <= length (filter (fun w => Rltb 0 w) ws))%nat.
Proof.
  revert k. induction ws as [|w ws IH]; intros k; cbn [cnt filter]; [cbn; lia|].
  specialize (IH (S k)). destruct (en k), (Rltb 0 w); cbn [andb length]; lia.
Qed.
Lemma cnt_filter en k ws : cnt en k ws = length (used_idx en k ws).
Proof.
  unfold used_idx. revert k. induction ws as [|w ws IH]; intros k; [reflexivity|].
  cbn [cnt length seq filter nth]. rewrite Nat.add_0_r. rewrite IH, <- seq_shift.
  assert (X : forall (P : nat -> bool) l, length (filter P (map S l)) = length (filter (fun j => P (S j)) l)).
  { intros P l. induction l as [|a l IHl]; [reflexivity|]. cbn [map filter]. destruct (P (S a)); cbn [length]; congruence. }
  assert (Y : filter (fun j => andb (en (S k + j)%nat) (Rltb 0 (nth j ws 0))) (seq 0 (length ws)) =
              filter (fun j => andb (en (k + S j)%nat) (Rltb 0 (nth (S j) (w :: ws) 0))) (seq 0 (length ws))).
  { apply filter_ext. intros j. rewrite Nat.add_succ_comm. reflexivity. }
  destruct (andb (en k) (Rltb 0 w)); cbn [length]; rewrite X, Y; reflexivity.
Qed.

Lemma mp_jac_loop_ok en sw n ps : forall rows out k ts ws,
  length ts = length ps -> length ws = length ps -> (k + length ps <= kMaxModelParams)%nat ->
  (k + length ps <= n)%nat -> (out + cnt en k ws <= rows)%nat ->
  (forall j, (j < length ws)%nat -> 0 <= nth j ws 0) ->
  exists rs, mp_jac_loop en sw n rows out k ps ts ws = Ok (sumn (length ps) (mp_term en k ps ts ws), rs) /\
    length rs = cnt en k ws /\ (forall row, In row rs -> length (fst row) = n) /\
    (forall i, jt_r rs i = if andb (Nat.leb k i) (Nat.ltb i (k + length ps))
       then (if en i then sw * sw * nth (i - k) ws 0 * (nth (i - k) ws 0 * (nth (i - k) ps 0 - nth (i - k) ts 0)) else 0)
       else 0) /\
    rsum (map (fun row => snd row * snd row) rs) = sw * sw * sumn (length ps) (mp_term en k ps ts ws).
Proof.
  induction ps as [|x ps IH]; intros rows out k [|t ts] [|w ws] H1 H2 HM HN HO HW; try discriminate.
  - exists []. split; [reflexivity|]. split; [reflexivity|]. split; [intros row []|]. split.
    + intros i. cbn [length]. destruct (Nat.leb_spec k i), (Nat.ltb_spec i (k + 0)); cbn [andb]; try lia; reflexivity.
    + cbn. unfold sumn; cbn. ring.
  - cbn [mp_jac_loop length cnt] in *. rewrite ps_test_ok by lia. cbn [obind].
    assert (HW' : forall j, (j < length ws)%nat -> 0 <= nth j ws 0) by (intros j Hj; apply (HW (S j)); lia).
    assert (Hw : 0 <= w) by (apply (HW 0%nat); lia).
    assert (ST : sumn (S (length ps)) (mp_term en k (x :: ps) (t :: ts) (w :: ws)) =
       (if en k then (w * (x - t)) ^ 2 else 0) + sumn (length ps) (mp_term en (S k) ps ts ws)).
    { rewrite sumn_shift. unfold mp_term. rewrite Nat.add_0_r. cbn [nth]. f_equal.
      apply sumn_ext. intros j _. rewrite Nat.add_succ_comm. reflexivity. }
    destruct (en k && Rltb 0 w)%bool eqn:B.
    + apply andb_true_iff in B as [Bk Bw]. 
      assert (LT : Nat.ltb out rows = true) by (apply Nat.ltb_lt; lia). rewrite LT.
      destruct (unit_row_ok n k (sw * w)) as [row [ER [LR NR]]]; [lia|]. rewrite ER. cbn [obind].
      destruct (IH rows (S out) (S k) ts ws) as [rs [E2 [L2 [W2 [J2 Q2]]]]]; try lia; try exact HW'.
      rewrite E2. cbn [obind fst snd]. eexists. split; [rewrite ST, Bk; f_equal; f_equal; ring|].
      split; [cbn; lia|]. split; [intros r [<-|Hr]; [exact LR|apply W2, Hr]|]. split.
      * intros i. unfold jt_r in *. cbn [map rsum fst snd]. rewrite J2, NR.
        destruct (Nat.eqb_spec i k) as [->|Ne].
        -- destruct (Nat.leb_spec (S k) k); [lia|]. destruct (Nat.leb_spec k k); [|lia].
           destruct (Nat.ltb_spec k (k + S (length ps))); [|lia]. cbn [andb]. rewrite Bk, Nat.sub_diag. cbn [nth]. ring.
        -- destruct (Nat.leb_spec k i), (Nat.leb_spec (S k) i); try lia; cbn [andb]; try ring.
           replace (k + S (length ps))%nat with (S k + length ps)%nat by lia.
           destruct (Nat.ltb i (S k + length ps)); [|ring].
           replace (i - k)%nat with (S (i - S k)) by lia. cbn [nth]. ring.
      * cbn [map rsum snd]. rewrite Q2, ST, Bk. ring.
    + destruct (IH rows out (S k) ts ws) as [rs [E2 [L2 [W2 [J2 Q2]]]]]; try lia; try exact HW'.
      rewrite E2. assert (Z : (if en k then (w * (x - t)) ^ 2 else 0) = 0).
      { destruct (en k); [|reflexivity]. cbn [andb] in B. destruct (Rltb_spec 0 w) as [C|C]; [discriminate|].
        replace w with 0 by lra. ring. }
      exists rs. split; [rewrite ST, Z; f_equal; f_equal; ring|]. split; [cbn; lia|]. split; [exact W2|]. split.
      * intros i. rewrite J2. destruct (Nat.leb_spec k i), (Nat.leb_spec (S k) i); try lia; cbn [andb]; try reflexivity.
        -- replace (k + S (length ps))%nat with (S k + length ps)%nat by lia.
           destruct (Nat.ltb i (S k + length ps)); [|reflexivity].
           replace (i - k)%nat with (S (i - S k)) by lia. cbn [nth]. reflexivity.
        -- assert (i = k) by lia. subst i. destruct (Nat.ltb_spec k (k + S (length ps))); [|lia].
           rewrite Nat.sub_diag. cbn [nth]. destruct (en k); [|reflexivity].
           cbn [andb] in B. destruct (Rltb_spec 0 w) as [C|C]; [discriminate|]. replace w with 0 by lra. ring.
      * rewrite Q2, ST, Z. ring.
Qed.

Lemma mp_jacobian_ok E p : mp_wf E (length p) -> 0 <= mp_weight E ->
  (forall j, (j < length p)%nat -> 0 <= nth j (mp_weights E) 0) ->
  exists rows, mp_jacobian E (length p) p = Ok (mp_objective E p, rows, length rows) /\
    length rows = cnt (mp_enabled E) 0 (mp_weights E) /\
    (forall row, In row rows -> length (fst row) = length p) /\
    (forall i, (i < length p)%nat -> 2 * jt_r rows i = mp_d E p i) /\
    rsum (map (fun row => snd row * snd row) rows) = mp_objective E p.
Proof.
  intros W Hw HW. unfold mp_jacobian. rewrite (usable_true _ _ W).
  pose proof (mp_error_lemma E p W) as ER. unfold mp_error in ER. rewrite (usable_true _ _ W) in ER.
  destruct W as [H1 H2 H3]. rewrite mp_err_loop_ok in ER by (first [assumption|lia]). cbn [obind] in ER. injection ER as ER.
  set (sw := sqrt (mp_weight E * kMotionWeight)).
  assert (SW : sw * sw = mp_weight E * kMotionWeight).
  { apply sqrt_sqrt. unfold kMotionWeight. apply Rmult_le_pos; lra. }
  destruct (mp_jac_loop_ok (mp_enabled E) sw (length p) p (mp_jacobian_size E) 0 0 (mp_target E) (mp_weights E))
    as [rs [E1 [L1 [W1 [J1 Q1]]]]]; try lia.
  { apply cnt_le. }
  { rewrite H2. exact HW. }
  rewrite E1. cbn [obind fst snd]. rewrite ER. exists rs. split; [reflexivity|]. split; [exact L1|]. split; [exact W1|].
  split.
  - intros i Hi. rewrite J1. cbn [Nat.leb andb Nat.add]. apply Nat.ltb_lt in Hi. rewrite Hi, Nat.sub_0_r.
    unfold mp_d. destruct (mp_enabled E i); [|ring]. rewrite SW. ring.
  - rewrite Q1, SW, <- ER. ring.
Qed.

Lemma mp_jacobian_lemma E p i : mp_wf E (length p) -> 0 <= mp_weight E ->
  (forall j, (j < length p)%nat -> 0 <= nth j (mp_weights E) 0) -> (i < length p)%nat ->
  exists rows, mp_jacobian E (length p) p = Ok (mp_objective E p, rows, length rows) /\
    length rows = length (filter (fun j => andb (mp_enabled E j) (Rltb 0 (nth j (mp_weights E) 0))) (seq 0 (length p))) /\
    (length rows <= mp_jacobian_size E)%nat /\
    (forall row, In row rows -> length (fst row) = length p) /\
    is_derive (fun t => mp_objective E (set_nth p i t)) (nth i p 0) (2 * jt_r rows i) /\
    rsum (map (fun row => snd row * snd row) rows) = mp_objective E p.
Proof.
  intros W Hw HW Hi. destruct (mp_jacobian_ok E p W Hw HW) as [rows [E1 [L1 [W1 [J1 Q1]]]]].
  exists rows. split; [exact E1|]. split; [rewrite L1, cnt_filter; unfold used_idx; rewrite (mpw_weights _ _ W); reflexivity|].
  split; [rewrite L1; apply cnt_le|]. split; [exact W1|]. split; [|exact Q1].
  eapply d_eq; [apply mp_derive, Hi|]. symmetry. apply J1, Hi.
Qed.
