(** Proofs about the limit error function. *)

From Coq Require Import Bool Reals List Arith ZArith String Lia Lra Psatz.
From Coquelicot Require Import Coquelicot.
From Verif Require Import Prelude LinAlg Rbool ParamTransform_model ParamTransform_spec ParamTransform_proofs
  ParamTransform_map_proofs Limits_model Limits_spec FK_spec FK_deriv_proofs.
Import ListNotations.
Local Open Scope R_scope.

(** ** Squared excess *)

Lemma excess2_nonneg x : 0 <= excess2 x.
Proof. unfold excess2. nra. Qed.
Lemma excess2_zero x : excess2 x = 0 <-> x <= 0.
Proof.
  unfold excess2. unfold Rmax. destruct (Rle_dec 0 x) as [H|H]; split; intros; nra.
Qed.
Lemma excess2_pos x : 0 <= x -> excess2 x = x * x.
Proof. intros H. unfold excess2. rewrite Rmax_right by exact H. reflexivity. Qed.
Lemma excess2_neg x : x <= 0 -> excess2 x = 0.
Proof. apply excess2_zero. Qed.

Lemma d_excess2_raw (x : R) : is_derive excess2 x (2 * Rmax 0 x).
Proof.
  destruct (Rtotal_order x 0) as [H|[H|H]].
  - rewrite Rmax_left by lra. apply (is_derive_ext_loc (fun _ => 0)).
    + exists (mkposreal (- x) ltac:(lra)). intros y Hy. cbn in Hy.
      unfold ball in Hy. cbn in Hy. unfold AbsRing_ball, abs, minus, plus, opp in Hy. cbn in Hy.
      symmetry. apply excess2_neg. destruct (Rcase_abs (y + - x)) as [C|C].
      * lra.
      * rewrite Rabs_right in Hy by lra. lra.
    + replace (2 * 0) with 0 by ring. apply d_const.
  - subst x. rewrite Rmax_left by lra. replace (2 * 0) with 0 by ring.
    apply is_derive_Reals. intros eps Heps. exists (mkposreal eps Heps). intros h Hh Hd. cbn in Hd.
    rewrite Rplus_0_l, (excess2_neg 0), !Rminus_0_r by lra.
    unfold excess2. unfold Rmax. destruct (Rle_dec 0 h) as [L|L].
    + replace (h * h / h) with h by (field; exact Hh). exact Hd.
    + replace (0 * 0 / h) with 0 by (field; exact Hh). rewrite Rabs_R0. exact Heps.
  - rewrite Rmax_right by lra. apply (is_derive_ext_loc (fun y => y * y)).
    + exists (mkposreal x H). intros y Hy.
      unfold ball in Hy. cbn in Hy. unfold AbsRing_ball, abs, minus, plus, opp in Hy. cbn in Hy.
      symmetry. apply excess2_pos. destruct (Rcase_abs (y + - x)) as [C|C].
      * rewrite Rabs_left in Hy by lra. lra.
      * lra.
    + eapply d_eq; [apply (d_mult (fun y => y) (fun y => y)); apply @is_derive_id|]. cbn. ring.
Qed.
Lemma d_excess2 (f : R -> R) (t f' : R) : is_derive f t f' -> is_derive (fun u => excess2 (f u)) t (f' * (2 * Rmax 0 (f t))).
Proof. intros H. apply (d_comp excess2 f); [apply d_excess2_raw|exact H]. Qed.

(** ** Reads *)

Lemma rd_nth (l : list R) i : (i < List.length l)%nat -> rd l i = Ok (nth i l 0).
Proof. intros H. apply rd_eq. apply nth_error_nth'. exact H. Qed.
Lemma rd_nthb (l : list bool) i : (i < List.length l)%nat -> rd l i = Ok (nth i l false).
Proof. intros H. apply rd_eq. apply nth_error_nth'. exact H. Qed.
Lemma ps_test_ok s i : (i < kMaxModelParams)%nat -> ps_test s i = Ok (s i).
Proof. intros H. unfold ps_test. apply Nat.ltb_lt in H. rewrite H. reflexivity. Qed.

Lemma lo_hi_excess lo hi x w :
  (if Rltb x lo then (lo - x) * (lo - x) * w else 0) + (if Rltb hi x then (hi - x) * (hi - x) * w else 0)
  = w * (excess2 (lo - x) + excess2 (x - hi)).
Proof.
  destruct (Rltb_spec x lo), (Rltb_spec hi x);
    rewrite ?(excess2_pos (lo - x)), ?(excess2_pos (x - hi)), ?(excess2_neg (lo - x)), ?(excess2_neg (x - hi)) by lra; ring.
Qed.

Ltac kmax := match goal with H : (lf_n _ <= kMaxModelParams)%nat |- (_ < kMaxModelParams)%nat => revert H end;
  generalize kMaxModelParams; intros; lia.

Lemma err1_spec E m p jp l :
  limit_fn_wf E m -> List.length p = lf_n E -> List.length jp = m -> limit_valid (lf_n E) m (ldata l) ->
  lim_err1 E p jp l = Ok (lweight l * violation2 (lf_enabled E) (lf_active E) p jp (ldata l)).
Proof.
  intros W Lp Ljp V. pose proof (lw_max E m W) as MX. unfold lim_err1.
  destruct (ldata l) as [i lo hi|jt k lo hi|jt k lo hi|rf tg sc off r1 r2|ep pa|p1 p2 n1 n2 off]; cbn [limit_valid violation2] in *.
  - rewrite Lp. destruct (Nat.leb_spec i (lf_n E)); [|lia]. cbn [check obind].
    rewrite ps_test_ok by kmax. cbn [obind]. destruct (lf_enabled E i).
    + rewrite rd_nth by lia. cbn [obind]. rewrite lo_hi_excess. reflexivity.
    + f_equal. ring.
  - rewrite Ljp. destruct (Nat.ltb_spec (jt * 7 + k) m); [|lia]. cbn [check obind].
    rewrite rd_nthb by (rewrite (lw_active E m W); exact V). cbn [obind].
    destruct (nth (jt * 7 + k) (lf_active E) false).
    + rewrite rd_nth by lia. cbn [obind]. rewrite lo_hi_excess. reflexivity.
    + f_equal. ring.
  - f_equal. ring.
  - rewrite Lp. destruct V as [V1 V2].
    destruct (Nat.ltb_spec rf (lf_n E)); [|lia]. destruct (Nat.ltb_spec tg (lf_n E)); [|lia]. cbn [check obind].
    rewrite !ps_test_ok by kmax. cbn [obind]. rewrite !rd_nth by lia. cbn [obind].
    destruct ((lf_enabled E tg || lf_enabled E rf) && is_in_range r1 r2 (nth tg p 0))%bool; f_equal; ring.
  - contradiction.
  - rewrite Lp. destruct V as [V1 V2].
    destruct (Nat.ltb_spec p1 (lf_n E)); [|lia]. destruct (Nat.ltb_spec p2 (lf_n E)); [|lia]. cbn [check obind].
    rewrite !ps_test_ok by kmax. cbn [obind]. rewrite !rd_nth by lia. cbn [obind].
    destruct (lf_enabled E p1 || lf_enabled E p2)%bool; [|f_equal; ring].
    f_equal. set (s := nth p1 p 0 * n1 + nth p2 p 0 * n2).
    destruct (Rltb_spec (s - off) 0); [rewrite excess2_pos by lra; ring|rewrite excess2_neg by lra; ring].
Qed.

Lemma err_sum_spec E m p jp ls :
  limit_fn_wf E m -> List.length p = lf_n E -> List.length jp = m ->
  (forall l, In l ls -> limit_valid (lf_n E) m (ldata l)) ->
  lim_err_sum E p jp ls =
    Ok (rsum (map (fun l => lweight l * violation2 (lf_enabled E) (lf_active E) p jp (ldata l)) ls)).
Proof.
  intros W Lp Ljp. induction ls as [|l r IH]; intros V; [reflexivity|].
  cbn [lim_err_sum map rsum]. rewrite (err1_spec E m) by (auto; apply V; left; reflexivity). cbn [obind].
  rewrite IH by (intros; apply V; right; assumption). reflexivity.
Qed.

Lemma error_spec_lemma E m p jp :
  limit_fn_wf E m -> List.length p = lf_n E -> List.length jp = m ->
  lim_error E p jp = Ok (limit_penalty E p jp).
Proof.
  intros W Lp Ljp. unfold lim_error. rewrite (err_sum_spec E m) by (auto; apply (lw_limits E m W)).
  cbn [obind]. f_equal. unfold limit_penalty, kLimitWeight. ring.
Qed.

(** ** Zero exactly inside *)

Lemma is_in_range_true r1 r2 v : is_in_range r1 r2 v = true <-> in_range_prop r1 r2 v.
Proof.
  unfold is_in_range, in_range_prop.
  destruct (Reqb_spec r1 0), (Reqb_spec r2 0); cbn [andb]; rewrite ?andb_true_iff, ?Rleb_true, ?Rltb_true; intuition lra.
Qed.

Lemma violation2_nonneg en ac p jp d : 0 <= violation2 en ac p jp d.
Proof.
  destruct d; cbn [violation2]; try lra;
    repeat match goal with |- context [if ?b then _ else _] => destruct b end; try lra.
  - pose proof (excess2_nonneg (lo - nth param p 0)). pose proof (excess2_nonneg (nth param p 0 - hi)). lra.
  - pose proof (excess2_nonneg (lo - nth (jt * 7 + jparam) jp 0)). pose proof (excess2_nonneg (nth (jt * 7 + jparam) jp 0 - hi)). lra.
  - apply pow2_ge_0.
  - apply excess2_nonneg.
Qed.

Lemma excess2_sum a b : excess2 a + excess2 b = 0 <-> a <= 0 /\ b <= 0.
Proof.
  pose proof (excess2_nonneg a). pose proof (excess2_nonneg b). rewrite <- !excess2_zero. split; [lra|]. intros [-> ->]. ring.
Qed.

Lemma violation2_zero E m p jp d : limit_valid (lf_n E) m d ->
  (violation2 (lf_enabled E) (lf_active E) p jp d = 0 <-> inside E p jp d).
Proof.
  intros V. destruct d; cbn [violation2 inside limit_valid] in *; try tauto.
  - destruct (lf_enabled E param); [rewrite excess2_sum|]; intuition (try lra; try discriminate).
  - destruct (nth (jt * 7 + jparam) (lf_active E) false); [rewrite excess2_sum|]; intuition (try lra; try discriminate).
  - destruct (is_in_range rangeMin rangeMax (nth tgt p 0)) eqn:IR.
    + rewrite andb_true_r. apply is_in_range_true in IR.
      destruct (lf_enabled E tgt || lf_enabled E ref)%bool eqn:EN.
      * apply orb_true_iff in EN. split.
        -- intros H _ _. assert (nth tgt p 0 * scale - offset - nth ref p 0 = 0) by nra. lra.
        -- intros H. specialize (H EN IR). rewrite H. ring.
      * apply orb_false_iff in EN as [E1 E2]. rewrite E1, E2. split; [intros _ [D|D]; discriminate|reflexivity].
    + rewrite andb_false_r. split; [|reflexivity]. intros _ _ C. apply is_in_range_true in C. congruence.
  - destruct (lf_enabled E p1 || lf_enabled E p2)%bool eqn:EN.
    + apply orb_true_iff in EN. rewrite excess2_zero. split; [intros H _; lra|intros H; specialize (H EN); lra].
    + apply orb_false_iff in EN as [E1 E2]. rewrite E1, E2. split; [intros _ [D|D]; discriminate|reflexivity].
Qed.

Lemma error_zero_lemma E m p jp :
  limit_fn_wf E m -> List.length p = lf_n E -> List.length jp = m -> 0 < lf_weight E ->
  (forall l, In l (lf_limits E) -> 0 < lweight l) ->
  exists e, lim_error E p jp = Ok e /\ 0 <= e /\
    (e = 0 <-> forall l, In l (lf_limits E) -> inside E p jp (ldata l)).
Proof.
  intros W Lp Ljp HW HL. exists (limit_penalty E p jp). split; [apply (error_spec_lemma E m); assumption|].
  assert (N : forall l, In l (lf_limits E) ->
    0 <= lweight l * violation2 (lf_enabled E) (lf_active E) p jp (ldata l)).
  { intros l Hl. pose proof (violation2_nonneg (lf_enabled E) (lf_active E) p jp (ldata l)). specialize (HL l Hl). nra. }
  pose proof (rsum_nonneg _ _ N) as P. unfold limit_penalty. split; [nra|].
  pose proof (rsum_zero_iff _ _ N) as Z. split.
  - intros H l Hl. apply (violation2_zero E m); [apply (lw_limits E m W l Hl)|].
    assert (S0 : rsum (map (fun l => lweight l * violation2 (lf_enabled E) (lf_active E) p jp (ldata l)) (lf_limits E)) = 0) by nra.
    pose proof (proj1 Z S0 l Hl) as Q. specialize (HL l Hl). nra.
  - intros H. replace (rsum _) with 0; [ring|]. symmetry. apply Z. intros l Hl.
    rewrite (proj2 (violation2_zero E m p jp (ldata l) (lw_limits E m W l Hl)) (H l Hl)). ring.
Qed.

(** ** Gradient increments *)

Definition dsum (incs : list (nat * R)) (i : nat) : R :=
  rsum (map (fun kv => if Nat.eqb (fst kv) i then snd kv else 0) incs).

Lemma dsum_app a b i : dsum (a ++ b) i = dsum a i + dsum b i.
Proof. unfold dsum. rewrite map_app. apply rsum_app. Qed.

Lemma add_all_ok incs : forall g, (forall k v, In (k, v) incs -> (k < List.length g)%nat) ->
  exists g', add_all g incs = Ok g' /\ List.length g' = List.length g /\
    forall i, nth i g' 0 = nth i g 0 + (if Nat.ltb i (List.length g) then dsum incs i else 0).
Proof.
  induction incs as [|[k v] r IH]; intros g H.
  - exists g. split; [reflexivity|]. split; [reflexivity|]. intros i. unfold dsum. cbn [map rsum]. destruct (Nat.ltb i (List.length g)); ring.
  - cbn [add_all]. unfold add_at.
    assert (Hk : (k < List.length g)%nat) by (apply (H k v); left; reflexivity).
    rewrite rd_nth by exact Hk. cbn [obind].
    destruct (wr_ok g k (nth k g 0 + v) 0 Hk) as [g1 [E1 [L1 N1]]]. rewrite E1. cbn [obind].
    destruct (IH g1) as [g2 [E2 [L2 N2]]]; [intros; rewrite L1; eapply H; right; eassumption|].
    exists g2. split; [exact E2|]. split; [congruence|]. intros i. rewrite N2, N1, L1.
    unfold dsum. cbn [map rsum fst snd]. destruct (Nat.ltb_spec i (List.length g)).
    + rewrite (Nat.eqb_sym k i). destruct (Nat.eqb_spec i k) as [Eq|Ne]; [rewrite Eq|]; ring.
    + destruct (Nat.eqb_spec i k) as [Eq|Ne]; [lia|ring].
Qed.

Lemma row_incs_in es r c k v : In (k, v) (row_incs es r c) -> exists e, In e es /\ ecol e = k.
Proof.
  unfold row_incs. intros H. apply in_map_iff in H as [e [H1 H2]]. injection H1 as <- _.
  apply filter_In in H2 as [H2 _]. eauto.
Qed.

(** Coefficient of column i in row r. *)
Definition ent_coeff (es : list entry) (r i : nat) : R :=
  rsum (map (fun e => if andb (Nat.eqb (erow e) r) (Nat.eqb (ecol e) i) then eval e else 0) es).

Lemma dsum_row_incs es r c i : dsum (row_incs es r c) i = c * ent_coeff es r i.
Proof.
  unfold dsum, row_incs, ent_coeff. rewrite map_map. cbn [fst snd].
  rewrite (rsum_filter (fun e => Nat.eqb (erow e) r)), <- rsum_map_scal. apply rsum_map_ext.
  intros e _. destruct (Nat.eqb (erow e) r), (Nat.eqb (ecol e) i); cbn [andb]; ring.
Qed.

(** The true partial derivative of the squared violation. *)
Definition violation2_partial (en : pset) (ac : list bool) (es : list entry) (p jp : list R) (i : nat) (d : limit_data) : R :=
  match d with
  | LMinMax k lo hi =>
      if en k then (if Nat.eqb k i then 2 * Rmax 0 (nth k p 0 - hi) - 2 * Rmax 0 (lo - nth k p 0) else 0) else 0
  | LMinMaxJoint jt k lo hi =>
      let x := nth (jt * 7 + k) jp 0 in
      if nth (jt * 7 + k) ac false
      then ent_coeff es (jt * 7 + k) i * (2 * Rmax 0 (x - hi) - 2 * Rmax 0 (lo - x)) else 0
  | LLinear rf tg sc off r1 r2 =>
      if andb (orb (en tg) (en rf)) (is_in_range r1 r2 (nth tg p 0))
      then 2 * (nth tg p 0 * sc - off - nth rf p 0) *
           ((if Nat.eqb tg i then sc else 0) - (if Nat.eqb rf i then 1 else 0)) else 0
  | LHalfPlane p1 p2 n1 n2 off =>
      if orb (en p1) (en p2) then
        - (2 * Rmax 0 (off - (nth p1 p 0 * n1 + nth p2 p 0 * n2))) *
          ((if Nat.eqb p1 i then n1 else 0) + (if Nat.eqb p2 i then n2 else 0)) else 0
  | _ => 0
  end.

Section Deriv.
Variables (p : list R) (i : nat).
Hypothesis Hi : (i < List.length p)%nat.
Let t0 := nth i p 0.
Let P (t : R) := set_nth p i t.

Lemma P0 : P t0 = p.
Proof.
  unfold P, t0. apply nth_ext with (d := 0) (d' := 0); [apply set_nth_length|].
  intros k _. rewrite set_nth_nth by exact Hi. destruct (Nat.eqb_spec k i) as [->|]; reflexivity.
Qed.
Lemma dP k : is_derive (fun t => nth k (P t) 0) t0 (if Nat.eqb k i then 1 else 0).
Proof.
  eapply d_ext; [intros u; symmetry; apply set_nth_nth; exact Hi|].
  destruct (Nat.eqb k i); [apply @is_derive_id|apply d_const].
Qed.

Lemma in_range_locally r1 r2 k :
  (r1 = 0 /\ r2 = 0) \/ (nth k p 0 <> r1 /\ nth k p 0 <> r2) ->
  locally t0 (fun t => is_in_range r1 r2 (nth k (P t) 0) = is_in_range r1 r2 (nth k p 0)).
Proof.
  intros [[-> ->]|[N1 N2]].
  - exists (mkposreal 1 Rlt_0_1). intros y _. unfold is_in_range. destruct (Reqb_spec 0 0); [reflexivity|contradiction].
  - set (x := nth k p 0) in *.
    assert (D1 : 0 < Rabs (x - r1)) by (apply Rabs_pos_lt; lra).
    assert (D2 : 0 < Rabs (x - r2)) by (apply Rabs_pos_lt; lra).
    exists (mkposreal (Rmin (Rabs (x - r1)) (Rabs (x - r2))) ltac:(apply Rmin_glb_lt; assumption)).
    intros y Hy. unfold ball in Hy. cbn in Hy. unfold AbsRing_ball, abs, minus, plus, opp in Hy. cbn in Hy.
    unfold P. rewrite set_nth_nth by exact Hi.
    destruct (Nat.eqb_spec k i) as [Ek|]; [|reflexivity].
    assert (Ex : x = t0) by (unfold x, t0; rewrite Ek; reflexivity). rewrite <- Ex in Hy.
    pose proof (Rmin_l (Rabs (x - r1)) (Rabs (x - r2))). pose proof (Rmin_r (Rabs (x - r1)) (Rabs (x - r2))).
    unfold is_in_range. destruct (Reqb r1 0 && Reqb r2 0)%bool; [reflexivity|].
    assert (A1 : Rleb r1 y = Rleb r1 x).
    { destruct (Rleb_spec r1 y), (Rleb_spec r1 x); auto; exfalso;
        revert Hy H H0; unfold Rabs; repeat destruct (Rcase_abs _); lra. }
    assert (A2 : Rltb y r2 = Rltb x r2).
    { destruct (Rltb_spec y r2), (Rltb_spec x r2); auto; exfalso;
        revert Hy H H0; unfold Rabs; repeat destruct (Rcase_abs _); lra. }
    rewrite A1, A2. reflexivity.
Qed.

Variables (en : pset) (ac : list bool) (es : list entry) (jp : R -> list R).
Hypothesis Hjp : forall r, is_derive (fun t => nth r (jp t) 0) t0 (ent_coeff es r i).

Lemma d_violation2 d : away_from_range_ends p d ->
  is_derive (fun t => violation2 en ac (P t) (jp t) d) t0 (violation2_partial en ac es p (jp t0) i d).
Proof.
  intros A. destruct d as [k lo hi|jt k lo hi|jt k lo hi|rf tg sc off r1 r2|ep pa|p1 p2 n1 n2 off];
    cbn [violation2 violation2_partial away_from_range_ends] in *; try apply d_const.
  - destruct (en k); [|apply d_const].
    eapply d_eq.
    + apply d_plus; apply d_excess2; [apply d_minus; [apply d_const|apply (dP k)]|apply d_minus; [apply (dP k)|apply d_const]].
    + cbv beta. rewrite P0. destruct (Nat.eqb k i); ring.
  - destruct (nth (jt * 7 + k) ac false); [|apply d_const].
    eapply d_eq.
    + apply d_plus; apply d_excess2; [apply d_minus; [apply d_const|apply (Hjp (jt * 7 + k))]|apply d_minus; [apply (Hjp (jt * 7 + k))|apply d_const]].
    + cbv beta. ring.
  - apply (is_derive_ext_loc (fun t => if ((en tg || en rf) && is_in_range r1 r2 (nth tg p 0))%bool
              then (nth tg (P t) 0 * sc - off - nth rf (P t) 0) ^ 2 else 0)).
    + destruct (in_range_locally r1 r2 tg A) as [eps He]. exists eps. intros y Hy. rewrite (He y Hy). reflexivity.
    + destruct ((en tg || en rf) && is_in_range r1 r2 (nth tg p 0))%bool; [|apply d_const].
      assert (D : is_derive (fun t => nth tg (P t) 0 * sc - off - nth rf (P t) 0) t0
                   ((if Nat.eqb tg i then sc else 0) - (if Nat.eqb rf i then 1 else 0))).
      { eapply d_eq; [apply d_minus; [apply d_minus; [apply d_mult; [apply (dP tg)|apply d_const]|apply d_const]|apply (dP rf)]|].
        cbv beta. destruct (Nat.eqb tg i), (Nat.eqb rf i); ring. }
      eapply d_ext; [|eapply d_eq; [apply (d_mult _ _ t0 _ _ D D)|]].
      * intros u. cbv beta. ring.
      * cbv beta. rewrite P0. ring.
  - destruct (en p1 || en p2)%bool; [|apply d_const].
    eapply d_eq.
    + apply d_excess2. apply d_minus; [apply d_const|].
      apply d_plus; (apply d_mult; [apply dP|apply d_const]).
    + cbv beta. rewrite P0. destruct (Nat.eqb p1 i), (Nat.eqb p2 i); ring.
Qed.
End Deriv.

(** ** getGradient *)

Lemma lo_hi_partial lo hi x :
  (if Rltb x lo then 2 * (x - lo) else 0) + (if Rltb hi x then 2 * (x - hi) else 0)
  = 2 * Rmax 0 (x - hi) - 2 * Rmax 0 (lo - x).
Proof.
  destruct (Rltb_spec x lo), (Rltb_spec hi x);
    rewrite ?(Rmax_right 0 (lo - x)), ?(Rmax_right 0 (x - hi)), ?(Rmax_left 0 (lo - x)), ?(Rmax_left 0 (x - hi)) by lra; ring.
Qed.

Lemma dsum_one k v i : dsum [(k, v)] i = if Nat.eqb k i then v else 0.
Proof. unfold dsum. cbn. ring. Qed.
Lemma dsum_nil i : dsum [] i = 0. Proof. reflexivity. Qed.

Lemma grad1_spec E m p jp l i :
  limit_fn_wf E m -> List.length p = lf_n E -> List.length jp = m -> limit_valid (lf_n E) m (ldata l) ->
  lf_enabled E i = true -> unit_weight_if_two_params l ->
  exists e incs, lim_grad1 E p jp l = Ok (e, incs) /\
    (forall k v, In (k, v) incs -> (k < lf_n E)%nat) /\
    (counted (lf_enabled E) (ldata l) ->
       e = 10 * lf_weight E * (lweight l * violation2 (lf_enabled E) (lf_active E) p jp (ldata l))) /\
    dsum incs i = 10 * lf_weight E *
       (lweight l * violation2_partial (lf_enabled E) (lf_active E) (lf_entries E) p jp i (ldata l)).
Proof.
  intros W Lp Ljp V EI UW. pose proof (lw_max E m W) as MX. unfold lim_grad1, unit_weight_if_two_params in *.
  destruct (ldata l) as [k lo hi|jt k lo hi|jt k lo hi|rf tg sc off r1 r2|ep pa|p1 p2 n1 n2 off]; cbn [limit_valid violation2 violation2_partial counted] in *.
  - rewrite Lp. destruct (Nat.ltb_spec k (lf_n E)); [|lia]. cbn [check obind].
    rewrite ps_test_ok by kmax. cbn [obind]. destruct (lf_enabled E k).
    + rewrite rd_nth by lia. cbn [obind]. eexists; eexists; split; [reflexivity|]. split; [|split].
      * intros k' v Hin. apply in_app_iff in Hin as [Hin|Hin];
          [destruct (Rltb (nth k p 0) lo)|destruct (Rltb hi (nth k p 0))]; cbn in Hin; try contradiction;
          destruct Hin as [Hin|[]]; injection Hin as <- _; exact H.
      * intros _. pose proof (lo_hi_excess lo hi (nth k p 0) (lweight l)) as Q. unfold kLimitWeight.
        rewrite <- Q. destruct (Rltb (nth k p 0) lo), (Rltb hi (nth k p 0)); ring.
      * rewrite dsum_app. pose proof (lo_hi_partial lo hi (nth k p 0)) as Q. unfold kLimitWeight.
        rewrite <- Q. destruct (Rltb (nth k p 0) lo), (Rltb hi (nth k p 0)); rewrite ?dsum_one, ?dsum_nil;
          destruct (Nat.eqb k i); ring.
    + eexists; eexists; split; [reflexivity|]. split; [intros ? ? []|]. split; [intros _; ring|rewrite dsum_nil; ring].
  - rewrite Ljp. destruct (Nat.ltb_spec (jt * 7 + k) m); [|lia]. cbn [check obind].
    rewrite rd_nthb by (rewrite (lw_active E m W); exact V). cbn [obind].
    destruct (nth (jt * 7 + k) (lf_active E) false).
    + rewrite rd_nth by lia. cbn [obind]. set (x := nth (jt * 7 + k) jp 0).
      eexists; eexists; split; [reflexivity|]. split; [|split].
      * intros k' v Hin. apply in_app_iff in Hin as [Hin|Hin];
          [destruct (Rltb x lo)|destruct (Rltb hi x)]; try contradiction;
          apply row_incs_in in Hin as [e [He <-]]; apply (lw_entries E m W e He).
      * intros _. pose proof (lo_hi_excess lo hi x (lweight l)) as Q. unfold kLimitWeight.
        rewrite <- Q. destruct (Rltb x lo), (Rltb hi x); ring.
      * rewrite dsum_app. pose proof (lo_hi_partial lo hi x) as Q. unfold kLimitWeight.
        rewrite <- Q. destruct (Rltb x lo), (Rltb hi x); rewrite ?dsum_row_incs, ?dsum_nil; ring.
    + eexists; eexists; split; [reflexivity|]. split; [intros ? ? []|]. split; [intros _; ring|rewrite dsum_nil; ring].
  - eexists; eexists; split; [reflexivity|]. split; [intros ? ? []|]. split; [intros _; ring|rewrite dsum_nil; ring].
  - rewrite Lp. destruct V as [V1 V2].
    destruct (Nat.ltb_spec rf (lf_n E)); [|lia]. destruct (Nat.ltb_spec tg (lf_n E)); [|lia]. cbn [check obind].
    rewrite !rd_nth by lia. cbn [obind].
    destruct (is_in_range r1 r2 (nth tg p 0)).
    + rewrite !ps_test_ok by kmax. cbn [obind]. eexists; eexists; split; [reflexivity|]. split; [|split].
      * intros k' v Hin. apply in_app_iff in Hin as [Hin|Hin];
          [destruct (lf_enabled E tg)|destruct (lf_enabled E rf)]; cbn in Hin; try contradiction;
          destruct Hin as [Hin|[]]; injection Hin as <- _; assumption.
      * intros C. apply orb_true_iff in C. rewrite C. cbn [andb]. unfold kLimitWeight. ring.
      * rewrite dsum_app, andb_true_r, UW. unfold kLimitWeight.
        destruct (Nat.eqb_spec tg i) as [E1|N1], (Nat.eqb_spec rf i) as [E2|N2];
          destruct (lf_enabled E tg) eqn:T1, (lf_enabled E rf) eqn:T2; cbn [orb];
          rewrite ?dsum_one, ?dsum_nil, ?E1, ?E2, ?Nat.eqb_refl;
          try (rewrite (proj2 (Nat.eqb_neq tg i) N1)); try (rewrite (proj2 (Nat.eqb_neq rf i) N2));
          try ring; exfalso; congruence.
    + rewrite andb_false_r. eexists; eexists; split; [reflexivity|]. split; [intros ? ? []|]. split; [intros _; ring|rewrite dsum_nil; ring].
  - contradiction.
  - destruct V as [V1 V2]. rewrite !ps_test_ok by kmax. cbn [obind].
    destruct (lf_enabled E p1 || lf_enabled E p2)%bool eqn:EN.
    + rewrite !rd_nth by lia. cbn [obind]. set (s := nth p1 p 0 * n1 + nth p2 p 0 * n2).
      destruct (Rltb_spec (s - off) 0).
      * eexists; eexists; split; [reflexivity|]. split; [|split].
        -- intros k' v Hin. apply in_app_iff in Hin as [Hin|Hin];
          [destruct (lf_enabled E p1)|destruct (lf_enabled E p2)]; cbn in Hin; try contradiction;
          destruct Hin as [Hin|[]]; injection Hin as <- _; assumption.
        -- intros _. unfold kLimitWeight. rewrite excess2_pos by lra. ring.
        -- rewrite dsum_app, UW. unfold kLimitWeight. rewrite Rmax_right by lra.
           destruct (Nat.eqb_spec p1 i) as [E1|N1], (Nat.eqb_spec p2 i) as [E2|N2];
          destruct (lf_enabled E p1) eqn:T1, (lf_enabled E p2) eqn:T2;
          rewrite ?dsum_one, ?dsum_nil, ?E1, ?E2, ?Nat.eqb_refl;
          try (rewrite (proj2 (Nat.eqb_neq p1 i) N1)); try (rewrite (proj2 (Nat.eqb_neq p2 i) N2));
          try ring; exfalso; congruence.
      * eexists; eexists; split; [reflexivity|]. split; [intros ? ? []|]. split.
        -- intros _. rewrite excess2_neg by lra. ring.
        -- rewrite dsum_nil, Rmax_left by lra. ring.
    + eexists; eexists; split; [reflexivity|]. split; [intros ? ? []|]. split; [intros _; ring|rewrite dsum_nil; ring].
Qed.

Lemma grad_loop_spec E m p jp i ls : forall g,
  limit_fn_wf E m -> List.length p = lf_n E -> List.length jp = m -> List.length g = lf_n E ->
  (forall l, In l ls -> limit_valid (lf_n E) m (ldata l)) ->
  lf_enabled E i = true -> (i < lf_n E)%nat ->
  (forall l, In l ls -> unit_weight_if_two_params l) ->
  exists e g', lim_grad_loop E p jp ls g = Ok (e, g') /\ List.length g' = lf_n E /\
    ((forall l, In l ls -> counted (lf_enabled E) (ldata l)) ->
      e = 10 * lf_weight E *
        rsum (map (fun l => lweight l * violation2 (lf_enabled E) (lf_active E) p jp (ldata l)) ls)) /\
    nth i g' 0 = nth i g 0 + 10 * lf_weight E *
       rsum (map (fun l => lweight l * violation2_partial (lf_enabled E) (lf_active E) (lf_entries E) p jp i (ldata l)) ls).
Proof.
  induction ls as [|l r IH]; intros g W Lp Ljp Lg V EI Hi UW.
  - exists 0, g. split; [reflexivity|]. split; [exact Lg|]. cbn. split; [intros _|]; ring.
  - cbn [lim_grad_loop].
    destruct (grad1_spec E m p jp l i W Lp Ljp) as [e [incs [E1 [B [C D]]]]];
      [apply V; left; reflexivity|exact EI|apply UW; left; reflexivity|].
    rewrite E1. cbn [obind].
    destruct (add_all_ok incs g) as [g1 [E2 [L1 N1]]]; [intros k v H; rewrite Lg; apply (B k v H)|].
    rewrite E2. cbn [obind].
    destruct (IH g1) as [e' [g' [E3 [L3 [C3 D3]]]]];
      try assumption; try congruence; try (intros; apply V; right; assumption); try (intros; apply UW; right; assumption).
    rewrite E3. cbn [obind]. exists (e + e'), g'. split; [reflexivity|]. split; [exact L3|]. split.
    + intros CT. rewrite C, C3; [cbn [map rsum]; ring| |]; intros; apply CT; [right; assumption|left; reflexivity].
    + rewrite D3, N1, Lg. destruct (Nat.ltb_spec i (lf_n E)); [|lia]. rewrite D. cbn [map rsum]. ring.
Qed.

(** Derivative of a sum over a list. *)
Lemma d_rsum {A} (F : A -> R -> R) (D : A -> R) (t : R) l :
  (forall x, In x l -> is_derive (F x) t (D x)) ->
  is_derive (fun u => rsum (map (fun x => F x u) l)) t (rsum (map D l)).
Proof.
  induction l as [|x l IH]; intros H; cbn [map rsum]; [apply d_const|].
  apply d_plus; [apply H; left; reflexivity|apply IH; intros; apply H; right; assumption].
Qed.
Lemma d_scal (c : R) (f : R -> R) (t f' : R) : is_derive f t f' -> is_derive (fun u => c * f u) t (c * f').
Proof. intros H. eapply d_eq; [apply d_mult; [apply d_const|exact H]|]. cbv beta. ring. Qed.

Lemma row_dot_derive es p i r : (i < List.length p)%nat ->
  is_derive (fun t => row_dot es (set_nth p i t) r) (nth i p 0) (ent_coeff es r i).
Proof.
  intros Hi. unfold row_dot, ent_coeff. apply (d_rsum (fun e t => if Nat.eqb (erow e) r then eval e * nth (ecol e) (set_nth p i t) 0 else 0)).
  intros e _. destruct (Nat.eqb (erow e) r); cbn [andb]; [|apply d_const].
  eapply d_eq; [apply d_scal; apply (dP p i Hi)|]. destruct (Nat.eqb (ecol e) i); ring.
Qed.

Lemma penalty_derive E p i (jp : R -> list R) :
  (i < List.length p)%nat ->
  (forall r, is_derive (fun t => nth r (jp t) 0) (nth i p 0) (ent_coeff (lf_entries E) r i)) ->
  (forall l, In l (lf_limits E) -> away_from_range_ends p (ldata l)) ->
  is_derive (fun t => limit_penalty E (set_nth p i t) (jp t)) (nth i p 0)
    (10 * lf_weight E *
       rsum (map (fun l => lweight l * violation2_partial (lf_enabled E) (lf_active E) (lf_entries E) p (jp (nth i p 0)) i (ldata l)) (lf_limits E))).
Proof.
  intros Hi HJ AW. unfold limit_penalty. apply d_scal.
  apply (d_rsum (fun l t => lweight l * violation2 (lf_enabled E) (lf_active E) (set_nth p i t) (jp t) (ldata l))).
  intros l Hl. apply d_scal. apply (d_violation2 p i Hi _ _ _ jp HJ). apply AW. exact Hl.
Qed.

(** Joint parameters of a parameter transform along one model parameter. *)
Lemma apply_derive pt p i q : pt_wf pt -> List.length p = pt_cols pt -> (i < pt_cols pt)%nat ->
  (forall t, pt_apply pt (set_nth p i t) = Ok (q t)) ->
  forall r, is_derive (fun t => nth r (q t) 0) (nth i p 0) (ent_coeff (pt_entries pt) r i).
Proof.
  intros W L Hi Hq r.
  assert (EQ : forall t, q t = vadd_list (mat_vec pt (set_nth p i t)) (pt_offsets pt)).
  { intros t. specialize (Hq t). unfold pt_apply in Hq.
    rewrite set_nth_length, L, Nat.eqb_refl, (wf_offsets pt W), Nat.eqb_refl in Hq. cbn in Hq. congruence. }
  destruct (Nat.lt_ge_cases r (pt_rows pt)) as [Hr|Hr].
  - apply (d_ext (fun t => row_dot (pt_entries pt) (set_nth p i t) r + nth r (pt_offsets pt) 0)).
    + intros t. rewrite EQ, vadd_list_nth, mat_vec_nth; rewrite ?mat_vec_length, ?(wf_offsets pt W); auto.
    + eapply d_eq; [apply d_plus; [apply row_dot_derive; lia|apply d_const]|]. ring.
  - apply (d_ext (fun _ => 0)).
    + intros t. rewrite EQ, nth_overflow; [reflexivity|]. rewrite vadd_list_length, mat_vec_length. lia.
    + eapply d_eq; [apply d_const|]. symmetry. apply rsum_map_zero. intros e He.
      pose proof (wf_entries pt W e He). destruct (Nat.eqb_spec (erow e) r); [lia|reflexivity].
Qed.

Lemma pt_apply_length pt p q : pt_wf pt -> pt_apply pt p = Ok q -> List.length q = pt_rows pt.
Proof.
  intros W H. unfold pt_apply in H.
  destruct (Nat.eqb (List.length p) (pt_cols pt)); cbn in H; [|discriminate].
  destruct (Nat.eqb (List.length (pt_offsets pt)) (pt_rows pt)); cbn in H; [|discriminate].
  injection H as <-. rewrite vadd_list_length, mat_vec_length, (wf_offsets pt W). lia.
Qed.

Lemma limit_gradient_lemma E pt p i q g :
  pt_wf pt -> lf_entries E = pt_entries pt -> lf_n E = pt_cols pt ->
  limit_fn_wf E (pt_rows pt) -> List.length p = pt_cols pt -> List.length g = pt_cols pt ->
  (i < pt_cols pt)%nat -> lf_enabled E i = true ->
  (forall l, In l (lf_limits E) -> away_from_range_ends p (ldata l)) ->
  (forall l, In l (lf_limits E) -> unit_weight_if_two_params l) ->
  (forall t, pt_apply pt (set_nth p i t) = Ok (q t)) ->
  exists F e g',
    (forall t, lim_error E (set_nth p i t) (q t) = Ok (F t)) /\
    lim_gradient E p (q (nth i p 0)) g = Ok (e, g') /\
    is_derive F (nth i p 0) (nth i g' 0 - nth i g 0).
Proof.
  intros WP EE EN W Lp Lg Hi EI AW UW Hq.
  exists (fun t => limit_penalty E (set_nth p i t) (q t)).
  destruct (grad_loop_spec E (pt_rows pt) p (q (nth i p 0)) i (lf_limits E) g) as [e [g' [G1 [G2 [G3 G4]]]]];
    try assumption; try congruence; try lia.
  - apply (pt_apply_length pt (set_nth p i (nth i p 0)) _ WP). apply Hq.
  - apply (lw_limits E _ W).
  - exists e, g'. split.
    + intros t. apply (error_spec_lemma E (pt_rows pt)); [exact W|rewrite set_nth_length; congruence|].
      apply (pt_apply_length pt _ _ WP (Hq t)).
    + split; [exact G1|]. eapply d_eq; [apply penalty_derive|].
      * lia.
      * intros r. rewrite EE. apply (apply_derive pt p i q WP Lp Hi Hq).
      * exact AW.
      * rewrite G4. ring.
Qed.

(** ** getJacobian *)

Lemma zrow_nth n i : nth i (repeat 0 n) 0 = 0. Proof. apply nth_repeat0. Qed.

Lemma jac1_spec E m p jp l i :
  limit_fn_wf E m -> List.length p = lf_n E -> List.length jp = m -> limit_valid (lf_n E) m (ldata l) ->
  lf_enabled E i = true -> (i < lf_n E)%nat -> jac_conditions l -> 0 <= lf_weight E ->
  exists e rows, lim_jac1 E p jp l = Ok (e, rows) /\
    List.length rows = (match ldata l with LMinMaxJointPassive _ _ _ _ => 0 | _ => 1 end)%nat /\
    (forall row, In row rows -> List.length (fst row) = lf_n E) /\
    e = 10 * lf_weight E * (lweight l * violation2 (lf_enabled E) (lf_active E) p jp (ldata l)) /\
    rsum (map (fun row => snd row * snd row) rows) = e /\
    2 * jt_r rows i = 10 * lf_weight E *
       (lweight l * violation2_partial (lf_enabled E) (lf_active E) (lf_entries E) p jp i (ldata l)).
Proof.
  intros W Lp Ljp V EI Hi [JW JC] HW. pose proof (lw_max E m W) as MX. unfold lim_jac1, jt_r.
  assert (HS : sqrt (kLimitWeight * lf_weight E * lweight l) * sqrt (kLimitWeight * lf_weight E * lweight l)
               = 10 * lf_weight E * lweight l).
  { unfold kLimitWeight. apply sqrt_sqrt. apply Rmult_le_pos; [lra|exact JW]. }
  revert HS. generalize (sqrt (kLimitWeight * lf_weight E * lweight l)). intros wgt HS.
  assert (Z1 : forall r, List.length (fst (repeat 0 (lf_n E), r : R)) = lf_n E) by (intros; apply repeat_length).
  destruct (ldata l) as [k lo hi|jt k lo hi|jt k lo hi|rf tg sc off r1 r2|ep pa|p1 p2 n1 n2 off]; cbn [limit_valid violation2 violation2_partial] in *.
  - rewrite Lp. destruct (Nat.ltb_spec k (lf_n E)); [|lia]. cbn [check obind].
    rewrite ps_test_ok by kmax. cbn [obind]. destruct (lf_enabled E k).
    + rewrite rd_nth by lia. cbn [obind set_all]. set (x := nth k p 0).
      destruct (wr_ok (repeat 0 (lf_n E)) k wgt 0) as [row [E1 [L1 N1]]]; [rewrite repeat_length; exact H|].
      rewrite E1. cbn [obind]. unfold kLimitWeight.
      destruct (Rltb_spec x lo) as [C|C]; [|destruct (Rltb_spec hi x) as [C2|C2]].
      * eexists; eexists; split; [reflexivity|]. split; [reflexivity|]. split; [intros r [<-|[]]; cbn [fst]; rewrite L1; apply repeat_length|].
        rewrite (excess2_pos (lo - x)), (excess2_neg (x - hi)) by lra. cbn [map rsum fst snd].
        split; [ring|]. split; [ring [HS]|].
        rewrite N1, zrow_nth, (Nat.eqb_sym i k). rewrite (Rmax_left 0 (x - hi)), (Rmax_right 0 (lo - x)) by lra.
        destruct (Nat.eqb k i); [ring [HS]|ring].
      * eexists; eexists; split; [reflexivity|]. split; [reflexivity|]. split; [intros r [<-|[]]; cbn [fst]; rewrite L1; apply repeat_length|].
        rewrite (excess2_neg (lo - x)), (excess2_pos (x - hi)) by lra. cbn [map rsum fst snd].
        split; [ring|]. split; [ring [HS]|].
        rewrite N1, zrow_nth, (Nat.eqb_sym i k). rewrite (Rmax_right 0 (x - hi)), (Rmax_left 0 (lo - x)) by lra.
        destruct (Nat.eqb k i); [ring [HS]|ring].
      * eexists; eexists; split; [reflexivity|]. split; [reflexivity|]. split; [intros r [<-|[]]; apply Z1|].
        rewrite (excess2_neg (lo - x)), (excess2_neg (x - hi)) by lra. cbn [map rsum fst snd].
        split; [ring|]. split; [ring|].
        rewrite zrow_nth, (Rmax_left 0 (x - hi)), (Rmax_left 0 (lo - x)) by lra. destruct (Nat.eqb k i); ring.
    + eexists; eexists; split; [reflexivity|]. split; [reflexivity|]. split; [intros r [<-|[]]; apply Z1|].
      cbn [map rsum fst snd]. rewrite zrow_nth. repeat split; ring.
  - rewrite Ljp. destruct (Nat.ltb_spec (jt * 7 + k) m); [|lia]. cbn [check obind].
    rewrite rd_nthb by (rewrite (lw_active E m W); exact V). cbn [obind].
    destruct (nth (jt * 7 + k) (lf_active E) false).
    + rewrite rd_nth by lia. cbn [obind]. set (x := nth (jt * 7 + k) jp 0).
      destruct (add_all_ok (row_incs (lf_entries E) (jt * 7 + k) wgt) (repeat 0 (lf_n E))) as [row [E1 [L1 N1]]].
      { intros k' v Hin. apply row_incs_in in Hin as [e [He <-]]. rewrite repeat_length. apply (lw_entries E m W e He). }
      rewrite E1. cbn [obind]. unfold kLimitWeight.
      assert (NI : nth i row 0 = wgt * ent_coeff (lf_entries E) (jt * 7 + k) i).
      { rewrite N1, zrow_nth, repeat_length. destruct (Nat.ltb_spec i (lf_n E)); [|lia]. rewrite dsum_row_incs. ring. }
      destruct (Rltb_spec x lo) as [C|C]; [|destruct (Rltb_spec hi x) as [C2|C2]].
      * eexists; eexists; split; [reflexivity|]. split; [reflexivity|]. split; [intros r [<-|[]]; cbn [fst]; rewrite L1; apply repeat_length|].
        rewrite (excess2_pos (lo - x)), (excess2_neg (x - hi)) by lra. cbn [map rsum fst snd].
        split; [ring|]. split; [ring [HS]|].
        rewrite NI. rewrite (Rmax_left 0 (x - hi)), (Rmax_right 0 (lo - x)) by lra. ring [HS].
      * eexists; eexists; split; [reflexivity|]. split; [reflexivity|]. split; [intros r [<-|[]]; cbn [fst]; rewrite L1; apply repeat_length|].
        rewrite (excess2_neg (lo - x)), (excess2_pos (x - hi)) by lra. cbn [map rsum fst snd].
        split; [ring|]. split; [ring [HS]|].
        rewrite NI. rewrite (Rmax_right 0 (x - hi)), (Rmax_left 0 (lo - x)) by lra. ring [HS].
      * eexists; eexists; split; [reflexivity|]. split; [reflexivity|]. split; [intros r [<-|[]]; apply Z1|].
        rewrite (excess2_neg (lo - x)), (excess2_neg (x - hi)) by lra. cbn [map rsum fst snd].
        split; [ring|]. split; [ring|].
        rewrite zrow_nth, (Rmax_left 0 (x - hi)), (Rmax_left 0 (lo - x)) by lra. ring.
    + eexists; eexists; split; [reflexivity|]. split; [reflexivity|]. split; [intros r [<-|[]]; apply Z1|].
      cbn [map rsum fst snd]. rewrite zrow_nth. repeat split; ring.
  - eexists; eexists; split; [reflexivity|]. split; [reflexivity|]. split; [intros r []|].
    cbn [map rsum]. repeat split; ring.
  - rewrite Lp. destruct V as [V1 V2].
    destruct (Nat.ltb_spec rf (lf_n E)); [|lia]. destruct (Nat.ltb_spec tg (lf_n E)); [|lia]. cbn [check obind].
    rewrite !ps_test_ok by kmax. cbn [obind]. rewrite !rd_nth by lia. cbn [obind].
    destruct ((lf_enabled E tg || lf_enabled E rf) && is_in_range r1 r2 (nth tg p 0))%bool.
    + assert (RW : exists row, set_all (repeat 0 (lf_n E)) ((if lf_enabled E tg then [(tg, sc * wgt)] else []) ++
                                  (if lf_enabled E rf then [(rf, - wgt)] else [])) = Ok row /\
        List.length row = lf_n E /\
        nth i row 0 = wgt * ((if Nat.eqb tg i then sc else 0) - (if Nat.eqb rf i then 1 else 0))).
      { destruct (wr_ok (repeat 0 (lf_n E)) tg (sc * wgt) 0) as [ra [E1 [L1 N1]]]; [rewrite repeat_length; exact H0|].
        destruct (wr_ok (repeat 0 (lf_n E)) rf (- wgt) 0) as [rb [E2 [L2 N2]]]; [rewrite repeat_length; exact H|].
        destruct (wr_ok ra rf (- wgt) 0) as [rc [E3 [L3 N3]]]; [rewrite L1, repeat_length; exact H|].
        rewrite repeat_length in L1, L2. rewrite L1 in L3.
        assert (D : forall k, k <> i -> Nat.eqb k i = false) by (intros; apply Nat.eqb_neq; assumption).
        destruct (lf_enabled E tg) eqn:T1, (lf_enabled E rf) eqn:T2; cbn [app set_all]; rewrite ?E1, ?E2; cbn [obind]; rewrite ?E3; cbn [obind];
          eexists; (split; [reflexivity|]); (split; [first [assumption|apply repeat_length]|]);
          rewrite ?N3, ?N2, ?N1, ?zrow_nth, ?(Nat.eqb_sym i);
          destruct (Nat.eqb_spec tg i) as [A1|A1], (Nat.eqb_spec rf i) as [A2|A2]; try ring; try (exfalso; congruence). }
      destruct RW as [row [E1 [L1 N1]]]. rewrite E1. cbn [obind]. unfold kLimitWeight.
      eexists; eexists; split; [reflexivity|]. split; [reflexivity|]. split; [intros r [<-|[]]; exact L1|].
      cbn [map rsum fst snd]. split; [ring|]. split; [ring [HS]|]. rewrite N1. ring [HS].
    + eexists; eexists; split; [reflexivity|]. split; [reflexivity|]. split; [intros r [<-|[]]; apply Z1|].
      cbn [map rsum fst snd]. rewrite zrow_nth. repeat split; ring.
  - contradiction.
  - rewrite Lp. destruct V as [V1 V2].
    destruct (Nat.ltb_spec p1 (lf_n E)); [|lia]. destruct (Nat.ltb_spec p2 (lf_n E)); [|lia]. cbn [check obind].
    rewrite !ps_test_ok by kmax. cbn [obind]. rewrite !rd_nth by lia. cbn [obind].
    destruct (lf_enabled E p1 || lf_enabled E p2)%bool.
    + set (s := nth p1 p 0 * n1 + nth p2 p 0 * n2). destruct (Rltb_spec (s - off) 0) as [C|C].
      * assert (RW : exists row, set_all (repeat 0 (lf_n E)) ((if lf_enabled E p1 then [(p1, n1 * wgt)] else []) ++
                                  (if lf_enabled E p2 then [(p2, n2 * wgt)] else [])) = Ok row /\
          List.length row = lf_n E /\
          nth i row 0 = wgt * ((if Nat.eqb p1 i then n1 else 0) + (if Nat.eqb p2 i then n2 else 0))).
        { destruct (wr_ok (repeat 0 (lf_n E)) p1 (n1 * wgt) 0) as [ra [E1 [L1 N1]]]; [rewrite repeat_length; exact H|].
          destruct (wr_ok (repeat 0 (lf_n E)) p2 (n2 * wgt) 0) as [rb [E2 [L2 N2]]]; [rewrite repeat_length; exact H0|].
          destruct (wr_ok ra p2 (n2 * wgt) 0) as [rc [E3 [L3 N3]]]; [rewrite L1, repeat_length; exact H0|].
          rewrite repeat_length in L1, L2. rewrite L1 in L3.
          destruct (lf_enabled E p1) eqn:T1, (lf_enabled E p2) eqn:T2; cbn [app set_all]; rewrite ?E1, ?E2; cbn [obind]; rewrite ?E3; cbn [obind];
            eexists; (split; [reflexivity|]); (split; [first [assumption|apply repeat_length]|]);
            rewrite ?N3, ?N2, ?N1, ?zrow_nth, ?(Nat.eqb_sym i);
            destruct (Nat.eqb_spec p1 i) as [A1|A1], (Nat.eqb_spec p2 i) as [A2|A2]; try ring; try (exfalso; congruence). }
        destruct RW as [row [E1 [L1 N1]]]. rewrite E1. cbn [obind]. unfold kLimitWeight.
        eexists; eexists; split; [reflexivity|]. split; [reflexivity|]. split; [intros r [<-|[]]; exact L1|].
        rewrite excess2_pos, Rmax_right by lra.
        cbn [map rsum fst snd]. split; [ring|]. split; [ring [HS]|]. rewrite N1. ring [HS].
      * eexists; eexists; split; [reflexivity|]. split; [reflexivity|]. split; [intros r [<-|[]]; apply Z1|].
        rewrite excess2_neg, Rmax_left by lra.
        cbn [map rsum fst snd]. rewrite zrow_nth. repeat split; ring.
    + eexists; eexists; split; [reflexivity|]. split; [reflexivity|]. split; [intros r [<-|[]]; apply Z1|].
      cbn [map rsum fst snd]. rewrite zrow_nth. repeat split; ring.
Qed.

Lemma jac_loop_spec E m p jp i ls :
  limit_fn_wf E m -> List.length p = lf_n E -> List.length jp = m ->
  (forall l, In l ls -> limit_valid (lf_n E) m (ldata l)) ->
  lf_enabled E i = true -> (i < lf_n E)%nat -> 0 <= lf_weight E ->
  (forall l, In l ls -> jac_conditions l) ->
  exists e rows, lim_jac_loop E p jp ls = Ok (e, rows) /\
    List.length rows = lim_jacobian_size ls /\
    (forall row, In row rows -> List.length (fst row) = lf_n E) /\
    e = 10 * lf_weight E *
        rsum (map (fun l => lweight l * violation2 (lf_enabled E) (lf_active E) p jp (ldata l)) ls) /\
    rsum (map (fun row => snd row * snd row) rows) = e /\
    2 * jt_r rows i = 10 * lf_weight E *
       rsum (map (fun l => lweight l * violation2_partial (lf_enabled E) (lf_active E) (lf_entries E) p jp i (ldata l)) ls).
Proof.
  intros W Lp Ljp V EI Hi HW JC. induction ls as [|l r IH].
  - exists 0, []. split; [reflexivity|]. split; [reflexivity|]. split; [intros r []|]. cbn. unfold jt_r. cbn. repeat split; ring.
  - destruct IH as [e' [rows' [E2 [L2 [F2 [A2 [B2 C2]]]]]]];
      [intros; apply V; right; assumption|intros; apply JC; right; assumption|].
    destruct (jac1_spec E m p jp l i W Lp Ljp) as [e [rows [E1 [L1 [F1 [A1 [B1 C1]]]]]]];
      [apply V; left; reflexivity|exact EI|exact Hi|apply JC; left; reflexivity|exact HW|].
    cbn [lim_jac_loop]. rewrite E1. cbn [obind]. rewrite E2. cbn [obind].
    exists (e + e'), (rows ++ rows'). split; [reflexivity|]. split; [|split; [|split; [|split]]].
    + rewrite app_length, L1, L2. cbn [lim_jacobian_size fold_right].
      pose proof (V l (or_introl eq_refl)) as Vl. destruct (ldata l); cbn in Vl; try reflexivity. contradiction.
    + intros row Hr. apply in_app_iff in Hr as [Hr|Hr]; auto.
    + rewrite A1, A2. cbn [map rsum]. ring.
    + rewrite map_app, rsum_app, B1, B2. reflexivity.
    + unfold jt_r in *. rewrite map_app, rsum_app, Rmult_plus_distr_l, C1, C2. cbn [map rsum]. ring.
Qed.

Lemma limit_jacobian_lemma E pt p i q :
  pt_wf pt -> lf_entries E = pt_entries pt -> lf_n E = pt_cols pt ->
  limit_fn_wf E (pt_rows pt) -> List.length p = pt_cols pt ->
  (i < pt_cols pt)%nat -> lf_enabled E i = true -> 0 <= lf_weight E ->
  (forall l, In l (lf_limits E) -> away_from_range_ends p (ldata l)) ->
  (forall l, In l (lf_limits E) -> jac_conditions l) ->
  (forall t, pt_apply pt (set_nth p i t) = Ok (q t)) ->
  exists F e rows,
    (forall t, lim_error E (set_nth p i t) (q t) = Ok (F t)) /\
    lim_jacobian E p (q (nth i p 0)) = Ok (e, rows) /\
    List.length rows = lim_jacobian_size (lf_limits E) /\
    (forall row, In row rows -> List.length (fst row) = lf_n E) /\
    e = F (nth i p 0) /\
    rsum (map (fun row => snd row * snd row) rows) = e /\
    is_derive F (nth i p 0) (2 * jt_r rows i).
Proof.
  intros WP EE EN W Lp Hi EI HW AW JC Hq.
  exists (fun t => limit_penalty E (set_nth p i t) (q t)).
  assert (Lq : forall t, List.length (q t) = pt_rows pt) by (intros t; apply (pt_apply_length pt _ _ WP (Hq t))).
  destruct (jac_loop_spec E (pt_rows pt) p (q (nth i p 0)) i (lf_limits E)) as [e [rows [G1 [G2 [G3 [G4 [G5 G6]]]]]]];
    try assumption; try congruence; try lia; auto.
  - apply (lw_limits E _ W).
  - exists e, rows. split; [|split; [exact G1|split; [exact G2|split; [exact G3|split; [|split; [exact G5|]]]]]].
    + intros t. apply (error_spec_lemma E (pt_rows pt)); [exact W|rewrite set_nth_length; congruence|apply Lq].
    + rewrite G4. unfold limit_penalty. rewrite (P0 p i) by lia. reflexivity.
    + eapply d_eq; [apply penalty_derive|].
      * lia.
      * intros r. rewrite EE. apply (apply_derive pt p i q WP Lp Hi Hq).
      * exact AW.
      * rewrite G6. reflexivity.
Qed.

(** ** applyPassiveJointParameterLimits *)

Lemma clamp_step jp i lo hi : (i < List.length jp)%nat ->
  exists jp1 jp2, (if Rltb (nth i jp 0) lo then wr jp i lo else Ok jp) = Ok jp1 /\
    (if Rltb hi (nth i jp1 0) then wr jp1 i hi else Ok jp1) = Ok jp2 /\
    List.length jp1 = List.length jp /\ List.length jp2 = List.length jp /\
    forall k, nth k jp2 0 = if Nat.eqb k i then Rmin hi (Rmax lo (nth i jp 0)) else nth k jp 0.
Proof.
  intros Hi.
  assert (S1 : exists jp1, (if Rltb (nth i jp 0) lo then wr jp i lo else Ok jp) = Ok jp1 /\ List.length jp1 = List.length jp /\
      forall k, nth k jp1 0 = if Nat.eqb k i then Rmax lo (nth i jp 0) else nth k jp 0).
  { destruct (Rltb_spec (nth i jp 0) lo) as [C|C].
    - destruct (wr_ok jp i lo 0 Hi) as [j1 [E1 [L1 N1]]]. exists j1. split; [exact E1|]. split; [exact L1|].
      intros k. rewrite N1, Rmax_left by lra. reflexivity.
    - exists jp. split; [reflexivity|]. split; [reflexivity|]. intros k. rewrite Rmax_right by lra.
      destruct (Nat.eqb_spec k i) as [->|]; reflexivity. }
  destruct S1 as [jp1 [E1 [L1 N1]]].
  assert (V : nth i jp1 0 = Rmax lo (nth i jp 0)) by (rewrite N1, Nat.eqb_refl; reflexivity).
  assert (S2 : exists jp2, (if Rltb hi (nth i jp1 0) then wr jp1 i hi else Ok jp1) = Ok jp2 /\ List.length jp2 = List.length jp1 /\
      forall k, nth k jp2 0 = if Nat.eqb k i then Rmin hi (nth i jp1 0) else nth k jp1 0).
  { destruct (Rltb_spec hi (nth i jp1 0)) as [C|C].
    - destruct (wr_ok jp1 i hi 0) as [j1 [E2 [L2 N2]]]; [lia|]. exists j1. split; [exact E2|]. split; [exact L2|].
      intros k. rewrite N2, Rmin_left by lra. reflexivity.
    - exists jp1. split; [reflexivity|]. split; [reflexivity|]. intros k. rewrite Rmin_right by lra.
      destruct (Nat.eqb_spec k i) as [->|]; reflexivity. }
  destruct S2 as [jp2 [E2 [L2 N2]]].
  exists jp1, jp2. split; [exact E1|]. split; [exact E2|]. split; [exact L1|]. split; [congruence|].
  intros k. rewrite N2, V, N1. destruct (Nat.eqb k i); reflexivity.
Qed.

(** The specification of the clamp: apply the intervals in order. *)
Fixpoint clamp_all (ls : list plimit) (k : nat) (x : R) : R :=
  match ls with
  | [] => x
  | l :: r =>
      match passive_index l with
      | Some (i, lo, hi) => clamp_all r k (if Nat.eqb k i then Rmin hi (Rmax lo x) else x)
      | None => clamp_all r k x
      end
  end.

Lemma apply_passive_ok ls : forall jp,
  (forall l i lo hi, In l ls -> passive_index l = Some (i, lo, hi) -> (i < List.length jp)%nat) ->
  exists jp', apply_passive ls jp = Ok jp' /\ List.length jp' = List.length jp /\
    forall k, nth k jp' 0 = clamp_all ls k (nth k jp 0).
Proof.
  induction ls as [|l r IH]; intros jp H; [exists jp; auto|].
  cbn [apply_passive clamp_all].
  assert (HR : forall jp' : list R, List.length jp' = List.length jp ->
     forall l i lo hi, In l r -> passive_index l = Some (i, lo, hi) -> (i < List.length jp')%nat).
  { intros jp' L l' i lo hi Hl E. rewrite L. eapply H; [right; exact Hl|exact E]. }
  pose proof (H l) as Hl. unfold passive_index in *.
  destruct (ldata l) as [k lo hi|jt k lo hi|jt k lo hi|rf tg sc off r1 r2|ep pa|p1 p2 n1 n2 off];
    try (apply IH; apply HR; reflexivity).
  specialize (Hl _ lo hi (or_introl eq_refl) eq_refl). cbn in Hl.
  destruct (Nat.leb_spec (jt * 7 + k) (List.length jp)); [|lia]. cbn [check obind].
  rewrite rd_nth by exact Hl. cbn [obind].
  destruct (clamp_step jp (jt * 7 + k) lo hi Hl) as [jp1 [jp2 [E1 [E2 [L1 [L2 N2]]]]]].
  rewrite E1. cbn [obind]. rewrite rd_nth by (rewrite L1; exact Hl). cbn [obind]. rewrite E2. cbn [obind].
  destruct (IH jp2 (HR jp2 L2)) as [jp3 [E3 [L3 N3]]]. exists jp3. split; [exact E3|]. split; [congruence|].
  intros j. rewrite N3, N2. destruct (Nat.eqb_spec j (jt * 7 + k)) as [Ej|]; [rewrite Ej; reflexivity|reflexivity].
Qed.

Lemma clamp_all_other ls k x :
  (forall l i lo hi, In l ls -> passive_index l = Some (i, lo, hi) -> i <> k) -> clamp_all ls k x = x.
Proof.
  revert x. induction ls as [|l r IH]; intros x H; [reflexivity|]. cbn [clamp_all].
  pose proof (H l) as Hl. destruct (passive_index l) as [[[i lo] hi]|].
  - destruct (Nat.eqb_spec k i) as [E|]; [exfalso; apply (Hl i lo hi (or_introl eq_refl) eq_refl); congruence|].
    apply IH. intros; eapply H; [right|]; eassumption.
  - apply IH. intros; eapply H; [right|]; eassumption.
Qed.

Lemma clamp_all_fix ls k x :
  (forall l i lo hi, In l ls -> passive_index l = Some (i, lo, hi) -> i = k -> lo <= x <= hi) -> clamp_all ls k x = x.
Proof.
  revert x. induction ls as [|l r IH]; intros x H; [reflexivity|]. cbn [clamp_all].
  pose proof (H l) as Hl. destruct (passive_index l) as [[[i lo] hi]|].
  - destruct (Nat.eqb_spec k i) as [E|].
    + destruct (Hl i lo hi (or_introl eq_refl) eq_refl (eq_sym E)). rewrite Rmax_right, Rmin_right by lra.
      apply IH. intros; eapply H; [right| |]; eassumption.
    + apply IH. intros; eapply H; [right| |]; eassumption.
  - apply IH. intros; eapply H; [right| |]; eassumption.
Qed.

Lemma passive_once_tail l ls : passive_once (l :: ls) -> passive_once ls.
Proof.
  intros H l1 l2 a b c i lo hi lo' hi' E. apply (H l1 l2 (l :: a) b c i lo hi lo' hi'). rewrite E. reflexivity.
Qed.

Lemma clamp_all_inside ls k x l lo hi :
  passive_once ls -> In l ls -> passive_index l = Some (k, lo, hi) -> lo <= hi ->
  lo <= clamp_all ls k x <= hi.
Proof.
  revert x. induction ls as [|l0 r IH]; intros x PO Hin E LH; [contradiction|].
  cbn [clamp_all]. destruct Hin as [->|Hin].
  - rewrite E, Nat.eqb_refl. rewrite clamp_all_other.
    + split; [apply Rmin_glb; [exact LH|apply Rmax_l]|apply Rmin_l].
    + intros l2 i lo' hi' H2 E2 Ei. subst i. apply in_split in H2 as [b [c ->]].
      apply (PO l l2 [] b c k lo hi lo' hi' eq_refl E E2).
  - specialize (IH (match passive_index l0 with
       | Some (i, lo0, hi0) => if Nat.eqb k i then Rmin hi0 (Rmax lo0 x) else x | None => x end)
       (passive_once_tail _ _ PO) Hin E LH).
    destruct (passive_index l0) as [[[i0 lo0] hi0]|]; exact IH.
Qed.

Lemma apply_passive_lemma ls jp :
  (forall l i lo hi, In l ls -> passive_index l = Some (i, lo, hi) -> (i < List.length jp)%nat /\ lo <= hi) ->
  passive_once ls ->
  exists jp', apply_passive ls jp = Ok jp' /\ List.length jp' = List.length jp /\
    (forall l i lo hi, In l ls -> passive_index l = Some (i, lo, hi) -> lo <= nth i jp' 0 <= hi) /\
    (forall k, (forall l i lo hi, In l ls -> passive_index l = Some (i, lo, hi) -> i <> k) ->
       nth k jp' 0 = nth k jp 0) /\
    (forall k, (forall l lo hi, In l ls -> passive_index l = Some (k, lo, hi) -> lo <= nth k jp 0 <= hi) ->
       nth k jp' 0 = nth k jp 0) /\
    apply_passive ls jp' = Ok jp'.
Proof.
  intros H PO. destruct (apply_passive_ok ls jp) as [jp' [E [L N]]]; [intros; eapply H; eassumption|].
  exists jp'. split; [exact E|]. split; [exact L|].
  assert (IN : forall l i lo hi, In l ls -> passive_index l = Some (i, lo, hi) -> lo <= nth i jp' 0 <= hi).
  { intros l i lo hi Hl El. rewrite N. apply (clamp_all_inside ls i _ l); auto. eapply H; eassumption. }
  split; [exact IN|]. split; [|split].
  - intros k Hk. rewrite N. apply clamp_all_other. exact Hk.
  - intros k Hk. rewrite N. apply clamp_all_fix. intros l i lo hi Hl El ->. eapply Hk; eassumption.
  - destruct (apply_passive_ok ls jp') as [j2 [E2 [L2 N2]]]; [intros; rewrite L; eapply H; eassumption|].
    rewrite E2. f_equal. apply nth_ext with (d := 0) (d' := 0); [exact L2|]. intros k _.
    rewrite N2. apply clamp_all_fix. intros l i lo hi Hl El ->. eapply IN; eassumption.
Qed.

Lemma gradient_error_lemma E m p jp g i :
  limit_fn_wf E m -> List.length p = lf_n E -> List.length jp = m -> List.length g = lf_n E ->
  (i < lf_n E)%nat -> lf_enabled E i = true ->
  (forall l, In l (lf_limits E) -> unit_weight_if_two_params l) ->
  (forall l, In l (lf_limits E) -> counted (lf_enabled E) (ldata l)) ->
  exists e g', lim_error E p jp = Ok e /\ lim_gradient E p jp g = Ok (e, g').
Proof.
  intros W Lp Ljp Lg Hi EI UW CT.
  destruct (grad_loop_spec E m p jp i (lf_limits E) g) as [e [g' [G1 [G2 [G3 G4]]]]]; try assumption.
  - apply (lw_limits E _ W).
  - exists e, g'. split; [|exact G1]. rewrite (error_spec_lemma E m) by assumption. rewrite (G3 CT). reflexivity.
Qed.
