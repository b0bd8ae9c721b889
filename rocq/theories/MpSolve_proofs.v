(** Lemmas for C116: one iteration over several poses. *)

From Coq Require Import Bool List Arith Lia Reals Lra.
From Coquelicot Require Import Coquelicot.
From Verif Require Import Prelude LinAlg Rbool ListUtil Loops Seq_spec Seq_model Seq_proofs Seq_multi_proofs
  SeqFn_model SeqFn_spec SeqFn_proofs MpFn_model MpFn_spec MpFn_proofs QR_model BlockQR_spec BlockQR_model BlockQR_runs_spec
  BlockQR_proofs BlockQR_inv_proofs MpSolve_model MpSolve_spec.
Import ListNotations.
Local Open Scope outcome_scope.
Local Open Scope nat_scope.

(** ** The two lists of parameters *)

Lemma index_lists : forall l k m g u, exists m',
  fold_left index_step (combine (seq k (length l)) l) (m, g, u) =
  (m', g ++ filter (fun i => negb (nth (i - k) l false)) (seq k (length l)),
       u ++ filter (fun i => nth (i - k) l false) (seq k (length l))).
Proof.
  induction l as [|b l IH]; intros k m g u; cbn [length seq combine fold_left filter].
  - exists m. rewrite !app_nil_r. reflexivity.
  - rewrite Nat.sub_diag. change (nth 0 (b :: l) false) with b.
    assert (F1 : filter (fun i => negb (nth (i - k) (b :: l) false)) (seq (S k) (length l)) =
                 filter (fun i => negb (nth (i - S k) l false)) (seq (S k) (length l))).
    { apply filter_ext_in. intros i Hi. apply in_seq in Hi. replace (i - k) with (S (i - S k)) by lia. reflexivity. }
    assert (F2 : filter (fun i => nth (i - k) (b :: l) false) (seq (S k) (length l)) =
                 filter (fun i => nth (i - S k) l false) (seq (S k) (length l))).
    { apply filter_ext_in. intros i Hi. apply in_seq in Hi. replace (i - k) with (S (i - S k)) by lia. reflexivity. }
    rewrite F1, F2. destruct b; cbn [negb index_step].
    + destruct (IH (S k) (m ++ [length u]) g (u ++ [k])) as (m' & E). exists m'. rewrite E, <- app_assoc. reflexivity.
    + destruct (IH (S k) (m ++ [length g]) (g ++ [k]) u) as (m' & E). exists m'. rewrite E, <- app_assoc. reflexivity.
Qed.

Definition lists_ok (universal : list bool) (s : mpfn) : Prop := mp_gen s = own universal /\ mp_unv s = common universal.

Lemma mp_init_lists universal nF : lists_ok universal (mp_init universal nF).
Proof.
  unfold mp_init. destruct (index_lists universal 0 [] [] []) as (m' & E). rewrite E. unfold lists_ok. cbn [mp_gen mp_unv app].
  unfold own, common, uset. split; apply filter_ext; intros i; rewrite Nat.sub_0_r; reflexivity.
Qed.
Lemma mp_set_joined_lists s v s' : mp_set_joined s v = Ok s' -> mp_gen s' = mp_gen s /\ mp_unv s' = mp_unv s.
Proof. unfold mp_set_joined. destruct (ofold _ _ _); try discriminate. cbn [obind]. intros E. injection E as <-. split; reflexivity. Qed.
Lemma mp_do_lists s op s' : mp_do s op = Ok s' -> mp_gen s' = mp_gen s /\ mp_unv s' = mp_unv s.
Proof.
  destruct op as [en|f p|v]; cbn [mp_do].
  - unfold mp_set_enabled. destruct (if 0 <? _ then _ else _); try discriminate. cbn [obind]. intros E. injection E as <-. split; reflexivity.
  - unfold mp_set_frame. destruct (negb _); [discriminate|]. destruct (negb _); [discriminate|]. destruct (wr _ _ _); try discriminate. cbn [obind].
    intros E. injection E as <-. split; reflexivity.
  - apply mp_set_joined_lists.
Qed.
Lemma mo_run_lists universal nF ops o : mo_run universal nF ops = Ok o -> lists_ok universal (mo_fn o).
Proof.
  unfold mo_run. assert (W : lists_ok universal (mo_fn (mo_init universal nF))) by apply mp_init_lists.
  revert W. generalize (mo_init universal nF). induction ops as [|op ops IH]; intros o0 W; cbn [ofold].
  - intros E. injection E as <-. exact W.
  - destruct (mo_do o0 op) as [o1| | | |] eqn:E1; try discriminate. cbn [obind]. apply IH.
    destruct op as [p|f e]; cbn in E1.
    + destruct (mp_do (mo_fn o0) p) as [s| | | |] eqn:E2; try discriminate. injection E1 as <-. cbn [mo_fn].
      destruct (mp_do_lists _ _ _ E2) as [A B]. destruct W as [C D]. split; congruence.
    + unfold mo_add in E1. destruct (negb _); [discriminate|]. destruct (rd _ _); try discriminate. cbn [obind] in E1.
      destruct (wr _ _ _); try discriminate. injection E1 as <-. exact W.
Qed.

Lemma own_length universal : length (own universal) = rank (per_frame (uset universal) all_on) (length universal).
Proof. unfold own, rank. f_equal. Qed.
Lemma common_length universal : length (common universal) = rank (shared (uset universal) all_on) (length universal).
Proof. unfold common, rank. f_equal. Qed.
Lemma total_size_eq universal nF : total_size universal nF = length (own universal) * nF + length (common universal).
Proof. unfold total_size, joined_size. rewrite own_length, common_length. reflexivity. Qed.

(** ** The rows *)

Section Rows.
Context (universal : list bool) (nF : nat).
Let ng := length (own universal).
Let nu := length (common universal).

Lemma place_own f j : j < ng -> place universal nF f (nth j (own universal) 0) = ng * f + j.
Proof.
  intros Hj. unfold ng in *. rewrite own_length in *.
  destruct (rank_nth_inv _ _ _ Hj) as (i & E & Hi & P & Rk).
  change (filter (per_frame (uset universal) all_on) (seq 0 (length universal))) with (own universal) in E.
  rewrite (nth_error_nth _ _ _ E). unfold place, slot. apply per_inv in P. rewrite (proj2 P), Rk. reflexivity.
Qed.
Lemma place_common f j : j < nu -> place universal nF f (nth j (common universal) 0) = ng * nF + j.
Proof.
  intros Hj. unfold ng, nu in *. rewrite own_length, common_length in *.
  destruct (rank_nth_inv _ _ _ Hj) as (i & E & Hi & P & Rk).
  change (filter (shared (uset universal) all_on) (seq 0 (length universal))) with (common universal) in E.
  rewrite (nth_error_nth _ _ _ E). unfold place, slot. apply sh_inv in P. rewrite (proj2 P), Rk. reflexivity.
Qed.

Local Open Scope R_scope.

Lemma sum_list (F : nat -> R) l : rsum (map F l) = sumn (length l) (fun j => F (nth j l 0%nat)).
Proof.
  rewrite rsum_nth, map_length. apply sumn_ext. intros i Hi.
  rewrite (nth_indep _ 0 (F 0%nat)) by (rewrite map_length; exact Hi). apply map_nth.
Qed.
(** A sum over all parameters is one over the parameters of a frame and one over the shared ones. *)
Lemma sum_parts (F : nat -> R) :
  sumn (length universal) F = sumn ng (fun j => F (nth j (own universal) 0%nat)) + sumn nu (fun j => F (nth j (common universal) 0%nat)).
Proof.
  unfold ng, nu. rewrite <- !sum_list. unfold own, common, sumn.
  induction (seq 0 (length universal)) as [|i l IH]; cbn [map filter rsum]; [ring|].
  rewrite IH. destruct (uset universal i); cbn [negb map rsum]; ring.
Qed.

End Rows.
Local Open Scope R_scope.
Lemma sumn_padded {A} (rows : list A) (dflt : A) (F : A -> R) n : (length rows <= n)%nat -> F dflt = 0 ->
  sumn n (fun k => F (nth k rows dflt)) = rsum (map F rows).
Proof.
  intros L Z. replace n with (length rows + (n - length rows))%nat by lia. rewrite sumn_split.
  rewrite (sumn_zero (n - length rows)) by (intros i _; rewrite nth_overflow by lia; exact Z).
  rewrite rsum_nth, map_length, Rplus_0_r. apply sumn_ext. intros i Hi.
  rewrite (nth_indep (map F rows) 0 (F dflt)) by (rewrite map_length; exact Hi). symmetry. apply map_nth.
Qed.
Lemma padded_ge n : (n <= padded n)%nat.
Proof. unfold padded. lia. Qed.

Local Open Scope R_scope.

(** The objective of the rows handed over is the Gauss-Newton objective. *)
Lemma objective_eq universal nF reg o x d : (0 <= reg) -> rows_ok o x ->
  block_objective nF (fun _ => length (own universal)) (length (common universal)) (sqrt reg) (solver_rows universal o x)
    (fun f j => d (length (own universal) * f + j)%nat) (fun j => d (length (own universal) * nF + j)%nat) =
  step_objective universal nF reg o x d.
Proof.
  intros Hr Ok. unfold block_objective, step_objective. f_equal.
  - rewrite sqrt_sqrt by exact Hr. f_equal. rewrite total_size_eq. rewrite sumn_split. f_equal.
    induction nF as [|n IH]; [rewrite Nat.mul_0_r; reflexivity|].
    rewrite sumn_S, IH. replace (length (own universal) * S n)%nat with (length (own universal) * n + length (own universal))%nat by lia.
    rewrite sumn_split. reflexivity.
  - unfold solver_rows. rewrite map_map. apply rsum_map_ext. intros [f e] Hc. cbn [fst snd br_rows].
    specialize (Ok _ Hc). cbn [fst snd] in Ok.
    rewrite <- (sumn_padded (se_rows e [x f]) (fun _ => 0, 0)
      (fun row => (sumn (length universal) (fun i => fst row i * d (place universal nF f i)) - snd row) *
                  (sumn (length universal) (fun i => fst row i * d (place universal nF f i)) - snd row)) (padded (se_size e))).
    + apply sumn_ext. intros k Hk. unfold row_left. cbn [br_w br_A br_C br_b br_blk].
      rewrite sum_parts.
      assert (E1 : forall row : (nat -> R) * R, sumn (length (own universal)) (fun j => fst row (nth j (own universal) 0%nat) * d (length (own universal) * f + j)%nat) =
        sumn (length (own universal)) (fun j => fst row (nth j (own universal) 0%nat) * d (place universal nF f (nth j (own universal) 0%nat)))).
      { intros row. apply sumn_ext. intros j Hj. rewrite (place_own universal nF f j Hj). reflexivity. }
      assert (E2 : forall row : (nat -> R) * R, sumn (length (common universal)) (fun j => fst row (nth j (common universal) 0%nat) * d (length (own universal) * nF + j)%nat) =
        sumn (length (common universal)) (fun j => fst row (nth j (common universal) 0%nat) * d (place universal nF f (nth j (common universal) 0%nat)))).
      { intros row. apply sumn_ext. intros j Hj. rewrite (place_common universal nF f j Hj). reflexivity. }
      rewrite E1, E2. reflexivity.
    + pose proof (padded_ge (se_size e)). lia.
    + cbn [fst snd]. rewrite sumn_zero by (intros; ring). ring.
Qed.

(** ** The loop *)

Lemma assemble_ok eps reg universal nF o v s : mo_wf universal nF o -> mp_wf universal nF s -> lists_ok universal s ->
  mp_frames s = map (pose universal nF v) (seq 0 nF) -> rows_ok o (pose universal nF v) ->
  mps_assemble eps reg o s =
  obind (oq_run eps (oq_new (length (common universal)) (sqrt reg)) (solver_rows universal o (pose universal nF v)))
    (fun q => Ok (rsum (map (fun c => se_jerror (snd c) [pose universal nF v (fst c)]) (mcalls o)), q)).
Proof.
  intros W Ws [Lg Lu] Fr Rok. unfold mps_assemble. rewrite (m_nF _ _ _ Ws), Lu.
  set (x := pose universal nF v) in *.
  assert (G : forall fs : list nat, (forall f, In f fs -> (f < nF)%nat) -> forall a q,
    ofold (fun f st => let* y := rd (mp_frames s) f in let* es := rd (mo_per o) f in ofold (mps_fn eps s f y) es st) fs (a, q) =
    let cs := flat_map (fun f => map (pair f) (filter active (nth f (mo_per o) []))) fs in
    obind (ofold (fun c q => oq_add eps q (mps_rows s (fst c) (snd c) (x (fst c)))) cs q)
      (fun q' => Ok (a + rsum (map (fun c => se_jerror (snd c) [x (fst c)]) cs), q'))).
  { induction fs as [|f fs IH]; intros Hf a q; cbn [ofold flat_map map rsum]; [cbn; f_equal; f_equal; ring|].
    assert (Hf0 : (f < nF)%nat) by (apply Hf; left; reflexivity).
    rewrite (frame_rd universal nF v s f Fr Hf0), (per_rd universal nF o f W Hf0). cbn [obind]. fold x.
    unfold mps_fn at 1. rewrite active_loop.
    cbv zeta. rewrite ofold_app, map_app, rsum_app.
    assert (A : forall es, (forall e, In e es -> In (f, e) (mcalls o)) -> forall a q,
      ofold (fun e st => if (length (se_rows e [x f]) <=? padded (se_size e))%nat
             then let* q := oq_add eps (snd st) (mps_rows s f e (x f)) in Ok (fst st + se_jerror e [x f], q) else UB) es (a, q) =
      obind (ofold (fun c q => oq_add eps q (mps_rows s (fst c) (snd c) (x (fst c)))) (map (pair f) es) q)
        (fun q' => Ok (a + rsum (map (fun c => se_jerror (snd c) [x (fst c)]) (map (pair f) es)), q'))).
    { induction es as [|e es IHe]; intros He b q0; cbn [ofold map rsum]; [cbn; f_equal; f_equal; ring|].
      pose proof (Rok _ (He e (or_introl eq_refl))) as Le. cbn [fst snd] in Le.
      pose proof (padded_ge (se_size e)). rewrite (proj2 (Nat.leb_le _ _)) by lia. cbn [fst snd].
      destruct (oq_add eps q0 (mps_rows s f e (x f))) as [q1| | | |]; cbn [obind]; [|reflexivity..].
      rewrite IHe by (intros; apply He; right; assumption).
      destruct (ofold _ (map (pair f) es) q1) as [q2| | | |]; cbn [obind]; [|reflexivity..].
      f_equal. f_equal. ring. }
    rewrite A.
    2: { intros e He. unfold mcalls. apply in_flat_map. exists f. split; [apply in_seq; rewrite (proj2 W); lia|]. apply in_map. exact He. }
    destruct (ofold _ (map (pair f) (filter active (nth f (mo_per o) []))) q) as [q1| | | |]; cbn [obind]; [|reflexivity..].
    rewrite IH by (intros; apply Hf; right; assumption). cbv zeta.
    destruct (ofold _ (flat_map _ fs) q1) as [q2| | | |]; cbn [obind]; [|reflexivity..].
    f_equal. f_equal. ring. }
  rewrite G by (intros f Hf; apply in_seq in Hf; lia). cbv zeta. rewrite <- (proj2 W). fold (mcalls o).
  assert (E : oq_run eps (oq_new (length (common universal)) (sqrt reg)) (solver_rows universal o x) =
    ofold (fun c q => oq_add eps q (mps_rows s (fst c) (snd c) (x (fst c)))) (mcalls o) (oq_new (length (common universal)) (sqrt reg))).
  { unfold oq_run, solver_rows. generalize (oq_new (length (common universal)) (sqrt reg)).
    induction (mcalls o) as [|c cs IH]; intros q; cbn [map ofold]; [reflexivity|].
    unfold mps_rows at 1. rewrite Lg, Lu. unfold temp_at.
    match goal with |- obind ?a _ = obind ?a _ => destruct a as [q1| | | |] end; cbn [obind]; [apply IH|reflexivity..]. }
  rewrite E. destruct (ofold _ (mcalls o) _); cbn [obind]; [|reflexivity..]. f_equal. f_equal. ring.
Qed.

(** ** The packed vector *)

Lemma blocks_length ng nF (x : nat -> nat -> R) : length (flat_map (fun i => map (x i) (seq 0 ng)) (seq 0 nF)) = (ng * nF)%nat.
Proof.
  induction nF as [|n IH]; [rewrite Nat.mul_0_r; reflexivity|].
  rewrite seq_S, flat_map_app, app_length, IH. cbn [flat_map]. rewrite app_nil_r, map_length, seq_length. lia.
Qed.
Lemma pack_own ng nF nc (x : nat -> nat -> R) z f j : (f < nF)%nat -> (j < ng)%nat ->
  nth (ng * f + j) (pack nF (fun _ => ng) nc x z) 0 = x f j.
Proof.
  intros Hf Hj. unfold pack. rewrite app_nth1 by (rewrite blocks_length; nia).
  induction nF as [|n IH]; [lia|]. rewrite seq_S, flat_map_app. cbn [flat_map]. rewrite app_nil_r.
  destruct (Nat.eq_dec f n) as [->|D].
  - rewrite app_nth2 by (rewrite blocks_length; lia). rewrite blocks_length.
    replace (ng * n + j - ng * n)%nat with j by lia. cbn [Nat.add].
    rewrite (nth_indep _ 0 (x n 0%nat)) by (rewrite map_length, seq_length; exact Hj). rewrite map_nth, seq_nth by exact Hj. reflexivity.
  - rewrite app_nth1 by (rewrite blocks_length; nia). apply IH. lia.
Qed.
Lemma pack_common ng nF nc (x : nat -> nat -> R) z j : (j < nc)%nat ->
  nth (ng * nF + j) (pack nF (fun _ => ng) nc x z) 0 = z j.
Proof.
  intros Hj. unfold pack. rewrite app_nth2 by (rewrite blocks_length; lia). rewrite blocks_length.
  replace (ng * nF + j - ng * nF)%nat with j by lia.
  rewrite (nth_indep _ 0 (z 0%nat)) by (rewrite map_length, seq_length; exact Hj). rewrite map_nth, seq_nth by exact Hj. reflexivity.
Qed.
Lemma pack_length ng nF nc (x : nat -> nat -> R) z : length (pack nF (fun _ => ng) nc x z) = (ng * nF + nc)%nat.
Proof. unfold pack. rewrite app_length, blocks_length, map_length, seq_length. reflexivity. Qed.

Lemma objective_ext nb w nc lam Bs x z x' z' : rows_fit nb w Bs ->
  (forall i j, (i < nb)%nat -> (j < w i)%nat -> x i j = x' i j) -> (forall j, (j < nc)%nat -> z j = z' j) ->
  block_objective nb w nc lam Bs x z = block_objective nb w nc lam Bs x' z'.
Proof.
  intros Hf Hx Hz. unfold block_objective. f_equal.
  - f_equal. f_equal.
    + apply sumn_ext. intros i Hi. apply sumn_ext. intros j Hj. rewrite Hx by assumption. reflexivity.
    + apply sumn_ext. intros j Hj. rewrite Hz by assumption. reflexivity.
  - apply rsum_map_ext. intros B HB. destruct (Hf B HB) as [Hb Hw]. apply sumn_ext. intros k _.
    assert (E : row_left nc B x z k = row_left nc B x' z' k); [|rewrite E; reflexivity].
    unfold row_left. f_equal. f_equal.
    + apply sumn_ext. intros j Hj. rewrite Hx by (auto; lia). reflexivity.
    + apply sumn_ext. intros j Hj. rewrite Hz by assumption. reflexivity.
Qed.

Lemma solver_rows_fit universal nF o x : length (mo_per o) = nF -> rows_fit nF (fun _ => length (own universal)) (solver_rows universal o x).
Proof.
  intros L B HB. unfold solver_rows in HB. apply in_map_iff in HB. destruct HB as (c & <- & Hc). cbn [br_blk br_w].
  split; [|reflexivity]. rewrite <- L. apply mcalls_at. exact Hc.
Qed.

(** The packed solution of the blocks is the minimum of the step objective. *)
Lemma packed_minimum universal nF reg o X x z : 0 <= reg -> length (mo_per o) = nF -> rows_ok o X ->
  block_minimiser nF (fun _ => length (own universal)) (length (common universal))
    (block_objective nF (fun _ => length (own universal)) (length (common universal)) (sqrt reg) (solver_rows universal o X)) x z ->
  one_minimum (total_size universal nF) (step_objective universal nF reg o X)
    (fun p => nth p (pack nF (fun _ => length (own universal)) (length (common universal)) x z) 0).
Proof.
  intros Hr L Rok M. set (d := fun p => nth p (pack _ _ _ _ _) 0).
  assert (E : step_objective universal nF reg o X d =
     block_objective nF (fun _ => length (own universal)) (length (common universal)) (sqrt reg) (solver_rows universal o X) x z).
  { rewrite <- objective_eq by assumption. apply objective_ext; [apply solver_rows_fit; exact L| |].
    - intros i j Hi Hj. unfold d. apply pack_own; assumption.
    - intros j Hj. unfold d. apply pack_common; assumption. }
  intros d'. rewrite E. rewrite <- (objective_eq universal nF reg o X d' Hr Rok).
  destruct (M (fun f j => d' (length (own universal) * f + j)%nat) (fun j => d' (length (own universal) * nF + j)%nat)) as [M1 M2].
  split; [exact M1|]. intros Ed p Hp. destruct (M2 Ed) as [A B]. rewrite total_size_eq in Hp.
  destruct (Nat.lt_ge_cases p (length (own universal) * nF)) as [C|C].
  - assert (N : (length (own universal) <> 0)%nat) by (intros Z; rewrite Z in C; lia).
    pose proof (Nat.div_mod p _ N) as D. pose proof (Nat.mod_upper_bound p _ N) as Um.
    assert (F : (p / length (own universal) < nF)%nat) by (apply Nat.div_lt_upper_bound; assumption).
    unfold d. rewrite D. rewrite (A _ _ F Um). symmetry. apply pack_own; assumption.
  - replace p with (length (own universal) * nF + (p - length (own universal) * nF))%nat by lia.
    rewrite (B (p - length (own universal) * nF)%nat) by lia. unfold d. symmetry. apply pack_common. lia.
Qed.
