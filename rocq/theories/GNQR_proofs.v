(** Lemmas for C107. *)

From Coq Require Import Reals List Arith Bool Lia Lra Psatz.
From Verif Require Import ListUtil LinAlg Rbool QR_spec QR_model QR_gen_proofs QR_proofs
  Solver_spec Solver_model Solver_proofs Solver_lin_proofs Solver_step_proofs Solver_run_proofs
  TrustRegion_spec TrustRegion_model TrustRegion_proofs GNQR_spec GNQR_model.
Import ListNotations.
Local Open Scope R_scope.

Lemma gq_factor_run f reg E p : gq_factor f reg E p =
  qr_run (length E) (sqrt reg) (map (tr_lsq E) (filter (fun rows => negb (length rows =? 0)%nat) (map snd (tr_blocks f p)))).
Proof.
  unfold gq_factor, qr_run. generalize (qr_reset (length E) (sqrt reg)).
  induction (filter _ _) as [|r l IH]; intros q; cbn [fold_left map]; [reflexivity|]. apply IH.
Qed.

Lemma rsum_app' (a b : list R) : rsum (a ++ b) = rsum a + rsum b.
Proof. induction a as [|x a IH]; cbn; [ring|]. rewrite IH. ring. Qed.
Lemma block_sum {A} (d : A) (F : A -> R) (rows : list A) : sumn (length rows) (fun k => F (nth k rows d)) = rsum (map F rows).
Proof. induction rows as [|x rows IH]; [reflexivity|]. cbn [length]. rewrite sumn_shift. cbn [nth map rsum]. rewrite IH. reflexivity. Qed.
Lemma skip_empty {A} (F : A -> R) (ls : list (list A)) :
  rsum (map (fun rows => rsum (map F rows)) (filter (fun rows => negb (length rows =? 0)%nat) ls)) = rsum (map F (concat ls)).
Proof.
  induction ls as [|l ls IH]; [reflexivity|]. cbn [filter concat]. destruct l as [|x l]; [exact IH|]. cbn [length Nat.eqb negb map rsum].
  rewrite map_app, rsum_app', IH. reflexivity.
Qed.

Lemma gram_rows E reg ls i j : 0 < reg -> (i < length E)%nat -> (j < length E)%nat -> NoDup E ->
  gram (sqrt reg) (map (tr_lsq E) (filter (fun rows => negb (length rows =? 0)%nat) ls)) i j = normal_matrix (concat ls) reg (nth i E 0%nat) (nth j E 0%nat).
Proof.
  intros Hr Hi Hj ND. unfold gram, normal_matrix. rewrite Rplus_comm, map_map. f_equal.
  - rewrite <- skip_empty. apply rsum_map_ext. intros rows _. cbn [tr_lsq lb_rows lb_A].
    exact (block_sum ([], 0) (fun row => nth (nth i E 0%nat) (fst row) 0 * nth (nth j E 0%nat) (fst row) 0) rows).
  - rewrite sqrt_sqrt by lra. destruct (Nat.eqb_spec i j) as [-> |N]; [rewrite Nat.eqb_refl; reflexivity|].
    destruct (Nat.eqb_spec (nth i E 0%nat) (nth j E 0%nat)) as [Q|]; [|reflexivity]. exfalso. apply N.
    exact (proj1 (NoDup_nth E 0%nat) ND i j Hi Hj Q).
Qed.
Lemma rhs_rows E ls i : rhs (map (tr_lsq E) (filter (fun rows => negb (length rows =? 0)%nat) ls)) i = normal_rhs (concat ls) (nth i E 0%nat).
Proof.
  unfold rhs, normal_rhs. rewrite map_map, <- skip_empty. apply rsum_map_ext. intros rows _. cbn [tr_lsq lb_rows lb_A lb_b].
  exact (block_sum ([], 0) (fun row => nth (nth i E 0%nat) (fst row) 0 * snd row) rows).
Qed.

(** One iteration, in the form of the specification of the subset solver. *)
Lemma gq_iterate_spec f reg search s : 0 < reg -> length (g_params s) = tr_n f ->
  let s' := gq_iterate f reg search s in
  let rows := tr_rows f (g_params s) in
  g_active s' = g_active s /\ g_error s' = tr_reported f (g_params s) /\ length (g_params s') = tr_n f /\
  exists delta, step_solves rows reg (g_active s) (tr_n f) delta /\
  exists k, (k < 10)%nat /\ (search = false -> k = 0%nat) /\ moved (g_params s) delta ((1 / 2) ^ k) (g_params s') /\
    (search = true -> forall g, g = sumn (tr_n f) (fun i => if g_active s i then normal_rhs rows i * nth i delta 0 else 0) ->
      (forall j, (j < k)%nat -> forall q, moved (g_params s) delta ((1 / 2) ^ j) q ->
        g_error s' - tr_error f q < 1 / 10000 * (1 / 2) ^ j * g) /\
      (S k = 10%nat \/ 1 / 10000 * (1 / 2) ^ k * g <= g_error s' - tr_error f (g_params s'))).
Proof.
  intros Hr Lp. cbv zeta. unfold gq_iterate. set (p := g_params s) in *. set (n := tr_n f) in *. set (en := g_active s).
  set (E := enabled_indices n en). rewrite gq_factor_run.
  set (ls := map snd (tr_blocks f p)). set (Bs := map (tr_lsq E) _). set (q := qr_run (length E) (sqrt reg) Bs).
  set (x := qr_result q). set (delta := tr_full n E x). set (rows := tr_rows f p).
  assert (Hs : sqrt reg <> 0) by (apply Rgt_not_eq, sqrt_lt_R0, Hr).
  assert (ND : NoDup E) by apply enabled_NoDup.
  destruct (scatter_spec E x (repeat 0 n) ND) as (Sl & Ss & So).
  { intros i Hi. apply enabled_in in Hi. rewrite repeat_length. apply Hi. }
  change (fold_left _ _ (repeat 0 n)) with delta in Sl, Ss, So. rewrite repeat_length in Sl.
  assert (Hout : forall i, (i < n)%nat -> en i = false -> nth i delta 0 = 0).
  { intros i Hi Hf. rewrite So; [apply nth_repeat|]. intros Hx. apply enabled_in in Hx. destruct Hx; congruence. }
  assert (Ldel : length delta = length p) by lia.
  assert (Step : step_solves rows reg en n delta).
  { split; [lia|]. split; [exact Hout|]. intros i Hi He. assert (Ii : In i E) by (apply enabled_in; auto).
    destruct (In_nth E i 0%nat Ii) as (a & Ha & Hai). rewrite <- Hai.
    pose proof (result_normal (length E) (sqrt reg) Bs Hs a Ha) as RN. fold q in RN. fold x in RN.
    unfold rows, tr_rows. fold ls. rewrite <- rhs_rows. fold Bs. rewrite <- RN.
    transitivity (rsum (map (fun j => normal_matrix (concat ls) reg (nth a E 0%nat) j * nth j delta 0) (enabled_indices n en))).
    - unfold enabled_indices. rewrite rsum_filter. unfold sumn. apply rsum_map_ext.
      intros j Hj. apply in_seq in Hj. destruct (en j) eqn:Ej; [reflexivity|]. rewrite Hout by (auto; lia). ring.
    - fold E. rewrite rsum_as_sumn. apply sumn_ext. intros b Hb. rewrite Ss by exact Hb. unfold Bs. rewrite gram_rows by assumption. reflexivity. }
  assert (Hinner : - - sumn (length E) (fun i => nth i (qr_At_times_b q) 0 * x i) =
     sumn n (fun i => if en i then normal_rhs rows i * nth i delta 0 else 0)).
  { rewrite Ropp_involutive. transitivity (rsum (map (fun i => normal_rhs rows i * nth i delta 0) E)).
    - rewrite rsum_as_sumn. apply sumn_ext. intros k Hk. unfold q. rewrite qr_At_times_b_spec, nth_map_seq by exact Hk.
      unfold Bs. rewrite rhs_rows, Ss by exact Hk. reflexivity.
    - unfold E, enabled_indices. rewrite rsum_filter. reflexivity. }
  cbn [g_params g_error g_active]. rewrite Hinner. set (g0 := sumn n _) in *. fold (tr_reported f p). set (e := tr_reported f p).
  split; [reflexivity|]. split; [reflexivity|].
  assert (K : exists k, (k < 10)%nat /\ (search = false -> k = 0%nat) /\
    moved p delta ((1 / 2) ^ k) (if search then line_search (tr_error f) (fun alpha errNew => Rleb (1 / 10000 * alpha * g0) (e - errNew)) p delta 10 1 p else lsub p delta) /\
    (search = true -> forall g, g = g0 ->
      (forall j, (j < k)%nat -> forall q, moved p delta ((1 / 2) ^ j) q -> e - tr_error f q < 1 / 10000 * (1 / 2) ^ j * g) /\
      (S k = 10%nat \/ 1 / 10000 * (1 / 2) ^ k * g <= e - tr_error f (if search then line_search (tr_error f) (fun alpha errNew => Rleb (1 / 10000 * alpha * g0) (e - errNew)) p delta 10 1 p else lsub p delta)))).
  { destruct search.
    - destruct (line_search_spec (tr_error f) (fun alpha errNew => Rleb (1 / 10000 * alpha * g0) (e - errNew)) p delta 10 1 p ltac:(lia)) as (k & Hk & Hq & Hj & Ha).
      exists k. rewrite Hq. rewrite !Rmult_1_l in *. split; [exact Hk|]. split; [discriminate|].
      split; [apply moved_lsub; exact Ldel|]. intros _ g ->. split.
      + intros j Hlt z Hz. specialize (Hj j Hlt). rewrite Rmult_1_l in Hj. apply Rleb_false in Hj.
        rewrite (moved_unique _ _ _ _ _ Hz (moved_lsub _ delta ((1 / 2) ^ j) Ldel)). exact Hj.
      + destruct Ha as [Ha|Ha]; [right; apply Rleb_true in Ha; exact Ha|left; exact Ha].
    - exists 0%nat. split; [lia|]. split; [reflexivity|]. split; [cbn [pow]; apply moved_one; exact Ldel|discriminate]. }
  split; [|exists delta; split; [exact Step|exact K]].
  destruct K as (k & _ & _ & (L & _) & _). rewrite L. exact Lp.
Qed.

(** A regularised step is determined by the rows. *)
Lemma step_unique rows reg en n d d' : 0 < reg -> step_solves rows reg en n d -> step_solves rows reg en n d' -> d = d'.
Proof.
  intros Hr (L & Z & S) (L' & Z' & S'). apply (nth_ext d d' 0 0); [congruence|]. intros i Hi. rewrite L in Hi.
  set (z := fun j => nth j d 0 - nth j d' 0).
  destruct (Req_dec (z i) 0) as [A|N]; [unfold z in A; lra|]. exfalso.
  pose proof (normal_posdef n rows reg Hr z (ex_intro _ i (conj Hi N))) as P. unfold quad in P. rewrite (sumn_zero n) in P; [lra|].
  intros j Hj. destruct (en j) eqn:Ej.
  - assert (E0 : sumn n (fun k => normal_matrix rows reg j k * z k) = 0); [|rewrite E0; ring].
    rewrite (sumn_ext n _ (fun k => normal_matrix rows reg j k * nth k d 0 + (- (1)) * (normal_matrix rows reg j k * nth k d' 0))) by (intros; unfold z; ring).
    rewrite sumn_plus, sumn_scal, (S j Hj Ej), (S' j Hj Ej). ring.
  - unfold z. rewrite Z, Z' by assumption. ring.
Qed.

(** The simulation of a whole solve. *)
Lemma solve_sim {A B} (pa : A -> list R) (ea : A -> R) (ia : A -> A) (pb : B -> list R) (eb : B -> R) (ib : B -> B) (Rel : A -> B -> Prop) o n a b :
  (forall x y, Rel x y -> Rel (ia x) (ib y) /\ pa (ia x) = pb (ib y) /\ ea (ia x) = eb (ib y)) ->
  Rel a b -> pa a = pb b -> ea a = eb b -> solve pa ea ia o n a = solve pb eb ib o n b.
Proof.
  intros Sim R0 P0 E0. unfold solve.
  set (h := {| h_params := repeat (repeat 0 n) (o_max o); h_error := repeat 0 (o_max o); h_iterations := 0 |}).
  assert (G : forall fuel it last x y h, Rel x y -> pa x = pb y -> ea x = eb y ->
    let r := solve_loop pa ea ia o fuel it last x h in let r' := solve_loop pb eb ib o fuel it last y h in
    pa (fst r) = pb (fst r') /\ ea (fst r) = eb (fst r') /\ snd r = snd r').
  { induction fuel as [|fuel IH]; intros it last x y h' Rl P E; cbv zeta; cbn [solve_loop]; [auto|].
    destruct (Sim x y Rl) as (R1 & P1 & E1). rewrite P1, E1. destruct ((o_min o <=? it)%nat && converged o last (eb (ib y))).
    - cbn [fst snd]. auto.
    - apply IH; assumption. }
  specialize (G (o_max o) 0%nat dbl_max a b h R0 P0 E0). cbv zeta in G.
  destruct (solve_loop pa ea ia o (o_max o) 0 dbl_max a h) as [sa ha], (solve_loop pb eb ib o (o_max o) 0 dbl_max b h) as [sb hb]. cbn [fst snd] in G.
  destruct G as (-> & -> & ->). reflexivity.
Qed.

Lemma stacked_wf f : tr_wf f -> obj_wf (stacked f).
Proof. intros W. split; [apply le_n|]. intros p Lp. cbn. split; [rewrite map_length, seq_length; reflexivity|]. intros row Hr. exact (W p row Lp Hr). Qed.

(** Both solvers take the same iterations. *)
Lemma gq_sub_step lin f reg search en s t : tr_wf f -> solves_spd lin -> 0 < reg -> sub_inv (stacked f) en t -> g_active s = en -> g_params s = s_params t ->
  let s' := gq_iterate f reg search s in let t' := sub_iterate lin (stacked f) reg search t in
  sub_inv (stacked f) en t' /\ g_active s' = en /\ g_params s' = s_params t' /\ g_error s' = s_error t'.
Proof.
  intros W L Hr I A P. cbv zeta.
  destruct (sub_iterate_spec lin (stacked f) reg search en t (stacked_wf f W) I) as (I' & E' & St' & (k' & K' & F' & M' & S')).
  cbv zeta in *. specialize (St' L Hr). cbn [ob_jacobian stacked fst snd ob_n] in *.
  assert (Lp : length (g_params s) = tr_n f) by (rewrite P; exact (proj1 I)).
  destruct (gq_iterate_spec f reg search s Hr Lp) as (A1 & E1 & L1 & delta & St & k & K & F & M & SR). cbv zeta in *.
  set (s' := gq_iterate f reg search s) in *. set (t' := sub_iterate lin (stacked f) reg search t) in *.
  rewrite A in *. rewrite <- P in *.
  assert (D : delta = s_delta t') by exact (step_unique _ _ _ _ _ _ Hr St St'). rewrite <- D in *.
  split; [exact I'|]. split; [exact A1|]. split; [|congruence].
  assert (EK : k = k'); [|subst k'; exact (moved_unique _ _ _ _ _ M M')].
  destruct search; [|rewrite F, F' by reflexivity; reflexivity].
  specialize (SR eq_refl _ eq_refl). specialize (S' eq_refl _ eq_refl). destruct SR as [S1 S2], S' as [S1' S2']. rewrite E1, E' in *.
  destruct (Nat.lt_trichotomy k k') as [Lt|[Eq|Gt]]; [|exact Eq|]; exfalso.
  - specialize (S1' k Lt _ M). cbn [ob_error stacked] in S1'. destruct S2 as [Q|Q]; [lia|lra].
  - specialize (S1 k' Gt _ M'). cbn [ob_error stacked] in S2'. destruct S2' as [Q|Q]; [lia|lra].
Qed.

Lemma gq_run_same lin f o active reg search p ops : tr_wf f -> solves_spd lin -> 0 < reg -> length p = tr_n f ->
  List.Forall (sizes_ok (stacked f)) ops ->
  last_enabled (enabled_sets ops) = active ->
  gq_run f o active reg search p = run lin (SubsetGaussNewton reg search) (stacked f) o (fold_left (sub_do lin (stacked f)) ops (fresh (stacked f))) p.
Proof.
  intros W L Hr Lp HO HA. unfold gq_run, run. cbn [iterate ob_n stacked].
  apply (solve_sim _ _ _ _ _ _ (fun s t => sub_inv (stacked f) active t /\ g_active s = active /\ g_params s = s_params t)).
  - intros x y (I & A & P). destruct (gq_sub_step lin f reg search active x y W L Hr I A P) as (I' & A' & P' & E'). auto.
  - split; [|split; reflexivity]. rewrite <- HA. apply sub_live_start; [exact Lp|]. apply sub_history; [apply stacked_wf, W|exact HO].
  - reflexivity.
  - reflexivity.
Qed.

(** Disabled parameters are never touched, whatever the regularisation. *)
Lemma gq_iterate_frame f reg search s : length (g_params s) = tr_n f ->
  let s' := gq_iterate f reg search s in
  g_active s' = g_active s /\ length (g_params s') = tr_n f /\
  forall i, (i < tr_n f)%nat -> g_active s i = false -> nth i (g_params s') 0 = nth i (g_params s) 0.
Proof.
  intros Lp. cbv zeta. unfold gq_iterate. cbv zeta. set (x := qr_result _). set (E := enabled_indices _ _).
  set (inner := - sumn _ _). set (delta := tr_full _ _ _).
  destruct (scatter_spec E x (repeat 0 (tr_n f)) (enabled_NoDup _ _)) as (Sl & _ & So).
  { intros i Hi. apply enabled_in in Hi. rewrite repeat_length. apply Hi. }
  change (fold_left _ _ (repeat 0 (tr_n f))) with delta in Sl, So. rewrite repeat_length in Sl.
  assert (Ldel : length delta = length (g_params s)) by lia.
  cbn [g_active g_params]. split; [reflexivity|].
  assert (K : exists t, moved (g_params s) delta t (if search then line_search (tr_error f) (fun alpha errNew => Rleb (1 / 10000 * alpha * - inner) (rsum (map fst (tr_blocks f (g_params s))) - errNew)) (g_params s) delta 10 1 (g_params s) else lsub (g_params s) delta)).
  { destruct search; [|exists 1; apply moved_one; exact Ldel].
    destruct (line_search_spec (tr_error f) (fun alpha errNew => Rleb (1 / 10000 * alpha * - inner) (rsum (map fst (tr_blocks f (g_params s))) - errNew)) (g_params s) delta 10 1 (g_params s) ltac:(lia)) as (k & _ & -> & _).
    eexists. apply moved_lsub, Ldel. }
  destruct K as (t & L & M). split; [lia|]. intros i Hi Ha. rewrite M by lia. rewrite So; [rewrite nth_repeat; ring|].
  intros Hx. apply enabled_in in Hx. destruct Hx; congruence.
Qed.
Lemma gq_solve_frame f o active reg search p : length p = tr_n f ->
  let r := gq_run f o active reg search p in
  length (r_params r) = tr_n f /\ forall i, (i < tr_n f)%nat -> active i = false -> nth i (r_params r) 0 = nth i p 0.
Proof.
  intros Lp. cbv zeta. unfold gq_run, solve.
  set (I := fun s => g_active s = active /\ length (g_params s) = tr_n f /\ forall i, (i < tr_n f)%nat -> active i = false -> nth i (g_params s) 0 = nth i p 0).
  assert (G : forall fuel it last s h, I s -> I (fst (solve_loop g_params g_error (gq_iterate f reg search) o fuel it last s h))).
  { induction fuel as [|fuel IH]; intros it last s h Hs; cbn [solve_loop]; [exact Hs|].
    assert (Hn : I (gq_iterate f reg search s)).
    { destruct Hs as (A & L & F). destruct (gq_iterate_frame f reg search s L) as (A' & L' & F'). split; [congruence|]. split; [exact L'|].
      intros i Hi Ha. rewrite F' by (rewrite ?A; assumption). apply F; assumption. }
    destruct (_ && _); [exact Hn|]. apply IH. exact Hn. }
  set (s0 := {| g_params := p; g_error := dbl_max; g_active := active |}). set (h := {| h_params := _; h_error := _; h_iterations := _ |}).
  assert (I0 : I s0) by (split; [reflexivity|split; [exact Lp|reflexivity]]).
  specialize (G (o_max o) 0%nat dbl_max s0 h I0). destruct (solve_loop _ _ _ _ _ _ _ _ _) as [s h']. cbn [fst] in G. cbn [r_params]. split; apply G.
Qed.

(** The step is at most one and the slope nonnegative. *)
Lemma gq_search_first f reg active p j q delta : 0 < reg -> length p = tr_n f -> tr_consistent f ->
  let s' := gq_iterate f reg true {| g_params := p; g_error := 0; g_active := active |} in
  let slope := sumn (tr_n f) (fun i => if active i then normal_rhs (tr_rows f p) i * nth i delta 0 else 0) in
  step_solves (tr_rows f p) reg active (tr_n f) delta ->
  (j < 10)%nat -> moved p delta ((1 / 2) ^ j) q -> 1 / 10000 * (1 / 2) ^ j * slope <= tr_error f p - tr_error f q ->
  tr_error f (g_params s') <= tr_error f p /\
  exists k, (k <= j)%nat /\ moved p delta ((1 / 2) ^ k) (g_params s') /\
    1 / 10000 * (1 / 2) ^ k * slope <= tr_error f p - tr_error f (g_params s') /\
    forall i z, (i < k)%nat -> moved p delta ((1 / 2) ^ i) z -> tr_error f p - tr_error f z < 1 / 10000 * (1 / 2) ^ i * slope.
Proof.
  intros Hr Lp C. cbv zeta. intros St Hj Mj Hacc.
  destruct (gq_iterate_spec f reg true {| g_params := p; g_error := 0; g_active := active |} Hr Lp) as (_ & E1 & _ & d & St1 & k & K & _ & M & SR).
  cbv zeta in *. cbn [g_params g_active] in *. set (s' := gq_iterate _ _ _ _) in *.
  assert (D : d = delta) by exact (step_unique _ _ _ _ _ _ Hr St1 St). subst d.
  specialize (SR eq_refl _ eq_refl). destruct SR as [S1 S2]. rewrite E1, (C p Lp) in *. set (g := sumn _ _) in *.
  assert (Kj : (k <= j)%nat). { destruct (le_lt_dec k j) as [|Gt]; [assumption|]. exfalso. specialize (S1 j Gt q Mj). lra. }
  assert (Acc : 1 / 10000 * (1 / 2) ^ k * g <= tr_error f p - tr_error f (g_params s')).
  { destruct S2 as [Q|Q]; [|exact Q]. assert (k = j) by lia. subst k. rewrite (moved_unique _ _ _ _ _ M Mj). exact Hacc. }
  assert (G : 0 <= g).
  { destruct St as (L & Z & S). 
    assert (Eg : g = quad (tr_n f) (normal_matrix (tr_rows f p) reg) (fun i => nth i delta 0)).
    { unfold g, quad. apply sumn_ext. intros i Hi. destruct (active i) eqn:Ea; [rewrite S by assumption; ring|rewrite Z by assumption; ring]. }
    rewrite Eg, quad_normal. apply Rplus_le_le_0_compat; [apply rsum_nonneg; intros; nra|].
    apply Rmult_le_pos; [lra|]. apply rsum_nonneg. intros; nra. }
  assert (0 < (1 / 2) ^ k) by (apply pow_lt; lra).
  split; [assert (0 <= 1 / 10000 * (1 / 2) ^ k * g) by (apply Rmult_le_pos; [nra|exact G]); lra|].
  exists k. split; [exact Kj|]. split; [exact M|]. split; [exact Acc|]. intros i z Hi Hz. exact (S1 i Hi z Hz).
Qed.
