(** Lemmas for C109: the Jacobian of several poses. *)

From Coq Require Import Bool List Arith Lia Reals Lra.
From Verif Require Import Prelude LinAlg Rbool ListUtil Loops Seq_spec Seq_model Seq_proofs Seq_multi_proofs
  SeqFn_model SeqFn_spec SeqFn_proofs SeqFn_jac_proofs MpFn_model MpFn_spec MpFn_proofs.
Import ListNotations.
Local Open Scope outcome_scope.
Local Open Scope nat_scope.

Local Notation jrow := (option ((nat -> R) * R)).
Definition entry_of (x : jrow) (c : nat) : R := match x with Some row => fst row c | None => 0%R end.
Definition ent (rs : list jrow) (q c : nat) : R := match nth_error rs q with Some x => entry_of x c | None => 0%R end.
Definition over (pos : nat) (rs : list jrow) (old : nat -> R) (q : nat) : R :=
  if pos <=? q then match nth_error rs (q - pos) with Some (Some row) => snd row | _ => old q end else old q.

Lemma over_app pos a b old q : over (pos + length a) b (over pos a old) q = over pos (a ++ b) old q.
Proof.
  unfold over. destruct (Nat.leb_spec pos q) as [H|H].
  - destruct (Nat.leb_spec (pos + length a) q) as [H2|H2].
    + rewrite (nth_error_app2 a b) by lia. replace (q - pos - length a) with (q - (pos + length a)) by lia.
      destruct (nth_error b (q - (pos + length a))) as [[row|]|] eqn:E; try reflexivity;
      rewrite (proj2 (nth_error_None a (q - pos))) by lia; reflexivity.
    + rewrite (nth_error_app1 a b) by lia. reflexivity.
  - destruct (Nat.leb_spec (pos + length a) q); [lia|reflexivity].
Qed.
Lemma over_ext pos rs a b q : (forall q, a q = b q) -> over pos rs a q = over pos rs b q.
Proof. intros H. unfold over. destruct (pos <=? q); [destruct (nth_error rs (q - pos)) as [[row|]|]; auto|auto]. Qed.
Lemma over_nil pos old q : over pos [] old q = old q.
Proof. unfold over. destruct (pos <=? q); [|reflexivity]. destruct (q - pos); reflexivity. Qed.
Lemma asked_length e x : length (se_rows e [x]) <= se_size e -> length (asked_rows e x) = se_size e.
Proof. intros H. unfold asked_rows. rewrite app_length, map_length, repeat_length. lia. Qed.
Lemma asked_nth e x q : length (se_rows e [x]) <= se_size e -> q < se_size e ->
  nth_error (asked_rows e x) q = Some (nth_error (se_rows e [x]) q).
Proof.
  intros H Hq. unfold asked_rows. destruct (Nat.ltb_spec q (length (se_rows e [x]))) as [L|L].
  - rewrite nth_error_app1 by (rewrite map_length; exact L). rewrite nth_error_map, (nth_error_nth' _ (fun _ => 0%R, 0%R)) by exact L. reflexivity.
  - rewrite nth_error_app2, map_length by (rewrite map_length; exact L). rewrite (proj2 (nth_error_None (se_rows e [x]) q)) by exact L.
    apply nth_error_repeat. lia.
Qed.

Definition fn_rows (x : list R) (fs : list serr) : list jrow := flat_map (fun e => asked_rows e x) fs.
Lemma fn_rows_length x fs : (forall e, In e fs -> length (se_rows e [x]) <= se_size e) -> length (fn_rows x fs) = list_sum (map se_size fs).
Proof.
  induction fs as [|e fs IH]; intros H; [reflexivity|]. cbn [fn_rows flat_map map list_sum fold_right]. rewrite app_length, asked_length by (apply H; left; reflexivity).
  f_equal. apply IH. intros e' H'. apply H. right. exact H'.
Qed.

Lemma frame_steps maxRows x fs : forall A t, (forall e, In e fs -> length (se_rows e [x]) <= se_size e) ->
  t_loc t = length A -> length A + list_sum (map se_size fs) <= maxRows -> t_pos t + list_sum (map se_size fs) <= fv_len (t_r t) ->
  (forall q c, t_at t q c = ent A q c) -> Forall (fun e => active e = true) fs ->
  exists t', ofold (frame_step maxRows x) fs t = Ok t' /\ t_loc t' = length (A ++ fn_rows x fs) /\
    (forall q c, t_at t' q c = ent (A ++ fn_rows x fs) q c) /\ fv_len (t_r t') = fv_len (t_r t) /\
    (forall q, fv_at (t_r t') q = over (t_pos t) (fn_rows x fs) (fv_at (t_r t)) q) /\
    t_pos t' = t_pos t + length (fn_rows x fs) /\ t_err t' = (t_err t + rsum (map (fun e => se_jerror e [x]) fs))%R.
Proof.
  induction fs as [|e fs IH]; intros A t Hr HL HM HP HA Hact.
  - exists t. cbn. rewrite app_nil_r. repeat (split; auto); [intros; rewrite over_nil; reflexivity|lia|lra].
  - cbn [ofold]. pose proof (Forall_inv Hact) as Ae. pose proof (Forall_inv_tail Hact) as At. cbn [map list_sum fold_right] in HM, HP.
    change (fold_right Nat.add 0 (map se_size fs)) with (list_sum (map se_size fs)) in *. assert (Re : length (se_rows e [x]) <= se_size e) by (apply Hr; left; reflexivity).
    unfold frame_step at 1. unfold active in Ae. destruct (Rleb (se_weight e) 0); [discriminate Ae|].
    destruct (Nat.leb_spec (t_loc t + se_size e) maxRows) as [_|]; [|lia]. unfold put_residual.
    destruct (Nat.leb_spec (t_pos t + se_size e) (fv_len (t_r t))) as [_|]; [|lia]. destruct (Nat.leb_spec (length (se_rows e [x])) (se_size e)) as [_|]; [|lia]. cbn [andb obind].
    match goal with |- context [ofold _ fs ?t1] => destruct (IH (A ++ asked_rows e x) t1) as (t' & E & L & At' & Lr & Rr & P & Er) end.
    + intros e' H'. apply Hr. right. exact H'.
    + cbn. rewrite app_length, asked_length by exact Re. lia.
    + rewrite app_length, asked_length by exact Re. lia.
    + cbn. lia.
    + intros q c. cbn [t_at]. rewrite HL, HA. unfold ent, temp_at. destruct (Nat.leb_spec (length A) q) as [Hq|Hq]; cbn [andb].
      * destruct (Nat.ltb_spec q (length A + length (se_rows e [x]))) as [H2|H2].
        -- rewrite nth_error_app2 by exact Hq. rewrite asked_nth by (exact Re || lia). rewrite (nth_error_nth' _ (fun _ => 0%R, 0%R)) by lia. reflexivity.
        -- rewrite (proj2 (nth_error_None A q)) by exact Hq. rewrite nth_error_app2 by exact Hq. destruct (Nat.ltb_spec (q - length A) (se_size e)) as [H3|H3].
           ++ rewrite asked_nth by (exact Re || lia). rewrite (proj2 (nth_error_None (se_rows e [x]) (q - length A))) by lia. reflexivity.
           ++ rewrite (proj2 (nth_error_None (asked_rows e x) (q - length A))) by (rewrite asked_length by exact Re; lia). reflexivity.
      * rewrite nth_error_app1 by exact Hq. reflexivity.
    + exact At.
    + exists t'. split; [exact E|]. cbn [t_r t_pos t_err fv_at fv_len] in *. cbn [fn_rows flat_map]. fold (fn_rows x fs). rewrite app_assoc. repeat split.
      * exact L.
      * exact At'.
      * exact Lr.
      * intros q. rewrite Rr. rewrite <- over_app, asked_length by exact Re. apply over_ext. clear q. intros q.
        unfold over; destruct (Nat.leb_spec (t_pos t) q) as [Hq|Hq]; cbn [andb]; try reflexivity;
          destruct (Nat.ltb_spec q (t_pos t + length (se_rows e [x]))) as [H2|H2];
          [rewrite asked_nth by (exact Re || lia); rewrite (nth_error_nth' _ (fun _ => 0%R, 0%R)) by lia; reflexivity
          |destruct (Nat.ltb_spec (q - t_pos t) (se_size e)) as [H3|H3];
            [rewrite asked_nth by (exact Re || lia); rewrite (proj2 (nth_error_None (se_rows e [x]) (q - t_pos t))) by lia; reflexivity
            |rewrite (proj2 (nth_error_None (asked_rows e x) (q - t_pos t))) by (rewrite asked_length by exact Re; lia); reflexivity]].
      * rewrite P, app_length, asked_length by exact Re. lia.
      * rewrite Er. cbn [map rsum]. ring.
Qed.

Lemma frame_columns universal nF s f J pos n (src : nat -> nat -> R) : mp_wf universal nF s -> f < nF -> pos + n <= fm_rows J -> fm_cols J = total_size universal nF ->
  exists J', ofold (fun i J => let* p := mp_place s f i in put_col J pos p n (fun q => src q i)) (seq 0 (mp_np s)) J = Ok J' /\ same_dims J J' /\
    forall q g k, g < nF -> k < length universal ->
      fm_at J' q (place universal nF g k) = if in_rows pos n q && (uset universal k || (f =? g)) then src (q - pos) k else fm_at J q (place universal nF g k).
Proof.
  intros W Hf HR HC. rewrite (m_np _ _ _ W).
  destruct (ofold_seq_inv (fun i J => let* p := mp_place s f i in put_col J pos p n (fun q => src q i))
    (fun m J' => same_dims J J' /\ forall q g k, g < nF -> k < length universal ->
      fm_at J' q (place universal nF g k) = if (k <? m) && (in_rows pos n q && (uset universal k || (f =? g))) then src (q - pos) k else fm_at J q (place universal nF g k))
    (length universal) J) as (J' & E & D & A).
  - split; [split; reflexivity|]. intros. destruct (Nat.ltb_spec k 0); [lia|reflexivity].
  - intros m J1 Hm [[D1 D2] A]. rewrite (place_spec _ _ _ W) by assumption. cbn [obind].
    destruct (put_col_ok J1 pos (slot (length universal) (uset universal) all_on nF f m) n (fun q => src q m)) as (J2 & E & D & P).
    + rewrite D1. exact HR.
    + rewrite D2, HC. apply slot_bound; auto.
    + exists J2. split; [exact E|]. split; [eapply same_dims_trans; [split; [exact D1|exact D2]|exact D]|]. intros q g k Hg Hk. rewrite P, A by assumption.
      change (slot (length universal) (uset universal) all_on nF f m) with (place universal nF f m). rewrite (Nat.eqb_sym (place universal nF g k)), place_eqb by assumption.
      destruct (Nat.eqb_spec m k) as [-> |D3]; cbn [andb].
      * destruct (Nat.ltb_spec k k) as [Bad|_]; [lia|]. destruct (Nat.ltb_spec k (S k)) as [_|Bad]; [|lia]. cbn [andb].
        destruct (uset universal k || (f =? g)); cbn [andb]; [rewrite andb_true_r; reflexivity|rewrite andb_false_r; reflexivity].
      * destruct (Nat.ltb_spec k m), (Nat.ltb_spec k (S m)); try lia; reflexivity.
  - exists J'. split; [exact E|]. split; [exact D|]. intros q g k Hg Hk. rewrite A by assumption. destruct (Nat.ltb_spec k (length universal)); [reflexivity|lia].
Qed.

Lemma padded_rounds n : rounds_up n (padded n).
Proof.
  unfold rounds_up, padded. pose proof (Nat.div_mod_eq n 8) as D. pose proof (Nat.mod_upper_bound n 8 ltac:(lia)) as B. set (m := n mod 8) in *. set (d := n / 8) in *.
  clearbody m d. split; [lia|]. exists (d + 1). lia.
Qed.
Lemma rounds_up_unique n a b : rounds_up n a -> rounds_up n b -> a = b.
Proof. intros [A (k & ->)] [B (j & ->)]. lia. Qed.
Lemma fold_max_le l : forall a x, (In x l -> x <= fold_left Nat.max l a) /\ a <= fold_left Nat.max l a.
Proof.
  induction l as [|y l IH]; intros a x; cbn [fold_left In]; [split; [tauto|lia]|]. destruct (IH (Nat.max a y) x) as [H1 H2]. split; [|lia].
  intros [-> |H]; [lia|auto].
Qed.

Definition rows_upto (o : mpobj) (x : nat -> list R) (k : nat) : list (nat * jrow) :=
  flat_map (fun f => map (pair f) (fn_rows (x f) (frame_fns o f))) (seq 0 k).
Lemma rows_upto_S o x k : rows_upto o x (S k) = rows_upto o x k ++ map (pair k) (fn_rows (x k) (frame_fns o k)).
Proof. unfold rows_upto. rewrite seq_S, flat_map_app. cbn [flat_map]. rewrite app_nil_r. reflexivity. Qed.
Lemma rows_upto_all o x : rows_upto o x (length (mo_per o)) = pose_rows o x.
Proof.
  unfold rows_upto, pose_rows, mcalls, frame_fns. induction (seq 0 (length (mo_per o))) as [|f l IH]; [reflexivity|]. cbn [flat_map]. rewrite flat_map_app, IH. f_equal.
  generalize (filter active (nth f (mo_per o) [])). intros fs. clear. unfold fn_rows. induction fs as [|e fs IH]; [reflexivity|]. cbn [flat_map map]. rewrite map_app, IH. reflexivity.
Qed.
Lemma fns_in o f e : f < length (mo_per o) -> In e (frame_fns o f) -> In (f, e) (mcalls o).
Proof. intros Hf He. unfold mcalls. apply in_flat_map. exists f. split; [apply in_seq; lia|]. apply in_map. exact He. Qed.
Lemma upto_le o x k n : k <= n -> length (rows_upto o x k) <= length (rows_upto o x n).
Proof. intros H. induction H; [lia|]. rewrite rows_upto_S, app_length. lia. Qed.
Lemma layout_rows o x : rows_ok o x -> map fst (pose_rows o x) = layout o.
Proof.
  intros H. unfold pose_rows, layout. unfold rows_ok in H. induction (mcalls o) as [|c l IH]; [reflexivity|]. cbn [flat_map]. rewrite map_app, IH by (intros; apply H; right; assumption). f_equal.
  rewrite map_map. cbn [fst]. rewrite <- (asked_length (snd c) (x (fst c))) by (apply H; left; reflexivity).
  induction (asked_rows (snd c) (x (fst c))) as [|y ys IH2]; [reflexivity|]. cbn. rewrite IH2. reflexivity.
Qed.
Lemma frame_size_fns o f : frame_size (nth f (mo_per o) []) = list_sum (map se_size (frame_fns o f)).
Proof. reflexivity. Qed.
Lemma layout_length o : length (layout o) = list_sum (map frame_size (mo_per o)).
Proof.
  rewrite <- (map_nth_seq frame_size [] (mo_per o)). unfold layout, mcalls. induction (seq 0 (length (mo_per o))) as [|f l IH]; [reflexivity|].
  cbn [flat_map map list_sum fold_right]. rewrite flat_map_app, app_length, IH. f_equal. rewrite frame_size_fns. unfold frame_fns.
  generalize (filter active (nth f (mo_per o) [])). intros fs. clear. induction fs as [|e fs IH]; [reflexivity|]. cbn [flat_map map list_sum fold_right]. rewrite app_length, repeat_length, IH. reflexivity.
Qed.

Definition jac_entry (universal : list bool) (rows : list (nat * jrow)) (old : R) (q g i : nat) : R :=
  match nth_error rows q with
  | Some (f, x) => if uset universal i || (f =? g) then entry_of x i else old
  | None => old
  end.

Lemma skip_inactive {S} (B : serr -> S -> outcome S) fs s : (forall e s, active e = false -> B e s = Ok s) -> ofold B fs s = ofold B (filter active fs) s.
Proof.
  intros H. revert s. induction fs as [|e fs IH]; intros s; [reflexivity|]. cbn [ofold filter]. destruct (active e) eqn:A.
  - cbn [ofold]. destruct (B e s); cbn [obind]; auto.
  - rewrite H by exact A. cbn [obind]. apply IH.
Qed.
Lemma mo_jacobian_spec universal nF o v J0 r0 : mo_wf universal nF o -> length v = total_size universal nF -> rows_ok o (pose universal nF v) ->
  let m := padded (length (layout o)) in
  let resized := (fm_rows J0 <? m) || negb (total_size universal nF =? fm_cols J0) in
  let J1 := if resized then FMat m (total_size universal nF) (fun _ _ => 0%R) else J0 in
  let r1 := if resized then FVec m (fun _ => 0%R) else r0 in
  (resized = false -> m <= fv_len r0) ->
  exists J r, mo_jacobian o v J0 r0 = Ok (J, r, m, rsum (map (fun c => se_jerror (snd c) [pose universal nF v (fst c)]) (mcalls o))) /\
    same_dims J1 J /\ fv_len r = fv_len r1 /\
    (forall q g i, g < nF -> i < length universal ->
       fm_at J q (place universal nF g i) = jac_entry universal (pose_rows o (pose universal nF v)) (fm_at J1 q (place universal nF g i)) q g i) /\
    (forall q, fv_at r q = over 0 (map snd (pose_rows o (pose universal nF v))) (fv_at r1) q).
Proof.
  intros W Lv Hr m resized J1 r1 Hfit. destruct (mo_set_spec universal nF o v W Lv) as (s & E & Ws & Fr). unfold mo_jacobian. rewrite E. cbn [obind].
  rewrite <- layout_length. fold m. rewrite (m_num _ _ _ Ws). change (joined_size (length universal) (uset universal) all_on nF) with (total_size universal nF). fold resized.
  replace (if resized then (FMat m (total_size universal nF) (fun _ _ => 0%R), FVec m (fun _ => 0%R)) else (J0, r0)) with (J1, r1) by (unfold J1, r1; destruct resized; reflexivity).
  assert (Hm : m <= fm_rows J1 /\ fm_cols J1 = total_size universal nF /\ m <= fv_len r1).
  { unfold J1, r1. destruct resized eqn:Q; cbn; [repeat split; lia|]. specialize (Hfit eq_refl). unfold resized in Q. apply orb_false_elim in Q. destruct Q as [Q1 Q2].
    apply Nat.ltb_ge in Q1. apply negb_false_iff, Nat.eqb_eq in Q2. auto. }
  destruct Hm as (HmR & HmC & Hmr). clearbody J1 r1. clear Hfit. clearbody resized.
  set (maxRows := fold_left Nat.max _ 0). set (x := pose universal nF v) in *.
  assert (HLm : length (rows_upto o x nF) < m).
  { rewrite <- (proj2 W), rows_upto_all, <- (map_length fst), layout_rows by exact Hr. apply (padded_rounds (length (layout o))). }
  rewrite (m_nF _ _ _ Ws).
  match goal with |- context [ofold ?B (seq 0 nF) ?s0] => destruct (ofold_seq_inv B
    (fun k st => j_pos st = length (rows_upto o x k) /\ same_dims J1 (j_J st) /\ fv_len (j_r st) = fv_len r1 /\
       (forall q g i, g < nF -> i < length universal -> fm_at (j_J st) q (place universal nF g i) = jac_entry universal (rows_upto o x k) (fm_at J1 q (place universal nF g i)) q g i) /\
       (forall q, fv_at (j_r st) q = over 0 (map snd (rows_upto o x k)) (fv_at r1) q) /\
       j_err st = sumn k (fun f => rsum (map (fun e => se_jerror e [x f]) (frame_fns o f)))) nF s0) as (st & E2 & _ & D & Lr & A & Ar & Er) end.
  - cbn [j_pos j_J j_r j_err]. split; [reflexivity|]. split; [split; reflexivity|]. split; [reflexivity|]. split; [|split].
    + intros. unfold jac_entry. destruct q; reflexivity.
    + intros. unfold over. cbn. destruct q; reflexivity.
    + rewrite sumn_0. reflexivity.
  - intros f st Hf (Hp & D & Lr & A & Ar & Er). rewrite (frame_rd universal nF v s f Fr Hf), (per_rd universal nF o f W Hf). cbn [obind]. fold (x f).
    assert (Hlen : f < length (mo_per o)) by (rewrite (proj2 W); exact Hf).
    assert (Hre : forall e, In e (frame_fns o f) -> length (se_rows e [x f]) <= se_size e) by (intros e He; apply (Hr (f, e)); apply fns_in; assumption).
    pose proof (fn_rows_length (x f) (frame_fns o f) Hre) as Lf.
    assert (HS : length (rows_upto o x (S f)) = length (rows_upto o x f) + list_sum (map se_size (frame_fns o f))) by (rewrite rows_upto_S, app_length, map_length, Lf; reflexivity).
    pose proof (upto_le o x (S f) nF Hf) as HU.
    assert (EF : forall t, ofold (frame_step maxRows (x f)) (nth f (mo_per o) []) t = ofold (frame_step maxRows (x f)) (frame_fns o f) t).
    { intros t. unfold frame_fns. apply skip_inactive. intros e t' He. unfold frame_step. unfold active in He. destruct (Rleb (se_weight e) 0); [reflexivity|discriminate He]. }
    rewrite EF.
    destruct (frame_steps maxRows (x f) (frame_fns o f) [] (TState (fun _ _ => 0%R) 0 (j_r st) (j_pos st) (j_err st)) Hre) as (t & Et & Lt & At & Lrt & Rt & Pt & ErT).
    + reflexivity.
    + cbn [length Nat.add]. transitivity (padded (frame_size (nth f (mo_per o) []))).
      * rewrite <- frame_size_fns. destruct (padded_rounds (frame_size (nth f (mo_per o) []))). lia.
      * apply (proj1 (fold_max_le (map (fun fs => padded (frame_size fs)) (mo_per o)) 0 _)). apply in_map_iff. exists (nth f (mo_per o) []). split; [reflexivity|]. apply nth_In. exact Hlen.
    + cbn [t_pos t_r]. rewrite Lr. lia.
    + intros q c. unfold ent. cbn. destruct q; reflexivity.
    + unfold frame_fns. apply Forall_forall. intros e He. apply filter_In in He. apply He.
    + rewrite Et. cbn [obind]. cbn [app t_r t_pos t_err] in *.
      destruct (frame_columns universal nF s f (j_J st) (j_pos st) (t_loc t) (fun q i => t_at t q i) Ws Hf) as (J' & EJ & DJ & AJ).
      * destruct D as [D1 D2]. rewrite D1, Lt, Hp, Lf. lia.
      * destruct D as [D1 D2]. rewrite D2. exact HmC.
      * rewrite EJ. cbn [obind]. eexists. split; [reflexivity|]. cbn [j_pos j_J j_r j_err].
        split; [|split; [eapply same_dims_trans; [exact D|exact DJ]|split; [congruence|split; [|split]]]].
        -- rewrite Pt, Hp, rows_upto_S, app_length, map_length. reflexivity.
        -- intros q g i Hg Hi. rewrite AJ, A by assumption. unfold jac_entry. rewrite rows_upto_S. set (Rk := rows_upto o x f) in *. unfold in_rows. rewrite Lt, Hp.
           destruct (Nat.leb_spec (length Rk) q) as [H1|H1]; cbn [andb].
           ++ rewrite (nth_error_app2 Rk) by exact H1. rewrite nth_error_map, (proj2 (nth_error_None Rk q)) by exact H1.
              destruct (Nat.ltb_spec q (length Rk + length (fn_rows (x f) (frame_fns o f)))) as [H2|H2]; cbn [andb].
              ** rewrite At. unfold ent. destruct (nth_error (fn_rows (x f) (frame_fns o f)) (q - length Rk)) as [y|] eqn:Q; [reflexivity|].
                 apply nth_error_None in Q. lia.
              ** rewrite (proj2 (nth_error_None (fn_rows (x f) (frame_fns o f)) (q - length Rk))) by lia. reflexivity.
           ++ rewrite nth_error_app1 by exact H1. reflexivity.
        -- intros q. rewrite Rt, rows_upto_S, map_app, map_map. cbn [snd]. rewrite map_id, <- over_app, map_length. cbn [Nat.add]. rewrite Hp. apply over_ext. exact Ar.
        -- rewrite ErT, Er, sumn_S. reflexivity.
  - rewrite E2. cbn [obind]. exists (j_J st), (j_r st).
    assert (RU : rows_upto o x nF = pose_rows o x) by (rewrite <- (rows_upto_all o x); rewrite (proj2 W); reflexivity). rewrite RU in A, Ar.
    split; [|split; [exact D|split; [exact Lr|split; [exact A|exact Ar]]]]. rewrite Er.
    pose proof (mcalls_sum o (fun f e => se_jerror e [x f])) as M. rewrite (proj2 W) in M. rewrite <- M. reflexivity.
Qed.
