(** Proofs about motion files. *)

From Coq Require Import List Arith Ascii NArith Lia Bool.
From Verif Require Import Prelude Loops Bytes Mmo_model Mmo_spec.
Import ListNotations.
Local Open Scope outcome_scope.

(** ** Round trip *)

Lemma load_name_put n r : (N.of_nat (length n) <= string_max)%N ->
  load_name {| s_rest := put_name n ++ r; s_good := true |} = Ok (n, {| s_rest := r; s_good := true |}).
Proof.
  intros H. unfold load_name, put_name. rewrite <- app_assoc, read_size_exact.
  - assert ((string_max <? N.of_nat (length n))%N = false) as -> by (apply N.ltb_ge; exact H).
    rewrite Nat2N.id, fread_exact by reflexivity. reflexivity.
  - unfold string_max in H. lia.
Qed.

Lemma load_names_put l : forall r, (forall n, In n l -> (N.of_nat (length n) <= string_max)%N) ->
  load_names (length l) {| s_rest := flat_map put_name l ++ r; s_good := true |} =
  Ok (l, {| s_rest := r; s_good := true |}).
Proof.
  induction l as [|n l IH]; intros r H; [reflexivity|].
  cbn [length load_names flat_map]. rewrite <- app_assoc, load_name_put by (apply H; cbn; auto).
  cbn [obind fst snd]. rewrite IH by (intros; apply H; cbn; auto). reflexivity.
Qed.

Lemma columns_concat rows cols : (forall c, In c cols -> length c = rows) ->
  columns rows (length cols) (concat cols) = cols.
Proof.
  induction cols as [|c cols IH]; intros H; [reflexivity|]. cbn [length columns concat].
  assert (length c = rows) as <- by (apply H; cbn; auto).
  rewrite firstn_app, Nat.sub_diag, firstn_all, firstn_O, app_nil_r.
  rewrite skipn_app, Nat.sub_diag, skipn_all. cbn [app skipn]. rewrite IH; [reflexivity|].
  intros; apply H; cbn; auto.
Qed.
Lemma concat_length rows (cols : list (list f32)) : (forall c, In c cols -> length c = rows) ->
  length (concat cols) = rows * length cols.
Proof.
  induction cols as [|c cols IH]; intros H; cbn [concat length]; [lia|].
  rewrite app_length, IH by (intros; apply H; cbn; auto). rewrite (H c) by (cbn; auto). lia.
Qed.

Lemma round_trip poses scale pnames jnames j1 j2 :
  motion_ok poses scale pnames jnames ->
  exists file, save_mmo poses scale pnames jnames = Some file /\
    load_mmo j1 j2 file = Ok (poses, scale, pnames, jnames).
Proof.
  intros [Hc Hr Hs [Hp1 Hp2] [Hj1 Hj2] HF He1 He2]. unfold save_mmo.
  rewrite Hr, Nat.eqb_refl, Hs, Nat.eqb_refl. cbn [negb]. eexists. split; [reflexivity|].
  unfold load_mmo. rewrite read_size_exact by exact Hp1. rewrite read_size_exact by exact Hj1.
  rewrite read_size_exact by exact HF. rewrite !Nat2N.id.
  rewrite load_names_put by exact Hp2. cbn [obind fst snd].
  rewrite load_names_put by exact Hj2. cbn [obind fst snd]. cbv zeta.
  assert ((N.of_nat (length jnames) * 7) mod 2 ^ 64 = N.of_nat (length scale))%N as ->.
  { rewrite Hs, Nat2N.inj_mul. change (N.of_nat 7) with 7%N. apply N.mod_small.
    rewrite Hs, Nat2N.inj_mul in He1. change (N.of_nat 7) with 7%N in He1. unfold eigen_max in He1. lia. }
  assert ((eigen_max <? N.of_nat (length scale))%N = false) as -> by (apply N.ltb_ge; exact He1).
  rewrite Nat2N.id. rewrite fread_exact by apply flat_bytes_length.
  assert ((eigen_max <? N.of_nat (length pnames) * N.of_nat (length (x_cols poses)))%N = false) as -> by (apply N.ltb_ge; exact He2).
  rewrite <- Nat2N.inj_mul, Nat2N.id.
  pose proof (concat_length _ _ Hc) as LC. rewrite Hr in LC.
  rewrite <- (app_nil_r (flat_map f32_bytes (mtx_data poses))).
  rewrite fread_exact.
  2:{ rewrite flat_bytes_length. unfold mtx_data. rewrite LC. reflexivity. }
  rewrite !floats_of_bytes. unfold mtx_data. rewrite columns_concat by (rewrite <- Hr; exact Hc).
  rewrite <- Hr. destruct poses; reflexivity.
Qed.

(** ** Files that end early *)

Lemma fread_prefix n b r k old : length b = n -> length old = n ->
  exists c s, fread n old {| s_rest := firstn k (b ++ r); s_good := true |} = (c, s) /\
    length c = n /\ firstn (Nat.min k n) c = firstn (Nat.min k n) b /\
    (n <= k -> s = {| s_rest := firstn (k - n) r; s_good := true |}) /\
    (k < n -> s_good s = false).
Proof.
  intros Lb Lo. destruct (Nat.le_gt_cases n k) as [H|H].
  - assert (firstn k (b ++ r) = b ++ firstn (k - n) r) as ->.
    { rewrite firstn_app, Lb. f_equal. apply firstn_all2. lia. }
    rewrite fread_exact by exact Lb. eexists. eexists. split; [reflexivity|]. repeat split; auto. lia.
  - assert (firstn k (b ++ r) = firstn k b) as ->.
    { rewrite firstn_app, Lb. replace (k - n) with 0 by lia. rewrite firstn_O, app_nil_r. reflexivity. }
    unfold fread. cbn [s_good s_rest negb]. rewrite firstn_length, Lb, Nat.min_l by lia.
    assert ((n <=? k) = false) as -> by (apply Nat.leb_gt; lia).
    eexists. eexists. split; [reflexivity|]. split; [rewrite app_length, firstn_length, skipn_length; lia|].
    split; [|split; [lia|reflexivity]].
    rewrite firstn_app, firstn_length, Lb.
    replace (k - Nat.min k n) with 0 by lia. rewrite firstn_O, app_nil_r, firstn_firstn, Nat.min_id. reflexivity.
Qed.

Lemma floats_firstn j : forall c, floats_of (firstn (4 * j) c) = firstn j (floats_of c).
Proof.
  induction j as [|j IH]; intros c; [reflexivity|]. replace (4 * S j) with (S (S (S (S (4 * j))))) by lia.
  destruct c as [|a [|b [|d [|e r]]]]; try reflexivity. cbn [firstn floats_of]. rewrite IH. reflexivity.
Qed.

Lemma floats_agree (c b : list ascii) m i : firstn m c = firstn m b -> 4 * (i + 1) <= m ->
  nth_error (floats_of c) i = nth_error (floats_of b) i.
Proof.
  intros H Hi.
  assert (firstn (4 * (i + 1)) c = firstn (4 * (i + 1)) b) as E.
  { replace (4 * (i + 1)) with (Nat.min (4 * (i + 1)) m) by lia. rewrite <- !firstn_firstn, H. reflexivity. }
  apply (f_equal floats_of) in E. rewrite !floats_firstn in E.
  assert (forall (l : list f32), nth_error (firstn (i + 1) l) i = nth_error l i) as N.
  { clear. induction i as [|i IH]; intros [|x l]; try reflexivity. apply IH. }
  rewrite <- (N (floats_of c)), <- (N (floats_of b)), E. reflexivity.
Qed.

Lemma columns_length rows n : forall data, length (columns rows n data) = n.
Proof. induction n as [|n IH]; intros d; cbn; auto. Qed.
Lemma columns_data rows n : forall data, length data = rows * n ->
  concat (columns rows n data) = data /\ forall c, In c (columns rows n data) -> length c = rows.
Proof.
  induction n as [|n IH]; intros data H; cbn [columns concat].
  - rewrite Nat.mul_0_r in H. destruct data; [|discriminate]. split; [reflexivity|intros c []].
  - destruct (IH (skipn rows data)) as [E1 E2]; [rewrite skipn_length; lia|]. split.
    + rewrite E1. apply firstn_skipn.
    + intros c [<-|Hc]; [rewrite firstn_length; lia|auto].
Qed.

Lemma put_names_length l : length (flat_map put_name l) = length (flat_map (fun n => repeat Ascii.zero 8 ++ n) l).
Proof.
  induction l as [|n l IH]; [reflexivity|]. cbn [flat_map]. rewrite !app_length, IH. unfold put_name.
  rewrite app_length, le_bytes_length, repeat_length. reflexivity.
Qed.
Lemma header_size_eq pnames jnames : header_size pnames jnames =
  24 + length (flat_map put_name pnames) + length (flat_map put_name jnames).
Proof. unfold header_size. rewrite flat_map_app, app_length, !put_names_length. lia. Qed.

Lemma truncated poses scale pnames jnames file k j1 j2 :
  motion_ok poses scale pnames jnames ->
  save_mmo poses scale pnames jnames = Some file ->
  let h := header_size pnames jnames in
  h <= k ->
  exists poses' scale', load_mmo j1 j2 (firstn k file) = Ok (poses', scale', pnames, jnames) /\
    x_rows poses' = x_rows poses /\ length (x_cols poses') = length (x_cols poses) /\
    (forall c, In c (x_cols poses') -> length c = x_rows poses) /\
    length scale' = length scale /\
    (forall i, h + 4 * (i + 1) <= k -> i < length scale -> nth_error scale' i = nth_error scale i) /\
    (forall i, h + 4 * (length scale + i + 1) <= k -> nth_error (mtx_data poses') i = nth_error (mtx_data poses) i).
Proof.
  intros [Hc Hr Hs [Hp1 Hp2] [Hj1 Hj2] HF He1 He2] E h Hk. unfold save_mmo in E.
  rewrite Hr, Nat.eqb_refl, Hs, Nat.eqb_refl in E. cbn [negb] in E.
  apply (f_equal (fun o => match o with Some x => x | None => [] end)) in E. cbv beta iota in E. subst file.
  set (body := flat_map f32_bytes scale ++ flat_map f32_bytes (mtx_data poses)).
  assert (forall (k : nat) (a b : list ascii), length a <= k -> firstn k (a ++ b) = a ++ firstn (k - length a) b) as FA.
  { intros k' a b H. rewrite firstn_app. f_equal. apply firstn_all2. exact H. }
  unfold h in *. rewrite header_size_eq in *.
  rewrite FA by (rewrite !le_bytes_length; lia). rewrite FA by (rewrite !le_bytes_length; lia).
  rewrite FA by (rewrite !le_bytes_length; lia). rewrite FA by (rewrite !le_bytes_length; lia).
  rewrite FA by (rewrite !le_bytes_length; lia). rewrite !le_bytes_length.
  set (k' := k - 8 - 8 - 8 - length (flat_map put_name pnames) - length (flat_map put_name jnames)).
  unfold load_mmo. rewrite read_size_exact by exact Hp1. rewrite read_size_exact by exact Hj1.
  rewrite read_size_exact by exact HF. rewrite !Nat2N.id.
  rewrite load_names_put by exact Hp2. cbn [obind fst snd].
  rewrite load_names_put by exact Hj2. cbn [obind fst snd]. cbv zeta.
  assert ((N.of_nat (length jnames) * 7) mod 2 ^ 64 = N.of_nat (length scale))%N as ->.
  { rewrite Hs, Nat2N.inj_mul. change (N.of_nat 7) with 7%N. apply N.mod_small.
    rewrite Hs, Nat2N.inj_mul in He1. change (N.of_nat 7) with 7%N in He1. unfold eigen_max in He1. lia. }
  assert ((eigen_max <? N.of_nat (length scale))%N = false) as -> by (apply N.ltb_ge; exact He1).
  rewrite Nat2N.id.
  assert ((eigen_max <? N.of_nat (length pnames) * N.of_nat (length (x_cols poses)))%N = false) as -> by (apply N.ltb_ge; exact He2).
  rewrite <- Nat2N.inj_mul, !Nat2N.id.
  pose proof (concat_length _ _ Hc) as LC. rewrite Hr in LC.
  set (n1 := 4 * length scale). set (n2 := 4 * (length pnames * length (x_cols poses))).
  assert (length (flat_map f32_bytes (mtx_data poses)) = n2) as L2.
  { rewrite flat_bytes_length. unfold mtx_data. rewrite LC. reflexivity. }
  destruct (fread_prefix n1 (flat_map f32_bytes scale) (flat_map f32_bytes (mtx_data poses)) k' (map j1 (seq 0 n1)))
    as (c1 & s1 & E1 & Lc1 & F1 & G1 & B1).
  { apply flat_bytes_length. } { rewrite map_length, seq_length. reflexivity. }
  unfold body. rewrite E1.
  assert (exists c2 s2, fread n2 (map j2 (seq 0 n2)) s1 = (c2, s2) /\ length c2 = n2 /\
     (n1 <= k' -> firstn (Nat.min (k' - n1) n2) c2 = firstn (Nat.min (k' - n1) n2) (flat_map f32_bytes (mtx_data poses)))) as (c2 & s2 & E2 & Lc2 & F2).
  { destruct (Nat.le_gt_cases n1 k') as [H|H].
    - rewrite (G1 H). rewrite <- (app_nil_r (flat_map f32_bytes (mtx_data poses))).
      destruct (fread_prefix n2 (flat_map f32_bytes (mtx_data poses)) [] (k' - n1) (map j2 (seq 0 n2)))
        as (c2 & s2 & E2 & Lc2 & F2 & _); [exact L2|rewrite map_length, seq_length; reflexivity|].
      exists c2, s2. split; [exact E2|]. split; [exact Lc2|]. intros _. rewrite app_nil_r. exact F2.
    - specialize (B1 H). unfold fread. rewrite B1. cbn [negb]. eexists. eexists. split; [reflexivity|].
      split; [rewrite map_length, seq_length; reflexivity|]. lia. }
  rewrite E2.
  assert (length (floats_of c2) = length pnames * length (x_cols poses)) as LF2 by (apply floats_of_length; exact Lc2).
  destruct (columns_data _ _ _ LF2) as [CD CL].
  eexists. eexists. split; [reflexivity|]. cbn [x_rows x_cols]. rewrite Hr.
  split; [reflexivity|]. split; [apply columns_length|]. split; [exact CL|].
  split; [apply floats_of_length; exact Lc1|]. split.
  - intros i Hi Hl. rewrite (floats_agree c1 (flat_map f32_bytes scale) _ i F1).
    + rewrite floats_of_bytes. reflexivity.
    + lia.
  - intros i Hi. unfold mtx_data at 1. cbn [x_cols]. rewrite CD.
    destruct (Nat.le_gt_cases (length pnames * length (x_cols poses)) i) as [O|O].
    + rewrite (proj2 (nth_error_None _ i)) by lia. symmetry. apply nth_error_None. unfold mtx_data. lia.
    + rewrite (floats_agree c2 (flat_map f32_bytes (mtx_data poses)) _ i (F2 ltac:(lia))).
      * rewrite floats_of_bytes. reflexivity.
      * lia.
Qed.

(** ** Extra parameters *)

Lemma underscored_length n : length (underscored n) = 4 + length n.
Proof. unfold underscored. rewrite !app_length. cbn [length]. lia. Qed.

Lemma is_aux_iff n : is_aux n = true <-> exists m, m <> [] /\ n = underscored m.
Proof.
  unfold is_aux. split.
  - intros H. apply andb_true_iff in H. destruct H as [L H]. apply Nat.ltb_lt in L.
    destruct n as [|a [|b n]]; cbn [length] in L; try lia.
    destruct (exists_last (l := n)) as (n1 & c & ->); [destruct n; cbn [length] in L; [lia|discriminate]|].
    destruct (exists_last (l := n1)) as (m & d & ->).
    { destruct n1; [cbn [length app] in L; lia|discriminate]. }
    exists m.
    assert (length (a :: b :: (m ++ [d]) ++ [c]) = length m + 4) as Le.
    { cbn [length]. rewrite !app_length. cbn [length]. lia. }
    rewrite Le in H. cbn [length] in Le. rewrite Le in L. clear Le.
    replace (length m + 4 - 1) with (S (S (length (m ++ [d])))) in H by (rewrite app_length; cbn [length]; lia).
    replace (length m + 4 - 2) with (S (S (length m))) in H by lia.
    cbn [nth_error] in H. rewrite nth_error_app2 in H by lia. rewrite Nat.sub_diag in H. cbn [nth_error] in H.
    rewrite nth_error_app1 in H by (rewrite app_length; cbn [length]; lia).
    rewrite nth_error_app2 in H by lia. rewrite Nat.sub_diag in H. cbn [nth_error] in H.
    rewrite !andb_true_iff in H. rewrite !Ascii.eqb_eq in H. destruct H as (((-> & ->) & ->) & ->).
    split; [intros ->; cbn [length] in L; lia|]. unfold underscored. rewrite <- app_assoc. reflexivity.
  - intros (m & Hm & ->). rewrite underscored_length.
    assert (0 < length m) by (destruct m; [congruence|cbn; lia]).
    assert ((4 <? 4 + length m) = true) as -> by (apply Nat.ltb_lt; lia). cbn [andb].
    unfold underscored. cbn [app nth_error Nat.add].
    replace (S (S (S (S (length m)))) - 1) with (S (S (length m + 1))) by lia.
    replace (S (S (S (S (length m)))) - 2) with (S (S (length m))) by lia. cbn [nth_error].
    rewrite nth_error_app2 by lia. replace (length m + 1 - length m) with 1 by lia. cbn [nth_error].
    rewrite nth_error_app2 by lia. rewrite Nat.sub_diag. reflexivity.
Qed.

Lemma strip m : firstn (length (underscored m) - 4) (skipn 2 (underscored m)) = m.
Proof.
  rewrite underscored_length. replace (4 + length m - 4) with (length m) by lia. unfold underscored.
  cbn [app skipn]. rewrite firstn_app, Nat.sub_diag, firstn_all, firstn_O. apply app_nil_r.
Qed.

Lemma seq_map_shift a n : seq a n = map (fun i => a + i) (seq 0 n).
Proof.
  revert a. induction n as [|n IH]; intros a; [reflexivity|].
  cbn [seq map]. rewrite Nat.add_0_r. f_equal. rewrite IH, (IH 1), map_map. apply map_ext. intros. lia.
Qed.

(** The indices and names found among [pnames ++ map underscored aux]. *)
Lemma aux_found pnames aux : (forall n, In n pnames -> is_aux n = false) -> (forall a, In a aux -> a <> []) ->
  let names := pnames ++ map underscored aux in
  filter (fun i => is_aux (nth i names [])) (seq 0 (length names)) = seq (length pnames) (length aux) /\
  map (fun i => let n := nth i names [] in firstn (length n - 4) (skipn 2 n)) (seq (length pnames) (length aux)) = aux.
Proof.
  intros H1 H2 names. split.
  - unfold names. rewrite app_length, map_length, seq_app, filter_app. cbn [Nat.add].
    assert (filter (fun i => is_aux (nth i (pnames ++ map underscored aux) [])) (seq 0 (length pnames)) = []) as ->.
    { assert (forall l, (forall i, In i l -> i < length pnames) ->
        filter (fun i => is_aux (nth i (pnames ++ map underscored aux) [])) l = []) as G.
      { induction l as [|i l IH]; intros Hl; [reflexivity|]. cbn [filter].
        rewrite app_nth1 by (apply Hl; cbn; auto). rewrite H1 by (apply nth_In; apply Hl; cbn; auto).
        apply IH. intros; apply Hl; cbn; auto. }
      apply G. intros i Hi. apply in_seq in Hi. lia. }
    cbn [app].
    assert (forall l, (forall i, In i l -> length pnames <= i < length pnames + length aux) ->
        filter (fun i => is_aux (nth i (pnames ++ map underscored aux) [])) l = l) as G.
    { induction l as [|i l IH]; intros Hl; [reflexivity|]. cbn [filter].
      pose proof (Hl i (or_introl eq_refl)) as Hi. rewrite app_nth2 by lia.
      rewrite (nth_indep _ [] (underscored [])) by (rewrite map_length; lia).
      rewrite map_nth. rewrite (proj2 (is_aux_iff _)).
      - f_equal. apply IH. intros; apply Hl; cbn; auto.
      - eexists. split; [|reflexivity]. apply H2. apply nth_In. lia. }
    apply G. intros i Hi. apply in_seq in Hi. lia.
  - rewrite seq_map_shift, map_map. apply nth_error_ext_len; [rewrite map_length, seq_length; reflexivity|].
    rewrite map_length, seq_length. intros i Hi. rewrite nth_error_map.
    rewrite (nth_error_nth' (seq 0 (length aux)) 0) by (rewrite seq_length; exact Hi).
    rewrite seq_nth by exact Hi. cbn [option_map Nat.add]. unfold names.
    rewrite app_nth2 by lia. replace (length pnames + i - length pnames) with i by lia.
    rewrite (nth_indep _ [] (underscored [])) by (rewrite map_length; exact Hi).
    rewrite map_nth. cbv zeta. rewrite strip. rewrite (nth_error_nth' aux [] Hi). reflexivity.
Qed.

Lemma omapM_ok {A B} (f : A -> outcome B) (g : A -> B) l : (forall a, In a l -> f a = Ok (g a)) ->
  omapM f l = Ok (map g l).
Proof.
  induction l as [|a l IH]; intros H; [reflexivity|]. cbn. rewrite H by (cbn; auto). cbn.
  rewrite IH by (intros; apply H; cbn; auto). reflexivity.
Qed.

Lemma read_tail {A} (p q : list A) : omapM (fun i => rd (p ++ q) i) (seq (length p) (length q)) = Ok q.
Proof.
  revert p. induction q as [|x q IH]; intros p; [reflexivity|]. cbn [length seq omapM].
  rewrite (rd_some _ _ x).
  - cbn [obind]. specialize (IH (p ++ [x])). rewrite app_length in IH. cbn [length] in IH.
    rewrite Nat.add_1_r, <- app_assoc in IH. cbn [app] in IH. rewrite IH. reflexivity.
  - rewrite nth_error_app2 by lia. rewrite Nat.sub_diag. reflexivity.
Qed.

Lemma aux_spec P A np pnames aux_names : length P = length A -> np = length pnames ->
  (forall c, In c P -> length c = np) -> (forall c, In c A -> length c = length aux_names) ->
  (forall n, In n pnames -> is_aux n = false) -> (forall a, In a aux_names -> a <> []) ->
  aux_data (Mtx (np + length aux_names) (stacked P A)) (pnames ++ map underscored aux_names) =
  Ok (Mtx (length aux_names) A, aux_names).
Proof.
  intros L E HP HA H1 H2. unfold aux_data. destruct (aux_found pnames aux_names H1 H2) as [F1 F2].
  cbv zeta in *. rewrite F1, F2. cbn [x_cols].
  assert (omapM (fun c => omapM (fun i => rd c i) (seq (length pnames) (length aux_names))) (stacked P A) = Ok A) as ->; [|reflexivity].
  unfold stacked. clear F1 F2. revert A L HA. induction P as [|p P IH]; intros [|a A] L HA; try discriminate L; [reflexivity|].
  cbn [combine map omapM fst snd].
  rewrite <- (HP p) in E by (cbn; auto). rewrite <- E at 1. rewrite <- (HA a) at 1 by (cbn; auto).
  rewrite read_tail. cbn [obind]. 
  rewrite IH; [reflexivity|intros c Hc; apply HP; cbn; auto|cbn in L; lia|intros c Hc; apply HA; cbn; auto].
Qed.

(** ** Mapping back to the character *)

Lemma index_of_nth l : NoDup l -> forall i n, nth_error l i = Some n -> index_of n l = Some i.
Proof.
  induction 1 as [|m l Hm ND IH]; intros [|i] n E; cbn in *; try discriminate.
  - injection E as <-. destruct (list_eq_dec ascii_dec m m); [reflexivity|congruence].
  - destruct (list_eq_dec ascii_dec m n) as [->|]; [exfalso; apply Hm; eapply nth_error_In; exact E|].
    rewrite (IH i n E). reflexivity.
Qed.
Lemma index_of_none l n : ~ In n l -> index_of n l = None.
Proof.
  induction l as [|m l IH]; intros H; [reflexivity|]. cbn.
  destruct (list_eq_dec ascii_dec m n) as [->|]; [exfalso; apply H; cbn; auto|].
  rewrite IH by (intros Hi; apply H; cbn; auto). reflexivity.
Qed.

Lemma map_column_self pnames extra p q : NoDup pnames -> (forall a, In a extra -> ~ In a pnames) ->
  length p = length pnames -> length q = length extra ->
  map_column (map (fun n => index_of n pnames) (pnames ++ extra)) (length pnames) (p ++ q) = Ok p.
Proof.
  intros ND Hx Lp Lq. unfold map_column. rewrite map_length, app_length, seq_app, ofold_app. cbn [Nat.add].
  set (pm := map (fun n => index_of n pnames) (pnames ++ extra)).
  set (step := fun i out => let* j := rd pm i in
     match j with None => Ok out | Some j => let* x := rd (p ++ q) i in wr out j x end).
  assert (forall i, i < length pnames -> rd pm i = Ok (Some i)) as R1.
  { intros i Hi. destruct (nth_error_lt pnames i Hi) as [n En]. apply rd_some. unfold pm.
    rewrite nth_error_map, nth_error_app1 by exact Hi. rewrite En. cbn. rewrite (index_of_nth _ ND i n En). reflexivity. }
  assert (forall i, length pnames <= i < length pnames + length extra -> rd pm i = Ok None) as R2.
  { intros i Hi. destruct (nth_error_lt extra (i - length pnames)) as [n En]; [lia|]. apply rd_some. unfold pm.
    rewrite nth_error_map, nth_error_app2 by lia. rewrite En. cbn. rewrite index_of_none; [reflexivity|].
    apply Hx. eapply nth_error_In. exact En. }
  destruct (copy_loop step (fun i => i) (fun i => nth i p f32_zero) (seq 0 (length pnames)) (repeat f32_zero (length pnames)))
    as (out & Eo & Lo & So & _).
  - intros i r Hi _. apply in_seq in Hi. unfold step. rewrite R1 by lia. cbn [obind].
    rewrite (rd_some _ _ (nth i p f32_zero)); [reflexivity|].
    rewrite nth_error_app1 by lia. apply nth_error_nth'. lia.
  - intros i Hi. apply in_seq in Hi. rewrite repeat_length. lia.
  - intros; congruence.
  - rewrite Eo. cbn [obind]. rewrite repeat_length in Lo.
    assert (forall l, (forall i, In i l -> length pnames <= i < length pnames + length extra) -> ofold step l out = Ok out) as G.
    { induction l as [|i l IH]; intros Hl; [reflexivity|]. cbn [ofold]. unfold step at 1.
      rewrite R2 by (apply Hl; cbn; auto). cbn [obind]. apply IH. intros; apply Hl; cbn; auto. }
    rewrite G by (intros i Hi; apply in_seq in Hi; lia). f_equal.
    apply nth_error_ext_len; [lia|]. intros i Hi. rewrite So by (apply in_seq; lia).
    symmetry. apply nth_error_nth'. lia.
Qed.

Lemma map_offsets_self jnames scale : NoDup jnames -> length scale = length jnames * 7 ->
  map_offsets scale (map (fun n => index_of n jnames) jnames) (length jnames) = Ok scale.
Proof.
  intros ND L. unfold map_offsets. rewrite map_length.
  set (jm := map (fun n => index_of n jnames) jnames).
  assert (forall i, i < length jnames -> rd jm i = Ok (Some i)) as R1.
  { intros i Hi. destruct (nth_error_lt jnames i Hi) as [n En]. apply rd_some. unfold jm.
    rewrite nth_error_map, En. cbn. rewrite (index_of_nth _ ND i n En). reflexivity. }
  destruct (ofold_seq_inv (fun i out => let* j := rd jm i in
     match j with None => Ok out | Some j =>
       ofold (fun k out => let* x := rd scale (i * 7 + k) in wr out (j * 7 + k) x) (seq 0 7) out end)
    (fun i out => length out = length scale /\ forall p, p < i * 7 -> nth_error out p = nth_error scale p)
    (length jnames) (repeat f32_zero (length jnames * 7))) as (out & E & Lo & A).
  - split; [rewrite repeat_length; lia|lia].
  - intros i out Hi [Lo A]. rewrite R1 by exact Hi. cbn [obind].
    destruct (copy_loop (fun k out => let* x := rd scale (i * 7 + k) in wr out (i * 7 + k) x)
      (fun k => i * 7 + k) (fun k => nth (i * 7 + k) scale f32_zero) (seq 0 7) out) as (o2 & E2 & L2 & S2 & O2).
    + intros k r Hk _. apply in_seq in Hk. rewrite (rd_some _ _ (nth (i * 7 + k) scale f32_zero)); [reflexivity|].
      apply nth_error_nth'. lia.
    + intros k Hk. apply in_seq in Hk. lia.
    + intros k k' _ _ Ek. rewrite Ek. reflexivity.
    + exists o2. split; [exact E2|]. split; [congruence|]. intros p Hp.
      destruct (Nat.lt_ge_cases p (i * 7)) as [Q|Q].
      * rewrite O2 by (intros k _; lia). apply A. exact Q.
      * replace p with (i * 7 + (p - i * 7)) by lia. rewrite S2 by (apply in_seq; lia).
        symmetry. apply nth_error_nth'. lia.
  - rewrite E. f_equal. apply nth_error_ext_len; [exact Lo|]. intros p Hp. apply A. lia.
Qed.

Lemma stacked_self P A : length P = length A -> (forall c, In c A -> length c = 0) -> stacked P A = P.
Proof.
  unfold stacked. revert A. induction P as [|p P IH]; intros [|a A] L H; try discriminate L; [reflexivity|].
  cbn [combine map fst snd]. rewrite (IH A) by (auto; intros; apply H; cbn; auto).
  specialize (H a (or_introl eq_refl)). destruct a; [|discriminate]. rewrite app_nil_r. reflexivity.
Qed.

Lemma map_motion_self poses scale pnames jnames A extra :
  NoDup pnames -> NoDup jnames -> (forall a, In a extra -> ~ In a pnames) ->
  (forall c, In c (x_cols poses) -> length c = x_rows poses) -> x_rows poses = length pnames ->
  length scale = length jnames * 7 ->
  length A = length (x_cols poses) -> (forall c, In c A -> length c = length extra) -> forall r,
  map_motion (Mtx r (stacked (x_cols poses) A)) scale (pnames ++ extra) jnames pnames jnames = Ok (poses, scale).
Proof.
  intros NP NJ Hx Hc Hr Hs LA HA r. unfold map_motion. rewrite map_offsets_self by assumption. cbn [obind x_cols].
  assert (omapM (map_column (map (fun n => index_of n pnames) (pnames ++ extra)) (length pnames))
    (stacked (x_cols poses) A) = Ok (x_cols poses)) as ->.
  { rewrite Hr in Hc. revert A LA HA. induction (x_cols poses) as [|p P IH]; intros [|a A] LA HA; try discriminate LA; [reflexivity|].
    unfold stacked. cbn [combine map omapM fst snd].
    rewrite map_column_self; [|assumption|assumption|apply Hc; cbn; auto|apply HA; cbn; auto].
    cbn [obind]. change (map (fun pq => fst pq ++ snd pq) (combine P A)) with (stacked P A).
    rewrite IH; [reflexivity|intros; apply Hc; cbn; auto|cbn in LA; lia|intros; apply HA; cbn; auto]. }
  cbn [obind]. rewrite <- Hr. destruct poses; reflexivity.
Qed.

Lemma save_character_eq poses scale pnames jnames aux aux_names :
  x_rows poses = length pnames -> length scale = length jnames * 7 ->
  (forall c, In c (x_cols aux) -> length c = x_rows aux) -> x_rows aux = length aux_names ->
  length (x_cols aux) = length (x_cols poses) ->
  save_character poses scale pnames jnames aux aux_names =
  Ok (save_mmo (Mtx (x_rows poses + x_rows aux) (stacked (x_cols poses) (x_cols aux))) scale
        (pnames ++ map extra_name aux_names) jnames).
Proof.
  intros Hr Hs Ha Hra LA. unfold save_character. rewrite Hr, Nat.eqb_refl, Hs, Nat.eqb_refl, Hra, Nat.eqb_refl, LA, Nat.eqb_refl.
  cbn [negb andb]. rewrite andb_false_r. cbv zeta. destruct (Nat.ltb_spec 0 (length aux_names)) as [H|H]; [reflexivity|].
  cbn [obind]. rewrite stacked_self; [reflexivity|auto|]. intros c Hc. rewrite (Ha c Hc). lia.
Qed.

Lemma stacked_length P A : length A = length P -> length (stacked P A) = length P.
Proof. intros H. unfold stacked. rewrite map_length, combine_length. lia. Qed.
Lemma stacked_columns P A p a : (forall c, In c P -> length c = p) -> (forall c, In c A -> length c = a) ->
  forall c, In c (stacked P A) -> length c = p + a.
Proof.
  intros HP HA c Hc. unfold stacked in Hc. apply in_map_iff in Hc. destruct Hc as ([x y] & <- & H).
  cbn [fst snd]. rewrite app_length, (HP x), (HA y); [reflexivity|eapply in_combine_r; exact H|eapply in_combine_l; exact H].
Qed.

Lemma motion_stacked poses scale pnames jnames aux aux_names :
  motion_ok poses scale pnames jnames ->
  (forall c, In c (x_cols aux) -> length c = x_rows aux) -> x_rows aux = length aux_names ->
  length (x_cols aux) = length (x_cols poses) ->
  names_fit (pnames ++ map extra_name aux_names) ->
  (N.of_nat (length pnames + length aux_names) * N.of_nat (length (x_cols poses)) <= eigen_max)%N ->
  motion_ok (Mtx (x_rows poses + x_rows aux) (stacked (x_cols poses) (x_cols aux))) scale
    (pnames ++ map extra_name aux_names) jnames.
Proof.
  intros [Hc Hr Hs Hp Hj HF He1 He2] Ha Hra LA HN He.
  constructor; cbn [x_rows x_cols]; auto.
  - apply stacked_columns; auto.
  - rewrite app_length, map_length. lia.
  - rewrite stacked_length by exact LA. exact HF.
  - rewrite app_length, map_length, stacked_length by exact LA. exact He.
Qed.
