(** Proofs about glTF accessors. *)

From Coq Require Import List Arith Ascii NArith ZArith Lia Bool.
From Verif Require Import Prelude Loops Bytes Gltf_model Gltf_spec.
Import ListNotations.
Local Open Scope outcome_scope.

Lemma omapl_ok {A B} (f : A -> outcome B) (g : A -> B) l : (forall a, In a l -> f a = Ok (g a)) ->
  omapl f l = Ok (map g l).
Proof.
  induction l as [|a l IH]; intros H; [reflexivity|]. cbn [omapl map]. rewrite H by (cbn; auto). cbn [obind].
  rewrite IH by (intros; apply H; cbn; auto). reflexivity.
Qed.
Lemma omapl_inv {A B} (f : A -> outcome B) l : forall r, omapl f l = Ok r ->
  length r = length l /\ forall i a, nth_error l i = Some a -> exists b, nth_error r i = Some b /\ f a = Ok b.
Proof.
  induction l as [|a l IH]; intros r H; cbn [omapl] in H.
  - injection H as <-. split; [reflexivity|]. intros [|i] x E; discriminate.
  - destruct (f a) as [b| | | |] eqn:Ea; try discriminate. cbn [obind] in H.
    destruct (omapl f l) as [br| | | |]; try discriminate. cbn [obind] in H. injection H as <-.
    destruct (IH br eq_refl) as [L N]. split; [cbn; lia|]. intros [|i] x E; cbn in E.
    + injection E as <-. exists b. auto.
    + apply N. exact E.
Qed.
Lemma omapl_mono {A B} (f g : A -> outcome B) l r : (forall a b, f a = Ok b -> g a = Ok b) ->
  omapl f l = Ok r -> omapl g l = Ok r.
Proof.
  intros H. revert r. induction l as [|a l IH]; intros r E; cbn [omapl] in *; [exact E|].
  destruct (f a) as [b| | | |] eqn:Ea; try discriminate. rewrite (H _ _ Ea). cbn [obind] in *.
  destruct (omapl f l) as [br| | | |]; try discriminate. rewrite (IH br eq_refl). exact E.
Qed.

Lemma omapl_ub_iff {B} (f : nat -> outcome B) n : forall a,
  (forall i, f i <> Throw /\ f i <> OutOfFuel) ->
  (forall i j, i <= j -> f i = CheckFail -> f j = CheckFail) ->
  (omapl f (seq a n) = UB <-> exists i, a <= i < a + n /\ f i = UB) /\
  omapl f (seq a n) <> Throw /\ omapl f (seq a n) <> OutOfFuel.
Proof.
  induction n as [|n IH]; intros a N H; cbn [seq omapl].
  - repeat split; try discriminate. intros (i & ? & _). lia.
  - destruct (f a) as [b| | | |] eqn:Ea; cbn [obind]; try (exfalso; specialize (N a); rewrite Ea in N; destruct N; congruence).
    + specialize (IH (S a) N H). destruct IH as (IH & I1 & I2).
      destruct (omapl f (seq (S a) n)) as [r| | | |] eqn:Er; cbn [obind]; try congruence;
        repeat split; try discriminate.
      * intros (i & Hi & E). destruct (Nat.eq_dec i a) as [->|]; [congruence|].
        assert (S a <= i < S a + n) as Hi' by lia. discriminate (proj2 IH (ex_intro _ i (conj Hi' E))).
      * intros (i & Hi & E). destruct (Nat.eq_dec i a) as [->|]; [congruence|].
        assert (S a <= i < S a + n) as Hi' by lia. discriminate (proj2 IH (ex_intro _ i (conj Hi' E))).
      * intros _. destruct (proj1 IH eq_refl) as (i & Hi & E). exists i. split; [lia|exact E].
    + repeat split; try discriminate. intros (i & Hi & E). rewrite (H a i) in E by (lia || exact Ea). discriminate.
    + repeat split; try discriminate. intros _. exists a. split; [lia|exact Ea].
Qed.

Lemma Ok_inj {A} (a b : A) : Ok a = Ok b -> a = b.
Proof. congruence. Qed.

(** ** Creating *)

Lemma padded_length n e : length e <= n -> length (padded n e) = n.
Proof. intros H. unfold padded. rewrite app_length, repeat_length. lia. Qed.
Lemma flat_padded_length n l : (forall e, In e l -> length e <= n) -> length (flat_map (padded n) l) = length l * n.
Proof.
  induction l as [|e l IH]; intros H; [reflexivity|]. cbn [flat_map length].
  rewrite app_length, padded_length, IH by (intros; apply H; cbn; auto). lia.
Qed.
Lemma flat_padded_nth n s l : forall i e, (forall e, In e l -> length e = s) -> s <= n -> nth_error l i = Some e ->
  firstn s (skipn (i * n) (flat_map (padded n) l)) = e.
Proof.
  induction l as [|x l IH]; intros [|i] e H Hn E; cbn in E; try discriminate; cbn [flat_map].
  - injection E as ->. cbn [Nat.mul skipn]. rewrite <- (H e) by (cbn; auto). unfold padded.
    rewrite <- app_assoc, firstn_app, Nat.sub_diag, firstn_all, firstn_O. apply app_nil_r.
  - rewrite skipn_app, skipn_all2.
    + rewrite padded_length by (rewrite H by (cbn; auto); exact Hn).
      replace (S i * n - n) with (i * n) by lia. cbn [app]. apply IH; auto. intros; apply H; cbn; auto.
    + rewrite padded_length by (rewrite H by (cbn; auto); exact Hn). lia.
Qed.

Definition elem_step (e : etype) (align : bool) : nat :=
  if align && negb (esize e mod 4 =? 0) then (esize e / 4 + 1) * 4 else esize e.

Lemma elem_step_stored e align : elem_step e align = stored_size e align.
Proof.
  unfold elem_step, stored_size. destruct align; cbn [andb]; [|reflexivity].
  pose proof (Nat.div_mod (esize e) 4 ltac:(lia)) as D. pose proof (Nat.mod_upper_bound (esize e) 4 ltac:(lia)).
  pose proof (Nat.div_mod (esize e + 3) 4 ltac:(lia)) as D2. pose proof (Nat.mod_upper_bound (esize e + 3) 4 ltac:(lia)).
  destruct (Nat.eqb_spec (esize e mod 4) 0) as [Z|Z]; cbn [negb]; lia.
Qed.
Lemma elem_step_ge e align : esize e <= elem_step e align.
Proof.
  unfold elem_step. destruct (align && _); [|lia].
  pose proof (Nat.div_mod (esize e) 4). pose proof (Nat.mod_upper_bound (esize e) 4). lia.
Qed.

Lemma set_type_ok e : supported e -> exists c t, set_type e = Ok (c, t) /\
  ((type_size t * comp_size c) mod 2 ^ 64 =? Z.of_nat (esize e))%Z = true /\ 0 < esize e.
Proof. destruct e; intros []; do 2 eexists; (split; [reflexivity|split; [reflexivity|cbn; lia]]). Qed.

Lemma create_ok d e data align norm : supported e ->
  exists c t b' bs', set_type e = Ok (c, t) /\
  create_accessor d e data align norm = Ok (
    {| d_buffers := b' :: bs';
       d_views := d_views d ++ [{| v_buffer := 0; v_offset := u32 (main_size d);
           v_length := u32 (length data * elem_step e align);
           v_stride := if align && negb (esize e mod 4 =? 0) then u32 (elem_step e align) else 0%N |}];
       d_accs := d_accs d ++ [{| a_view := length (d_views d); a_offset := 0; a_count := u32 (length data);
           a_comp := c; a_type := t; a_norm := norm |}] |}, length (d_accs d)) /\
  b_length b' = u32 (length (b_data b')) /\
  (match d_buffers d with
   | [] => b_data b' = flat_map (padded (elem_step e align)) data /\ bs' = []
   | b :: bs => b_data b' = b_data b ++ flat_map (padded (elem_step e align)) data /\ bs' = bs
   end).
Proof.
  intros H. destruct (set_type_ok e H) as (c & t & E & _). exists c, t. unfold create_accessor, main_size. rewrite E.
  destruct (d_buffers d) as [|b bs]; do 2 eexists; (split; [reflexivity|]); (split; [reflexivity|]); cbn; auto.
Qed.

(** ** Reading what was created *)

Lemma u32_small n : (N.of_nat n < 2 ^ 32)%N -> u32 n = N.of_nat n.
Proof. apply N.mod_small. Qed.

Lemma nth_error_snoc {A} (l : list A) x : nth_error (l ++ [x]) (length l) = Some x.
Proof. rewrite nth_error_app2, Nat.sub_diag by lia. reflexivity. Qed.

Lemma create_read d e data align norm d' id : supported e -> (forall x, In x data -> length x = esize e) ->
  (N.of_nat (main_size d + length data * elem_step e align) < 2 ^ 32)%N ->
  create_accessor d e data align norm = Ok (d', id) ->
  id = length (d_accs d) /\ copy_accessor (esize e) d' id = Ok data.
Proof.
  intros S Hx Hb Hc. destruct (create_ok d e data align norm S) as (c & t & b' & bs' & Es & E & _ & EB).
  rewrite E in Hc. apply Ok_inj in Hc.
  pose proof (f_equal fst Hc) as Hd'. pose proof (f_equal snd Hc) as Hid. cbn [fst snd] in Hd', Hid. subst d' id. clear Hc. split; [reflexivity|].
  destruct (set_type_ok e S) as (c2 & t2 & Es2 & Esz & Pos). rewrite Es in Es2. injection Es2 as <- <-.
  pose proof (elem_step_ge e align) as Ge. set (n := elem_step e align) in *.
  assert (length data <= length data * n) as Lc by nia.
  assert (b_data b' = firstn (main_size d) (b_data b') ++ flat_map (padded n) data /\ length (firstn (main_size d) (b_data b')) = main_size d) as [EB1 LB].
  { unfold main_size. destruct (d_buffers d) as [|b bs]; destruct EB as [EB _]; rewrite EB.
    - split; reflexivity.
    - rewrite firstn_app, Nat.sub_diag, firstn_all, firstn_O, app_nil_r. auto. }
  assert (length (flat_map (padded n) data) = length data * n) as LF.
  { apply flat_padded_length. intros x Hin. rewrite (Hx x Hin). exact Ge. }
  assert (length (b_data b') = main_size d + length data * n) as LB'.
  { rewrite EB1, app_length, LB, LF. reflexivity. }
  remember (if align && negb (esize e mod 4 =? 0) then u32 n else 0%N) as vs eqn:Hvs.
  unfold copy_accessor. cbn [d_accs d_views d_buffers].
  rewrite (rd_some _ _ _ (nth_error_snoc _ _)). cbn [obind a_type a_comp a_view a_offset a_count].
  rewrite Esz. cbn [negb]. rewrite (rd_some _ _ _ (nth_error_snoc _ _)). cbn [obind v_stride v_buffer v_offset v_length].
  rewrite (rd_some _ _ b') by reflexivity. cbn [obind].
  rewrite (u32_small (main_size d)), (u32_small (length data * n)), (u32_small (length data)) by lia.
  unfold subspan, subspan_from. cbn [fst snd].
  rewrite (proj2 (N.ltb_ge _ _)) by lia. rewrite (proj2 (N.ltb_ge _ _)) by lia. cbn [obind fst snd].
  rewrite (proj2 (N.ltb_ge _ _)) by lia. cbn [obind]. rewrite Nat2N.id.
  remember (if (vs =? 0)%N then N.of_nat (esize e) else vs) as stride eqn:Hst.
  assert (data = [] \/ stride = N.of_nat n) as HS.
  { rewrite Hst, Hvs. unfold n, elem_step. destruct (align && negb (esize e mod 4 =? 0)) eqn:Al.
    - destruct data as [|x data]; [left; reflexivity|right].
      assert (n = (esize e / 4 + 1) * 4) as En by (unfold n, elem_step; rewrite Al; reflexivity).
      rewrite En in Hb. cbn [length] in Hb.
      rewrite u32_small by lia. destruct (N.eqb_spec (N.of_nat ((esize e / 4 + 1) * 4)) 0); [lia|reflexivity].
    - right. reflexivity. }
  rewrite (omapl_ok _ (fun i => nth i data [])).
  - f_equal. apply nth_error_ext_len; [rewrite map_length, seq_length; reflexivity|].
    rewrite map_length, seq_length. intros i Hi. rewrite nth_error_map, (nth_error_nth' (seq 0 (length data)) 0) by (rewrite seq_length; exact Hi).
    rewrite seq_nth by exact Hi. cbn. symmetry. apply nth_error_nth'. exact Hi.
  - intros i Hi. apply in_seq in Hi. destruct HS as [->|HS]; [cbn in Hi; lia|]. unfold read_at. cbn [fst snd].
    rewrite HS. rewrite !N.add_0_l, N.add_0_r, N.sub_0_r, <- Nat2N.inj_mul.
    assert (i * n + n <= length data * n) as Bi by nia.
    rewrite (proj2 (N.ltb_lt _ _)) by lia. cbv zeta. rewrite <- Nat2N.inj_add, Nat2N.id.
    rewrite (proj2 (Nat.leb_le _ _)) by lia. f_equal.
    rewrite EB1, skipn_app, LB. rewrite skipn_all2 by lia. cbn [app].
    replace (main_size d + i * n - main_size d) with (i * n) by lia.
    apply flat_padded_nth; auto. apply nth_error_nth'. lia.
Qed.

(** ** Creating does not change what is read elsewhere *)

Lemma rd_app {A} (l r : list A) i x : rd l i = Ok x -> rd (l ++ r) i = Ok x.
Proof.
  intros H. apply rd_inv in H. apply rd_some. rewrite nth_error_app1; [exact H|].
  apply nth_error_len in H. exact H.
Qed.

Lemma read_at_app data more s k n x : (fst s + snd s <= N.of_nat (length data))%N ->
  read_at data s k n = Ok x -> read_at (data ++ more) s k n = Ok x.
Proof.
  intros _. unfold read_at. destruct (k <? snd s)%N; [|discriminate]. cbv zeta.
  destruct (Nat.leb_spec (N.to_nat (fst s + k) + n) (length data)) as [H|]; [|discriminate].
  intros E. injection E as <-. rewrite (proj2 (Nat.leb_le _ _)) by (rewrite app_length; lia). f_equal.
  rewrite skipn_app, firstn_app, skipn_length.
  replace (n - (length data - N.to_nat (fst s + k))) with 0 by lia. rewrite firstn_O. apply app_nil_r.
Qed.

Lemma subspan_ok s o l r : subspan s o l = Ok r -> r = ((fst s + o)%N, l) /\ (o <= snd s)%N /\ (l <= snd s - o)%N.
Proof.
  unfold subspan. destruct (N.ltb_spec (snd s) o); [discriminate|]. destruct (N.ltb_spec (snd s - o) l); [discriminate|].
  intros E. injection E as <-. auto.
Qed.
Lemma subspan_from_ok s o r : subspan_from s o = Ok r -> r = ((fst s + o)%N, (snd s - o)%N) /\ (o <= snd s)%N.
Proof.
  unfold subspan_from. destruct (N.ltb_spec (snd s) o); [discriminate|]. intros E. injection E as <-. auto.
Qed.

Lemma create_frame d e data align norm d' id size j r :
  create_accessor d e data align norm = Ok (d', id) ->
  copy_accessor size d j = Ok r -> copy_accessor size d' j = Ok r.
Proof.
  intros Hc. assert (supported e) as S.
  { destruct e; cbn; auto. unfold create_accessor in Hc.
    destruct (rd _ 0); try discriminate. cbn [obind] in Hc. destruct (wr _ 0 _); discriminate. }
  destruct (create_ok d e data align norm S) as (c & t & b' & bs' & Es & E & _ & EB).
  rewrite E in Hc. apply Ok_inj in Hc.
  pose proof (f_equal fst Hc) as Hd'. pose proof (f_equal snd Hc) as Hid. cbn [fst snd] in Hd', Hid. subst d' id. clear Hc. unfold copy_accessor. cbn [d_accs d_views d_buffers].
  destruct (rd (d_accs d) j) as [a| | | |] eqn:Ea; try discriminate. cbn [obind]. rewrite (rd_app _ _ _ _ Ea). cbn [obind].
  destruct (negb (_ =? Z.of_nat size)%Z); [auto|].
  destruct (rd (d_views d) (a_view a)) as [v| | | |] eqn:Ev; try discriminate. cbn [obind]. rewrite (rd_app _ _ _ _ Ev). cbn [obind].
  destruct (rd (d_buffers d) (v_buffer v)) as [b| | | |] eqn:Eb; try discriminate. cbn [obind].
  assert (exists b2 more, rd (b' :: bs') (v_buffer v) = Ok b2 /\ b_data b2 = b_data b ++ more) as (b2 & more & Eb2 & Ed).
  { destruct (d_buffers d) as [|b0 bs]; [destruct (v_buffer v); discriminate|].
    destruct EB as [EB ->]. destruct (v_buffer v) as [|k]; cbn in Eb |- *.
    - injection Eb as ->. eauto.
    - exists b, []. rewrite app_nil_r. auto. }
  rewrite Eb2. cbn [obind]. rewrite Ed.
  destruct (subspan _ (v_offset v) (v_length v)) as [s| | | |] eqn:Es1; try discriminate. cbn [obind].
  destruct (subspan_ok _ _ _ _ Es1) as (-> & H1 & H2). cbn [fst snd] in *.
  assert (subspan (0%N, N.of_nat (length (b_data b ++ more))) (v_offset v) (v_length v) = Ok ((0 + v_offset v)%N, v_length v)) as ->.
  { unfold subspan. cbn [fst snd]. rewrite app_length.
    rewrite (proj2 (N.ltb_ge _ _)) by lia. rewrite (proj2 (N.ltb_ge _ _)) by lia. reflexivity. }
  cbn [obind]. destruct (subspan_from _ _) as [s2| | | |] eqn:Es2; try discriminate. cbn [obind].
  destruct (subspan_from_ok _ _ _ Es2) as (-> & H3). cbn [fst snd] in *.
  apply omapl_mono. intros i x. apply read_at_app. cbn [fst snd]. lia.
Qed.

Lemma creates_frame l : forall d d' ids size j r, creates d l = Ok (d', ids) ->
  copy_accessor size d j = Ok r -> copy_accessor size d' j = Ok r.
Proof.
  induction l as [|[[[e data] al] no] l IH]; intros d d' ids size j r H R; cbn [creates] in H.
  - injection H as <- <-. exact R.
  - destruct (create_accessor d e data al no) as [[d1 i1]| | | |] eqn:E; try discriminate. cbn [obind fst snd] in H.
    destruct (creates d1 l) as [[d2 is]| | | |] eqn:E2; try discriminate. cbn [obind fst snd] in H. injection H as <- <-.
    eapply IH; [exact E2|]. eapply create_frame; [exact E|exact R].
Qed.

(** Sizes along a history. *)
Lemma main_size_create d e data al no d' id : supported e -> (forall x, In x data -> length x = esize e) ->
  create_accessor d e data al no = Ok (d', id) -> main_size d' = main_size d + length data * elem_step e al.
Proof.
  intros S Hx H. destruct (create_ok d e data al no S) as (c & t & b' & bs' & _ & E & _ & EB).
  rewrite E in H. injection H as <- <-. unfold main_size. cbn [d_buffers].
  assert (length (flat_map (padded (elem_step e al)) data) = length data * elem_step e al) as LF.
  { apply flat_padded_length. intros x Hi. rewrite (Hx x Hi). apply elem_step_ge. }
  destruct (d_buffers d) as [|b bs]; destruct EB as [EB _]; rewrite EB, ?app_length, LF; reflexivity.
Qed.

Lemma creates_ok l : forall d, (forall k, In k l -> call_ok k) ->
  (N.of_nat (main_size d + list_sum (map call_bytes l)) < 2 ^ 32)%N ->
  exists d' ids, creates d l = Ok (d', ids) /\ ids = seq (length (d_accs d)) (length l) /\
    main_size d' = main_size d + list_sum (map call_bytes l) /\
    forall i k, nth_error l i = Some k -> let '(e, data, _, _) := k in
      copy_accessor (esize e) d' (length (d_accs d) + i) = Ok data.
Proof.
  induction l as [|[[[e data] al] no] l IH]; intros d H B.
  - exists d, []. cbn. repeat split; try lia. intros [|i] k E; discriminate.
  - destruct (H _ (or_introl eq_refl)) as [S Hx]. cbn [map list_sum call_bytes] in B. cbn [list_sum] in B.
    change (list_sum (length data * stored_size e al :: map call_bytes l)) with (length data * stored_size e al + list_sum (map call_bytes l)) in B. rewrite <- (elem_step_stored e al) in B.
    destruct (create_ok d e data al no S) as (c & t & b' & bs' & _ & E & _ & _).
    match type of E with _ = Ok (?dd, _) => set (d1 := dd) in * end.
    pose proof (main_size_create _ _ _ _ _ _ _ S Hx E) as M1.
    assert (N.of_nat (main_size d + length data * elem_step e al) < 2 ^ 32)%N as B1 by lia.
    destruct (create_read _ _ _ _ _ _ _ S Hx B1 E) as [_ R].
    destruct (IH d1) as (d2 & ids & E2 & I2 & M2 & R2).
    { intros k Hk. apply H. cbn; auto. } { rewrite M1. lia. }
    exists d2, (length (d_accs d) :: ids). cbn [creates]. rewrite E. cbn [obind fst snd]. rewrite E2. cbn [obind fst snd].
    assert (length (d_accs d1) = Datatypes.S (length (d_accs d))) as L1.
    { unfold d1. cbn [d_accs]. rewrite app_length. cbn [length]. lia. }
    split; [reflexivity|]. split; [rewrite I2, L1; reflexivity|]. split.
    { rewrite M2, M1. cbn [map]. change (list_sum (call_bytes (e, data, al, no) :: map call_bytes l)) with (length data * stored_size e al + list_sum (map call_bytes l)). rewrite elem_step_stored. lia. }
    intros [|i] k Ek; cbn in Ek.
    + injection Ek as <-. rewrite Nat.add_0_r. eapply creates_frame; [exact E2|exact R].
    + specialize (R2 i k Ek). destruct k as [[[e' data'] al'] no']. rewrite L1 in R2.
      rewrite Nat.add_succ_r. exact R2.
Qed.

(** ** Reading any document *)

Lemma read_at_ub_iff data s k n : read_at data s k n = UB <->
  (k < snd s)%N /\ (N.of_nat (length data) < fst s + k + N.of_nat n)%N.
Proof.
  unfold read_at. destruct (N.ltb_spec k (snd s)) as [H|H].
  - cbv zeta. destruct (Nat.leb_spec (N.to_nat (fst s + k) + n) (length data)) as [G|G].
    + split; [discriminate|]. lia.
    + split; [|reflexivity]. intros _. lia.
  - split; [discriminate|]. lia.
Qed.

Lemma copy_ub_iff size d id a v b :
  nth_error (d_accs d) id = Some a -> nth_error (d_views d) (a_view a) = Some v ->
  nth_error (d_buffers d) (v_buffer v) = Some b ->
  let stride := if (v_stride v =? 0)%N then N.of_nat size else v_stride v in
  let L := N.of_nat (length (b_data b)) in
  (copy_accessor size d id = UB <->
   ((type_size (a_type a) * comp_size (a_comp a)) mod 2 ^ 64 = Z.of_nat size)%Z /\
   (v_offset v + v_length v <= L)%N /\ (a_offset a <= v_length v)%N /\
   exists i, (N.of_nat i < a_count a)%N /\
     (a_offset a + N.of_nat i * stride < v_length v)%N /\
     (L < v_offset v + a_offset a + N.of_nat i * stride + N.of_nat size)%N).
Proof.
  intros Ea Ev Eb stride L. unfold copy_accessor. rewrite (rd_some _ _ _ Ea). cbn [obind].
  destruct (Z.eqb_spec ((type_size (a_type a) * comp_size (a_comp a)) mod 2 ^ 64) (Z.of_nat size)) as [Hs|Hs]; cbn [negb].
  2:{ split; [discriminate|]. intros [? _]. contradiction. }
  rewrite (rd_some _ _ _ Ev). cbn [obind]. rewrite (rd_some _ _ _ Eb). cbn [obind].
  fold L. fold stride. unfold subspan. cbn [fst snd]. destruct (N.ltb_spec L (v_offset v)) as [H1|H1].
  { split; [discriminate|]. intros (_ & ? & _). lia. }
  destruct (N.ltb_spec (L - v_offset v) (v_length v)) as [H2|H2].
  { split; [discriminate|]. intros (_ & ? & _). lia. }
  cbn [obind]. unfold subspan_from. cbn [fst snd]. destruct (N.ltb_spec (v_length v) (a_offset a)) as [H3|H3].
  { split; [discriminate|]. intros (_ & _ & ? & _). lia. }
  cbn [obind]. apply (fun H1 H2 H3 => iff_trans (proj1 (omapl_ub_iff _ _ _ H1 H2)) H3).
  - intros i. unfold read_at. destruct (_ <? _)%N; [|split; discriminate]. cbv zeta. destruct (_ <=? _); split; discriminate.
  - intros i j Hij. unfold read_at. cbn [fst snd].
    destruct (N.ltb_spec (N.of_nat i * stride) (v_length v - a_offset a)) as [G|G].
    + cbv zeta. destruct (_ <=? _); discriminate.
    + intros _. rewrite (proj2 (N.ltb_ge _ _)); [reflexivity|].
      assert (N.of_nat i * stride <= N.of_nat j * stride)%N by (apply N.mul_le_mono_r; lia). lia.
  - split.
    + intros (i & Hi & E). apply read_at_ub_iff in E. cbn [fst snd] in E. repeat split; try lia. exists i. fold L in E. lia.
    + intros (_ & _ & _ & i & Hi & X & Y). exists i. split; [lia|]. apply read_at_ub_iff. cbn [fst snd]. fold L. lia.
Qed.

Lemma copy_valid size d id a v b :
  nth_error (d_accs d) id = Some a -> nth_error (d_views d) (a_view a) = Some v ->
  nth_error (d_buffers d) (v_buffer v) = Some b ->
  ((type_size (a_type a) * comp_size (a_comp a)) mod 2 ^ 64 = Z.of_nat size)%Z -> 0 < size ->
  let stride := if (v_stride v =? 0)%N then N.of_nat size else v_stride v in
  (v_offset v + v_length v <= N.of_nat (length (b_data b)))%N -> (a_offset a <= v_length v)%N ->
  (forall i, (i < a_count a)%N -> (a_offset a + i * stride + N.of_nat size <= v_length v)%N) ->
  copy_accessor size d id = Ok (map (fun i =>
    firstn size (skipn (N.to_nat (v_offset v + a_offset a + N.of_nat i * stride)) (b_data b)))
    (seq 0 (N.to_nat (a_count a)))).
Proof.
  intros Ea Ev Eb Hs Pos stride HL Ho Hi. unfold copy_accessor. rewrite (rd_some _ _ _ Ea). cbn [obind].
  rewrite Hs, Z.eqb_refl. cbn [negb]. rewrite (rd_some _ _ _ Ev). cbn [obind]. rewrite (rd_some _ _ _ Eb). cbn [obind].
  fold stride. unfold subspan, subspan_from. cbn [fst snd].
  rewrite (proj2 (N.ltb_ge _ _)) by lia. rewrite (proj2 (N.ltb_ge _ _)) by lia. cbn [obind fst snd].
  rewrite (proj2 (N.ltb_ge _ _)) by lia. cbn [obind]. apply omapl_ok. intros i Hin. apply in_seq in Hin.
  specialize (Hi (N.of_nat i) ltac:(lia)). unfold read_at. cbn [fst snd]. rewrite (proj2 (N.ltb_lt _ _)) by lia. cbv zeta.
  rewrite N.add_0_l. rewrite (proj2 (Nat.leb_le _ _)) by lia. reflexivity.
Qed.
