(** Proofs about MultiposeSolverFunction. *)

From Coq Require Import Bool List Arith Lia Reals.
From Verif Require Import Prelude Loops Seq_spec Seq_model Seq_proofs.
Import ListNotations.
Local Open Scope outcome_scope.

Record mp_wf (universal : list bool) (nF : nat) (s : mpfn) : Prop := {
  m_np : mp_np s = length universal;
  m_univ : mp_univ s = universal;
  m_nF : length (mp_frames s) = nF;
  m_len : forall f x, nth_error (mp_frames s) f = Some x -> length x = length universal;
  m_map : forall i, i < length universal -> nth_error (mp_map s) i =
            Some (if uset universal i then rank (shared (uset universal) all_on) i
                  else rank (per_frame (uset universal) all_on) i);
  m_gen : length (mp_gen s) = rank (per_frame (uset universal) all_on) (length universal);
  m_num : mp_num s = joined_size (length universal) (uset universal) all_on nF
}.

(** ** The index map *)

Lemma index_loop universal : forall n, n <= length universal -> exists map gen unv,
  fold_left index_step (firstn n (combine (seq 0 (length universal)) universal)) ([], [], []) =
    (map, gen, unv) /\
  length map = n /\
  length gen = rank (per_frame (uset universal) all_on) n /\
  length unv = rank (shared (uset universal) all_on) n /\
  forall i, i < n -> nth_error map i =
    Some (if uset universal i then rank (shared (uset universal) all_on) i
          else rank (per_frame (uset universal) all_on) i).
Proof.
  set (U := uset universal). set (l := combine (seq 0 (length universal)) universal).
  assert (length l = length universal) as Ll.
  { unfold l. rewrite combine_length, seq_length. lia. }
  induction n as [|n IH]; intros Hn.
  - exists [], [], []. cbn. repeat split; auto. intros; lia.
  - destruct IH as (map & gen & unv & E & Lm & Lg & Lu & A); [lia|].
    assert (firstn (S n) l = firstn n l ++ [(n, U n)]) as ->.
    { assert (nth_error l n = Some (n, U n)) as N.
      { unfold l. pose proof (combine_nth (seq 0 (length universal)) universal n 0 false
          ltac:(rewrite seq_length; reflexivity)) as C.
        rewrite seq_nth in C by lia. fold l in C |- *.
        etransitivity; [apply (nth_error_nth' l (0, false)); lia|]. f_equal. exact C. }
      clear -N. clearbody l. revert N. generalize (n, U n) as z. clear U. intros z N.
      revert n z N. induction l as [|y l IH]; intros [|n] z N; cbn in *; try discriminate.
      - injection N as ->. reflexivity.
      - f_equal. apply IH. exact N. }
    rewrite fold_left_app, E. cbn [fold_left index_step].
    rewrite !rank_S. unfold per_frame at 2, shared at 2. fold U. cbn [all_on andb].
    destruct (U n) eqn:Hu; cbn [negb].
    + exists (map ++ [length unv]), gen, (unv ++ [n]). rewrite !app_length. cbn [length].
      repeat split; try lia. intros i Hi. destruct (Nat.eq_dec i n) as [->|D].
      * rewrite nth_error_app2, Lm, Nat.sub_diag by lia. cbn. rewrite Hu, Lu. reflexivity.
      * rewrite nth_error_app1 by lia. apply A. lia.
    + exists (map ++ [length gen]), (gen ++ [n]), unv. rewrite !app_length. cbn [length].
      repeat split; try lia. intros i Hi. destruct (Nat.eq_dec i n) as [->|D].
      * rewrite nth_error_app2, Lm, Nat.sub_diag by lia. cbn. rewrite Hu, Lg. reflexivity.
      * rewrite nth_error_app1 by lia. apply A. lia.
Qed.

Lemma mp_init_wf universal nF : mp_wf universal nF (mp_init universal nF).
Proof.
  unfold mp_init.
  destruct (index_loop universal (length universal) (Nat.le_refl _)) as (map & gen & unv & E & Lm & Lg & Lu & A).
  rewrite firstn_all2 in E by (rewrite combine_length, seq_length; lia).
  rewrite E. constructor; cbn; auto.
  - apply repeat_length.
  - apply init_frames_len.
  - rewrite Lg, Lu. reflexivity.
Qed.

Section Wf.
Context (universal : list bool) (nF : nat) (s : mpfn) (W : mp_wf universal nF s).
Let np := length universal.
Let U := uset universal.

Lemma place_spec f i : i < np -> mp_place s f i = Ok (slot np U all_on nF f i).
Proof.
  intros Hi. unfold mp_place. rewrite (m_univ _ _ _ W).
  assert (nth_error universal i = Some (U i)) as N by (apply nth_error_nth'; exact Hi).
  rewrite (rd_some _ _ _ N). cbn [obind].
  rewrite (rd_some _ _ _ (m_map _ _ _ W i Hi)). cbn [obind].
  rewrite (m_gen _ _ _ W), (m_nF _ _ _ W). unfold slot. fold U np.
  destruct (U i); reflexivity.
Qed.

Lemma mp_set_joined_spec v : length v = joined_size np U all_on nF ->
  exists s', mp_set_joined s v = Ok s' /\ mp_wf universal nF s' /\
    (exists fr, s' = mp_with_frames s fr) /\
    forall f i, f < nF -> i < np ->
      value_at (mp_frames s') f i = nth_error v (slot np U all_on nF f i).
Proof.
  intros Lv. unfold mp_set_joined. rewrite (m_nF _ _ _ W).
  destruct (frames_loop (fun f x => ofold (fun i x =>
          let* p := mp_place s f i in
          let* y := rd v p in
          wr x i y) (seq 0 (mp_np s)) x)
     (fun f x x' => forall i, i < np -> nth_error x' i = nth_error v (slot np U all_on nF f i))
      nF np (mp_frames s) (m_nF _ _ _ W) (m_len _ _ _ W)) as (fr & E & L & A).
  { intros f x Hf Lx. rewrite (m_np _ _ _ W). fold np.
    destruct (copy_loop (fun i x => let* p := mp_place s f i in let* y := rd v p in wr x i y)
       (fun i => i) (fun i => def0 (nth_error v (slot np U all_on nF f i))) (seq 0 np) x)
      as (x' & E & L & S & _).
    - intros i r Hi _. apply in_seq in Hi. rewrite place_spec by lia. cbn [obind].
      rewrite (rd_some _ _ _ (nth_def0 v (slot np U all_on nF f i)
         ltac:(rewrite Lv; apply slot_bound; auto; lia))). reflexivity.
    - intros i Hi. apply in_seq in Hi. lia.
    - intros i i' _ _ ->. reflexivity.
    - exists x'. split; [exact E|]. split; [lia|]. intros i Hi.
      rewrite (S i) by (apply in_seq; lia). symmetry. apply nth_def0. rewrite Lv. apply slot_bound; auto. }
  rewrite E. cbn [obind]. eexists. split; [reflexivity|]. split; [|split; [eauto|]].
  - destruct W. constructor; cbn; auto.
    intros f x Ex. destruct (nth_error_lt (mp_frames s) f) as [y Ey]; [apply nth_error_len in Ex; lia|].
    destruct (A f y Ey) as (x' & Ex' & Lx' & _). rewrite Ex' in Ex. injection Ex as <-. exact Lx'.
  - intros f i Hf Hi. cbn. unfold value_at.
    destruct (nth_error_lt (mp_frames s) f) as [x Ex]; [rewrite (m_nF _ _ _ W); exact Hf|].
    destruct (A f x Ex) as (x' & Ex' & _ & Q). rewrite Ex'. apply Q. exact Hi.
Qed.

Lemma mp_join_spec junk : 0 < nF -> length junk = joined_size np U all_on nF ->
  exists v, mp_join s junk = Ok v /\ length v = joined_size np U all_on nF /\
    forall f i, f < nF -> i < np ->
      nth_error v (slot np U all_on nF f i) = value_at (mp_frames s) (if U i then nF - 1 else f) i.
Proof.
  intros HF Lj. unfold mp_join. rewrite (m_nF _ _ _ W), (m_np _ _ _ W). fold np.
  destruct (ofold_seq_inv (fun f res =>
    let* x := rd (mp_frames s) f in
    ofold (fun i res => let* p := mp_place s f i in let* y := rd x i in wr res p y) (seq 0 np) res)
    (fun n res => length res = length junk /\
       forall f i, f < n -> i < np -> nth_error res (slot np U all_on nF f i) =
         value_at (mp_frames s) (if U i then n - 1 else f) i) nF junk) as (v & E & L & A).
  - split; [reflexivity|]. intros; lia.
  - intros n res Hn (L & A).
    destruct (nth_error_lt (mp_frames s) n) as [x Ex]; [rewrite (m_nF _ _ _ W); exact Hn|].
    pose proof (m_len _ _ _ W _ _ Ex) as Lx. fold np in Lx.
    rewrite (rd_some _ _ _ Ex). cbn [obind].
    destruct (copy_loop (fun i res => let* p := mp_place s n i in let* y := rd x i in wr res p y)
       (fun i => slot np U all_on nF n i) (fun i => def0 (nth_error x i)) (seq 0 np) res)
      as (r' & E' & L' & S' & O').
    + intros i r Hi _. apply in_seq in Hi. rewrite place_spec by lia. cbn [obind].
      rewrite (rd_some x i _ (nth_def0 x i ltac:(lia))). reflexivity.
    + intros i Hi. apply in_seq in Hi. rewrite L, Lj. apply slot_bound; auto; lia.
    + intros i i' Hi Hi' Q. apply in_seq in Hi, Hi'.
      destruct (slot_inj np U all_on nF n i n i') as [-> _]; auto; lia.
    + exists r'. split; [exact E'|]. split; [lia|]. intros f i Hf Hi.
      destruct (U i) eqn:Hu.
      * assert (slot np U all_on nF f i = slot np U all_on nF n i) as ->
          by (unfold slot; rewrite Hu; reflexivity).
        rewrite (S' i) by (apply in_seq; lia). cbn. rewrite Nat.sub_0_r. unfold value_at. rewrite Ex.
        symmetry. apply nth_def0. lia.
      * destruct (Nat.eq_dec f n) as [->|D].
        -- rewrite (S' i) by (apply in_seq; lia). unfold value_at. rewrite Ex.
           symmetry. apply nth_def0. lia.
        -- rewrite O'; [rewrite A, Hu by (auto; lia); reflexivity|].
           intros i' Hi' Q. apply in_seq in Hi'.
           destruct (slot_inj np U all_on nF n i' f i) as [-> Z]; auto; try lia.
           specialize (Z Hu). lia.
  - exists v. split; [exact E|]. split; [lia|]. exact A.
Qed.

Lemma mp_set_frame_wf f p s' : mp_set_frame s f p = Ok s' -> mp_wf universal nF s'.
Proof.
  unfold mp_set_frame.
  destruct (Nat.ltb_spec f (length (mp_frames s))); [|discriminate].
  destruct (Nat.eqb_spec (length p) (mp_np s)) as [Lp|]; [|discriminate]. cbn.
  destruct (wr_ok (mp_frames s) f p) as (fr & E & L & S & O); [lia|].
  rewrite E. cbn. intros Q. injection Q as <-. destruct W. constructor; cbn; auto; [lia|].
  intros g x Ex. destruct (Nat.eq_dec g f) as [->|D]; [congruence|].
  rewrite O in Ex by exact D. eauto.
Qed.

Lemma mp_set_enabled_wf en s' : mp_set_enabled s en = Ok s' -> mp_wf universal nF s'.
Proof.
  unfold mp_set_enabled.
  match goal with |- obind ?x _ = _ -> _ => destruct x as [a| | | |]; try discriminate end.
  cbn. intros E. injection E as <-. destruct W. constructor; cbn; auto.
Qed.

(** A vector that is accepted leaves a well-formed function, whatever its length. *)
Lemma mp_set_joined_wf v s' : mp_set_joined s v = Ok s' -> mp_wf universal nF s'.
Proof.
  unfold mp_set_joined. rewrite (m_nF _ _ _ W).
  intros E.
  set (body := fun f fr =>
      let* x := rd fr f in
      let* x' := ofold (fun i x =>
          let* p := mp_place s f i in
          let* y := rd v p in
          wr x i y) (seq 0 (mp_np s)) x in
      wr fr f x') in E.
  assert (forall l fr fr', ofold body l fr = Ok fr' -> length fr = nF ->
     (forall f x, nth_error fr f = Some x -> length x = np) ->
     length fr' = nF /\ (forall f x, nth_error fr' f = Some x -> length x = np)) as H.
  { induction l as [|f l IH]; intros fr fr'; cbn [ofold].
    - intros Q. injection Q as <-. auto.
    - destruct (body f fr) as [fr1| | | |] eqn:E1; try discriminate. cbn [obind]. intros Q L N.
      apply (IH fr1 fr' Q).
      + unfold body in E1. destruct (rd fr f) as [x| | | |]; try discriminate. cbn [obind] in E1.
        destruct (ofold _ _ x) as [x'| | | |]; try discriminate. cbn [obind] in E1.
        apply wr_ok_inv in E1. lia.
      + unfold body in E1. destruct (rd fr f) as [x| | | |] eqn:Ex; try discriminate. cbn [obind] in E1.
        apply rd_inv in Ex.
        destruct (ofold _ _ x) as [x'| | | |] eqn:Ex'; try discriminate. cbn [obind] in E1.
        assert (length x' = length x) as Lx.
        { clear -Ex'. revert x x' Ex'. generalize (seq 0 (mp_np s)) as l.
          induction l as [|i l IH]; intros x x'; cbn [ofold]; [intros Q; injection Q as <-; reflexivity|].
          destruct (mp_place s f i) as [p| | | |]; try discriminate. cbn [obind].
          destruct (rd v p) as [y| | | |]; try discriminate. cbn [obind].
          destruct (wr x i y) as [z| | | |] eqn:Ez; try discriminate. cbn [obind]. intros Q.
          apply IH in Q. apply wr_ok_inv in Ez. lia. }
        destruct (wr_ok_inv _ _ _ _ E1) as (Hf & L1 & S1 & O1).
        intros g y Ey. destruct (Nat.eq_dec g f) as [->|D].
        * rewrite S1 in Ey. injection Ey as <-. rewrite Lx. eauto.
        * rewrite O1 in Ey by exact D. eauto. }
  destruct (ofold body (seq 0 nF) (mp_frames s)) as [fr| | | |] eqn:Ef; try discriminate.
  cbn [obind] in E. injection E as <-.
  destruct (H _ _ _ Ef (m_nF _ _ _ W) (m_len _ _ _ W)) as (L & N).
  destruct W. constructor; cbn; auto.
Qed.
End Wf.

Lemma mp_run_wf universal nF ops s : mp_run universal nF ops = Ok s -> mp_wf universal nF s.
Proof.
  unfold mp_run. generalize (mp_init_wf universal nF). generalize (mp_init universal nF) as s0.
  induction ops as [|o ops IH]; intros s0 W; cbn [ofold].
  - intros E. injection E as <-. exact W.
  - destruct (mp_do s0 o) as [s1| | | |] eqn:E1; try discriminate. cbn [obind]. apply IH.
    destruct o as [en|f p|v]; cbn in E1.
    + eapply mp_set_enabled_wf; eauto.
    + eapply mp_set_frame_wf; eauto.
    + eapply mp_set_joined_wf; eauto.
Qed.

Lemma mp_join_after_set universal nF s v s' junk : mp_wf universal nF s -> 0 < nF ->
  length v = joined_size (length universal) (uset universal) all_on nF -> length junk = length v ->
  mp_set_joined s v = Ok s' -> mp_join s' junk = Ok v.
Proof.
  intros W HF Lv Lj E.
  destruct (mp_set_joined_spec _ _ _ W v Lv) as (s2 & E2 & W2 & _ & V).
  rewrite E in E2. injection E2 as <-.
  destruct (mp_join_spec _ _ _ W2 junk HF ltac:(congruence)) as (v' & Ev & Lv' & A).
  rewrite Ev. f_equal. apply nth_error_ext_len; [congruence|].
  intros p Hp. rewrite Lv' in Hp.
  destruct (slot_onto _ _ _ nF p HF Hp) as (f & i & Hf & Hi & He & <-).
  rewrite A by auto. rewrite V by (auto; destruct (uset universal i); auto; lia).
  unfold slot. destruct (uset universal i); reflexivity.
Qed.

Lemma mp_set_after_join universal nF s v junk : mp_wf universal nF s -> 0 < nF ->
  length junk = joined_size (length universal) (uset universal) all_on nF ->
  shared_agree (length universal) (uset universal) all_on (mp_frames s) ->
  mp_join s junk = Ok v -> mp_set_joined s v = Ok s.
Proof.
  intros W HF Lj SA E.
  destruct (mp_join_spec _ _ _ W junk HF Lj) as (v' & Ev & Lv & A). rewrite E in Ev. injection Ev as <-.
  destruct (mp_set_joined_spec _ _ _ W v Lv) as (s2 & E2 & W2 & (fr & ->) & V).
  rewrite E2. f_equal. transitivity (mp_with_frames s (mp_frames s)); [|destruct s; reflexivity].
  f_equal. apply (frames_ext (length universal) nF); [apply (m_nF _ _ _ W2)|apply (m_nF _ _ _ W)
    |apply (m_len _ _ _ W2)|apply (m_len _ _ _ W)|].
  intros f i Hf Hi. specialize (V f i Hf Hi). cbn in V. rewrite V. rewrite A by auto.
  destruct (uset universal i) eqn:Hu; [|reflexivity].
  rewrite (SA (nF - 1) i), (SA f i); auto; rewrite (m_nF _ _ _ W); lia.
Qed.

(** ** setEnabledParameters *)

Lemma last_spec (en : nat -> bool) n :
  let last := fold_left (fun a i => if en i then i else a) (seq 0 n) 0 in
  (last < n /\ en last = true /\ forall i, i < n -> en i = true -> i <= last) \/
  (last = 0 /\ forall i, i < n -> en i = false).
Proof.
  induction n as [|n IH]; [right; split; [reflexivity|intros; lia]|].
  rewrite seq_S, fold_left_app. cbn [fold_left Nat.add] in *.
  destruct (en n) eqn:E.
  - left. repeat split; auto. intros; lia.
  - destruct IH as [(A & B & C)|(A & B)].
    + left. split; [lia|]. split; [exact B|]. intros i Hi Hen.
      destruct (Nat.eq_dec i n) as [->|]; [congruence|]. apply C; [lia|exact Hen].
    + right. split; [exact A|]. intros i Hi.
      destruct (Nat.eq_dec i n) as [->|]; [exact E|]. apply B. lia.
Qed.

Lemma enabled_iff universal nF s en s' : mp_wf universal nF s -> 0 < nF ->
  mp_set_enabled s en = Ok s' ->
  (forall f i, f < nF -> i < length universal -> en i = true ->
     slot (length universal) (uset universal) all_on nF f i < mp_actual s') <->
  (forall i, i < length universal -> en i = true ->
     (exists j, 0 < j < length universal /\ i <= j /\ en j = true) /\
     (uset universal i = true ->
        exists j, i <= j < length universal /\ en j = true /\ uset universal j = true /\
          forall k, j < k < length universal -> en k = false)).
Proof.
  intros W HF. set (np := length universal). set (U := uset universal).
  unfold mp_set_enabled. rewrite (m_np _ _ _ W), (m_univ _ _ _ W), (m_nF _ _ _ W). fold np.
  pose proof (last_spec en np) as LS. cbv zeta in LS.
  set (last := fold_left _ _ _) in *.
  destruct LS as [(Ll & Le & Lm)|(L0 & Ln)].
  2:{ intros _. split; intros H.
      - intros i Hi He. rewrite (Ln i Hi) in He. discriminate.
      - intros f i _ Hi He. rewrite (Ln i Hi) in He. discriminate. }
  destruct (Nat.ltb_spec 0 last) as [Lp|Lz].
  2:{ cbn [obind]. intros E. injection E as <-. cbn [mp_actual]. split; intros H.
      - exfalso. specialize (H 0 last HF Ll Le). lia.
      - exfalso. destruct (H last Ll Le) as ((j & Hj & _ & Hej) & _).
        specialize (Lm j ltac:(lia) Hej). lia. }
  assert (nth_error universal last = Some (U last)) as N by (apply nth_error_nth'; exact Ll).
  rewrite (rd_some _ _ _ N). cbn [obind].
  rewrite (rd_some _ _ _ (m_map _ _ _ W last Ll)). cbn [obind].
  rewrite (m_gen _ _ _ W). fold np U. unfold np at 2.
  destruct (U last) eqn:Hu; cbn [obind]; intros E; injection E as <-; cbn [mp_actual].
  - (* the last enabled parameter is shared *)
    split; intros H.
    + intros i Hi He. split; [exists last; repeat split; auto|].
      intros _. exists last. repeat split; auto. intros k Hk. destruct (en k) eqn:Ek; [|reflexivity].
      specialize (Lm k ltac:(lia) Ek). lia.
    + intros f i Hf Hi He. fold np. specialize (Lm i Hi He). unfold slot. destruct (U i) eqn:Hui.
      * pose proof (rank_le (shared U all_on) i last Lm). lia.
      * pose proof (rank_lt (per_frame U all_on) i np Hi (per_true U all_on i eq_refl Hui)). nia.
  - (* the last enabled parameter is per frame *)
    split; intros H.
    + intros i Hi He. split; [exists last; repeat split; auto|].
      intros Hui. exfalso. specialize (H 0 i HF Hi He). fold np in H. unfold slot in H. rewrite Hui in H.
      pose proof (rank_lt (per_frame U all_on) last np Ll (per_true U all_on last eq_refl Hu)).
      nia.
    + intros f i Hf Hi He. fold np. destruct (H i Hi He) as (_ & Q).
      destruct (U i) eqn:Hui.
      * exfalso. destruct (Q eq_refl) as (j & Hj & Hej & Huj & Hk).
        specialize (Lm j ltac:(lia) Hej). destruct (Nat.eq_dec j last) as [->|]; [congruence|].
        rewrite (Hk last) in Le by lia. discriminate.
      * specialize (Lm i Hi He). unfold slot. rewrite Hui.
        pose proof (rank_le (per_frame U all_on) i last Lm).
        nia.
Qed.
