(** The Jacobian of a sequence, written into arbitrary old contents. *)

From Coq Require Import Bool List Arith Lia Reals Lra.
From Verif Require Import Prelude LinAlg Rbool ListUtil Loops
  Seq_spec Seq_model Seq_proofs SeqFn_model SeqFn_spec SeqFn_proofs.
Import ListNotations.
Local Open Scope outcome_scope.
Local Open Scope nat_scope.

Definition in_rows (pos used q : nat) : bool := (pos <=? q) && (q <? pos + used).

Lemma in_rows_iff pos used q : in_rows pos used q = true <-> pos <= q < pos + used.
Proof. unfold in_rows. rewrite andb_true_iff, Nat.leb_le, Nat.ltb_lt. tauto. Qed.
Lemma in_rows_no pos used q : in_rows pos used q = false <-> ~ (pos <= q < pos + used).
Proof. rewrite <- in_rows_iff. destruct (in_rows pos used q); split; congruence. Qed.

Definition same_dims (J J' : fmat) : Prop := fm_rows J' = fm_rows J /\ fm_cols J' = fm_cols J.

Lemma put_col_ok J pos c n src : pos + n <= fm_rows J -> c < fm_cols J ->
  exists J', put_col J pos c n src = Ok J' /\ same_dims J J' /\
    forall q d, fm_at J' q d = if (d =? c) && in_rows pos n q then src (q - pos) else fm_at J q d.
Proof.
  intros H1 H2. unfold put_col. apply Nat.leb_le in H1. apply Nat.ltb_lt in H2. rewrite H1, H2.
  eexists. split; [reflexivity|]. split; [split; reflexivity|].
  intros q d. cbn [fm_at]. unfold in_rows. rewrite andb_assoc. reflexivity.
Qed.
Lemma add_col_ok J pos c n src : pos + n <= fm_rows J -> c < fm_cols J ->
  exists J', add_col J pos c n src = Ok J' /\ same_dims J J' /\
    forall q d, fm_at J' q d = if (d =? c) && in_rows pos n q then (fm_at J q d + src (q - pos)%nat)%R else fm_at J q d.
Proof.
  intros H1 H2. unfold add_col. apply Nat.leb_le in H1. apply Nat.ltb_lt in H2. rewrite H1, H2.
  eexists. split; [reflexivity|]. split; [split; reflexivity|].
  intros q d. cbn [fm_at]. unfold in_rows. rewrite andb_assoc. reflexivity.
Qed.

Lemma same_dims_trans A B C : same_dims A B -> same_dims B C -> same_dims A C.
Proof. intros [? ?] [? ?]. split; congruence. Qed.

Section Block.
Context (np : nat) (univ : nat -> bool) (nF : nat) (en : nat -> bool) (s : seqfn).
Context (W : seq_wf np univ nF en s).
Let sl := slot np univ en nF.
Let N := joined_size np univ en nF.

Lemma slot_per f i : univ i = false -> sl f i = length (sq_per s) * f + rank (per_frame univ en) i.
Proof. intros H. unfold sl, slot. rewrite H, (per_length _ _ _ _ _ W). reflexivity. Qed.
Lemma slot_unv f i : univ i = true -> sl f i = length (sq_per s) * nF + rank (shared univ en) i.
Proof. intros H. unfold sl, slot. rewrite H, (per_length _ _ _ _ _ W). reflexivity. Qed.

Lemma slot_eqb f i g k : f < nF -> g < nF -> i < np -> k < np -> en i = true -> en k = true ->
  (sl f i =? sl g k) = (i =? k) && (univ i || (f =? g)).
Proof.
  intros. destruct (Nat.eqb_spec (sl f i) (sl g k)) as [E|D].
  - destruct (slot_inj np univ en nF f i g k) as [-> Z]; auto. rewrite Nat.eqb_refl. cbn [andb].
    destruct (univ k); [reflexivity|]. rewrite (Z eq_refl), Nat.eqb_refl. reflexivity.
  - destruct (Nat.eqb_spec i k) as [->|]; [|reflexivity]. cbn [andb].
    destruct (univ k) eqn:U; cbn [orb].
    + exfalso. apply D. rewrite !slot_unv by exact U. reflexivity.
    + destruct (Nat.eqb_spec f g) as [->|]; [exfalso; apply D; reflexivity|reflexivity].
Qed.

Lemma put_frame_ok J pos used frame base rows : pos + used <= fm_rows J -> fm_cols J = N -> frame < nF ->
  exists J', put_frame s J pos used frame base rows = Ok J' /\ same_dims J J' /\
    forall q f i, f < nF -> i < np -> en i = true ->
      fm_at J' q (sl f i) =
      if in_rows pos used q && (f =? frame) && negb (univ i)
      then temp_at rows (base + i) (q - pos) else fm_at J q (sl f i).
Proof.
  intros HR HC Hfr. unfold put_frame. cbv zeta.
  edestruct (ofold_seq_inv (fun k J =>
    let* i := rd (sq_per s) k in
    put_col J pos (length (sq_per s) * frame + k) used (temp_at rows (base + i)))
    (fun n J' => same_dims J J' /\ forall q f i, f < nF -> i < np -> en i = true ->
      fm_at J' q (sl f i) =
      if in_rows pos used q && (f =? frame) && negb (univ i) && (rank (per_frame univ en) i <? n)
      then temp_at rows (base + i) (q - pos) else fm_at J q (sl f i)) (length (sq_per s)) J) as (J' & E & D & A).
  - split; [split; reflexivity|]. intros q f i Hf Hi He. rewrite andb_false_r. reflexivity.
  - intros k J1 Hk [D1 A1]. destruct (per_get _ _ _ _ _ k W Hk) as (ik & Ek & Hik & Hek & Huk & Rk).
    rewrite (rd_some _ _ _ Ek). cbn [obind].
    assert (length (sq_per s) * frame + k = sl frame ik) as Ec by (rewrite slot_per, Rk by exact Huk; reflexivity).
    rewrite Ec. destruct D1 as [D1r D1c].
    destruct (put_col_ok J1 pos (sl frame ik) used (temp_at rows (base + ik))) as (J2 & E2 & D2 & A2).
    { rewrite D1r. exact HR. }
    { rewrite D1c, HC. apply slot_bound; auto. }
    exists J2. split; [exact E2|]. split; [eapply same_dims_trans; [split; eassumption|exact D2]|].
    intros q f i Hf Hi He. rewrite A2, slot_eqb by auto. rewrite A1 by auto.
    destruct (in_rows pos used q) eqn:Q; cbn [andb]; [|rewrite andb_false_r; reflexivity].
    rewrite andb_true_r.
    destruct (Nat.eqb_spec i ik) as [->|Dk].
    + rewrite Huk. cbn [orb negb andb]. rewrite Rk.
      destruct (f =? frame); cbn [andb]; [|reflexivity].
      assert ((k <? S k) = true) as -> by (apply Nat.ltb_lt; lia). reflexivity.
    + cbn [andb]. destruct (f =? frame); cbn [andb]; [|reflexivity].
      destruct (univ i) eqn:U; cbn [negb andb]; [reflexivity|].
      assert (rank (per_frame univ en) i <> k) as NE.
      { intros Q2. apply Dk. apply (rank_inj (per_frame univ en)); [| |congruence]; unfold per_frame; [rewrite He, U|rewrite Hek, Huk]; reflexivity. }
      destruct (Nat.ltb_spec (rank (per_frame univ en) i) k), (Nat.ltb_spec (rank (per_frame univ en) i) (S k)); try lia; reflexivity.
  - exists J'. split; [exact E|]. split; [exact D|]. intros q f i Hf Hi He. rewrite A by auto.
    destruct (univ i) eqn:U; cbn [negb andb]; [rewrite andb_false_r; reflexivity|].
    assert ((rank (per_frame univ en) i <? length (sq_per s)) = true) as ->; [|rewrite !andb_true_r; reflexivity].
    apply Nat.ltb_lt. rewrite (per_length _ _ _ _ _ W). apply rank_lt; [exact Hi|].
    unfold per_frame. rewrite He, U. reflexivity.
Qed.

(** [put] is one of the two ways of writing a column; [mix] says what it does to an entry. *)
Lemma put_shared_ok put (mix : R -> R -> R) J pos used base rows :
  (forall J pos c n src, pos + n <= fm_rows J -> c < fm_cols J ->
    exists J', put J pos c n src = Ok J' /\ same_dims J J' /\
    forall q d, fm_at J' q d = if (d =? c) && in_rows pos n q then mix (fm_at J q d) (src (q - pos)) else fm_at J q d) ->
  0 < nF -> pos + used <= fm_rows J -> fm_cols J = N ->
  exists J', put_shared s J put pos used base rows = Ok J' /\ same_dims J J' /\
    forall q f i, f < nF -> i < np -> en i = true ->
      fm_at J' q (sl f i) =
      if in_rows pos used q && univ i
      then mix (fm_at J q (sl f i)) (temp_at rows (base + i) (q - pos)) else fm_at J q (sl f i).
Proof.
  intros Hput HF HR HC. unfold put_shared. cbv zeta. rewrite (w_nF _ _ _ _ _ W).
  edestruct (ofold_seq_inv (fun k J =>
    let* i := rd (sq_unv s) k in
    put J pos (length (sq_per s) * nF + k) used (temp_at rows (base + i)))
    (fun n J' => same_dims J J' /\ forall q f i, f < nF -> i < np -> en i = true ->
      fm_at J' q (sl f i) =
      if in_rows pos used q && univ i && (rank (shared univ en) i <? n)
      then mix (fm_at J q (sl f i)) (temp_at rows (base + i) (q - pos)) else fm_at J q (sl f i)) (length (sq_unv s)) J) as (J' & E & D & A).
  - split; [split; reflexivity|]. intros q f i Hf Hi He. rewrite andb_false_r. reflexivity.
  - intros k J1 Hk [D1 A1]. destruct (unv_get _ _ _ _ _ k W Hk) as (ik & Ek & Hik & Hek & Huk & Rk).
    rewrite (rd_some _ _ _ Ek). cbn [obind].
    assert (length (sq_per s) * nF + k = sl 0 ik) as Ec by (rewrite slot_unv, Rk by exact Huk; reflexivity).
    rewrite Ec. destruct D1 as [D1r D1c].
    destruct (Hput J1 pos (sl 0 ik) used (temp_at rows (base + ik))) as (J2 & E2 & D2 & A2).
    { rewrite D1r. exact HR. }
    { rewrite D1c, HC. apply slot_bound; auto. }
    exists J2. split; [exact E2|]. split; [eapply same_dims_trans; [split; eassumption|exact D2]|].
    intros q f i Hf Hi He. rewrite A2, slot_eqb by auto. rewrite A1 by auto.
    destruct (in_rows pos used q) eqn:Q; cbn [andb]; [|rewrite andb_false_r; reflexivity].
    rewrite andb_true_r.
    destruct (Nat.eqb_spec i ik) as [->|Dk].
    + rewrite Huk. cbn [orb negb andb]. rewrite Rk.
      assert ((k <? S k) = true) as -> by (apply Nat.ltb_lt; lia).
      assert ((k <? k) = false) as -> by (apply Nat.ltb_ge; lia). reflexivity.
    + cbn [andb]. destruct (univ i) eqn:U; cbn [negb andb]; [|reflexivity].
      assert (rank (shared univ en) i <> k) as NE.
      { intros Q2. apply Dk. apply (rank_inj (shared univ en)); [| |congruence]; unfold shared; [rewrite He, U|rewrite Hek, Huk]; reflexivity. }
      destruct (Nat.ltb_spec (rank (shared univ en) i) k), (Nat.ltb_spec (rank (shared univ en) i) (S k)); try lia; reflexivity.
  - exists J'. split; [exact E|]. split; [exact D|]. intros q f i Hf Hi He. rewrite A by auto.
    destruct (univ i) eqn:U; cbn [negb andb]; [|rewrite andb_false_r; reflexivity].
    assert ((rank (shared univ en) i <? length (sq_unv s)) = true) as ->; [|rewrite !andb_true_r; reflexivity].
    apply Nat.ltb_lt. rewrite (unv_length _ _ _ _ _ W). apply rank_lt; [exact Hi|].
    unfold shared. rewrite He, U. reflexivity.
Qed.

(** ** One call *)

Definition jac_call (c : call) (st : jstate) : outcome jstate :=
  let* w := window (sq_frames s) (c_at c) (c_n c) in
  let rows := se_rows (c_fn c) w in
  let used := se_used (c_fn c) w in
  let* r := put_residual (j_r st) (j_pos st) (se_size (c_fn c)) rows in
  let* J :=
    if c_seq c then
      ofold (fun sub J =>
        let* J1 := put_frame s J (j_pos st) used (c_at c + sub) (sub * sq_np s) rows in
        put_shared s J1 add_col (j_pos st) used (sub * sq_np s) rows) (seq 0 (c_n c)) (j_J st)
    else
      let* J1 := put_frame s (j_J st) (j_pos st) used (c_at c) 0 rows in
      put_shared s J1 put_col (j_pos st) used 0 rows in
  Ok (JState J r (j_pos st + used) (j_err st + se_jerror (c_fn c) w)).

Definition row_residual (c : call) (q : nat) : R := row_value (sq_frames s) c q.
Definition row_count (c : call) : nat := length (se_rows (c_fn c) (seen (sq_frames s) c)).
Definition used_by (c : call) : nat := se_used (c_fn c) (seen (sq_frames s) c).

(** What a call does to the matrix entry of parameter [i] of frame [f]. *)
Definition new_entry (c : call) (pos : nat) (old : R) (q f i : nat) : R :=
  if in_rows pos (used_by c) q then
    let x := coefficient np univ (sq_frames s) c (q - pos) f i in
    if univ i then (if c_seq c then (old + x)%R else x)
    else if (c_at c <=? f) && (f <? c_at c + c_n c) then x else old
  else old.

Lemma temp_entry rows q k : temp_at rows k q =
  match nth_error rows q with Some row => fst row k | None => 0%R end.
Proof.
  unfold temp_at. destruct (nth_error rows q) as [x|] eqn:E.
  - rewrite (nth_error_nth0 _ _ _ _ E). reflexivity.
  - apply nth_error_None in E. rewrite nth_overflow by exact E. reflexivity.
Qed.

Lemma jac_call_ok c st : 0 < nF -> c_at c + c_n c <= nF -> (c_seq c = false -> c_n c = 1) ->
  row_count c <= se_size (c_fn c) ->
  j_pos st + used_by c <= fm_rows (j_J st) -> j_pos st + se_size (c_fn c) <= fv_len (j_r st) ->
  fm_cols (j_J st) = N ->
  exists st', jac_call c st = Ok st' /\ same_dims (j_J st) (j_J st') /\
    fv_len (j_r st') = fv_len (j_r st) /\
    j_pos st' = j_pos st + used_by c /\
    j_err st' = (j_err st + se_jerror (c_fn c) (seen (sq_frames s) c))%R /\
    (forall q, fv_at (j_r st') q =
       if in_rows (j_pos st) (row_count c) q then row_residual c (q - j_pos st) else fv_at (j_r st) q) /\
    (forall q f i, f < nF -> i < np -> en i = true ->
       fm_at (j_J st') q (sl f i) = new_entry c (j_pos st) (fm_at (j_J st) q (sl f i)) q f i).
Proof.
  intros HF Hc H1 Hrows HR Hr HC. unfold jac_call.
  rewrite window_ok by (rewrite (w_nF _ _ _ _ _ W); exact Hc). cbn [obind].
  change (firstn (c_n c) (skipn (c_at c) (sq_frames s))) with (seen (sq_frames s) c). cbv zeta.
  unfold row_count, used_by in *. set (rows := se_rows (c_fn c) (seen (sq_frames s) c)) in *.
  set (used := se_used (c_fn c) (seen (sq_frames s) c)) in *. set (pos := j_pos st) in *.
  unfold put_residual. pose proof Hr as Hr'. pose proof Hrows as Hrows'.
  apply Nat.leb_le in Hr'. apply Nat.leb_le in Hrows'. rewrite Hr', Hrows'. cbn [andb obind].
  rewrite (w_np _ _ _ _ _ W).
  assert (exists J', (if c_seq c then
      ofold (fun sub J =>
        let* J1 := put_frame s J pos used (c_at c + sub) (sub * np) rows in
        put_shared s J1 add_col pos used (sub * np) rows) (seq 0 (c_n c)) (j_J st)
    else
      let* J1 := put_frame s (j_J st) pos used (c_at c) 0 rows in
      put_shared s J1 put_col pos used 0 rows) = Ok J' /\ same_dims (j_J st) J' /\
    forall q f i, f < nF -> i < np -> en i = true ->
       fm_at J' q (sl f i) = new_entry c pos (fm_at (j_J st) q (sl f i)) q f i) as (J' & E & D & A).
  2:{ rewrite E. cbn [obind]. eexists. split; [reflexivity|]. cbn [j_J j_r j_pos j_err fv_len fv_at].
      split; [exact D|]. split; [reflexivity|]. split; [reflexivity|]. split; [reflexivity|]. split; [|exact A].
      intros q. unfold in_rows. destruct ((pos <=? q) && (q <? pos + length rows)) eqn:Q; [|reflexivity].
      unfold row_residual, row_value. fold rows. apply andb_true_iff in Q. rewrite Nat.leb_le, Nat.ltb_lt in Q.
      assert (q - pos < length rows) as Hq by lia. destruct (nth_error_lt rows _ Hq) as [x Ex].
      rewrite Ex, (nth_error_nth0 _ _ _ _ Ex). reflexivity. }
  destruct (c_seq c) eqn:Sq.
  - edestruct (ofold_seq_inv (fun sub J =>
        let* J1 := put_frame s J pos used (c_at c + sub) (sub * np) rows in
        put_shared s J1 add_col pos used (sub * np) rows)
      (fun n J' => same_dims (j_J st) J' /\ forall q f i, f < nF -> i < np -> en i = true ->
        fm_at J' q (sl f i) =
        if in_rows pos used q then
          if univ i then (fm_at (j_J st) q (sl f i) + sumn n (fun sub => temp_at rows (sub * np + i) (q - pos)))%R
          else if (c_at c <=? f) && (f <? c_at c + n) then temp_at rows ((f - c_at c) * np + i) (q - pos)
          else fm_at (j_J st) q (sl f i)
        else fm_at (j_J st) q (sl f i)) (c_n c) (j_J st)) as (J' & E & D & A).
    + split; [split; reflexivity|]. intros q f i Hf Hi He. rewrite sumn_0, Rplus_0_r, Nat.add_0_r.
      assert ((c_at c <=? f) && (f <? c_at c) = false) as ->.
      { destruct (Nat.leb_spec (c_at c) f), (Nat.ltb_spec f (c_at c)); try reflexivity. lia. }
      destruct (in_rows pos used q), (univ i); reflexivity.
    + intros k J1 Hk [[D1r D1c] A1].
      destruct (put_frame_ok J1 pos used (c_at c + k) (k * np) rows) as (J2 & E2 & D2 & A2);
        [lia|congruence|lia|]. rewrite E2. cbn [obind]. pose proof D2 as [D2r D2c].
      destruct (put_shared_ok add_col Rplus J2 pos used (k * np) rows) as (J3 & E3 & D3 & A3);
        [exact add_col_ok|exact HF|lia|congruence|]. exists J3. split; [exact E3|].
      split; [eapply same_dims_trans; [|exact D3]; split; congruence|].
      intros q f i Hf Hi He. rewrite A3, A2, A1 by auto. destruct (in_rows pos used q); cbn [andb]; [|reflexivity].
      destruct (univ i) eqn:U; cbn [negb].
      * rewrite andb_false_r, sumn_S. ring.
      * rewrite andb_true_r. destruct (Nat.eqb_spec f (c_at c + k)) as [->|Df].
        -- assert ((c_at c <=? c_at c + k) && (c_at c + k <? c_at c + S k) = true) as ->.
           { apply andb_true_iff. rewrite Nat.leb_le, Nat.ltb_lt. lia. }
           replace (c_at c + k - c_at c) with k by lia. reflexivity.
        -- assert ((c_at c <=? f) && (f <? c_at c + S k) = (c_at c <=? f) && (f <? c_at c + k)) as ->; [|reflexivity].
           destruct (Nat.leb_spec (c_at c) f); cbn [andb]; [|reflexivity].
           destruct (Nat.ltb_spec f (c_at c + S k)), (Nat.ltb_spec f (c_at c + k)); try reflexivity; lia.
    + exists J'. split; [exact E|]. split; [exact D|]. intros q f i Hf Hi He. rewrite A by auto.
      unfold new_entry, used_by. fold used. destruct (in_rows pos used q); [|reflexivity].
      rewrite Sq. unfold coefficient. fold rows. cbv zeta. destruct (univ i).
      * f_equal. apply sumn_ext. intros sub _. apply temp_entry.
      * destruct ((c_at c <=? f) && (f <? c_at c + c_n c)); [|reflexivity]. apply temp_entry.
  - specialize (H1 eq_refl).
    destruct (put_frame_ok (j_J st) pos used (c_at c) 0 rows) as (J2 & E2 & D2 & A2);
        [lia|congruence|lia|]. rewrite E2. cbn [obind]. pose proof D2 as [D2r D2c].
    destruct (put_shared_ok put_col (fun _ x => x) J2 pos used 0 rows) as (J3 & E3 & D3 & A3);
        [exact put_col_ok|exact HF|lia|congruence|]. exists J3. split; [exact E3|].
    split; [eapply same_dims_trans; [exact D2|exact D3]|].
    intros q f i Hf Hi He. rewrite A3, A2 by auto. unfold new_entry, used_by. fold used.
    destruct (in_rows pos used q); cbn [andb]; [|reflexivity].
    rewrite Sq. unfold coefficient. fold rows. cbv zeta. rewrite H1. destruct (univ i) eqn:U.
    + rewrite sumn_S, sumn_0, Rplus_0_l. apply temp_entry.
    + cbn [negb]. rewrite andb_true_r. destruct (Nat.eqb_spec f (c_at c)) as [->|Df].
      * assert ((c_at c <=? c_at c) && (c_at c <? c_at c + 1) = true) as ->.
        { apply andb_true_iff. rewrite Nat.leb_le, Nat.ltb_lt. lia. }
        rewrite Nat.sub_diag. cbn [Nat.mul Nat.add]. apply temp_entry.
      * assert ((c_at c <=? f) && (f <? c_at c + 1) = false) as ->; [|reflexivity].
        destruct (Nat.leb_spec (c_at c) f), (Nat.ltb_spec f (c_at c + 1)); try reflexivity. lia.
Qed.
End Block.

(** ** All calls *)

Lemma jac_loops np univ nF en o s st : so_wf np univ nF en o -> length (sq_frames s) = nF ->
  (let* st := ofold (fun f st =>
      let* fs := rd (so_per o) f in ofold (fun e st => jac_frame s f e st) fs st)
    (seq 0 (length (sq_frames s))) st in
   ofold (fun f st =>
      let* fs := rd (so_seq o) f in ofold (fun e st => jac_seq s f e st) fs st)
    (seq 0 (length (sq_frames s))) st) = ofold (jac_call s) (calls o) st.
Proof.
  intros W L. unfold calls. rewrite ofold_app, L. unfold frame_calls, sequence_calls.
  rewrite (o_per _ _ _ _ _ W), (o_seq _ _ _ _ _ W).
  assert (forall e (st : jstate) (a b : outcome jstate), a = b ->
     (if Rleb (se_weight e) 0 then Ok st else a) = (if Rleb (se_weight e) 0 then Ok st else b)) as Q by (intros; subst; reflexivity).
  rewrite <- (flatten (so_per o) (fun f e => {| c_at := f; c_n := 1; c_fn := e; c_seq := false |})
     (fun f e st => jac_call s {| c_at := f; c_n := 1; c_fn := e; c_seq := false |} st) (jac_call s) nF st (o_per _ _ _ _ _ W)) by reflexivity.
  assert (forall st, ofold (fun f st =>
      let* fs := rd (so_per o) f in ofold (fun e st => jac_frame s f e st) fs st) (seq 0 nF) st =
    ofold (fun f st => let* fs := rd (so_per o) f in
      ofold (fun e st => if Rleb (se_weight e) 0 then Ok st else
         jac_call s {| c_at := f; c_n := 1; c_fn := e; c_seq := false |} st) fs st) (seq 0 nF) st) as ->.
  { intros st'. apply ofold_ext. intros f st1. destruct (rd (so_per o) f) as [fs| | | |]; cbn [obind]; auto.
    apply ofold_ext. intros e st2. unfold jac_frame. apply Q.
    unfold jac_call. cbn [c_at c_n c_fn c_seq].
    destruct (window (sq_frames s) f 1) as [w| | | |]; cbn [obind]; auto. cbv zeta.
    destruct (put_residual _ _ _ _) as [r| | | |]; cbn [obind]; auto.
    destruct (put_frame _ _ _ _ _ _ _) as [J| | | |]; cbn [obind]; auto. }
  destruct (ofold _ (seq 0 nF) st) as [st1| | | |]; cbn [obind]; auto.
  rewrite <- (flatten (so_seq o) (fun f e => {| c_at := f; c_n := se_frames e; c_fn := e; c_seq := true |})
     (fun f e st => jac_call s {| c_at := f; c_n := se_frames e; c_fn := e; c_seq := true |} st) (jac_call s) nF st1 (o_seq _ _ _ _ _ W)) by reflexivity.
  apply ofold_ext. intros f st2. destruct (rd (so_seq o) f) as [fs| | | |]; cbn [obind]; auto.
Qed.

Lemma list_sum_flat {A B} (h : B -> nat) (g : A -> list B) l :
  list_sum (map h (flat_map g l)) = list_sum (map (fun x => list_sum (map h (g x))) l).
Proof.
  induction l as [|x l IH]; cbn [flat_map map list_sum fold_right]; [reflexivity|].
  rewrite map_app, list_sum_app, IH. reflexivity.
Qed.
Lemma map_nth_seq {A B} (h : A -> B) (d : A) l : map (fun f => h (nth f l d)) (seq 0 (length l)) = map h l.
Proof.
  apply nth_error_ext_len; [rewrite !map_length, seq_length; reflexivity|].
  rewrite map_length, seq_length. intros i Hi. rewrite !nth_error_map.
  rewrite (nth_error_nth' (seq 0 (length l)) 0) by (rewrite seq_length; exact Hi).
  rewrite seq_nth by exact Hi. cbn [option_map Nat.add].
  rewrite (nth_error_nth' l d Hi). reflexivity.
Qed.

Lemma jac_size_calls o : jac_size o = rows_asked (calls o).
Proof.
  unfold jac_size, rows_asked, calls. rewrite map_app, list_sum_app.
  unfold frame_calls, sequence_calls. rewrite !list_sum_flat. f_equal.
  - change (fun fs => list_sum (map se_size (filter (fun e => negb (Rleb (se_weight e) 0)) fs)))
      with (fun fs => list_sum (map se_size (filter active fs))).
    rewrite <- (map_nth_seq (fun fs => list_sum (map se_size (filter active fs))) [] (so_per o)).
    f_equal. apply map_ext. intros f. rewrite map_map. reflexivity.
  - change (fun fs => list_sum (map se_size (filter (fun e => negb (Rleb (se_weight e) 0)) fs)))
      with (fun fs => list_sum (map se_size (filter active fs))).
    rewrite <- (map_nth_seq (fun fs => list_sum (map se_size (filter active fs))) [] (so_seq o)).
    f_equal. apply map_ext. intros f. rewrite map_map. reflexivity.
Qed.

Lemma rows_used_le frames cs : rows_fit frames cs -> rows_used frames cs <= rows_asked cs.
Proof.
  unfold rows_fit, rows_used, rows_asked. induction cs as [|c cs IH]; cbn [map list_sum fold_right]; [lia|].
  intros H. pose proof (H c (or_introl eq_refl)). specialize (IH (fun c Hc => H c (or_intror Hc))).
  unfold list_sum in IH. lia.
Qed.

Section All.
Context (np : nat) (univ : nat -> bool) (nF : nat) (en : nat -> bool) (s : seqfn).
Context (W : seq_wf np univ nF en s) (HF : 0 < nF).
Let sl := slot np univ en nF.
Let N := joined_size np univ en nF.
Let fr := sq_frames s.

Definition fits (cs : list call) : Prop :=
  rows_fit (sq_frames s) cs /\ forall c, In c cs -> c_at c + c_n c <= nF /\ (c_seq c = false -> c_n c = 1).

Lemma fits_cons c cs : fits (c :: cs) -> fits cs.
Proof. intros [H1 H2]. split; intros x Hx; [apply H1|apply H2]; right; exact Hx. Qed.

(** Room for the calls that remain. *)
Definition room (cs : list call) (st : jstate) : Prop :=
  j_pos st + rows_asked cs <= fm_rows (j_J st) /\ j_pos st + rows_asked cs <= fv_len (j_r st) /\
    fm_cols (j_J st) = N.

Lemma call_step c cs st : fits (c :: cs) -> room (c :: cs) st ->
  exists st', jac_call s c st = Ok st' /\ room cs st' /\ same_dims (j_J st) (j_J st') /\
    fv_len (j_r st') = fv_len (j_r st) /\
    j_pos st' = j_pos st + used_by s c /\
    j_err st' = (j_err st + se_jerror (c_fn c) (seen fr c))%R /\
    (forall q, fv_at (j_r st') q =
       if in_rows (j_pos st) (row_count s c) q then row_value fr c (q - j_pos st) else fv_at (j_r st) q) /\
    (forall q f i, f < nF -> i < np -> en i = true ->
       fm_at (j_J st') q (sl f i) = new_entry np univ s c (j_pos st) (fm_at (j_J st) q (sl f i)) q f i).
Proof.
  intros [F1 F2] (R1 & R2 & R3). destruct (F2 c (or_introl eq_refl)) as [Hc Hn].
  pose proof (F1 c (or_introl eq_refl)) as Hu. unfold rows_asked in R1, R2. cbn [map list_sum fold_right] in R1, R2.
  destruct (jac_call_ok np univ nF en s W c st) as (st' & E & D & L & P & Er & A1 & A2); auto; unfold used_by, row_count; try lia.
  exists st'. split; [exact E|]. pose proof D as [D1 D2]. split; [|auto 10].
  unfold room. rewrite D1, D2, L, P. unfold rows_asked, list_sum, used_by. repeat split; [lia|lia|exact R3].
Qed.

(** The calls read top to bottom, from a matrix that is zero from row [j_pos st] on. *)
Lemma run_fresh cs : forall st, fits cs -> room cs st ->
  (forall q, j_pos st <= q -> fv_at (j_r st) q = 0%R /\
    forall f i, f < nF -> i < np -> en i = true -> fm_at (j_J st) q (sl f i) = 0%R) ->
  exists st', ofold (jac_call s) cs st = Ok st' /\ same_dims (j_J st) (j_J st') /\
    fv_len (j_r st') = fv_len (j_r st) /\
    j_pos st' = j_pos st + rows_used fr cs /\
    j_err st' = (j_err st + rsum (map (fun c => se_jerror (c_fn c) (seen fr c)) cs))%R /\
    (forall q, q < j_pos st -> fv_at (j_r st') q = fv_at (j_r st) q /\
    forall f i, f < nF -> i < np -> en i = true -> fm_at (j_J st') q (sl f i) = fm_at (j_J st) q (sl f i)) /\
    (forall q, j_pos st' <= q -> fv_at (j_r st') q = 0%R /\
    forall f i, f < nF -> i < np -> en i = true -> fm_at (j_J st') q (sl f i) = 0%R) /\
    (forall pre c post, cs = pre ++ c :: post -> forall q, q < se_used (c_fn c) (seen fr c) ->
       fv_at (j_r st') (j_pos st + rows_used fr pre + q) = row_value fr c q /\
    forall f i, f < nF -> i < np -> en i = true ->
       fm_at (j_J st') (j_pos st + rows_used fr pre + q) (sl f i) = coefficient np univ fr c q f i).
Proof.
  induction cs as [|c cs IH]; intros st F Rm Z.
  - exists st. cbn. rewrite Nat.add_0_r, Rplus_0_r. split; [reflexivity|]. split; [split; reflexivity|].
    repeat (split; [reflexivity|]). split; [auto|]. split; [auto|].
    intros [|x pre] c post E; discriminate E.
  - destruct (call_step c cs st F Rm) as (st1 & E1 & Rm1 & D1 & L1 & P1 & Er1 & B1 & A1).
    pose proof (proj1 F c (or_introl eq_refl)) as Hu.
    assert (row_count s c <= used_by s c) as Hcu by (unfold row_count, used_by; lia).
    destruct (IH st1) as (st2 & E2 & D2 & L2 & P2 & Er2 & Low & High & Mid).
    + exact (fits_cons c cs F).
    + exact Rm1.
    + rewrite P1. intros q Hq. split.
      * rewrite B1. assert (in_rows (j_pos st) (row_count s c) q = false) as -> by (apply in_rows_no; lia).
        apply Z. lia.
      * intros f i Hf Hi He. rewrite A1 by auto. unfold new_entry.
        assert (in_rows (j_pos st) (used_by s c) q = false) as -> by (apply in_rows_no; lia).
        apply Z; auto. lia.
    + exists st2. cbn [ofold]. rewrite E1. cbn [obind]. split; [exact E2|].
      split; [eapply same_dims_trans; eassumption|]. split; [congruence|].
      assert (rows_used fr (c :: cs) = used_by s c + rows_used fr cs) as RU by reflexivity.
      split; [rewrite P2, P1, RU; lia|].
      split; [rewrite Er2, Er1; cbn [map rsum]; ring|].
      split; [|split].
      * intros q Hq. destruct (Low q) as [Lr LJ]; [lia|]. split.
        -- rewrite Lr, B1. assert (in_rows (j_pos st) (row_count s c) q = false) as -> by (apply in_rows_no; lia). reflexivity.
        -- intros f i Hf Hi He. rewrite LJ, A1 by auto. unfold new_entry.
           assert (in_rows (j_pos st) (used_by s c) q = false) as -> by (apply in_rows_no; lia). reflexivity.
      * exact High.
      * intros pre c' post E q Hq. destruct pre as [|x pre].
        -- injection E as <- <-. cbn [rows_used map list_sum fold_right]. unfold rows_used. cbn [map list_sum fold_right].
           rewrite Nat.add_0_r. change (q < used_by s c) in Hq.
           destruct (Low (j_pos st + q)) as [Lr LJ]; [lia|]. split.
           ++ rewrite Lr, B1. destruct (in_rows (j_pos st) (row_count s c) (j_pos st + q)) eqn:Q.
              ** replace (j_pos st + q - j_pos st) with q by lia. reflexivity.
              ** apply in_rows_no in Q. destruct (Z (j_pos st + q)) as [-> _]; [lia|].
                 unfold row_value, fr. unfold row_count in Q.
                 rewrite (proj2 (nth_error_None _ q)); [reflexivity|lia].
           ++ intros f i Hf Hi He. rewrite LJ, A1 by auto. unfold new_entry.
              assert (in_rows (j_pos st) (used_by s c) (j_pos st + q) = true) as -> by (apply in_rows_iff; lia).
              cbv zeta. replace (j_pos st + q - j_pos st) with q by lia. fold fr.
              destruct (Z (j_pos st + q)) as [_ ZJ]; [lia|]. rewrite (ZJ f i Hf Hi He).
              destruct (univ i) eqn:U; [destruct (c_seq c); [ring|reflexivity]|].
              unfold coefficient. rewrite U. destruct ((c_at c <=? f) && (f <? c_at c + c_n c)); reflexivity.
        -- injection E as <- E. destruct (Mid pre c' post E q Hq) as [M1 M2].
           assert (rows_used fr (c :: pre) = used_by s c + rows_used fr pre) as RP by reflexivity.
           replace (j_pos st + rows_used fr (c :: pre) + q) with (j_pos st1 + rows_used fr pre + q) by lia.
           auto.
Qed.

(** Running the calls again on the result changes nothing unless a sequence function adds to a
    universal column. *)
Lemma run_again cs T Tr : (forall c, In c cs -> c_seq c = true -> forall i, i < np -> en i = true -> univ i = false) ->
  forall sta stb, fits cs -> room cs sta -> room cs stb -> j_pos sta = j_pos stb ->
  (forall q, (fv_at (j_r stb) q = Tr q \/ fv_at (j_r stb) q = fv_at (j_r sta) q) /\
    forall f i, f < nF -> i < np -> en i = true ->
       fm_at (j_J stb) q (sl f i) = T q (sl f i) \/ fm_at (j_J stb) q (sl f i) = fm_at (j_J sta) q (sl f i)) ->
  exists sta' stb', ofold (jac_call s) cs sta = Ok sta' /\ ofold (jac_call s) cs stb = Ok stb' /\
    same_dims (j_J sta) (j_J sta') /\ same_dims (j_J stb) (j_J stb') /\
    fv_len (j_r sta') = fv_len (j_r sta) /\ fv_len (j_r stb') = fv_len (j_r stb) /\
    (j_err sta' - j_err sta = j_err stb' - j_err stb)%R /\
    (forall q, (fv_at (j_r stb') q = Tr q \/ fv_at (j_r stb') q = fv_at (j_r sta') q) /\
    forall f i, f < nF -> i < np -> en i = true ->
       fm_at (j_J stb') q (sl f i) = T q (sl f i) \/ fm_at (j_J stb') q (sl f i) = fm_at (j_J sta') q (sl f i)).
Proof.
  intros NS. induction cs as [|c cs IH]; intros sta stb F Ra Rb P Z.
  - exists sta, stb. cbn. repeat split; try reflexivity; try apply Z; auto. lra.
  - destruct (call_step c cs sta F Ra) as (a1 & Ea & Ra1 & Da & La & Pa & Era & Ba & Aa).
    destruct (call_step c cs stb F Rb) as (b1 & Eb & Rb1 & Db & Lb & Pb & Erb & Bb & Ab).
    destruct (IH (fun c' Hc => NS c' (or_intror Hc)) a1 b1) as (a2 & b2 & Ea2 & Eb2 & Da2 & Db2 & La2 & Lb2 & Er & Z2).
    + exact (fits_cons c cs F).
    + exact Ra1.
    + exact Rb1.
    + congruence.
    + intros q. destruct (Z q) as [Zr ZJ]. split.
      * rewrite Ba, Bb, <- P. destruct (in_rows _ _ q); [right; reflexivity|exact Zr].
      * intros f i Hf Hi He. rewrite Aa, Ab by auto. rewrite <- P. unfold new_entry.
        destruct (in_rows _ _ q); [|apply ZJ; auto]. cbv zeta.
        destruct (univ i) eqn:U.
        -- destruct (c_seq c) eqn:Sq; [|right; reflexivity].
           rewrite (NS c (or_introl eq_refl) Sq i Hi He) in U. discriminate U.
        -- destruct ((c_at c <=? f) && (f <? c_at c + c_n c)); [right; reflexivity|apply ZJ; auto].
    + exists a2, b2. cbn [ofold]. rewrite Ea, Eb. cbn [obind]. split; [exact Ea2|]. split; [exact Eb2|].
      split; [eapply same_dims_trans; eassumption|]. split; [eapply same_dims_trans; eassumption|].
      split; [congruence|]. split; [congruence|]. split; [|exact Z2]. rewrite Era, Erb in Er. lra.
Qed.
End All.
