(** Proofs about the error and the gradient of a sequence. *)

From Coq Require Import Bool List Arith Lia Reals Lra.
From Coquelicot Require Import Coquelicot.
From Verif Require Import Prelude LinAlg Rbool ListUtil Loops Seq_spec Seq_model Seq_proofs
  SeqFn_model SeqFn_spec.
Import ListNotations.
Local Open Scope outcome_scope.
Local Open Scope nat_scope.

(** ** General facts *)

Lemma rsum_flat_map {A B} (g : B -> R) (h : A -> list B) l :
  rsum (map g (flat_map h l)) = rsum (map (fun x => rsum (map g (h x))) l).
Proof.
  induction l as [|x l IH]; cbn; [reflexivity|]. rewrite map_app, rsum_app, IH. reflexivity.
Qed.

Lemma sumn_window nF a n h : a + n <= nF ->
  sumn nF (fun f => if (a <=? f) && (f <? a + n) then h (f - a) else 0%R) = sumn n h.
Proof.
  intros H. replace nF with (a + (n + (nF - a - n))) by lia.
  rewrite sumn_split, sumn_split.
  rewrite (sumn_zero a).
  2:{ intros i Hi. destruct (Nat.leb_spec a i); [lia|reflexivity]. }
  rewrite (sumn_ext n _ h).
  2:{ intros i Hi. destruct (Nat.leb_spec a (a + i)); [|lia]. destruct (Nat.ltb_spec (a + i) (a + n)); [|lia].
      cbn. f_equal. lia. }
  rewrite (sumn_zero (nF - a - n)); [ring|].
  intros i Hi. destruct (Nat.ltb_spec (a + (n + i)) (a + n)); [lia|]. rewrite andb_false_r. reflexivity.
Qed.

Lemma nth_error_nth0 {A} (l : list A) i d x : nth_error l i = Some x -> nth i l d = x.
Proof. apply nth_error_nth. Qed.

(** A loop that adds values at given places. *)
Lemma add_loop {B} (st : B -> list R -> outcome (list R)) (pos : B -> nat) (val : B -> R) l : forall g,
  (forall b r, In b l -> st b r = let* y := rd r (pos b) in wr r (pos b) (y + val b)%R) ->
  (forall b, In b l -> pos b < length g) ->
  exists g', ofold st l g = Ok g' /\ length g' = length g /\
    forall p, p < length g -> nth p g' 0%R =
      (nth p g 0 + rsum (map (fun b => if (pos b =? p)%nat then val b else 0) l))%R.
Proof.
  induction l as [|b l IH]; intros g Hst Hpos.
  - exists g. cbn. repeat split; auto. intros. ring.
  - cbn [ofold]. rewrite Hst by (cbn; auto).
    assert (pos b < length g) as Hb by (apply Hpos; cbn; auto).
    rewrite (rd_some _ _ _ (nth_error_nth' g 0%R Hb)). cbn [obind].
    destruct (wr_ok g (pos b) (nth (pos b) g 0 + val b)%R Hb) as (g1 & E1 & L1 & S1 & O1).
    rewrite E1. cbn [obind].
    destruct (IH g1) as (g2 & E2 & L2 & A2).
    + intros; apply Hst; cbn; auto.
    + intros; rewrite L1; apply Hpos; cbn; auto.
    + exists g2. split; [exact E2|]. split; [lia|]. intros p Hp. rewrite A2 by lia. cbn [map rsum].
      destruct (Nat.eqb_spec (pos b) p) as [<-|D].
      * rewrite (nth_error_nth0 _ _ 0%R _ S1). ring.
      * assert (nth p g1 0%R = nth p g 0%R) as ->.
        { destruct (nth_error_lt g p Hp) as [x Ex].
          rewrite (nth_error_nth0 g p 0%R x Ex). apply nth_error_nth0. rewrite O1; auto. }
        ring.
Qed.

(** The loops over the error functions, as a loop over the calls. *)
Lemma flatten {S} (fss : list (list serr)) (mk : nat -> serr -> call) (body : nat -> serr -> S -> outcome S)
  (step : call -> S -> outcome S) nF st :
  length fss = nF ->
  (forall f e s, step (mk f e) s = body f e s) ->
  ofold (fun f st => let* fs := rd fss f in
      ofold (fun e st => if Rleb (se_weight e) 0 then Ok st else body f e st) fs st) (seq 0 nF) st =
  ofold step (flat_map (fun f => map (mk f) (filter active (nth f fss []))) (seq 0 nF)) st.
Proof.
  intros L Hs.
  assert (forall l st, (forall f, In f l -> f < nF) ->
    ofold (fun f st => let* fs := rd fss f in
      ofold (fun e st => if Rleb (se_weight e) 0 then Ok st else body f e st) fs st) l st =
    ofold step (flat_map (fun f => map (mk f) (filter active (nth f fss []))) l) st) as H.
  { induction l as [|f l IH]; intros s Hl; cbn [ofold flat_map]; [reflexivity|].
    rewrite ofold_app.
    assert (f < length fss) as Hf by (rewrite L; apply Hl; cbn; auto).
    rewrite (rd_some _ _ _ (nth_error_nth' fss [] Hf)). cbn [obind].
    assert (forall fs s, ofold (fun e st => if Rleb (se_weight e) 0 then Ok st else body f e st) fs s =
       ofold step (map (mk f) (filter active fs)) s) as Q.
    { induction fs as [|e fs IHf]; intros s'; cbn [ofold filter map]; [reflexivity|].
      unfold active at 1. destruct (Rleb (se_weight e) 0); cbn [negb obind map ofold]; [apply IHf|].
      rewrite Hs. destruct (body f e s'); cbn [obind]; auto. }
    rewrite Q. destruct (ofold step _ s); cbn [obind]; auto.
    apply IH. intros; apply Hl; cbn; auto. }
  apply H. intros f Hf. apply in_seq in Hf. lia.
Qed.

(** ** Reachable sequences *)

Record so_wf (np : nat) (univ : nat -> bool) (nF : nat) (en : nat -> bool) (o : seqobj) : Prop := {
  o_fn : seq_wf np univ nF en (so_fn o);
  o_per : length (so_per o) = nF;
  o_seq : length (so_seq o) = nF;
  o_fit : forall f l e, nth_error (so_seq o) f = Some l -> In e l -> f + se_frames e <= nF
}.

Lemma so_init_wf np univ nF : so_wf np univ nF (fun _ => true) (so_init np univ nF).
Proof.
  constructor; cbn.
  - apply init_wf.
  - apply repeat_length.
  - apply repeat_length.
  - intros f l e H. apply nth_error_In, repeat_spec in H. subst. intros [].
Qed.

Lemma add1_ok (fss : list (list serr)) f e : f < length fss ->
  exists fss', (let* l := rd fss f in wr fss f (l ++ [e])) = Ok fss' /\ length fss' = length fss /\
    forall g l x, nth_error fss' g = Some l -> In x l ->
      (g = f /\ x = e) \/ exists l0, nth_error fss g = Some l0 /\ In x l0.
Proof.
  intros H. destruct (nth_error_lt fss f H) as [l0 E0]. rewrite (rd_some _ _ _ E0). cbn [obind].
  destruct (wr_ok fss f (l0 ++ [e]) H) as (fss' & E & L & S & O). exists fss'. split; [exact E|].
  split; [exact L|]. intros g l x Eg Hx. destruct (Nat.eq_dec g f) as [->|D].
  - rewrite S in Eg. injection Eg as <-. apply in_app_iff in Hx. destruct Hx as [Hx|[<-|[]]]; eauto.
  - rewrite O in Eg by exact D. eauto.
Qed.

Lemma so_add_wf np univ nF en o fr e o' : so_wf np univ nF en o -> so_add o fr e = Ok o' ->
  so_wf np univ nF en o' /\ so_fn o' = so_fn o.
Proof.
  intros W. unfold so_add. rewrite (w_nF _ _ _ _ _ (o_fn _ _ _ _ _ W)).
  destruct fr as [f|].
  - destruct (Nat.ltb_spec f nF) as [Hf|]; [|discriminate]. cbn [negb].
    destruct (add1_ok (so_per o) f e) as (p & E & L & _); [rewrite (o_per _ _ _ _ _ W); exact Hf|].
    rewrite E. cbn [obind]. intros Q. injection Q as <-. split; [|reflexivity].
    destruct W. constructor; cbn; auto. congruence.
  - destruct (ofold_seq_inv (fun f per => let* l := rd per f in wr per f (l ++ [e]))
      (fun _ per => length per = nF) nF (so_per o)) as (p & E & L).
    + apply (o_per _ _ _ _ _ W).
    + intros k s Hk Hs. destruct (add1_ok s k e) as (p & E & L & _); [lia|]. exists p. split; [exact E|lia].
    + rewrite E. cbn [obind]. intros Q. injection Q as <-. split; [|reflexivity].
      destruct W. constructor; cbn; auto.
Qed.

Lemma so_add_seq_wf np univ nF en o fr e o' : so_wf np univ nF en o -> so_add_seq o fr e = Ok o' ->
  so_wf np univ nF en o' /\ so_fn o' = so_fn o.
Proof.
  intros W. unfold so_add_seq. cbv zeta. rewrite (w_nF _ _ _ _ _ (o_fn _ _ _ _ _ W)).
  set (add1 := fun f sq => if negb (f <? nF) then CheckFail
    else if negb (f + se_frames e <=? nF) then CheckFail
    else let* l := rd sq f in wr sq f (l ++ [e])).
  assert (forall f sq sq', length sq = nF ->
     (forall f l e, nth_error sq f = Some l -> In e l -> f + se_frames e <= nF) ->
     add1 f sq = Ok sq' -> length sq' = nF /\
     (forall f l e, nth_error sq' f = Some l -> In e l -> f + se_frames e <= nF)) as A1.
  { intros f sq sq' L N. unfold add1.
    destruct (Nat.ltb_spec f nF) as [Hf|]; [|discriminate].
    destruct (Nat.leb_spec (f + se_frames e) nF) as [Hg|]; [|discriminate]. cbn [negb].
    destruct (add1_ok sq f e) as (p & E & L' & I); [lia|]. rewrite E. intros Q. injection Q as <-.
    split; [lia|]. intros g l x Eg Hx. destruct (I g l x Eg Hx) as [[-> ->]|(l0 & E0 & H0)]; [exact Hg|eauto]. }
  assert (forall l sq sq', length sq = nF ->
     (forall f l e, nth_error sq f = Some l -> In e l -> f + se_frames e <= nF) ->
     ofold add1 l sq = Ok sq' -> length sq' = nF /\
     (forall f l e, nth_error sq' f = Some l -> In e l -> f + se_frames e <= nF)) as A2.
  { induction l as [|f l IH]; intros sq sq' L N; cbn [ofold].
    - intros Q. injection Q as <-. auto.
    - destruct (add1 f sq) as [s1| | | |] eqn:E1; try discriminate. cbn [obind].
      destruct (A1 f sq s1 L N E1). apply IH; auto. }
  assert (forall sq, length sq = nF ->
     (forall f l e, nth_error sq f = Some l -> In e l -> f + se_frames e <= nF) ->
     so_wf np univ nF en {| so_fn := so_fn o; so_per := so_per o; so_seq := sq |}) as F.
  { intros sq L N. destruct W. constructor; cbn; auto. }
  destruct fr as [f|].
  - change (obind (add1 f (so_seq o)) (fun sq => Ok {| so_fn := so_fn o; so_per := so_per o; so_seq := sq |}) = Ok o' ->
      so_wf np univ nF en o' /\ so_fn o' = so_fn o).
    destruct (add1 f (so_seq o)) as [sq| | | |] eqn:E; try discriminate. cbn [obind].
    intros Q. injection Q as <-. split; [|reflexivity].
    destruct (A1 f _ _ (o_seq _ _ _ _ _ W) (o_fit _ _ _ _ _ W) E). apply F; auto.
  - destruct (se_frames e <=? nF).
    + destruct (ofold add1 _ (so_seq o)) as [sq| | | |] eqn:E; try discriminate. cbn [obind].
      intros Q. injection Q as <-. split; [|reflexivity].
      destruct (A2 _ _ _ (o_seq _ _ _ _ _ W) (o_fit _ _ _ _ _ W) E). apply F; auto.
    + cbn [obind]. intros Q. injection Q as <-. split; [|reflexivity].
      apply F; [apply (o_seq _ _ _ _ _ W)|apply (o_fit _ _ _ _ _ W)].
Qed.

Lemma seq_do_wf np univ nF en s p s' : seq_wf np univ nF en s -> seq_do s p = Ok s' ->
  seq_wf np univ nF (match p with SetEnabled en => en | _ => en end) s'.
Proof.
  intros W E. apply (run_wf_gen np univ nF [p] s en s' W). cbn [ofold]. rewrite E. reflexivity.
Qed.

Lemma so_run_wf_gen np univ nF ops : forall o en o', so_wf np univ nF en o ->
  ofold (fun op o => so_do o op) ops o = Ok o' ->
  so_wf np univ nF (fold_left (fun e o => match o with SetEnabled en => en | _ => e end)
     (params_of ops) en) o'.
Proof.
  induction ops as [|op ops IH]; intros o en o' W; cbn [ofold].
  - intros Q. injection Q as <-. exact W.
  - destruct (so_do o op) as [o1| | | |] eqn:E1; try discriminate. cbn [obind]. intros E.
    destruct op as [p|fr e|fr e]; cbn [so_do] in E1; cbn [params_of flat_map app].
    + destruct (seq_do (so_fn o) p) as [s| | | |] eqn:Es; try discriminate. cbn [obind] in E1.
      injection E1 as <-. cbn [fold_left]. eapply IH; [|exact E].
      pose proof (seq_do_wf _ _ _ _ _ _ _ (o_fn _ _ _ _ _ W) Es) as W1.
      destruct W. constructor; cbn; auto.
    + destruct (so_add_wf _ _ _ _ _ _ _ _ W E1) as [W1 _]. eapply IH; eauto.
    + destruct (so_add_seq_wf _ _ _ _ _ _ _ _ W E1) as [W1 _]. eapply IH; eauto.
Qed.

Lemma so_run_wf np univ nF ops o : so_run np univ nF ops = Ok o ->
  so_wf np univ nF (enabled_after (params_of ops)) o.
Proof. intros H. eapply so_run_wf_gen; [apply so_init_wf|exact H]. Qed.

(** ** The frames *)

Lemma value_at_nth frames f i x : value_at frames f i = Some x -> nth i (nth f frames []) 0%R = x.
Proof.
  unfold value_at. destruct (nth_error frames f) as [y|] eqn:E; [|discriminate].
  intros H. rewrite (nth_error_nth0 _ _ [] _ E). apply nth_error_nth0. exact H.
Qed.

Lemma frames_from_length np univ en frames v : length (frames_from np univ en frames v) = length frames.
Proof. unfold frames_from. rewrite map_length, seq_length. reflexivity. Qed.
Lemma frames_from_nth np univ en frames v f : f < length frames ->
  nth_error (frames_from np univ en frames v) f = Some (map (fun i =>
      if en i then nth (slot np univ en (length frames) f i) v 0%R else nth i (nth f frames []) 0%R)
    (seq 0 np)).
Proof.
  intros Hf. unfold frames_from. rewrite nth_error_map.
  rewrite (nth_error_nth' (seq 0 (length frames)) 0) by (rewrite seq_length; exact Hf).
  rewrite seq_nth by exact Hf. reflexivity.
Qed.
Lemma frames_from_value np univ en frames v f i : f < length frames -> i < np ->
  value_at (frames_from np univ en frames v) f i =
  Some (if en i then nth (slot np univ en (length frames) f i) v 0%R else nth i (nth f frames []) 0%R).
Proof.
  intros Hf Hi. unfold value_at. rewrite frames_from_nth by exact Hf.
  rewrite nth_error_map, (nth_error_nth' (seq 0 np) 0) by (rewrite seq_length; exact Hi).
  rewrite seq_nth by exact Hi. reflexivity.
Qed.

Lemma set_joined_frames np univ nF en s v : seq_wf np univ nF en s ->
  length v = joined_size np univ en nF ->
  seq_set_joined s v = Ok (with_frames s (frames_from np univ en (sq_frames s) v)).
Proof.
  intros W Lv. destruct (set_joined_spec _ _ _ _ _ v W Lv) as (s' & E & W' & (fr & ->) & V).
  rewrite E. f_equal. f_equal. cbn in V.
  apply (frames_ext np nF); [apply (w_nF _ _ _ _ _ W')|rewrite frames_from_length; apply (w_nF _ _ _ _ _ W)
    |apply (w_len _ _ _ _ _ W')| |].
  - intros f x Hx. assert (f < length (sq_frames s)) as Hf.
    { apply nth_error_len in Hx. rewrite frames_from_length in Hx. exact Hx. }
    rewrite frames_from_nth in Hx by exact Hf. injection Hx as <-. rewrite map_length, seq_length. reflexivity.
  - intros f i Hf Hi. rewrite V by auto.
    rewrite frames_from_value by (auto; rewrite (w_nF _ _ _ _ _ W); exact Hf).
    rewrite (w_nF _ _ _ _ _ W). destruct (en i) eqn:He.
    + apply nth_error_nth'. rewrite Lv. apply slot_bound; auto.
    + unfold value_at. destruct (nth_error_lt (sq_frames s) f) as [x Ex]; [rewrite (w_nF _ _ _ _ _ W); exact Hf|].
      rewrite Ex, (nth_error_nth0 _ _ [] _ Ex). apply nth_error_nth'.
      rewrite (w_len _ _ _ _ _ W _ _ Ex). exact Hi.
Qed.

Lemma window_ok frames f n : f + n <= length frames ->
  window frames f n = Ok (firstn n (skipn f frames)).
Proof. intros H. unfold window. apply Nat.leb_le in H. rewrite H. reflexivity. Qed.

(** ** getError *)

Lemma sum_errors_spec frames f n fs : (forall e, In e fs -> f + n e <= length frames) -> forall acc,
  sum_errors frames f n fs acc =
  Ok (acc + rsum (map (fun e => se_error e (firstn (n e) (skipn f frames))) (filter active fs)))%R.
Proof.
  unfold sum_errors. induction fs as [|e fs IH]; intros H acc; cbn [ofold filter map rsum].
  - f_equal. ring.
  - unfold active at 1. destruct (Rleb (se_weight e) 0); cbn [obind negb].
    + apply IH. intros; apply H; cbn; auto.
    + rewrite window_ok by (apply H; cbn; auto). cbn [obind].
      rewrite IH by (intros; apply H; cbn; auto). cbn [map rsum]. f_equal. ring.
Qed.

Lemma nth_in_fit np univ nF en o f e : so_wf np univ nF en o -> In e (nth f (so_seq o) []) ->
  f + se_frames e <= nF.
Proof.
  intros W H. destruct (nth_error (so_seq o) f) as [l|] eqn:E.
  - rewrite (nth_error_nth0 _ _ [] _ E) in H. eapply o_fit; eauto.
  - apply nth_error_None in E. rewrite nth_overflow in H by exact E. destruct H.
Qed.

Lemma calls_fit np univ nF en o c : so_wf np univ nF en o -> In c (calls o) ->
  c_at c + c_n c <= nF /\ (c_seq c = false -> c_n c = 1) /\ (c_seq c = true -> c_n c = se_frames (c_fn c)).
Proof.
  intros W H. unfold calls in H. apply in_app_iff in H. destruct H as [H|H];
    apply in_flat_map in H; destruct H as (f & Hf & H); apply in_map_iff in H;
    destruct H as (e & <- & H); cbn; apply in_seq in Hf; apply filter_In in H; destruct H as [H _].
  - rewrite (o_per _ _ _ _ _ W) in Hf. repeat split; auto; try discriminate. lia.
  - repeat split; auto; try discriminate. eapply nth_in_fit; eauto.
Qed.

Lemma so_error_spec np univ nF en o v : so_wf np univ nF en o ->
  length v = joined_size np univ en nF ->
  so_error o v = Ok (total_error o (frames_from np univ en (sq_frames (so_fn o)) v),
    with_frames (so_fn o) (frames_from np univ en (sq_frames (so_fn o)) v)).
Proof.
  intros W Lv. unfold so_error.
  rewrite (set_joined_frames _ _ _ _ _ v (o_fn _ _ _ _ _ W) Lv). cbn [obind with_frames sq_frames].
  set (fr := frames_from np univ en (sq_frames (so_fn o)) v).
  assert (length fr = nF) as Lf by (unfold fr; rewrite frames_from_length; apply (w_nF _ _ _ _ _ (o_fn _ _ _ _ _ W))).
  rewrite Lf.
  set (a := fun f => rsum (map (fun e => se_error e (firstn 1 (skipn f fr))) (filter active (nth f (so_per o) [])))).
  set (b := fun f => rsum (map (fun e => se_error e (firstn (se_frames e) (skipn f fr))) (filter active (nth f (so_seq o) [])))).
  match goal with |- obind (ofold ?F _ _) _ = _ => set (body := F) end.
  destruct (ofold_seq_inv body (fun n acc => acc = sumn n (fun f => (a f + b f)%R)) nF 0%R) as (acc & E & ->).
  - reflexivity.
  - intros k acc Hk ->. unfold body.
    rewrite (rd_some _ _ _ (nth_error_nth' (so_per o) [] ltac:(rewrite (o_per _ _ _ _ _ W); exact Hk))).
    rewrite (rd_some _ _ _ (nth_error_nth' (so_seq o) [] ltac:(rewrite (o_seq _ _ _ _ _ W); exact Hk))).
    cbn [obind]. rewrite sum_errors_spec by (intros; lia). cbn [obind].
    rewrite sum_errors_spec by (intros e He; rewrite Lf; eapply nth_in_fit; eauto). cbn [obind].
    eexists. split; [reflexivity|]. rewrite sumn_S. unfold a, b. ring.
  - rewrite E. cbn [obind]. f_equal. f_equal. rewrite sumn_plus. unfold total_error, calls.
    rewrite map_app, rsum_app. unfold frame_calls, sequence_calls. rewrite !rsum_flat_map.
    rewrite (o_per _ _ _ _ _ W), (o_seq _ _ _ _ _ W). unfold sumn.
    f_equal; apply rsum_map_ext; intros f _; rewrite map_map; reflexivity.
Qed.

(** ** getGradient *)

(** What a call adds to entry [f * np + i] of the full gradient. *)
Definition part (np : nat) (frames : list (list R)) (c : call) (f i : nat) : R :=
  if (c_at c <=? f) && (f <? c_at c + c_n c)
  then se_grad (c_fn c) (seen frames c) ((f - c_at c) * np + i) else 0%R.

Lemma segment_at full a n np g f i : i < np ->
  add_segment full (a * np) (n * np) g (f * np + i) =
  (full (f * np + i)%nat + (if (a <=? f) && (f <? a + n) then g ((f - a) * np + i)%nat else 0))%R.
Proof.
  intros Hi. unfold add_segment.
  destruct (Nat.leb_spec a f) as [H1|H1].
  - assert ((a * np <=? f * np + i) = true) as -> by (apply Nat.leb_le; nia).
    destruct (Nat.ltb_spec f (a + n)) as [H2|H2].
    + assert ((f * np + i <? a * np + n * np) = true) as -> by (apply Nat.ltb_lt; nia).
      cbn [andb]. f_equal. f_equal. nia.
    + assert ((f * np + i <? a * np + n * np) = false) as -> by (apply Nat.ltb_ge; nia).
      cbn [andb]. ring.
  - assert ((a * np <=? f * np + i) = false) as -> by (apply Nat.leb_gt; nia).
    cbn [andb]. ring.
Qed.

Definition grad_step (np : nat) (frames : list (list R)) (c : call) (acc : R * (nat -> R)) : outcome (R * (nat -> R)) :=
  let* w := window frames (c_at c) (c_n c) in
  Ok (fst acc + se_gerror (c_fn c) w, add_segment (snd acc) (c_at c * np) (c_n c * np) (se_grad (c_fn c) w))%R.

Lemma grad_steps np frames cs : (forall c, In c cs -> c_at c + c_n c <= length frames) ->
  forall e g, exists g', ofold (grad_step np frames) cs (e, g) =
    Ok (e + rsum (map (fun c => se_gerror (c_fn c) (seen frames c)) cs), g')%R /\
    forall f i, i < np -> g' (f * np + i) = (g (f * np + i)%nat + rsum (map (fun c => part np frames c f i) cs))%R.
Proof.
  induction cs as [|c cs IH]; intros H e g; cbn [ofold map rsum].
  - exists g. split; [f_equal; f_equal; ring|]. intros; ring.
  - unfold grad_step at 1. rewrite window_ok by (apply H; cbn; auto). cbn [obind fst snd].
    destruct (IH ltac:(intros; apply H; cbn; auto)
      (e + se_gerror (c_fn c) (seen frames c))%R
      (add_segment g (c_at c * np) (c_n c * np) (se_grad (c_fn c) (seen frames c)))) as (g' & E & A).
    exists g'. unfold seen in E at 1 2. rewrite E. split; [f_equal; f_equal; unfold seen; ring|].
    intros f i Hi. rewrite A, segment_at by exact Hi. unfold part. ring.
Qed.

Lemma both_sums np univ nF en o frames : so_wf np univ nF en o -> length frames = nF -> forall acc,
  (let* a := sum_gradients np frames (fun _ => 1) (so_per o) acc in
   sum_gradients np frames se_frames (so_seq o) a) = ofold (grad_step np frames) (calls o) acc.
Proof.
  intros W L acc. unfold calls. rewrite ofold_app. unfold sum_gradients. rewrite L.
  rewrite (flatten (so_per o) (fun f e => {| c_at := f; c_n := 1; c_fn := e; c_seq := false |})
    (fun f e acc => let* w := window frames f 1 in
        Ok (fst acc + se_gerror e w, add_segment (snd acc) (f * np) (1 * np) (se_grad e w))%R)
    (grad_step np frames) nF acc (o_per _ _ _ _ _ W)) by reflexivity.
  unfold frame_calls. rewrite (o_per _ _ _ _ _ W).
  match goal with |- obind ?x _ = obind ?x _ => destruct x as [a| | | |]; cbn [obind]; auto end.
  rewrite (flatten (so_seq o) (fun f e => {| c_at := f; c_n := se_frames e; c_fn := e; c_seq := true |})
    (fun f e acc => let* w := window frames f (se_frames e) in
        Ok (fst acc + se_gerror e w, add_segment (snd acc) (f * np) (se_frames e * np) (se_grad e w))%R)
    (grad_step np frames) nF a (o_seq _ _ _ _ _ W)) by reflexivity.
  unfold sequence_calls. rewrite (o_seq _ _ _ _ _ W). reflexivity.
Qed.

Lemma rsum_one (l : list nat) (P : nat -> bool) k (x : nat -> R) : NoDup l -> In k l -> P k = true ->
  (forall j, In j l -> P j = true -> j = k) ->
  rsum (map (fun j => if P j then x j else 0%R) l) = x k.
Proof.
  induction l as [|j l IH]; intros N I Pk U; [destruct I|]. cbn.
  inversion N as [|? ? N1 N2]; subst. destruct I as [->|I].
  - rewrite Pk. rewrite rsum_map_zero; [ring|]. intros y Hy.
    destruct (P y) eqn:Py; [|reflexivity]. exfalso. apply N1. rewrite <- (U y); auto. right; auto.
  - destruct (P j) eqn:Pj.
    + exfalso. apply N1. rewrite (U j); auto. left; auto.
    + rewrite IH; auto; [ring|]. intros; apply U; auto. right; auto.
Qed.

(** The gradient of a slot, in terms of the full gradient [h f i]. *)
Definition collected (univ : nat -> bool) (nF : nat) (h : nat -> nat -> R) (f i : nat) : R :=
  if univ i then sumn nF (fun g => h g i) else h f i.

Lemma collect_spec np univ nF en s (full : nat -> R) : seq_wf np univ nF en s ->
  exists g,
  (let nPer := length (sq_per s) in
   let add g p x := let* y := rd g p in wr g p (y + x)%R in
   ofold (fun f g =>
      let* g1 := ofold (fun k g =>
          let* i := rd (sq_per s) k in
          add g (nPer * f + k) (full (f * np + i))) (seq 0 nPer) g in
      ofold (fun k g =>
          let* i := rd (sq_unv s) k in
          add g (nPer * nF + k) (full (f * np + i))) (seq 0 (length (sq_unv s))) g1)
    (seq 0 nF) (repeat 0%R (joined_size np univ en nF))) = Ok g /\
  length g = joined_size np univ en nF /\
  forall f i, f < nF -> i < np -> en i = true ->
    nth (slot np univ en nF f i) g 0%R = collected univ nF (fun f i => full (f * np + i)) f i.
Proof.
  intros W. cbv zeta. set (nPer := length (sq_per s)).
  assert (nPer = rank (per_frame univ en) np) as EP by (apply (per_length _ _ _ _ _ W)).
  assert (length (sq_unv s) = rank (shared univ en) np) as EU by (apply (unv_length _ _ _ _ _ W)).
  set (N := joined_size np univ en nF).
  assert (N = nPer * nF + length (sq_unv s)) as EN by (unfold N, joined_size; lia).
  set (hp := fun f p => rsum (map (fun k => if (nPer * f + k =? p)%nat then full (f * np + nth k (sq_per s) 0) else 0%R) (seq 0 nPer))).
  set (hu := fun f p => rsum (map (fun k => if (nPer * nF + k =? p)%nat then full (f * np + nth k (sq_unv s) 0) else 0%R) (seq 0 (length (sq_unv s))))).
  match goal with |- exists g, ofold ?F _ _ = _ /\ _ => set (body := F) end.
  destruct (ofold_seq_inv body (fun n g => length g = N /\ forall p, p < N ->
     nth p g 0%R = sumn n (fun f => (hp f p + hu f p)%R)) nF (repeat 0%R N)) as (g & E & L & A).
  - split; [apply repeat_length|]. intros p Hp. rewrite sumn_0.
    apply nth_error_nth0. apply nth_error_repeat. exact Hp.
  - intros f g Hf (L & A). unfold body.
    destruct (add_loop (fun k g => let* i := rd (sq_per s) k in
          let* y := rd g (nPer * f + k) in wr g (nPer * f + k) (y + full (f * np + i)%nat)%R)
        (fun k => nPer * f + k) (fun k => full (f * np + nth k (sq_per s) 0)) (seq 0 nPer) g) as (g1 & E1 & L1 & A1).
    { intros k r Hk. apply in_seq in Hk.
      rewrite (rd_some _ _ _ (nth_error_nth' (sq_per s) 0 (proj2 Hk))). reflexivity. }
    { intros k Hk. apply in_seq in Hk. rewrite L, EN. nia. }
    rewrite E1. cbn [obind].
    destruct (add_loop (fun k g => let* i := rd (sq_unv s) k in
          let* y := rd g (nPer * nF + k) in wr g (nPer * nF + k) (y + full (f * np + i)%nat)%R)
        (fun k => nPer * nF + k) (fun k => full (f * np + nth k (sq_unv s) 0)) (seq 0 (length (sq_unv s))) g1) as (g2 & E2 & L2 & A2).
    { intros k r Hk. apply in_seq in Hk.
      rewrite (rd_some _ _ _ (nth_error_nth' (sq_unv s) 0 (proj2 Hk))). reflexivity. }
    { intros k Hk. apply in_seq in Hk. rewrite L1, L, EN. lia. }
    exists g2. split; [exact E2|]. split; [lia|]. intros p Hp.
    rewrite A2, A1, A by lia. rewrite sumn_S. unfold hp, hu. ring.
  - exists g. split; [exact E|]. split; [exact L|]. intros f i Hf Hi He.
    assert (slot np univ en nF f i < N) as SB by (apply slot_bound; auto).
    rewrite A by exact SB. unfold collected, slot in *. rewrite <- EP in *.
    destruct (univ i) eqn:Hu.
    + apply sumn_ext. intros f' Hf'.
      assert (rank (shared univ en) i < length (sq_unv s)) as Hk
        by (rewrite EU; apply rank_lt; auto; apply sh_true; auto).
      assert (hp f' (nPer * nF + rank (shared univ en) i) = 0%R) as ->.
      { unfold hp. apply rsum_map_zero. intros k Hk'. apply in_seq in Hk'.
        destruct (Nat.eqb_spec (nPer * f' + k) (nPer * nF + rank (shared univ en) i)); [nia|reflexivity]. }
      unfold hu. rewrite (rsum_one _ _ (rank (shared univ en) i)).
      * rewrite (nth_error_nth0 (sq_unv s) _ 0 i); [ring|].
        rewrite (w_unv _ _ _ _ _ W). apply rank_nth; auto. apply sh_true; auto.
      * apply seq_NoDup.
      * apply in_seq. lia.
      * apply Nat.eqb_refl.
      * intros j _ Hj. apply Nat.eqb_eq in Hj. lia.
    + assert (rank (per_frame univ en) i < nPer) as Hk
        by (rewrite EP; apply rank_lt; auto; apply per_true; auto).
      rewrite (sumn_single nF f).
      * assert (hu f (nPer * f + rank (per_frame univ en) i) = 0%R) as ->.
        { unfold hu. apply rsum_map_zero. intros k Hk'. apply in_seq in Hk'.
          destruct (Nat.eqb_spec (nPer * nF + k) (nPer * f + rank (per_frame univ en) i)); [nia|reflexivity]. }
        unfold hp. rewrite (rsum_one _ _ (rank (per_frame univ en) i)).
        -- rewrite (nth_error_nth0 (sq_per s) _ 0 i); [ring|].
           rewrite (w_per _ _ _ _ _ W). apply rank_nth; auto. apply per_true; auto.
        -- apply seq_NoDup.
        -- apply in_seq. lia.
        -- apply Nat.eqb_refl.
        -- intros j _ Hj. apply Nat.eqb_eq in Hj. lia.
      * exact Hf.
      * intros f' Hf' D.
        assert (hu f' (nPer * f + rank (per_frame univ en) i) = 0%R) as ->.
        { unfold hu. apply rsum_map_zero. intros k Hk'. apply in_seq in Hk'.
          destruct (Nat.eqb_spec (nPer * nF + k) (nPer * f + rank (per_frame univ en) i)); [nia|reflexivity]. }
        assert (hp f' (nPer * f + rank (per_frame univ en) i) = 0%R) as ->.
        { unfold hp. apply rsum_map_zero. intros k Hk'. apply in_seq in Hk'.
          destruct (Nat.eqb_spec (nPer * f' + k) (nPer * f + rank (per_frame univ en) i)); [nia|reflexivity]. }
        ring.
Qed.

(** Which frames of a call move with a slot. *)
Definition moves (univ : nat -> bool) (f i : nat) (c : call) (sub : nat) : R :=
  if univ i then 1%R else if (c_at c + sub =? f)%nat then 1%R else 0%R.

Lemma part_collected np univ nF frames c f i : c_at c + c_n c <= nF -> f < nF ->
  collected univ nF (part np frames c) f i =
  sumn (c_n c) (fun sub => (moves univ f i c sub * se_grad (c_fn c) (seen frames c) (sub * np + i)%nat)%R).
Proof.
  intros H Hf. unfold collected, moves. destruct (univ i).
  - unfold part. rewrite (sumn_window nF (c_at c) (c_n c)
      (fun sub => se_grad (c_fn c) (seen frames c) (sub * np + i)) H).
    apply sumn_ext. intros. ring.
  - unfold part. destruct (Nat.leb_spec (c_at c) f) as [H1|H1];
      [destruct (Nat.ltb_spec f (c_at c + c_n c)) as [H2|H2]|]; cbn [andb].
    + rewrite (sumn_single (c_n c) (f - c_at c)); [|lia|].
      * destruct (Nat.eqb_spec (c_at c + (f - c_at c)) f); [ring|lia].
      * intros j Hj D. destruct (Nat.eqb_spec (c_at c + j) f); [lia|ring].
    + symmetry. apply sumn_zero. intros j Hj. destruct (Nat.eqb_spec (c_at c + j) f); [lia|ring].
    + symmetry. apply sumn_zero. intros j Hj. destruct (Nat.eqb_spec (c_at c + j) f); [lia|ring].
Qed.

Lemma so_gradient_spec np univ nF en o v : so_wf np univ nF en o ->
  length v = joined_size np univ en nF ->
  let fr := frames_from np univ en (sq_frames (so_fn o)) v in
  exists g, so_gradient o v = Ok (rsum (map (fun c => se_gerror (c_fn c) (seen fr c)) (calls o)), g) /\
    length g = length v /\
    forall f i, f < nF -> i < np -> en i = true ->
      nth (slot np univ en nF f i) g 0%R =
      rsum (map (fun c => sumn (c_n c) (fun sub =>
        (moves univ f i c sub * se_grad (c_fn c) (seen fr c) (sub * np + i)%nat)%R)) (calls o)).
Proof.
  intros W Lv. cbv zeta. unfold so_gradient.
  rewrite (set_joined_frames _ _ _ _ _ v (o_fn _ _ _ _ _ W) Lv). cbn [obind].
  set (fr := frames_from np univ en (sq_frames (so_fn o)) v).
  assert (length fr = nF) as Lf by (unfold fr; rewrite frames_from_length; apply (w_nF _ _ _ _ _ (o_fn _ _ _ _ _ W))).
  cbn [with_frames sq_frames sq_np sq_per sq_unv].
  rewrite (w_np _ _ _ _ _ (o_fn _ _ _ _ _ W)), Lf.
  rewrite <- obind_assoc, (both_sums np univ nF en o fr W Lf).
  assert (forall c, In c (calls o) -> c_at c + c_n c <= nF) as Fit.
  { intros c Hc. apply (calls_fit _ _ _ _ _ _ W Hc). }
  destruct (grad_steps np fr (calls o) ltac:(intros c Hc; rewrite Lf; auto) 0%R (fun _ => 0%R)) as (g' & E & A).
  rewrite E. cbn [obind fst snd].
  destruct (collect_spec np univ nF en (so_fn o) g' (o_fn _ _ _ _ _ W)) as (g & Eg & Lg & B).
  cbv zeta in Eg. rewrite Lv, Eg. cbn [obind]. exists g. split; [f_equal; f_equal; ring|]. split; [congruence|].
  intros f i Hf Hi He. rewrite B by auto.
  transitivity (rsum (map (fun c => collected univ nF (part np fr c) f i) (calls o))).
  - unfold collected. destruct (univ i).
    + rewrite (sumn_ext nF _ (fun g0 => rsum (map (fun c => part np fr c g0 i) (calls o)))).
      * apply sumn_rsum_swap.
      * intros j Hj. rewrite A by exact Hi. ring.
    + rewrite A by exact Hi. ring.
  - apply rsum_map_ext. intros c Hc. apply part_collected; auto.
Qed.
