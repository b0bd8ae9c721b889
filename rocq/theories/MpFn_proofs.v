(** Lemmas for C109: error and gradient of several poses. *)

From Coq Require Import Bool List Arith Lia Reals Lra.
From Coquelicot Require Import Coquelicot.
From Verif Require Import Prelude LinAlg Rbool ListUtil Loops Seq_spec Seq_model Seq_proofs Seq_multi_proofs
  SeqFn_model SeqFn_spec SeqFn_proofs SeqFn_grad_proofs MpFn_model MpFn_spec.
Import ListNotations.
Local Open Scope outcome_scope.
Local Open Scope nat_scope.

Definition mo_wf (universal : list bool) (nF : nat) (o : mpobj) : Prop := mp_wf universal nF (mo_fn o) /\ length (mo_per o) = nF.

Lemma mp_do_wf universal nF s op s' : mp_wf universal nF s -> mp_do s op = Ok s' -> mp_wf universal nF s'.
Proof.
  intros W E. destruct op as [en|f p|v]; cbn in E.
  - exact (mp_set_enabled_wf _ _ _ W en s' E).
  - exact (mp_set_frame_wf _ _ _ W f p s' E).
  - exact (mp_set_joined_wf _ _ _ W v s' E).
Qed.
Lemma mo_do_wf universal nF o op o' : mo_wf universal nF o -> mo_do o op = Ok o' -> mo_wf universal nF o'.
Proof.
  intros [W L] E. destruct op as [p|f e]; cbn in E.
  - destruct (mp_do (mo_fn o) p) as [s| | | |] eqn:E1; try discriminate E. injection E as <-. split; [exact (mp_do_wf _ _ _ _ _ W E1)|exact L].
  - unfold mo_add in E. rewrite (m_nF _ _ _ W) in E. destruct (Nat.ltb_spec f nF) as [Hf|]; [|discriminate E]. cbn [negb] in E.
    destruct (add1_ok (mo_per o) f e ltac:(lia)) as (per & E1 & L1 & _).
    destruct (rd (mo_per o) f) as [l| | | |]; try discriminate E. cbn [obind] in *. rewrite E1 in E. injection E as <-. split; [exact W|cbn; lia].
Qed.
Lemma mo_run_wf universal nF ops o : mo_run universal nF ops = Ok o -> mo_wf universal nF o.
Proof.
  unfold mo_run. assert (W : mo_wf universal nF (mo_init universal nF)) by (split; [apply mp_init_wf|apply repeat_length]).
  revert W. generalize (mo_init universal nF). induction ops as [|op ops IH]; intros o0 W; cbn [ofold].
  - intros E. injection E as <-. exact W.
  - destruct (mo_do o0 op) as [o1| | | |] eqn:E1; try discriminate. cbn [obind]. apply IH. exact (mo_do_wf _ _ _ _ _ W E1).
Qed.

Lemma pose_length universal nF v f : length (pose universal nF v f) = length universal.
Proof. unfold pose. rewrite map_length, seq_length. reflexivity. Qed.
Lemma mo_set_spec universal nF o v : mo_wf universal nF o -> length v = total_size universal nF ->
  exists s, mo_set o v = Ok s /\ mp_wf universal nF s /\ mp_frames s = map (pose universal nF v) (seq 0 nF).
Proof.
  intros [W L] Lv. unfold mo_set. rewrite (m_num _ _ _ W). fold (total_size universal nF). rewrite Lv, Nat.eqb_refl. cbn [negb].
  destruct (mp_set_joined_spec universal nF (mo_fn o) W v Lv) as (s & E & W' & _ & V). exists s. split; [exact E|]. split; [exact W'|].
  apply (frames_ext (length universal) nF); [apply (m_nF _ _ _ W')|rewrite map_length, seq_length; reflexivity|apply (m_len _ _ _ W')| |].
  - intros f x Ex. rewrite nth_error_map in Ex. destruct (nth_error (seq 0 nF) f); [|discriminate Ex]. injection Ex as <-. apply pose_length.
  - intros f i Hf Hi. rewrite (V f i Hf Hi). unfold value_at. rewrite nth_error_map, (nth_error_nth' (seq 0 nF) 0) by (rewrite seq_length; exact Hf).
    rewrite seq_nth by exact Hf. cbn [option_map Nat.add]. unfold pose. rewrite nth_error_map, (nth_error_nth' (seq 0 _) 0) by (rewrite seq_length; exact Hi).
    rewrite seq_nth by exact Hi. cbn [option_map Nat.add]. apply nth_error_nth'. rewrite Lv. apply slot_bound; auto.
Qed.
Lemma frame_rd universal nF v s f : mp_frames s = map (pose universal nF v) (seq 0 nF) -> f < nF -> rd (mp_frames s) f = Ok (pose universal nF v f).
Proof.
  intros E Hf. apply rd_some. rewrite E, nth_error_map, (nth_error_nth' (seq 0 nF) 0) by (rewrite seq_length; exact Hf). rewrite seq_nth by exact Hf. reflexivity.
Qed.

(** The same poses as a sequence without sequence functions. *)
Definition as_seq (universal : list bool) (nF : nat) (o : mpobj) : seqobj :=
  {| so_fn := seq_init (length universal) (uset universal) nF; so_per := mo_per o; so_seq := repeat [] nF |}.
Lemma as_seq_wf universal nF o : mo_wf universal nF o -> so_wf (length universal) (uset universal) nF all_on (as_seq universal nF o).
Proof.
  intros [W L]. constructor; cbn.
  - apply init_wf.
  - exact L.
  - apply repeat_length.
  - intros f l e H. apply nth_error_In, repeat_spec in H. subst. intros [].
Qed.
Lemma as_seq_calls universal nF o : mo_wf universal nF o ->
  calls (as_seq universal nF o) = map (fun c => {| c_at := fst c; c_n := 1; c_fn := snd c; c_seq := false |}) (mcalls o).
Proof.
  intros [W L]. unfold calls, frame_calls, sequence_calls, mcalls. cbn [as_seq so_per so_seq].
  assert (Z : forall l, flat_map (fun f => map (fun e => {| c_at := f; c_n := se_frames e; c_fn := e; c_seq := true |}) (filter active (nth f (repeat (@nil serr) nF) []))) l = []).
  { induction l as [|f l IH]; [reflexivity|]. cbn [flat_map]. rewrite IH, nth_repeat. reflexivity. }
  rewrite Z, app_nil_r. induction (seq 0 (length (mo_per o))) as [|f l IH]; [reflexivity|]. cbn [flat_map]. rewrite map_app, <- IH, map_map. reflexivity.
Qed.
Lemma as_seq_frames universal nF o v : frames_from (length universal) (uset universal) all_on (sq_frames (so_fn (as_seq universal nF o))) v =
  map (pose universal nF v) (seq 0 nF).
Proof.
  unfold frames_from. cbn [as_seq so_fn]. assert (L : length (sq_frames (seq_init (length universal) (uset universal) nF)) = nF) by apply (w_nF _ _ _ _ _ (init_wf _ _ _)).
  rewrite L. reflexivity.
Qed.
Lemma seen_pose universal nF v f e k : f < nF -> seen (map (pose universal nF v) (seq 0 nF)) {| c_at := f; c_n := 1; c_fn := e; c_seq := k |} = [pose universal nF v f].
Proof.
  intros Hf. unfold seen. cbn [c_at c_n]. set (l := map _ _). assert (E : nth_error l f = Some (pose universal nF v f)).
  { unfold l. rewrite nth_error_map, (nth_error_nth' (seq 0 nF) 0) by (rewrite seq_length; exact Hf). rewrite seq_nth by exact Hf. reflexivity. }
  clearbody l. revert f Hf E. generalize (pose universal nF v). intros P. induction l as [|y l IH]; intros [|f] Hf E; cbn in *; try discriminate E.
  - injection E as ->. reflexivity.
  - assert (G : forall (l : list (list R)) f z, nth_error l f = Some z -> firstn 1 (skipn f l) = [z]).
    { clear. induction l as [|y l IH]; intros [|f] z E; cbn in *; try discriminate E; [congruence|]. apply IH. exact E. }
    apply G. exact E.
Qed.
Lemma mcalls_at o c : In c (mcalls o) -> fst c < length (mo_per o).
Proof. unfold mcalls. intros H. apply in_flat_map in H. destruct H as (f & Hf & H). apply in_map_iff in H. destruct H as (e & <- & _). apply in_seq in Hf. cbn. lia. Qed.
Lemma as_seq_error universal nF o v : mo_wf universal nF o ->
  total_error (as_seq universal nF o) (map (pose universal nF v) (seq 0 nF)) = poses_error o (pose universal nF v).
Proof.
  intros W. unfold total_error, poses_error. rewrite (as_seq_calls universal nF o W), map_map. apply rsum_map_ext. intros c Hc. cbn [c_fn].
  rewrite seen_pose by (rewrite <- (proj2 W); apply mcalls_at; exact Hc). reflexivity.
Qed.

(** The loops over the functions. *)
Lemma active_loop {S} (body : serr -> S -> outcome S) fs s :
  ofold (fun e st => if Rleb (se_weight e) 0 then Ok st else body e st) fs s = ofold body (filter active fs) s.
Proof.
  revert s. induction fs as [|e fs IH]; intros s; cbn [ofold filter]; [reflexivity|]. unfold active at 1. destruct (Rleb (se_weight e) 0); cbn [negb obind ofold]; [apply IH|].
  destruct (body e s); cbn [obind]; auto.
Qed.
Definition frame_fns (o : mpobj) (f : nat) : list serr := filter active (nth f (mo_per o) []).
Lemma mcalls_sum o (F : nat -> serr -> R) : rsum (map (fun c => F (fst c) (snd c)) (mcalls o)) = sumn (length (mo_per o)) (fun f => rsum (map (F f) (frame_fns o f))).
Proof.
  unfold mcalls, sumn. induction (seq 0 (length (mo_per o))) as [|f l IH]; [reflexivity|]. cbn [flat_map map rsum]. rewrite map_app, rsum_app, IH. f_equal.
  rewrite map_map. reflexivity.
Qed.
Lemma per_rd universal nF o f : mo_wf universal nF o -> f < nF -> rd (mo_per o) f = Ok (nth f (mo_per o) []).
Proof. intros [_ L] Hf. apply rd_some, nth_error_nth'. lia. Qed.

Lemma mo_error_spec universal nF o v : mo_wf universal nF o -> length v = total_size universal nF ->
  exists s, mo_error o v = Ok (poses_error o (pose universal nF v), s) /\ mp_frames s = map (pose universal nF v) (seq 0 nF).
Proof.
  intros W Lv. destruct (mo_set_spec universal nF o v W Lv) as (s & E & Ws & Fr). unfold mo_error. rewrite E. cbn [obind]. rewrite (m_nF _ _ _ Ws).
  destruct (ofold_seq_inv (fun f acc =>
      let* x := rd (mp_frames s) f in let* fs := rd (mo_per o) f in
      ofold (fun e acc => if Rleb (se_weight e) 0 then Ok acc else Ok (acc + se_error e [x])%R) fs acc)
    (fun k acc => acc = sumn k (fun f => rsum (map (fun e => se_error e [pose universal nF v f]) (frame_fns o f)))) nF 0%R eq_refl) as (err & E2 & ->).
  - intros k acc Hk ->. rewrite (frame_rd universal nF v s k Fr Hk), (per_rd universal nF o k W Hk). cbn [obind]. rewrite active_loop. fold (frame_fns o k).
    eexists. split; [|reflexivity]. rewrite sumn_S. generalize (sumn k (fun f => rsum (map (fun e => se_error e [pose universal nF v f]) (frame_fns o f)))).
    induction (frame_fns o k) as [|e l IH]; intros a; cbn [ofold map rsum obind]; [f_equal; ring|]. rewrite IH. f_equal. ring.
  - rewrite E2. cbn [obind]. exists s. split; [|exact Fr]. pose proof (mcalls_sum o (fun f e => se_error e [pose universal nF v f])) as M. rewrite (proj2 W) in M. rewrite <- M. reflexivity.
Qed.

(** Which slot of frame [f] a parameter of frame [g] is in. *)
Lemma place_eqb universal nF f i g k : f < nF -> g < nF -> i < length universal -> k < length universal ->
  (place universal nF f i =? place universal nF g k) = (i =? k) && (uset universal i || (f =? g)).
Proof.
  intros Hf Hg Hi Hk. unfold place. destruct (Nat.eqb_spec (slot (length universal) (uset universal) all_on nF f i) (slot (length universal) (uset universal) all_on nF g k)) as [E|D].
  - destruct (slot_inj (length universal) (uset universal) all_on nF f i g k) as [-> Z]; auto. rewrite Nat.eqb_refl. cbn [andb].
    destruct (uset universal k); [reflexivity|]. rewrite (Z eq_refl), Nat.eqb_refl. reflexivity.
  - destruct (Nat.eqb_spec i k) as [-> |]; [|reflexivity]. cbn [andb]. destruct (uset universal k) eqn:U; cbn [orb].
    + exfalso. apply D. unfold slot. rewrite U. reflexivity.
    + destruct (Nat.eqb_spec f g) as [-> |]; [contradiction|reflexivity].
Qed.
Lemma place_bound universal nF f i : f < nF -> i < length universal -> place universal nF f i < total_size universal nF.
Proof. intros. apply slot_bound; auto. Qed.

Lemma frame_gradient universal nF (sub : nat -> R) s f g : mp_wf universal nF s -> f < nF -> length g = total_size universal nF ->
  exists g', ofold (fun i g => let* p := mp_place s f i in let* y := rd g p in wr g p (y + sub i)%R) (seq 0 (mp_np s)) g = Ok g' /\ length g' = length g /\
    forall h k, h < nF -> k < length universal -> nth (place universal nF h k) g' 0%R = (nth (place universal nF h k) g 0 + (if uset universal k || (f =? h) then sub k else 0))%R.
Proof.
  intros W Hf Lg. rewrite (m_np _ _ _ W).
  destruct (add_loop (fun i g => let* p := mp_place s f i in let* y := rd g p in wr g p (y + sub i)%R) (place universal nF f) sub (seq 0 (length universal)) g) as (g' & E & L & A).
  - intros i r Hi. apply in_seq in Hi. rewrite (place_spec _ _ _ W) by lia. reflexivity.
  - intros i Hi. apply in_seq in Hi. rewrite Lg. apply place_bound; lia.
  - exists g'. split; [exact E|]. split; [exact L|]. intros h k Hh Hk. rewrite A by (rewrite Lg; apply place_bound; assumption). f_equal.
    destruct (uset universal k || (f =? h)) eqn:B.
    + apply (rsum_one (seq 0 (length universal)) (fun i => place universal nF f i =? place universal nF h k) k sub (seq_NoDup _ _)).
      * apply in_seq. lia.
      * rewrite place_eqb, Nat.eqb_refl by assumption. exact B.
      * intros j Hj. apply in_seq in Hj. rewrite place_eqb by (assumption || lia). intros Q. apply andb_prop in Q. apply Nat.eqb_eq, Q.
    + apply rsum_map_zero. intros j Hj. apply in_seq in Hj. rewrite place_eqb by (assumption || lia). destruct (Nat.eqb_spec j k) as [-> |]; [|reflexivity]. rewrite B. reflexivity.
Qed.

Definition pose_gradient (universal : list bool) (nF : nat) (o : mpobj) (v : list R) (h k : nat) : R :=
  rsum (map (fun c => if uset universal k || (fst c =? h) then se_grad (snd c) [pose universal nF v (fst c)] k else 0%R) (mcalls o)).

Lemma mo_gradient_spec universal nF o v : mo_wf universal nF o -> length v = total_size universal nF ->
  exists g, mo_gradient o v = Ok (rsum (map (fun c => se_gerror (snd c) [pose universal nF v (fst c)]) (mcalls o)), g) /\ length g = length v /\
    forall h k, h < nF -> k < length universal -> nth (place universal nF h k) g 0%R = pose_gradient universal nF o v h k.
Proof.
  intros W Lv. destruct (mo_set_spec universal nF o v W Lv) as (s & E & Ws & Fr). unfold mo_gradient. rewrite E. cbn [obind]. rewrite (m_nF _ _ _ Ws).
  set (sub := fun f k => rsum (map (fun e => se_grad e [pose universal nF v f] k) (frame_fns o f))).
  match goal with |- context [ofold ?B (seq 0 nF) ?s0] => destruct (ofold_seq_inv B
    (fun n acc => fst acc = sumn n (fun f => rsum (map (fun e => se_gerror e [pose universal nF v f]) (frame_fns o f))) /\ length (snd acc) = length v /\
       forall h k, h < nF -> k < length universal -> nth (place universal nF h k) (snd acc) 0%R = sumn n (fun f => if uset universal k || (f =? h) then sub f k else 0%R)) nF s0) as ((err & g) & E2 & Ee & Lg & A) end.
  - cbn [fst snd]. split; [reflexivity|]. split; [apply repeat_length|]. intros. rewrite sumn_0. apply nth_repeat.
  - intros f acc Hf (Ee & Lg & A). rewrite (frame_rd universal nF v s f Fr Hf), (per_rd universal nF o f W Hf). cbn [obind]. rewrite active_loop. fold (frame_fns o f).
    assert (In1 : forall l a h, exists h', ofold (fun e a => Ok (fst a + se_gerror e [pose universal nF v f], fun i => snd a i + se_grad e [pose universal nF v f] i)%R) l (a, h) =
        Ok (a + rsum (map (fun e => se_gerror e [pose universal nF v f]) l), h')%R /\ forall i, h' i = (h i + rsum (map (fun e => se_grad e [pose universal nF v f] i) l))%R).
    { induction l as [|e l IH]; intros a h; cbn [ofold obind map rsum fst snd].
      - exists h. split; [do 2 f_equal; ring|]. intros; ring.
      - destruct (IH (a + se_gerror e [pose universal nF v f])%R (fun i => (h i + se_grad e [pose universal nF v f] i)%R)) as (h' & Eh & Ah).
        exists h'. rewrite Eh. split; [do 2 f_equal; ring|]. intros i. rewrite Ah. ring. }
    destruct (In1 (frame_fns o f) (fst acc) (fun _ => 0%R)) as (h' & Eh & Ah). rewrite Eh. cbn [obind fst snd].
    destruct (frame_gradient universal nF h' s f (snd acc) Ws Hf ltac:(congruence)) as (g' & Eg & Lg' & Ag). rewrite Eg. cbn [obind].
    eexists. split; [reflexivity|]. cbn [fst snd]. split; [rewrite sumn_S, Ee; reflexivity|]. split; [congruence|].
    intros h k Hh Hk. rewrite Ag, A, sumn_S by assumption. f_equal. destruct (uset universal k || (f =? h)); [|reflexivity]. rewrite Ah. unfold sub. ring.
  - rewrite E2. cbn [fst snd] in *. exists g. split; [|split; [exact Lg|]].
    + pose proof (mcalls_sum o (fun f e => se_gerror e [pose universal nF v f])) as M. rewrite (proj2 W) in M. rewrite Ee, <- M. reflexivity.
    + intros h k Hh Hk. rewrite A by assumption. unfold pose_gradient.
      rewrite (mcalls_sum o (fun f e => if uset universal k || (f =? h) then se_grad e [pose universal nF v f] k else 0%R)), (proj2 W).
      apply sumn_ext. intros f Hf. destruct (uset universal k || (f =? h)); [reflexivity|]. symmetry. apply rsum_map_zero. reflexivity.
Qed.

(** The gradient is the derivative, through the sequence function. *)
Lemma same_gradient universal nF o v : mo_wf universal nF o -> length v = total_size universal nF -> 0 < nF -> so_gradient (as_seq universal nF o) v = mo_gradient o v.
Proof.
  intros W Lv HF. destruct (so_gradient_spec _ _ _ _ _ v (as_seq_wf universal nF o W) Lv) as (g & Eg & Lg & A). cbv zeta in Eg, A.
  destruct (mo_gradient_spec universal nF o v W Lv) as (g' & Eg' & Lg' & A'). rewrite Eg, Eg'. rewrite as_seq_frames, (as_seq_calls universal nF o W) in *. f_equal. f_equal.
  - rewrite map_map. apply rsum_map_ext. intros c Hc. cbn [c_fn]. rewrite seen_pose by (rewrite <- (proj2 W); apply mcalls_at; exact Hc). reflexivity.
  - apply (nth_ext _ _ 0%R 0%R); [congruence|]. intros p Hp. rewrite Lg, Lv in Hp.
    destruct (slot_onto (length universal) (uset universal) all_on nF p HF Hp) as (f & i & Hf & Hi & _ & <-). rewrite A by auto. fold (place universal nF f i). rewrite A' by auto.
    unfold pose_gradient. rewrite map_map. apply rsum_map_ext. intros c Hc. cbn [c_fn c_n]. rewrite seen_pose by (rewrite <- (proj2 W); apply mcalls_at; exact Hc).
    rewrite sumn_S, sumn_0. unfold moves. cbn [c_at]. rewrite Nat.add_0_r. cbn [Nat.mul Nat.add].
    destruct (uset universal i); cbn [orb]; [ring|]. destruct (fst c =? f); ring.
Qed.
