(** The invariant of the parallel pass of the sequence solver and its preservation. *)

From Coq Require Import Reals List Arith Bool Lia FunctionalExtensionality.
From Verif Require Import LinAlg Rbool ListUtil QR_spec QRBanded_spec QR_model QRBanded_model
  SeqPar_model SeqPar_mem.
Import ListNotations.
Local Open Scope R_scope.

(** ** Lists *)

Lemma nth_error_store {A} (l : list A) t x i y : nth_error l t = Some y ->
  nth_error (store l t x) i = if (i =? t)%nat then Some x else nth_error l i.
Proof.
  intros H. assert (t < length l)%nat by (apply nth_error_Some; congruence).
  destruct (Nat.eqb_spec i t) as [->|].
  - apply store_nth_error_same; assumption.
  - apply store_nth_error_other; assumption.
Qed.

Lemma extract_min_in l x r : extract_min l = Some (x, r) ->
  (forall y, In y l <-> y = x \/ In y r) /\
  (forall y, In y r -> (it_frame x <= it_frame y)%nat) /\
  (NoDup (map it_frame l) -> NoDup (map it_frame r) /\ ~ In (it_frame x) (map it_frame r)) /\
  length l = S (length r).
Proof.
  revert x r. induction l as [|a l IH]; cbn [extract_min]; intros x r H; [discriminate|].
  destruct (extract_min l) as [[y r']|] eqn:E.
  - destruct (IH y r' eq_refl) as (I1 & I2 & I3 & I4).
    destruct (Nat.leb_spec (it_frame a) (it_frame y)); injection H as <- <-.
    + split; [intros z; cbn [In]; intuition auto|]. split.
      { intros z Hz. apply I1 in Hz. destruct Hz as [->|Hz]; [assumption|]. specialize (I2 z Hz). lia. }
      split; [|reflexivity]. cbn [map]. intros HN. inversion HN; subst. split; assumption.
    + split; [intros z; cbn [In]; rewrite I1; intuition auto|]. split.
      { intros z [<-|Hz]; [lia|]. apply I2; exact Hz. }
      split.
      * cbn [map]. intros HN. inversion HN as [|? ? Ha Hl]; subst. destruct (I3 Hl) as [I5 I6].
        split.
        { constructor; [|exact I5]. intros Hi. apply Ha. apply in_map_iff in Hi. destruct Hi as (z & Ez & Hz).
          apply in_map_iff. exists z. split; [exact Ez|]. apply I1. right; exact Hz. }
        cbn [In]. intros [Ha'|Hi]; [|contradiction]. lia.
      * cbn [length]. rewrite I4. reflexivity.
  - injection H as <- <-. assert (l = []) as ->.
    { destruct l as [|b l]; [reflexivity|]. cbn in E. destruct (extract_min l) as [[? ?]|]; [|discriminate].
      destruct (it_frame b <=? it_frame i)%nat; discriminate. }
    split; [intros z; cbn; intuition auto|]. split; [intros z []|]. split; [|reflexivity].
    cbn. intros _. split; [constructor|auto].
Qed.
Lemma extract_min_none l : extract_min l = None -> l = [].
Proof.
  destruct l as [|b l]; [reflexivity|]. cbn. destruct (extract_min l) as [[? ?]|]; [|discriminate].
  destruct (it_frame b <=? it_frame i)%nat; discriminate.
Qed.

(** ** Locks: the tasks for which [holds] is true are exactly the owner of the mutex. *)
Definition owned (holds : pc -> bool) (m : option nat) (ts : list pc) : Prop :=
  (forall t p, nth_error ts t = Some p -> (holds p = true <-> m = Some t)) /\
  (forall t, m = Some t -> (t < length ts)%nat).
(** The program counter of the owner. *)
Definition owner_pc (m : option nat) (ts : list pc) : option pc :=
  match m with Some t => nth_error ts t | None => None end.

Lemma owned_same holds m ts t p p' : nth_error ts t = Some p -> holds p' = holds p ->
  owned holds m ts -> owned holds m (store ts t p').
Proof.
  intros Hp Hh (H1 & H2). split; [|intros u Hu; rewrite store_length; apply H2; exact Hu].
  intros u q Hu. rewrite (nth_error_store _ _ _ _ _ Hp) in Hu. destruct (Nat.eqb_spec u t) as [->|].
  - injection Hu as <-. rewrite Hh. apply H1. exact Hp.
  - apply H1. exact Hu.
Qed.
Lemma owned_take holds ts t p p' : nth_error ts t = Some p -> holds p' = true ->
  owned holds None ts -> owned holds (Some t) (store ts t p').
Proof.
  intros Hp Hh (H1 & H2). assert (t < length ts)%nat by (apply nth_error_Some; congruence).
  split; [|intros u [= <-]; rewrite store_length; assumption].
  intros u q Hu. rewrite (nth_error_store _ _ _ _ _ Hp) in Hu. destruct (Nat.eqb_spec u t) as [->|].
  - injection Hu as <-. rewrite Hh. tauto.
  - specialize (H1 u q Hu). split; [intros E; apply H1 in E; discriminate|]. intros [= ->]. congruence.
Qed.
Lemma owned_drop holds m ts t p p' : nth_error ts t = Some p -> holds p = true -> holds p' = false ->
  owned holds m ts -> owned holds None (store ts t p').
Proof.
  intros Hp Hh Hh' (H1 & H2). split; [|discriminate].
  assert (Hm : m = Some t) by (apply (H1 t p Hp); exact Hh).
  intros u q Hu. rewrite (nth_error_store _ _ _ _ _ Hp) in Hu. destruct (Nat.eqb_spec u t) as [->|Hut].
  - injection Hu as <-. rewrite Hh'. split; discriminate.
  - split; [|discriminate]. intros E. apply (H1 u q Hu) in E. congruence.
Qed.
Lemma owner_other holds m ts t p p' : nth_error ts t = Some p -> owned holds m ts ->
  holds p = false -> owner_pc m (store ts t p') = owner_pc m ts.
Proof.
  intros Hp (H1 & H2) Hh. unfold owner_pc. destruct m as [u|]; [|reflexivity].
  rewrite (nth_error_store _ _ _ _ _ Hp). destruct (Nat.eqb_spec u t) as [->|]; [|reflexivity].
  exfalso. assert (holds p = true) by (apply (H1 t p Hp); reflexivity). congruence.
Qed.
Lemma owner_self holds m ts t p : nth_error ts t = Some p -> owned holds m ts ->
  holds p = true -> m = Some t /\ owner_pc m ts = Some p.
Proof.
  intros Hp (H1 & H2) Hh. assert (E : m = Some t) by (apply (H1 t p Hp); exact Hh).
  subst m. split; [reflexivity|]. exact Hp.
Qed.
Lemma owner_new ts t p p' : nth_error ts t = Some p -> owner_pc (Some t) (store ts t p') = Some p'.
Proof. intros Hp. unfold owner_pc. rewrite (nth_error_store _ _ _ _ _ Hp), Nat.eqb_refl. reflexivity. Qed.

Definition holds_reorder (p : pc) : bool :=
  match p with Pushing _ | Testing | WantReady | Moving | ReleasingReady | Popping | ReleasingReorder => true
             | _ => false end.
Definition holds_ready (p : pc) : bool :=
  match p with Moving | ReleasingReady | DrainTaking | DrainReleasing _ => true | _ => false end.
Definition holds_qr (p : pc) : bool :=
  match p with DrainWantReady | DrainTaking | DrainReleasing _ | Adding _ _ _ _ | Counting _ | ReleasingQr => true
             | _ => false end.
(** The task's Jacobian has been given to the reorder buffer. *)
Definition pushed (p : pc) : bool :=
  match p with Zeroing _ _ _ _ | WantReorder _ | Pushing _ => false | _ => true end.

Section Inv.
Context (I : inputs).
Local Notation nF := (in_frames I).
Local Notation w := (in_per I).
Local Notation nc := (in_univ I).
Local Notation nb := (in_frames I * in_per I)%nat.
Local Notation bw := (in_band I * in_per I)%nat.
Local Notation q0 := (fresh_qr I).

(** Frame [f] eliminated alone, from the initial solver: after [k] columns. *)
Definition solo (f k : nat) : bstate :=
  fold_left (zero_step bw nc (f * w) w (fd_rows (in_data I f))) (seq 0 k)
    {| bs_band := bq_band q0; bs_common := bq_common q0; bs_y := bq_y q0;
       bs_A := fd_A (in_data I f); bs_C := fd_C (in_data I f); bs_b := fd_b (in_data I f) |}.
Definition itm (f : nat) : item := make_item I f (bs_C (solo f w)) (bs_b (solo f w)).
(** The solver with the universal parts of frames [0, d) folded in. *)
Definition botq (d : nat) : bqr :=
  fold_left (fun q x => add_common q (it_rows x) (it_C x) (it_b x)) (map itm (seq 0 d)) q0.
Definition flight (d k : nat) : mat * vec * mat * vec :=
  fold_left (common_step nb nc (it_rows (itm d))) (seq 0 k)
    (bq_common (botq d), bq_y (botq d), it_C (itm d), it_b (itm d)).

Definition win_is (f k : nat) (s : shared) : Prop :=
  win_eq (f * w) w (bq_band (sh_qr s)) (bq_common (sh_qr s)) (bq_y (sh_qr s))
    (bs_band (solo f k)) (bs_common (solo f k)) (bs_y (solo f k)).

Definition task_ok (f : nat) (s : shared) (p : pc) : Prop :=
  match p with
  | Zeroing k A C b => (k <= w)%nat /\ A = bs_A (solo f k) /\ C = bs_C (solo f k) /\ b = bs_b (solo f k) /\ win_is f k s
  | WantReorder it | Pushing it => it = itm f /\ win_is f w s
  | _ => win_is f w s
  end.

(** What the owner of the reorder buffer knows; [M] items have been moved to the ready queue. *)
Definition reorder_ok (M : nat) (s : shared) (v : option pc) : Prop :=
  match v with
  | Some WantReady | Some Moving => M = sh_next s /\ exists l, extract_min (sh_reorder s) = Some (itm (sh_next s), l)
  | Some ReleasingReady | Some Popping => M = S (sh_next s) /\ exists l, extract_min (sh_reorder s) = Some (itm (sh_next s), l)
  | _ => M = sh_next s
  end.
(** Items taken from the ready queue and not folded in yet. *)
Definition in_flight (v : option pc) : nat :=
  match v with
  | Some (DrainReleasing (Some _)) | Some (Adding _ _ _ _) | Some (Counting _) => 1
  | _ => 0
  end%nat.
Definition bottom_is (s : shared) (Rc : mat) (y : vec) : Prop := bot_eq nb (bq_common (sh_qr s)) (bq_y (sh_qr s)) Rc y.
Definition qr_ok (d : nat) (s : shared) (v : option pc) : Prop :=
  match v with
  | Some (DrainReleasing (Some x)) => x = itm d /\ bottom_is s (bq_common (botq d)) (bq_y (botq d))
  | Some (Adding x k C b) => x = itm d /\ (k <= nc)%nat /\
      let '(R1, y1, C1, b1) := flight d k in bottom_is s R1 y1 /\ C = C1 /\ b = b1
  | Some (Counting x) => x = itm d /\ bottom_is s (bq_common (botq (S d))) (bq_y (botq (S d)))
  | _ => bottom_is s (bq_common (botq d)) (bq_y (botq d))
  end.

Definition reorder_has (s : shared) (ts : list pc) : Prop :=
  NoDup (map it_frame (sh_reorder s)) /\
  (forall x, In x (sh_reorder s) <->
     exists f p, nth_error ts f = Some p /\ pushed p = true /\ (sh_next s <= f)%nat /\ x = itm f) /\
  (forall f, (f < sh_next s)%nat -> exists p, nth_error ts f = Some p /\ pushed p = true).

Record Inv (d M : nat) (s : shared) (ts : list pc) : Prop := {
  i_len : length ts = nF;
  i_dims : bq_nb (sh_qr s) = nb /\ bq_nc (sh_qr s) = nc /\ bq_bw (sh_qr s) = bw /\ bq_lambda (sh_qr s) = in_lambda I;
  i_rest : forall r c, (nb <= c)%nat -> bq_band (sh_qr s) r c = bq_band q0 r c;
  i_task : forall f p, nth_error ts f = Some p -> task_ok f s p;
  i_lr : owned holds_reorder (m_reorder s) ts;
  i_ly : owned holds_ready (m_ready s) ts;
  i_lq : owned holds_qr (m_qr s) ts;
  i_has : reorder_has s ts;
  i_reorder : reorder_ok M s (owner_pc (m_reorder s) ts);
  i_qr : qr_ok d s (owner_pc (m_qr s) ts);
  i_ready : (d + in_flight (owner_pc (m_qr s) ts) <= M)%nat /\
    sh_ready s = map itm (seq (d + in_flight (owner_pc (m_qr s) ts)) (M - (d + in_flight (owner_pc (m_qr s) ts))));
  i_log : sh_log s = seq 0 d;
  i_error : sh_error s = fold_left (fun e f => e + fd_error (in_data I f)) (seq 0 d) 0;
  i_prog : sh_progress s = fold_left (fun n f => n + fd_functions (in_data I f))%nat (seq 0 d) 0%nat
}.

Lemma it_frame_itm f : it_frame (itm f) = f.
Proof. reflexivity. Qed.

Lemma win_frame f p s ts d M : Inv d M s ts -> nth_error ts f = Some p -> (f < nF)%nat.
Proof. intros H Hp. rewrite <- (i_len _ _ _ _ H). apply nth_error_Some. congruence. Qed.

Lemma mul_lt a b : (a < b)%nat -> (a * w + w <= b * w)%nat.
Proof. nia. Qed.

(** Windows of different frames do not meet, nor do they meet the common rows. *)
Lemma win_other f g k (B Rc : mat) (y : vec) (B' Rc' : mat) (y' : vec) : f <> g ->
  out_eq (g * w) w B' Rc' y' B Rc y ->
  win_eq (f * w) w B Rc y (bs_band (solo f k)) (bs_common (solo f k)) (bs_y (solo f k)) ->
  win_eq (f * w) w B' Rc' y' (bs_band (solo f k)) (bs_common (solo f k)) (bs_y (solo f k)).
Proof.
  intros Hfg (O1 & O2 & O3) (W1 & W2 & W3).
  assert (Hd : (f * w + w <= g * w \/ g * w + w <= f * w)%nat).
  { destruct (Nat.lt_total f g) as [L|[L|L]]; [left; apply mul_lt; exact L | contradiction | right; apply mul_lt; exact L]. }
  repeat split; intros.
  - rewrite O1 by lia. apply W1; assumption.
  - rewrite O2 by lia. apply W2; assumption.
  - rewrite O3 by lia. apply W3; assumption.
Qed.

Lemma task_ok_same f s s' p : sh_qr s' = sh_qr s -> task_ok f s p -> task_ok f s' p.
Proof. intros E. unfold task_ok, win_is. rewrite E. tauto. Qed.
Lemma qr_ok_same d s s' v : sh_qr s' = sh_qr s -> qr_ok d s v -> qr_ok d s' v.
Proof. intros E. unfold qr_ok, bottom_is. rewrite E. tauto. Qed.
Lemma reorder_ok_same M s s' v : sh_reorder s' = sh_reorder s -> sh_next s' = sh_next s -> reorder_ok M s v -> reorder_ok M s' v.
Proof. intros E1 E2. unfold reorder_ok. rewrite E1, E2. tauto. Qed.
Lemma reorder_has_same s s' ts t p p' : nth_error ts t = Some p -> pushed p' = pushed p ->
  sh_reorder s' = sh_reorder s -> sh_next s' = sh_next s -> reorder_has s ts -> reorder_has s' (store ts t p').
Proof.
  intros Hp Hpp E1 E2 (H1 & H2 & H3). unfold reorder_has. rewrite E1, E2. split; [exact H1|]. split.
  - intros x. rewrite H2. split.
    + intros (f & q & Hf & Hq & Hn & Hx). destruct (Nat.eq_dec f t) as [->|Hft].
      * exists t, p'. rewrite (nth_error_store _ _ _ _ _ Hp), Nat.eqb_refl. repeat split; auto. rewrite Hpp.
        rewrite Hp in Hf. injection Hf as <-. exact Hq.
      * exists f, q. rewrite (nth_error_store _ _ _ _ _ Hp). destruct (Nat.eqb_spec f t); [contradiction|]. auto.
    + intros (f & q & Hf & Hq & Hn & Hx). rewrite (nth_error_store _ _ _ _ _ Hp) in Hf.
      destruct (Nat.eqb_spec f t) as [->|].
      * injection Hf as <-. exists t, p. repeat split; auto. congruence.
      * exists f, q. auto.
  - intros f Hf. destruct (H3 f Hf) as (q & Hq & Hpq). rewrite (nth_error_store _ _ _ _ _ Hp).
    destruct (Nat.eqb_spec f t) as [->|]; [|eauto]. exists p'. split; [reflexivity|]. congruence.
Qed.

(** A task that moves without touching the solver's memory: the other tasks are unaffected. *)
Lemma tasks_same s s' ts t p p' : nth_error ts t = Some p -> sh_qr s' = sh_qr s ->
  (forall f q, nth_error ts f = Some q -> task_ok f s q) -> (task_ok t s p -> task_ok t s p') ->
  forall f q, nth_error (store ts t p') f = Some q -> task_ok f s' q.
Proof.
  intros Hp E H Hpp f q Hq. apply (task_ok_same f s s' q E).
  rewrite (nth_error_store _ _ _ _ _ Hp) in Hq. destruct (Nat.eqb_spec f t) as [->|].
  - injection Hq as <-. apply Hpp. apply H. exact Hp.
  - apply H. exact Hq.
Qed.

Lemma solo_S f k : solo f (S k) = zero_step bw nc (f * w) w (fd_rows (in_data I f)) (solo f k) k.
Proof. unfold solo. rewrite seq_S, fold_left_app. reflexivity. Qed.
Lemma flight_S d k : flight d (S k) = common_step nb nc (it_rows (itm d)) (flight d k) k.
Proof. unfold flight. rewrite seq_S, fold_left_app. reflexivity. Qed.
Lemma botq_S d : botq (S d) = add_common (botq d) (it_rows (itm d)) (it_C (itm d)) (it_b (itm d)).
Proof. unfold botq. rewrite seq_S, map_app, fold_left_app. reflexivity. Qed.
Lemma add_common_dims q m C b : let q' := add_common q m C b in
  bq_nb q' = bq_nb q /\ bq_nc q' = bq_nc q /\ bq_bw q' = bq_bw q /\ bq_lambda q' = bq_lambda q /\ bq_band q' = bq_band q.
Proof.
  unfold add_common. destruct (fold_left _ _ _) as [[[? ?] ?] ?]. cbn. auto.
Qed.
Lemma botq_dims d : bq_nb (botq d) = nb /\ bq_nc (botq d) = nc.
Proof.
  induction d as [|d (E1 & E2)]; [split; reflexivity|]. rewrite botq_S.
  destruct (add_common_dims (botq d) (it_rows (itm d)) (it_C (itm d)) (it_b (itm d))) as (-> & -> & _). auto.
Qed.
Lemma botq_flight d : let '(R1, y1, C1, b1) := flight d nc in bq_common (botq (S d)) = R1 /\ bq_y (botq (S d)) = y1.
Proof.
  rewrite botq_S. unfold flight, add_common. destruct (botq_dims d) as (-> & ->).
  destruct (fold_left _ _ _) as [[[? ?] ?] ?]. cbn. auto.
Qed.

(** The parts of the invariant that a step does not touch. *)
Lemma keep_reorder d M s s' ts t p p' : Inv d M s ts -> nth_error ts t = Some p ->
  holds_reorder p = false -> m_reorder s' = m_reorder s -> sh_reorder s' = sh_reorder s -> sh_next s' = sh_next s ->
  reorder_ok M s' (owner_pc (m_reorder s') (store ts t p')).
Proof.
  intros H Hp Hh E1 E2 E3. rewrite E1, (owner_other _ _ _ _ _ _ Hp (i_lr _ _ _ _ H) Hh).
  apply (reorder_ok_same M s s' _ E2 E3). apply (i_reorder _ _ _ _ H).
Qed.
Lemma keep_qr d M s s' ts t p p' : Inv d M s ts -> nth_error ts t = Some p ->
  holds_qr p = false -> m_qr s' = m_qr s -> sh_qr s' = sh_qr s ->
  qr_ok d s' (owner_pc (m_qr s') (store ts t p')).
Proof.
  intros H Hp Hh E1 E2. rewrite E1, (owner_other _ _ _ _ _ _ Hp (i_lq _ _ _ _ H) Hh).
  apply (qr_ok_same d s s' _ E2). apply (i_qr _ _ _ _ H).
Qed.
Lemma keep_ready d M s s' ts t p p' : Inv d M s ts -> nth_error ts t = Some p ->
  holds_qr p = false -> m_qr s' = m_qr s -> sh_ready s' = sh_ready s ->
  (d + in_flight (owner_pc (m_qr s') (store ts t p')) <= M)%nat /\
    sh_ready s' = map itm (seq (d + in_flight (owner_pc (m_qr s') (store ts t p')))
      (M - (d + in_flight (owner_pc (m_qr s') (store ts t p'))))).
Proof.
  intros H Hp Hh E1 E2. rewrite E1, E2, (owner_other _ _ _ _ _ _ Hp (i_lq _ _ _ _ H) Hh).
  apply (i_ready _ _ _ _ H).
Qed.
Lemma keep_own holds m ts t p p' : nth_error ts t = Some p -> owned holds m ts -> holds p' = holds p ->
  owned holds m (store ts t p').
Proof. intros Hp H E. apply (owned_same holds m ts t p p' Hp E H). Qed.
Lemma keep_has d M s s' ts t p p' : Inv d M s ts -> nth_error ts t = Some p -> pushed p' = pushed p ->
  sh_reorder s' = sh_reorder s -> sh_next s' = sh_next s -> reorder_has s' (store ts t p').
Proof. intros H Hp E E1 E2. apply (reorder_has_same s s' ts t p p' Hp E E1 E2 (i_has _ _ _ _ H)). Qed.
Lemma keep_tasks d M s s' ts t p p' : Inv d M s ts -> nth_error ts t = Some p -> sh_qr s' = sh_qr s ->
  (task_ok t s p -> task_ok t s p') -> forall f q, nth_error (store ts t p') f = Some q -> task_ok f s' q.
Proof. intros H Hp E HH. apply (tasks_same s s' ts t p p' Hp E (i_task _ _ _ _ H) HH). Qed.
Lemma keep_len d M s ts t p' : Inv d M s ts -> length (store ts t p') = nF.
Proof. intros H. rewrite store_length. apply (i_len _ _ _ _ H). Qed.

Ltac keep H Hp :=
  first
  [ eapply keep_len; exact H
  | exact (i_dims _ _ _ _ H)
  | exact (i_rest _ _ _ _ H)
  | eapply keep_own; [exact Hp | first [exact (i_lr _ _ _ _ H) | exact (i_ly _ _ _ _ H) | exact (i_lq _ _ _ _ H)] | reflexivity]
  | eapply keep_has; [exact H | exact Hp | reflexivity | reflexivity | reflexivity]
  | eapply keep_reorder; [exact H | exact Hp | reflexivity | reflexivity | reflexivity | reflexivity]
  | eapply keep_qr; [exact H | exact Hp | reflexivity | reflexivity | reflexivity]
  | eapply keep_ready; [exact H | exact Hp | reflexivity | reflexivity | reflexivity]
  | exact (i_log _ _ _ _ H) | exact (i_error _ _ _ _ H) | exact (i_prog _ _ _ _ H)
  | eapply keep_tasks; [exact H | exact Hp | reflexivity | solve [cbn [task_ok]; tauto]] ].

(** ** Preservation *)

Lemma step_zero d M s ts t k A C b : Inv d M s ts -> nth_error ts t = Some (Zeroing k A C b) ->
  forall s' p', In (s', p') (task_step I t s (Zeroing k A C b)) -> Inv d M s' (store ts t p').
Proof.
  intros H Hp s' p' Hin. cbn [task_step] in Hin.
  pose proof (win_frame _ _ _ _ _ _ H Hp) as HtF.
  pose proof (i_task _ _ _ _ H _ _ Hp) as (Hk & EA & EC & Eb & HW). cbv zeta in Hin.
  destruct (i_dims _ _ _ _ H) as (D1 & D2 & D3 & D4).
  destruct (Nat.ltb_spec k w) as [Hkw|Hkw].
  - destruct Hin as [[= <- <-]|[]]. rewrite D2, D3.
    pose proof (zero_step_local bw nc (t * w) w (fd_rows (in_data I t)) k
      (bq_band (sh_qr s)) (bq_common (sh_qr s)) (bq_y (sh_qr s))
      (bs_band (solo t k)) (bs_common (solo t k)) (bs_y (solo t k)) A C b Hkw HW) as L.
    cbv zeta in L. rewrite EA, EC, Eb in L |- *.
    assert (ES : {| bs_band := bs_band (solo t k); bs_common := bs_common (solo t k); bs_y := bs_y (solo t k);
      bs_A := bs_A (solo t k); bs_C := bs_C (solo t k); bs_b := bs_b (solo t k) |} = solo t k)
      by (destruct (solo t k); reflexivity).
    rewrite ES, <- solo_S in L.
    set (r := zero_step bw nc (t * w) w (fd_rows (in_data I t)) _ k) in *.
    destruct L as (L1 & L2 & L3 & L4 & L5).
    assert (Hbot : forall R1 y1, bottom_is s R1 y1 -> bottom_is (set_mem s (bs_band r) (bs_common r) (bs_y r)) R1 y1).
    { intros R1 y1 (B1 & B2). pose proof (mul_lt t nF HtF). destruct L5 as (_ & O2 & O3).
      split; cbn [set_mem sh_qr bq_common bq_y]; intros; [rewrite O2 by lia; auto | rewrite O3 by lia; auto]. }
    constructor; try keep H Hp.
    + cbn [set_mem sh_qr bq_band]. intros r' c Hc. destruct L5 as (O1 & _).
      pose proof (mul_lt t nF HtF). rewrite O1 by lia. apply (i_rest _ _ _ _ H). exact Hc.
    + intros f q Hq. rewrite (nth_error_store _ _ _ _ _ Hp) in Hq. destruct (Nat.eqb_spec f t) as [->|Hft].
      * injection Hq as <-. cbn [task_ok]. unfold win_is.
        cbn [set_mem sh_qr bq_band bq_common bq_y]. repeat split; auto; apply L1.
      * pose proof (i_task _ _ _ _ H _ _ Hq) as Hok.
        assert (HX : forall k', win_is f k' s -> win_is f k' (set_mem s (bs_band r) (bs_common r) (bs_y r))).
        { intros k'. unfold win_is. cbn [set_mem sh_qr bq_band bq_common bq_y].
          apply (win_other f t k' _ _ _ _ _ _ Hft L5). }
        destruct q; cbn [task_ok] in Hok |- *; intuition auto.
    + cbn [m_qr set_mem]. rewrite (owner_other _ _ _ _ _ _ Hp (i_lq _ _ _ _ H) eq_refl).
      pose proof (i_qr _ _ _ _ H) as HQ. unfold qr_ok in HQ |- *.
      destruct (owner_pc (m_qr s) ts) as [[]|]; try (apply Hbot; exact HQ).
      * destruct o; [|apply Hbot; exact HQ]. destruct HQ as [HQ1 HQ2]. split; [exact HQ1 | apply Hbot; exact HQ2].
      * destruct (flight d k0) as [[[? ?] ?] ?]. destruct HQ as (Q1 & Q2 & Q3 & Q4). split; [exact Q1|]; split; [exact Q2|]; split; [apply Hbot; exact Q3 | exact Q4].
      * destruct HQ as [HQ1 HQ2]. split; [exact HQ1 | apply Hbot; exact HQ2].
  - destruct Hin as [[= <- <-]|[]]. assert (k = w) by lia. subst k.
    constructor; try keep H Hp.
    eapply keep_tasks; [exact H | exact Hp | reflexivity |].
    intros _. cbn [task_ok]. rewrite EC, Eb. split; [reflexivity|]. exact HW.
Qed.

(** Taking or leaving a mutex. *)
Lemma lock_none m holds ts t p : nth_error ts t = Some p -> owned holds m ts -> holds p = true -> m = Some t.
Proof. intros Hp (H1 & _) Hh. apply (H1 t p Hp). exact Hh. Qed.

Lemma step_want_reorder d M s ts t it : Inv d M s ts -> nth_error ts t = Some (WantReorder it) ->
  forall s' p', In (s', p') (task_step I t s (WantReorder it)) -> Inv d M s' (store ts t p').
Proof.
  intros H Hp s' p' Hin. cbn [task_step] in Hin. destruct (m_reorder s) as [u|] eqn:Em; [destruct Hin|].
  destruct Hin as [[= <- <-]|[]].
  pose proof (i_lr _ _ _ _ H) as Hl. rewrite Em in Hl.
  constructor; try keep H Hp.
  - cbn. eapply owned_take; [exact Hp | reflexivity | exact Hl].
  - cbn [lock_reorder set_locks m_reorder]. rewrite (owner_new _ _ _ _ Hp). cbn [reorder_ok].
    pose proof (i_reorder _ _ _ _ H) as HR. rewrite Em in HR. exact HR.
Qed.

Lemma reorder_owner d M s ts t p : Inv d M s ts -> nth_error ts t = Some p -> holds_reorder p = true ->
  m_reorder s = Some t /\ reorder_ok M s (Some p).
Proof.
  intros H Hp Hh. destruct (owner_self _ _ _ _ _ Hp (i_lr _ _ _ _ H) Hh) as [E1 E2].
  split; [exact E1|]. pose proof (i_reorder _ _ _ _ H) as HR. rewrite E2 in HR. exact HR.
Qed.
Lemma qr_owner d M s ts t p : Inv d M s ts -> nth_error ts t = Some p -> holds_qr p = true ->
  m_qr s = Some t /\ qr_ok d s (Some p) /\
  (d + in_flight (Some p) <= M)%nat /\
  sh_ready s = map itm (seq (d + in_flight (Some p)) (M - (d + in_flight (Some p)))).
Proof.
  intros H Hp Hh. destruct (owner_self _ _ _ _ _ Hp (i_lq _ _ _ _ H) Hh) as [E1 E2].
  split; [exact E1|]. pose proof (i_qr _ _ _ _ H) as HR. rewrite E2 in HR. split; [exact HR|].
  pose proof (i_ready _ _ _ _ H) as HY. rewrite E2 in HY. exact HY.
Qed.

Lemma step_push d M s ts t it : Inv d M s ts -> nth_error ts t = Some (Pushing it) ->
  forall s' p', In (s', p') (task_step I t s (Pushing it)) -> Inv d M s' (store ts t p').
Proof.
  intros H Hp s' p' Hin. cbn [task_step] in Hin. destruct Hin as [[= <- <-]|[]].
  destruct (reorder_owner _ _ _ _ _ _ H Hp eq_refl) as [Em HR]. cbn [reorder_ok] in HR.
  pose proof (i_task _ _ _ _ H _ _ Hp) as (-> & _).
  destruct (i_has _ _ _ _ H) as (N1 & N2 & N3).
  assert (Htn : (sh_next s <= t)%nat).
  { destruct (Nat.le_gt_cases (sh_next s) t) as [L|L]; [exact L|]. destruct (N3 t L) as (q & Hq & Hpq).
    rewrite Hp in Hq. injection Hq as <-. discriminate. }
  constructor; try keep H Hp.
  - unfold reorder_has. cbn [set_reorder sh_reorder sh_next map]. split; [|split].
    + constructor; [|exact N1]. intros Hi. apply in_map_iff in Hi. destruct Hi as (x & Ex & Hx).
      apply N2 in Hx. destruct Hx as (f & q & Hf & Hq & _ & ->). cbn in Ex. subst f.
      rewrite Hp in Hf. injection Hf as <-. discriminate.
    + intros x. cbn [In]. split.
      * intros [<-|Hx].
        { exists t, Testing. rewrite (nth_error_store _ _ _ _ _ Hp), Nat.eqb_refl. auto. }
        apply N2 in Hx. destruct Hx as (f & q & Hf & Hq & Hn & ->).
        exists f, q. rewrite (nth_error_store _ _ _ _ _ Hp). destruct (Nat.eqb_spec f t) as [->|]; [|auto].
        rewrite Hp in Hf. injection Hf as <-. discriminate.
      * intros (f & q & Hf & Hq & Hn & ->). rewrite (nth_error_store _ _ _ _ _ Hp) in Hf.
        destruct (Nat.eqb_spec f t) as [->|]; [left; reflexivity|]. right. apply N2. exists f, q. auto.
    + intros f Hf. destruct (N3 f Hf) as (q & Hq & Hpq). rewrite (nth_error_store _ _ _ _ _ Hp).
      destruct (Nat.eqb_spec f t); [|eauto]. exists Testing. auto.
  - cbn [set_reorder m_reorder]. rewrite Em, (owner_new _ _ _ _ Hp). exact HR.
Qed.

Lemma step_testing d M s ts t : Inv d M s ts -> nth_error ts t = Some Testing ->
  forall s' p', In (s', p') (task_step I t s Testing) -> Inv d M s' (store ts t p').
Proof.
  intros H Hp s' p' Hin. cbn [task_step] in Hin.
  destruct (reorder_owner _ _ _ _ _ _ H Hp eq_refl) as [Em HR]. cbn [reorder_ok] in HR.
  assert (Hrel : Inv d M s (store ts t ReleasingReorder)).
  { constructor; try keep H Hp. rewrite Em, (owner_new _ _ _ _ Hp). exact HR. }
  destruct (extract_min (sh_reorder s)) as [[x l]|] eqn:Ex; [|destruct Hin as [[= <- <-]|[]]; exact Hrel].
  destruct (Nat.eqb_spec (it_frame x) (sh_next s)) as [En|]; [|destruct Hin as [[= <- <-]|[]]; exact Hrel].
  destruct Hin as [[= <- <-]|[]].
  constructor; try keep H Hp.
  rewrite Em, (owner_new _ _ _ _ Hp). cbn [reorder_ok]. split; [exact HR|]. exists l. rewrite Ex.
  destruct (extract_min_in _ _ _ Ex) as (I1 & _). destruct (i_has _ _ _ _ H) as (_ & N2 & _).
  assert (Hx : In x (sh_reorder s)) by (apply I1; left; reflexivity).
  apply N2 in Hx. destruct Hx as (f & q & _ & _ & _ & ->). cbn in En. subst f. reflexivity.
Qed.

Lemma step_want_ready d M s ts t : Inv d M s ts -> nth_error ts t = Some WantReady ->
  forall s' p', In (s', p') (task_step I t s WantReady) -> Inv d M s' (store ts t p').
Proof.
  intros H Hp s' p' Hin. cbn [task_step] in Hin. destruct (m_ready s) as [u|] eqn:Em; [destruct Hin|].
  destruct Hin as [[= <- <-]|[]].
  destruct (reorder_owner _ _ _ _ _ _ H Hp eq_refl) as [Er HR].
  pose proof (i_ly _ _ _ _ H) as Hl. rewrite Em in Hl.
  constructor; try keep H Hp.
  - cbn. eapply owned_take; [exact Hp | reflexivity | exact Hl].
  - cbn [lock_ready set_locks m_reorder]. rewrite Er, (owner_new _ _ _ _ Hp). exact HR.
Qed.

Lemma step_moving d M s ts t : Inv d M s ts -> nth_error ts t = Some Moving ->
  forall s' p', In (s', p') (task_step I t s Moving) -> Inv d (S M) s' (store ts t p').
Proof.
  intros H Hp s' p' Hin. cbn [task_step] in Hin.
  destruct (reorder_owner _ _ _ _ _ _ H Hp eq_refl) as [Er (HM & l & El)].
  rewrite El in Hin. destruct Hin as [[= <- <-]|[]].
  constructor; try keep H Hp.
  - cbn [set_ready m_reorder]. rewrite Er, (owner_new _ _ _ _ Hp). cbn [reorder_ok set_ready sh_next sh_reorder].
    split; [congruence|]. exists l. exact El.
  - cbn [set_ready m_qr sh_ready]. rewrite (owner_other _ _ _ _ _ _ Hp (i_lq _ _ _ _ H) eq_refl).
    destruct (i_ready _ _ _ _ H) as (Y1 & Y2). split; [lia|].
    set (e := in_flight (owner_pc (m_qr s) ts)) in *. rewrite Y2.
    replace (S M - (d + e))%nat with (S (M - (d + e)))%nat by lia. rewrite seq_S, map_app. cbn [map].
    do 3 f_equal. lia.
Qed.

Lemma step_rel_ready d M s ts t : Inv d M s ts -> nth_error ts t = Some ReleasingReady ->
  forall s' p', In (s', p') (task_step I t s ReleasingReady) -> Inv d M s' (store ts t p').
Proof.
  intros H Hp s' p' Hin. cbn [task_step] in Hin. destruct Hin as [[= <- <-]|[]].
  destruct (reorder_owner _ _ _ _ _ _ H Hp eq_refl) as [Er HR].
  constructor; try keep H Hp.
  - cbn. eapply owned_drop; [exact Hp | reflexivity | reflexivity | exact (i_ly _ _ _ _ H)].
  - cbn [lock_ready set_locks m_reorder]. rewrite Er, (owner_new _ _ _ _ Hp). exact HR.
Qed.

Lemma step_popping d M s ts t : Inv d M s ts -> nth_error ts t = Some Popping ->
  forall s' p', In (s', p') (task_step I t s Popping) -> Inv d M s' (store ts t p').
Proof.
  intros H Hp s' p' Hin. cbn [task_step] in Hin.
  destruct (reorder_owner _ _ _ _ _ _ H Hp eq_refl) as [Er (HM & l & El)].
  rewrite El in Hin. destruct Hin as [[= <- <-]|[]].
  destruct (extract_min_in _ _ _ El) as (I1 & I2 & I3 & _).
  destruct (i_has _ _ _ _ H) as (N1 & N2 & N3). destruct (I3 N1) as [N4 N5].
  assert (Hx : In (itm (sh_next s)) (sh_reorder s)) by (apply I1; left; reflexivity).
  constructor; try keep H Hp.
  - eapply (reorder_has_same (set_reorder s l (S (sh_next s)))); [exact Hp | reflexivity | reflexivity | reflexivity |].
    unfold reorder_has. cbn [set_reorder sh_reorder sh_next]. split; [exact N4|]. split.
    + intros x. split.
      * intros Hi. assert (Hr : In x (sh_reorder s)) by (apply I1; right; exact Hi).
        apply N2 in Hr. destruct Hr as (f & q & Hf & Hq & Hn & ->). exists f, q. repeat split; auto.
        assert (f <> sh_next s); [|lia]. intros ->. apply N5. cbn. apply in_map_iff. exists (itm (sh_next s)). auto.
      * intros (f & q & Hf & Hq & Hn & ->).
        assert (Hr : In (itm f) (sh_reorder s)) by (apply N2; exists f, q; repeat split; auto; lia).
        apply I1 in Hr. destruct Hr as [Ef|Hr]; [|exact Hr].
        exfalso. assert (it_frame (itm f) = it_frame (itm (sh_next s))) by (rewrite Ef; reflexivity). cbn in *. lia.
    + intros f Hf. destruct (Nat.eq_dec f (sh_next s)) as [->|]; [|apply N3; lia].
      apply N2 in Hx. destruct Hx as (f & q & Hf' & Hq & Hn & Ef).
      assert (it_frame (itm (sh_next s)) = it_frame (itm f)) by (rewrite Ef; reflexivity). cbn in *. subst f. eauto.
  - cbn [set_reorder m_reorder]. rewrite Er, (owner_new _ _ _ _ Hp). cbn. exact HM.
Qed.

Lemma step_rel_reorder d M s ts t : Inv d M s ts -> nth_error ts t = Some ReleasingReorder ->
  forall s' p', In (s', p') (task_step I t s ReleasingReorder) -> Inv d M s' (store ts t p').
Proof.
  intros H Hp s' p' Hin. cbn [task_step] in Hin. destruct Hin as [[= <- <-]|[]].
  destruct (reorder_owner _ _ _ _ _ _ H Hp eq_refl) as [Er HR].
  constructor; try keep H Hp.
  - cbn. eapply owned_drop; [exact Hp | reflexivity | reflexivity | exact (i_lr _ _ _ _ H)].
  - cbn. exact HR.
Qed.

Lemma step_try d M s ts t : Inv d M s ts -> nth_error ts t = Some TryingQr ->
  forall s' p', In (s', p') (task_step I t s TryingQr) -> Inv d M s' (store ts t p').
Proof.
  intros H Hp s' p' Hin. cbn [task_step] in Hin. destruct Hin as [[= <- <-]|Hin].
  - constructor; keep H Hp.
  - destruct (m_qr s) as [u|] eqn:Em; [destruct Hin|]. destruct Hin as [[= <- <-]|[]].
    pose proof (i_lq _ _ _ _ H) as Hl. rewrite Em in Hl.
    pose proof (i_qr _ _ _ _ H) as HQ. pose proof (i_ready _ _ _ _ H) as HY. rewrite Em in HQ, HY.
    constructor; try keep H Hp.
    + cbn. eapply owned_take; [exact Hp | reflexivity | exact Hl].
    + cbn [lock_qr set_locks m_qr]. rewrite (owner_new _ _ _ _ Hp). exact HQ.
    + cbn [lock_qr set_locks m_qr]. rewrite (owner_new _ _ _ _ Hp). exact HY.
Qed.

Lemma step_drain_want d M s ts t : Inv d M s ts -> nth_error ts t = Some DrainWantReady ->
  forall s' p', In (s', p') (task_step I t s DrainWantReady) -> Inv d M s' (store ts t p').
Proof.
  intros H Hp s' p' Hin. cbn [task_step] in Hin. destruct (m_ready s) as [u|] eqn:Em; [destruct Hin|].
  destruct Hin as [[= <- <-]|[]].
  destruct (qr_owner _ _ _ _ _ _ H Hp eq_refl) as (Eq & HQ & HY).
  pose proof (i_ly _ _ _ _ H) as Hl. rewrite Em in Hl.
  constructor; try keep H Hp.
  - cbn. eapply owned_take; [exact Hp | reflexivity | exact Hl].
  - cbn [lock_ready set_locks m_qr]. rewrite Eq, (owner_new _ _ _ _ Hp). exact HQ.
  - cbn [lock_ready set_locks m_qr]. rewrite Eq, (owner_new _ _ _ _ Hp). exact HY.
Qed.

Lemma step_take d M s ts t : Inv d M s ts -> nth_error ts t = Some DrainTaking ->
  forall s' p', In (s', p') (task_step I t s DrainTaking) -> Inv d M s' (store ts t p').
Proof.
  intros H Hp s' p' Hin. cbn [task_step] in Hin.
  destruct (qr_owner _ _ _ _ _ _ H Hp eq_refl) as (Eq & HQ & HY). cbn [in_flight] in HY. rewrite Nat.add_0_r in HY.
  destruct HY as (Y1 & Y2).
  destruct (sh_ready s) as [|x l] eqn:Es; destruct Hin as [[= <- <-]|[]].
  - constructor; try keep H Hp.
    + rewrite Eq, (owner_new _ _ _ _ Hp). exact HQ.
    + rewrite Eq, (owner_new _ _ _ _ Hp), Es. cbn [in_flight]. rewrite Nat.add_0_r. auto.
  - destruct (M - d)%nat as [|n] eqn:En; [discriminate|]. cbn [seq map] in Y2. injection Y2 as -> ->.
    constructor; try keep H Hp.
    + cbn [set_ready m_qr]. rewrite Eq, (owner_new _ _ _ _ Hp). split; [reflexivity|]. exact HQ.
    + cbn [set_ready m_qr sh_ready]. rewrite Eq, (owner_new _ _ _ _ Hp). cbn [in_flight]. split; [lia|].
      f_equal. f_equal; lia.
Qed.

Lemma step_drain_rel d M s ts t o : Inv d M s ts -> nth_error ts t = Some (DrainReleasing o) ->
  forall s' p', In (s', p') (task_step I t s (DrainReleasing o)) -> Inv d M s' (store ts t p').
Proof.
  intros H Hp s' p' Hin. cbn [task_step] in Hin. destruct Hin as [[= <- <-]|[]].
  destruct (qr_owner _ _ _ _ _ _ H Hp eq_refl) as (Eq & HQ & HY).
  pose proof (i_ly _ _ _ _ H) as Hl.
  destruct o as [x|].
  - constructor; try keep H Hp.
    + cbn. eapply owned_drop; [exact Hp | reflexivity | reflexivity | exact Hl].
    + cbn [lock_ready set_locks m_qr]. rewrite Eq, (owner_new _ _ _ _ Hp).
      destruct HQ as (-> & HQ). cbn [qr_ok]. split; [reflexivity|]. split; [lia|]. cbn. auto.
    + cbn [lock_ready set_locks m_qr]. rewrite Eq, (owner_new _ _ _ _ Hp). exact HY.
  - constructor; try keep H Hp.
    + cbn. eapply owned_drop; [exact Hp | reflexivity | reflexivity | exact Hl].
    + cbn [lock_ready set_locks m_qr]. rewrite Eq, (owner_new _ _ _ _ Hp). exact HQ.
    + cbn [lock_ready set_locks m_qr]. rewrite Eq, (owner_new _ _ _ _ Hp). exact HY.
Qed.

Lemma step_add d M s ts t x k C b : Inv d M s ts -> nth_error ts t = Some (Adding x k C b) ->
  forall s' p', In (s', p') (task_step I t s (Adding x k C b)) -> Inv d M s' (store ts t p').
Proof.
  intros H Hp s' p' Hin. cbn [task_step] in Hin.
  destruct (qr_owner _ _ _ _ _ _ H Hp eq_refl) as (Eq & HQ & HY). cbn [qr_ok] in HQ.
  destruct HQ as (-> & Hk & HQ). destruct (i_dims _ _ _ _ H) as (D1 & D2 & D3 & D4).
  rewrite D1, D2 in Hin. destruct (flight d k) as [[[R1 y1] C1] b1] eqn:EF.
  destruct HQ as (HB & -> & ->).
  destruct (Nat.ltb_spec k nc) as [Hkn|Hkn].
  - pose proof (common_step_local nb nc (it_rows (itm d)) k _ _ _ _ C1 b1 HB) as L.
    rewrite <- EF in L. rewrite <- flight_S in L.
    destruct (common_step nb nc (it_rows (itm d)) (bq_common (sh_qr s), bq_y (sh_qr s), C1, b1) k) as [[[R2 y2] C2] b2].
    destruct Hin as [[= <- <-]|[]].
    destruct (flight d (S k)) as [[[R3 y3] C3] b3] eqn:EF3.
    destruct L as (L1 & -> & -> & L4 & L5).
    constructor; try keep H Hp.
    + intros f q Hq. rewrite (nth_error_store _ _ _ _ _ Hp) in Hq.
      assert (HX : (f < nF)%nat -> forall k', win_is f k' s -> win_is f k' (set_mem s (bq_band (sh_qr s)) R2 y2)).
      { intros Hf k' (W1 & W2 & W3). pose proof (mul_lt f nF Hf).
        unfold win_is. cbn [set_mem sh_qr bq_band bq_common bq_y]. repeat split; auto; intros.
        - rewrite L4 by lia. apply W2. assumption.
        - rewrite L5 by lia. apply W3. assumption. }
      destruct (Nat.eqb_spec f t) as [->|].
      * injection Hq as <-. pose proof (i_task _ _ _ _ H _ _ Hp) as Hok. cbn [task_ok] in Hok |- *.
        apply HX; [apply (win_frame _ _ _ _ _ _ H Hp) | exact Hok].
      * pose proof (i_task _ _ _ _ H _ _ Hq) as Hok. specialize (HX (win_frame _ _ _ _ _ _ H Hq)).
        destruct q; cbn [task_ok] in Hok |- *; intuition auto.
    + cbn [set_mem m_qr]. rewrite Eq, (owner_new _ _ _ _ Hp). cbn [qr_ok]. split; [reflexivity|]. split; [lia|].
      rewrite EF3. split; [exact L1|]. auto.
    + cbn [set_mem m_qr sh_ready]. rewrite Eq, (owner_new _ _ _ _ Hp). exact HY.
  - destruct Hin as [[= <- <-]|[]]. assert (k = nc) by lia. subst k.
    pose proof (botq_flight d) as EB. rewrite EF in EB. destruct EB as [EB1 EB2].
    constructor; try keep H Hp.
    + rewrite Eq, (owner_new _ _ _ _ Hp). cbn [qr_ok]. split; [reflexivity|]. rewrite EB1, EB2. exact HB.
    + rewrite Eq, (owner_new _ _ _ _ Hp). exact HY.
Qed.

Lemma step_count d M s ts t x : Inv d M s ts -> nth_error ts t = Some (Counting x) ->
  forall s' p', In (s', p') (task_step I t s (Counting x)) -> Inv (S d) M s' (store ts t p').
Proof.
  intros H Hp s' p' Hin. cbn [task_step] in Hin. destruct Hin as [[= <- <-]|[]].
  destruct (qr_owner _ _ _ _ _ _ H Hp eq_refl) as (Eq & HQ & HY). cbn [qr_ok] in HQ. destruct HQ as (-> & HB).
  constructor; try keep H Hp.
  - cbn [set_counts m_qr]. rewrite Eq, (owner_new _ _ _ _ Hp). exact HB.
  - cbn [set_counts m_qr sh_ready]. rewrite Eq, (owner_new _ _ _ _ Hp). cbn [in_flight] in HY |- *.
    rewrite Nat.add_0_r. rewrite Nat.add_1_r in HY. exact HY.
  - cbn [set_counts sh_log]. rewrite (i_log _ _ _ _ H), seq_S. reflexivity.
  - cbn [set_counts sh_error]. rewrite (i_error _ _ _ _ H), seq_S, fold_left_app. reflexivity.
  - cbn [set_counts sh_progress]. rewrite (i_prog _ _ _ _ H), seq_S, fold_left_app. reflexivity.
Qed.

Lemma step_rel_qr d M s ts t : Inv d M s ts -> nth_error ts t = Some ReleasingQr ->
  forall s' p', In (s', p') (task_step I t s ReleasingQr) -> Inv d M s' (store ts t p').
Proof.
  intros H Hp s' p' Hin. cbn [task_step] in Hin. destruct Hin as [[= <- <-]|[]].
  destruct (qr_owner _ _ _ _ _ _ H Hp eq_refl) as (Eq & HQ & HY).
  constructor; try keep H Hp.
  - cbn. eapply owned_drop; [exact Hp | reflexivity | reflexivity | exact (i_lq _ _ _ _ H)].
  - cbn [lock_qr set_locks m_qr owner_pc]. exact HQ.
  - cbn [lock_qr set_locks m_qr owner_pc sh_ready]. exact HY.
Qed.

Lemma step_inv d M a b : Inv d M (sys_sh a) (sys_tasks a) -> sys_step I a b ->
  exists d' M', Inv d' M' (sys_sh b) (sys_tasks b).
Proof.
  intros H (t & p & s' & p' & Hp & Hin & ->). cbn [sys_sh sys_tasks].
  destruct p.
  - exists d, M. eapply step_zero; eassumption.
  - exists d, M. eapply step_want_reorder; eassumption.
  - exists d, M. eapply step_push; eassumption.
  - exists d, M. eapply step_testing; eassumption.
  - exists d, M. eapply step_want_ready; eassumption.
  - exists d, (S M). eapply step_moving; eassumption.
  - exists d, M. eapply step_rel_ready; eassumption.
  - exists d, M. eapply step_popping; eassumption.
  - exists d, M. eapply step_rel_reorder; eassumption.
  - exists d, M. eapply step_try; eassumption.
  - exists d, M. eapply step_drain_want; eassumption.
  - exists d, M. eapply step_take; eassumption.
  - exists d, M. eapply step_drain_rel; eassumption.
  - exists d, M. eapply step_add; eassumption.
  - exists (S d), M. eapply step_count; eassumption.
  - exists d, M. eapply step_rel_qr; eassumption.
  - destruct Hin.
Qed.

Lemma start_inv : Inv 0 0 (sys_sh (start_system I)) (sys_tasks (start_system I)).
Proof.
  assert (Hn : forall f p, nth_error (sys_tasks (start_system I)) f = Some p ->
    p = Zeroing 0 (fd_A (in_data I f)) (fd_C (in_data I f)) (fd_b (in_data I f))).
  { intros f p Hf. cbn in Hf. rewrite nth_error_map in Hf.
    destruct (nth_error (seq 0 nF) f) as [g|] eqn:Eg; [|discriminate]. cbn in Hf. injection Hf as <-.
    assert (f < nF)%nat by (rewrite <- (seq_length nF 0); apply nth_error_Some; congruence).
    apply (nth_error_nth _ _ 0%nat) in Eg. rewrite seq_nth in Eg by assumption. cbn in Eg. subst g. reflexivity. }
  assert (Hown : forall h, h (Zeroing 0 (fun _ _ => 0) (fun _ _ => 0) (fun _ => 0)) = false ->
     (forall k A C b k' A' C' b', h (Zeroing k A C b) = h (Zeroing k' A' C' b')) ->
     owned h None (sys_tasks (start_system I))).
  { intros h Hh Hz. split; [|discriminate]. intros t p Hp. rewrite (Hn t p Hp).
    rewrite (Hz _ _ _ _ 0%nat (fun _ _ => 0) (fun _ _ => 0) (fun _ => 0)), Hh. split; discriminate. }
  constructor.
  - cbn. rewrite map_length, seq_length. reflexivity.
  - cbn. auto.
  - reflexivity.
  - intros f p Hf. rewrite (Hn f p Hf). cbn [task_ok]. repeat split; auto; try lia.
  - apply Hown; reflexivity.
  - apply Hown; reflexivity.
  - apply Hown; reflexivity.
  - unfold reorder_has. cbn [start_system sys_sh sh_reorder sh_next map]. split; [constructor|]. split.
    + intros x. split; [intros []|]. intros (f & p & Hf & Hq & _). rewrite (Hn f p Hf) in Hq. discriminate.
    + intros f Hf. lia.
  - reflexivity.
  - cbn. split; reflexivity.
  - cbn. split; [lia|reflexivity].
  - reflexivity.
  - reflexivity.
  - reflexivity.
Qed.

Lemma reach_inv a : schedule I (start_system I) a -> exists d M, Inv d M (sys_sh a) (sys_tasks a).
Proof.
  remember (start_system I) as s0 eqn:E0. intros H. induction H as [s|a b c H1 IH H2].
  - subst s. exists 0%nat, 0%nat. exact start_inv.
  - destruct (IH E0) as (d & M & HI). exact (step_inv d M b c HI H2).
Qed.
End Inv.
