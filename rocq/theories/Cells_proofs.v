(** Tasks that share no cell: every schedule gives what the program on one thread
    gives. *)
From Coq Require Import Bool Reals List Arith Lia Lra.
From Verif Require Import Prelude Loops Cells_model.
Import ListNotations.
Local Open Scope outcome_scope.

Fixpoint put {A} (l : list A) (i : nat) (v : A) : list A :=
  match l, i with
  | [], _ => []
  | _ :: r, O => v :: r
  | x :: r, S k => x :: put r k v
  end.
Lemma put_length {A} (l : list A) i v : length (put l i v) = length l.
Proof. revert i. induction l as [|x l IH]; intros [|i]; cbn; congruence. Qed.
Lemma upd_put {A} (l : list A) i v : i < length l -> upd l i v = Some (put l i v).
Proof.
  revert i. induction l as [|x l IH]; intros [|i] H; cbn in *; try lia; [reflexivity|].
  rewrite IH by lia. reflexivity.
Qed.
Lemma wr_put {A} (l : list A) i v : i < length l -> wr l i v = Ok (put l i v).
Proof. intros H. unfold wr. rewrite upd_put by exact H. reflexivity. Qed.

Lemma mcell_eqb_spec a b : reflect (a = b) (mcell_eqb a b).
Proof.
  destruct a, b; cbn; try (constructor; discriminate).
  - destruct (Nat.eqb_spec i i0); constructor; congruence.
  - destruct (Nat.eqb_spec r r0), (Nat.eqb_spec c c0); cbn; constructor; congruence.
  - destruct (Nat.eqb_spec r r0); constructor; congruence.
  - destruct (Nat.eqb_spec j j0); constructor; congruence.
Qed.

(** What the actions make of the number in one cell. *)
Definition eff (c : mcell) (x : R) (a : maction) : R :=
  match a with
  | MAdd c' v => if mcell_eqb c' c then (x + v)%R else x
  | MSet c' v => if mcell_eqb c' c then v else x
  end.
Definition val (l : list maction) (c : mcell) (x : R) : R := fold_left (eff c) l x.
Lemma val_app l l' c x : val (l ++ l') c x = val l' c (val l c x).
Proof. apply fold_left_app. Qed.
Lemma val_cons a l c x : val (a :: l) c x = val l c (eff c x a). Proof. reflexivity. Qed.
Lemma val_miss l c x : (forall a, In a l -> ma_cell a <> c) -> val l c x = x.
Proof.
  revert x. induction l as [|a l IH]; intros x H; [reflexivity|]. rewrite val_cons.
  rewrite IH by (intros; apply H; right; assumption).
  specialize (H a (or_introl eq_refl)). destruct a as [c' v|c' v]; cbn in *;
    destruct (mcell_eqb_spec c' c); congruence.
Qed.

Lemma run_action_ok H a m : cell_ok H (ma_cell a) = true ->
  exists m', run_action H a m = Ok m' /\ forall c, m' c = eff c (m c) a.
Proof.
  intros E. unfold run_action. rewrite E. eexists. split; [reflexivity|]. intros c.
  destruct a as [c' v|c' v]; cbn; unfold mset; destruct (mcell_eqb_spec c' c) as [->|]; reflexivity.
Qed.
Lemma run_actions_ok H l : forall m, (forall a, In a l -> cell_ok H (ma_cell a) = true) ->
  exists m', run_actions H l m = Ok m' /\ forall c, m' c = val l c (m c).
Proof.
  unfold run_actions. induction l as [|a l IH]; intros m HA; [exists m; split; reflexivity|].
  destruct (run_action_ok H a m (HA a (or_introl eq_refl))) as (m1 & E1 & V1).
  destruct (IH m1) as (m' & E & V); [intros; apply HA; right; assumption|].
  exists m'. cbn [ofold]. rewrite E1. cbn [obind]. split; [exact E|]. intros c. rewrite V, V1. reflexivity.
Qed.

(** No cell is used by two tasks. *)
Definition disjoint (ls : list (list maction)) : Prop :=
  forall i k li lk a b, nth_error ls i = Some li -> nth_error ls k = Some lk -> In a li -> In b lk ->
    ma_cell a = ma_cell b -> i = k.
Definition rest (ts : list task) : list (list maction) := map fst ts.

Lemma disjoint_sub ls ls' : disjoint ls -> length ls' = length ls ->
  (forall i l l' a, nth_error ls i = Some l -> nth_error ls' i = Some l' -> In a l' -> In a l) -> disjoint ls'.
Proof.
  intros D L S i k li lk a b Hi Hk Ha Hb E.
  assert (Ri : i < length ls) by (rewrite <- L; apply nth_error_Some; congruence).
  assert (Rk : k < length ls) by (rewrite <- L; apply nth_error_Some; congruence).
  destruct (nth_error ls i) as [l1|] eqn:E1; [|apply nth_error_None in E1; lia].
  destruct (nth_error ls k) as [l2|] eqn:E2; [|apply nth_error_None in E2; lia].
  eapply D; [exact E1|exact E2| | |exact E]; eapply S; eauto.
Qed.

Lemma val_concat_front ls i a l c x : disjoint ls -> nth_error ls i = Some (a :: l) ->
  val (concat ls) c x = val (concat (put ls i l)) c (eff c x a).
Proof.
  intros D E. destruct (nth_error_split _ _ E) as (l1 & l2 & -> & <-).
  assert (U : put (l1 ++ (a :: l) :: l2) (length l1) l = l1 ++ l :: l2).
  { clear. induction l1 as [|y l1 IH]; [reflexivity|]. cbn. rewrite IH. reflexivity. }
  rewrite U, !concat_app. cbn [concat]. rewrite !val_app. cbn [app]. rewrite val_cons. f_equal. f_equal.
  destruct (mcell_eqb_spec (ma_cell a) c) as [Ec|Nc].
  - assert (M : forall b, In b (concat l1) -> ma_cell b <> c).
    { intros b Hb Eb. apply in_concat in Hb as (lb & H1 & H2). apply In_nth_error in H1 as [k Hk].
      assert (Lk : k < length l1) by (apply nth_error_Some; congruence).
      enough (k = length l1) by lia.
      eapply D; [rewrite nth_error_app1 by exact Lk; exact Hk|exact E|exact H2|left; reflexivity|congruence]. }
    rewrite !(val_miss (concat l1)) by exact M. reflexivity.
  - assert (Z : forall y, eff c y a = y).
    { intros y. destruct a as [c' v|c' v]; cbn in *; destruct (mcell_eqb_spec c' c); congruence. }
    rewrite !Z. reflexivity.
Qed.

Record pok (H : mshape) (tasks : list (list maction)) (m0 m : mem) (ts : list task) : Prop := {
  po_disj : disjoint (rest ts);
  po_cells : forall i t a, nth_error ts i = Some t -> In a (fst t) -> cell_ok H (ma_cell a) = true;
  po_len : length ts = length tasks;
  po_val : forall c, val (concat (rest ts)) c (m c) = val (concat tasks) c (m0 c);
  po_loaded : forall i c v l x, nth_error ts i = Some (MAdd c v :: l, Some x) -> x = m c
}.

Lemma rest_put ts i t : rest (put ts i t) = put (rest ts) i (fst t).
Proof. unfold rest. revert i. induction ts as [|y ts IH]; intros [|i]; cbn; try reflexivity. rewrite IH. reflexivity. Qed.

Lemma put_get {A} (l : list A) i v k x : nth_error (put l i v) k = Some x ->
  (k = i /\ x = v /\ i < length l) \/ (k <> i /\ nth_error l k = Some x).
Proof.
  revert i k. induction l as [|y l IH]; intros [|i] [|k] E; cbn in E; try discriminate.
  - injection E as <-. left. repeat split. cbn. lia.
  - right. split; [lia|exact E].
  - right. split; [lia|exact E].
  - destruct (IH i k E) as [(-> & -> & L)|(N & E')]; [left; cbn; repeat split; lia|right; split; [lia|exact E']].
Qed.

Lemma par_step_pok H tasks m0 m ts i : pok H tasks m0 m ts ->
  exists m' ts', par_step H i (m, ts) = Ok (m', ts') /\ pok H tasks m0 m' ts'.
Proof.
  intros [D Ce Le V Lo]. unfold par_step. cbn [fst snd].
  destruct (nth_error ts i) as [[l ld]|] eqn:Ei; [|exists m, ts; split; [reflexivity|constructor; assumption]].
  assert (Li : i < length ts) by (apply nth_error_Some; congruence).
  destruct l as [|a l].
  { cbn [task_step obind]. rewrite (wr_put ts i ([], ld) Li). cbn [obind].
    assert (put ts i ([], ld) = ts) as ->; [|exists m, ts; split; [reflexivity|constructor; assumption]].
    apply nth_error_ext_len; [apply put_length|]. intros k Hk.
    destruct (nth_error (put ts i ([], ld)) k) as [y|] eqn:Ey.
    - apply put_get in Ey as [(-> & -> & _)|(_ & Ey)]; congruence.
    - apply nth_error_None in Ey. lia. }
  pose proof (Ce i _ a Ei (or_introl eq_refl)) as Ca. cbn [task_step]. rewrite Ca.
  assert (Lr : length (put (rest ts) i l) = length (rest ts)) by apply put_length.
  assert (Er : nth_error (rest ts) i = Some (a :: l)).
  { exact (map_nth_error fst i ts Ei). }
  assert (DS : disjoint (put (rest ts) i l)).
  { eapply disjoint_sub; [exact D|exact Lr|]. intros k l0 l' b H0 H1 Hb.
    apply put_get in H1 as [(-> & -> & _)|(N & H1)]; [|congruence]. rewrite Er in H0. injection H0 as <-. right. exact Hb. }
  assert (PUT : forall m', (forall c, m' c = eff c (m c) a) ->
    exists ts', wr ts i (l, None) = Ok ts' /\ pok H tasks m0 m' ts').
  { intros m' Hm. exists (put ts i (l, None)). split; [apply wr_put; exact Li|].
    constructor.
    - rewrite rest_put. exact DS.
    - intros k t b Hk Hb. apply put_get in Hk as [(-> & -> & _)|(N & Hk)]; [|eapply Ce; eauto].
      eapply Ce; [exact Ei|right; exact Hb].
    - rewrite put_length. exact Le.
    - intros c. rewrite rest_put. cbn [fst]. rewrite Hm, <- (val_concat_front (rest ts) i a l c (m c) D Er). apply V.
    - intros k c v l0 x Hk. apply put_get in Hk as [(-> & Hk & _)|(N & Hk)]; [discriminate|].
      rewrite (Lo k c v l0 x Hk), Hm.
      assert (NC : ma_cell a <> c).
      { intros Ec. apply N. eapply (D k i (MAdd c v :: l0) (a :: l) (MAdd c v) a);
          [exact (map_nth_error fst k ts Hk)|exact Er|left; reflexivity|left; reflexivity|cbn; congruence]. }
      destruct a as [c' v'|c' v']; cbn in *; destruct (mcell_eqb_spec c' c); congruence. }
  destruct a as [c v|c v].
  - destruct ld as [x|]; cbn [obind].
    + destruct (PUT (mset m c (x + v)%R)) as (ts' & E & P).
      { intros c'. unfold mset. cbn [eff]. destruct (mcell_eqb_spec c c') as [<-|]; [|reflexivity].
        rewrite (Lo i c v l x Ei). reflexivity. }
      rewrite E. cbn [obind]. eauto.
    + rewrite (wr_put ts i (MAdd c v :: l, Some (m c)) Li). cbn [obind].
      eexists _, _. split; [reflexivity|].
      assert (RR : rest (put ts i (MAdd c v :: l, Some (m c))) = rest ts).
      { rewrite rest_put. cbn [fst]. apply nth_error_ext_len; [apply put_length|]. intros k Hk.
        destruct (nth_error (put (rest ts) i (MAdd c v :: l)) k) as [y|] eqn:Ey.
        - apply put_get in Ey as [(-> & -> & _)|(_ & Ey)]; congruence.
        - apply nth_error_None in Ey. lia. }
      constructor.
      * rewrite RR. exact D.
      * intros k t b Hk Hb. apply put_get in Hk as [(-> & -> & _)|(N & Hk)]; [|eapply Ce; eauto].
        eapply Ce; [exact Ei|exact Hb].
      * rewrite put_length. exact Le.
      * intros c'. rewrite RR. apply V.
      * intros k c' v' l0 x Hk. apply put_get in Hk as [(-> & Hk & _)|(N & Hk)]; [injection Hk as <- _ _ ->; reflexivity|].
        eapply Lo; exact Hk.
  - cbn [obind]. destruct (PUT (mset m c v)) as (ts' & E & P).
    { intros c'. unfold mset. cbn [eff]. destruct (mcell_eqb_spec c c') as [<-|]; reflexivity. }
    rewrite E. cbn [obind]. eauto.
Qed.

Lemma par_run_pok H tasks m0 sched : forall m ts, pok H tasks m0 m ts ->
  exists m' ts', par_run H sched (m, ts) = Ok (m', ts') /\ pok H tasks m0 m' ts'.
Proof.
  unfold par_run. induction sched as [|i sched IH]; intros m ts P; [exists m, ts; split; [reflexivity|exact P]|].
  destruct (par_step_pok H tasks m0 m ts i P) as (m1 & ts1 & E1 & P1).
  destruct (IH m1 ts1 P1) as (m' & ts' & E & P'). exists m', ts'. cbn [ofold]. rewrite E1. cbn [obind]. auto.
Qed.

Lemma rest_start tasks : rest (start_tasks tasks) = tasks.
Proof. unfold rest, start_tasks. rewrite map_map. apply map_id. Qed.

Lemma par_run_serial H tasks m0 sched : disjoint tasks ->
  (forall l a, In l tasks -> In a l -> cell_ok H (ma_cell a) = true) ->
  exists m ts ms, par_run H sched (m0, start_tasks tasks) = Ok (m, ts) /\
    run_actions H (concat tasks) m0 = Ok ms /\
    ((forall t, In t ts -> fst t = []) -> forall c, m c = ms c).
Proof.
  intros D C. destruct (par_run_pok H tasks m0 sched m0 (start_tasks tasks)) as (m & ts & E & P).
  { constructor.
    - rewrite rest_start. exact D.
    - intros i t a Hi Ha. unfold start_tasks in Hi. rewrite nth_error_map in Hi.
      destruct (nth_error tasks i) as [l|] eqn:El; [|discriminate]. injection Hi as <-. eapply C; [eapply nth_error_In; exact El|exact Ha].
    - unfold start_tasks. apply map_length.
    - intros c. rewrite rest_start. reflexivity.
    - intros i c v l x Hi. unfold start_tasks in Hi. rewrite nth_error_map in Hi.
      destruct (nth_error tasks i); discriminate. }
  destruct (run_actions_ok H (concat tasks) m0) as (ms & Es & Vs).
  { intros a Ha. apply in_concat in Ha as (l & H1 & H2). eapply C; eauto. }
  exists m, ts, ms. split; [exact E|]. split; [exact Es|]. intros Hd c.
  rewrite Vs, <- (po_val _ _ _ _ _ P c).
  assert (Z : concat (rest ts) = []).
  { clear - Hd. induction ts as [|t ts IH]; [reflexivity|]. unfold rest in *. cbn [map concat].
    rewrite (Hd t (or_introl eq_refl)). apply IH. intros; apply Hd; right; assumption. }
  rewrite Z. reflexivity.
Qed.
