From Coq Require Import Bool Reals List Arith Lia Lra String.
From Verif Require Import Prelude Loops R3 LinAlg Transform_model Transform_proofs Skeleton_spec Skeleton_proofs FK_model FK_spec FK_proofs
  ParamTransform_model ParamTransform_spec ParamTransform_proofs ParamTransform_map_proofs Locator_model Locator_spec Simplify_model Simplify_spec.
Import ListNotations.
Local Open Scope nat_scope.

Lemma new_index_S enabled k b : nth_error enabled k = Some b -> new_index enabled (S k) = new_index enabled k + (if b then 1 else 0).
Proof.
  unfold new_index. revert k. induction enabled as [|e enabled IH]; intros [|k] H; try discriminate.
  - injection H as ->. cbn. destruct b; reflexivity.
  - cbn [nth_error] in H. specialize (IH k H). change (firstn (S (S k)) (e :: enabled)) with (e :: firstn (S k) enabled).
    change (firstn (S k) (e :: enabled)) with (e :: firstn k enabled). cbn [filter]. destruct e; cbn [List.length]; rewrite IH; lia.
Qed.
Lemma new_index_mono enabled a b : a <= b -> b <= List.length enabled -> new_index enabled a <= new_index enabled b.
Proof.
  intros H. induction H as [|b H IH]; intros L; [lia|]. destruct (nth_error_lt enabled b) as [e E]; [lia|].
  rewrite (new_index_S _ _ _ E). specialize (IH ltac:(lia)). lia.
Qed.
Lemma new_index_lt enabled a b : a < b -> b <= List.length enabled -> is_kept enabled a -> new_index enabled a < new_index enabled b.
Proof.
  intros H L K. pose proof (new_index_S _ _ _ K) as E. cbv iota in E. pose proof (new_index_mono enabled (S a) b H L). lia.
Qed.
Lemma new_index_inj enabled a b : is_kept enabled a -> is_kept enabled b -> new_index enabled a = new_index enabled b -> a = b.
Proof.
  intros Ka Kb E. pose proof (nth_error_len _ _ _ Ka). pose proof (nth_error_len _ _ _ Kb).
  destruct (Nat.lt_trichotomy a b) as [L|[L|L]]; [|exact L|].
  - pose proof (new_index_lt enabled a b L ltac:(lia) Ka). lia.
  - pose proof (new_index_lt enabled b a L ltac:(lia) Kb). lia.
Qed.
Lemma new_index_onto enabled : forall k m, k <= List.length enabled -> m < new_index enabled k -> exists a, a < k /\ is_kept enabled a /\ new_index enabled a = m.
Proof.
  induction k as [|k IH]; intros m L H; [cbn in H; unfold new_index in H; cbn in H; lia|].
  destruct (nth_error_lt enabled k) as [e E]; [lia|]. rewrite (new_index_S _ _ _ E) in H.
  destruct (Nat.eq_dec m (new_index enabled k)) as [->|D].
  - destruct e; [|lia]. exists k. auto.
  - destruct (IH m) as (a & A & B & C); [lia|destruct e; lia|]. exists a. auto.
Qed.

Section Loop.
Variables (sk : skeleton) (ref : list jstate) (enabled : list bool).
Hypothesis V : valid_sk sk.
Hypothesis L : List.length enabled = List.length sk.
Hypothesis Lref : List.length ref = List.length sk.
Let n := List.length sk.

Definition lentry (k i : nat) : option nat :=
  if (i <? k) && nth i enabled false then Some (new_index enabled i) else None.
Definition lmap (k : nat) : list (option nat) := map (lentry k) (seq 0 n).

Lemma lmap_nth k i : i < n -> nth_error (lmap k) i = Some (lentry k i).
Proof. intros H. unfold lmap. apply map_nth_error. rewrite (nth_error_nth' _ 0) by (rewrite seq_length; exact H). rewrite seq_nth by exact H. reflexivity. Qed.
Lemma lmap_length k : List.length (lmap k) = n.
Proof. unfold lmap. rewrite map_length, seq_length. reflexivity. Qed.
Lemma lmap_0 : lmap 0 = repeat None n.
Proof. unfold lmap. generalize 0 at 2. induction n as [|m IH]; intros s; cbn [seq map repeat]; [reflexivity|]. f_equal. apply IH. Qed.
Lemma kept_nth i : is_kept enabled i <-> i < n /\ nth i enabled false = true.
Proof.
  unfold is_kept. split.
  - intros H. split; [apply nth_error_len in H; lia|]. apply (nth_error_nth _ _ _ H).
  - intros [H1 H2]. rewrite (nth_error_nth' enabled false) by lia. rewrite H2. reflexivity.
Qed.
Lemma off_nth i : nth_error enabled i = Some false <-> i < n /\ nth i enabled false = false.
Proof.
  split.
  - intros H. split; [apply nth_error_len in H; lia|]. apply (nth_error_nth _ _ _ H).
  - intros [H1 H2]. rewrite (nth_error_nth' enabled false) by lia. rewrite H2. reflexivity.
Qed.
Lemma lentry_kept k i : i < k -> is_kept enabled i -> lentry k i = Some (new_index enabled i).
Proof. intros H K. apply kept_nth in K as [_ K]. unfold lentry. rewrite K. apply Nat.ltb_lt in H. rewrite H. reflexivity. Qed.
Lemma lentry_none k i : k <= i \/ nth_error enabled i = Some false -> lentry k i = None.
Proof.
  intros [H|H]; unfold lentry.
  - destruct (Nat.ltb_spec i k); [lia|reflexivity].
  - apply off_nth in H as [_ ->]. rewrite andb_false_r. reflexivity.
Qed.
Lemma lmap_wr k : k < n -> is_kept enabled k -> wr (lmap k) k (Some (new_index enabled k)) = Ok (lmap (S k)).
Proof.
  intros H K. destruct (Loops.wr_ok (lmap k) k (Some (new_index enabled k))) as (l' & E & Ll & N1 & N2); [rewrite lmap_length; exact H|].
  rewrite E. f_equal. apply nth_error_ext_len; [rewrite Ll, !lmap_length; reflexivity|]. rewrite Ll, lmap_length. intros i Hi.
  rewrite lmap_nth by exact Hi. destruct (Nat.eq_dec i k) as [->|D].
  - rewrite N1, lentry_kept by (auto; lia). reflexivity.
  - rewrite N2, lmap_nth by assumption. f_equal. unfold lentry. f_equal. f_equal.
    destruct (Nat.ltb_spec i k), (Nat.ltb_spec i (S k)); reflexivity || lia.
Qed.
Lemma lmap_skip k : nth_error enabled k = Some false -> lmap (S k) = lmap k.
Proof.
  intros H. unfold lmap. apply map_ext_in. intros i _. unfold lentry. destruct (Nat.eq_dec i k) as [->|D].
  - apply off_nth in H as [_ ->]. rewrite !andb_false_r. reflexivity.
  - f_equal. f_equal. destruct (Nat.ltb_spec i k), (Nat.ltb_spec i (S k)); reflexivity || lia.
Qed.

Let ps := sk_parents sk.
Lemma ps_len : List.length ps = n.
Proof. apply map_length. Qed.
Lemma ps_nth i j : nth_error sk i = Some j -> nth_error ps i = Some (jparent j).
Proof. intros E. unfold ps, sk_parents. rewrite nth_error_map, E. reflexivity. Qed.
Lemma ps_inv i o : nth_error ps i = Some o -> exists j, nth_error sk i = Some j /\ jparent j = o.
Proof. unfold ps, sk_parents. rewrite nth_error_map. destruct (nth_error sk i) as [j|]; cbn; [|discriminate]. intros E. injection E as <-. eauto. Qed.

(** From [j] up to the nearest kept joint above it; the removed joints between, topmost first. *)
Inductive up_to : nat -> nat -> list nat -> Prop :=
| up_here j s : nth_error ps j = Some (Some s) -> is_kept enabled s -> up_to j s []
| up_skip j p s rs : nth_error ps j = Some (Some p) -> nth_error enabled p = Some false -> up_to p s rs -> up_to j s (rs ++ [p]).

Lemma up_to_kept j s rs : up_to j s rs -> is_kept enabled s.
Proof. induction 1; assumption. Qed.
Lemma up_to_lt j s rs : up_to j s rs -> s < j.
Proof. induction 1 as [j s E K|j p s rs E O H IH]; [apply (V j s E)|]. pose proof (V j p E). lia. Qed.
Lemma up_to_between j s rs : up_to j s rs -> forall r, In r rs -> between ps enabled j r.
Proof.
  induction 1 as [j s E K|j p s rs E O H IH]; intros r Hr; [contradiction|].
  apply in_app_or in Hr as [Hr|[<-|[]]]; [eapply between_up; eauto|eapply between_parent; eauto].
Qed.
Lemma up_to_removed j s rs : up_to j s rs -> forall r, In r rs -> nth_error enabled r = Some false.
Proof.
  induction 1 as [j s E K|j p s rs E O H IH]; intros r Hr; [contradiction|]. apply in_app_or in Hr as [Hr|[<-|[]]]; [apply IH, Hr|exact O].
Qed.
Lemma up_to_nearest j s rs p : up_to j s rs -> nth_error ps j = Some (Some p) -> nearest_kept ps enabled p s.
Proof.
  intros H. revert p. induction H as [j s E K|j q s rs E O H IH]; intros p Ep.
  - assert (p = s) as -> by congruence. split; [apply ancestor_self; rewrite ps_len; apply kept_nth in K; tauto|]. split; [exact K|]. auto.
  - assert (p = q) as -> by congruence. inversion H as [j' s' E' K'|j' p' s' rs' E' O' H']; subst.
    + destruct (IH _ E') as (A & B & C). split; [eapply ancestor_up; eauto|]. split; [exact B|]. intros b Hb Kb.
      apply ancestor_inv in Hb as [->|(u & Eu & Hb)]; [unfold is_kept in Kb; congruence|]. apply C; [congruence|exact Kb].
    + destruct (IH _ E') as (A & B & C). split; [eapply ancestor_up; eauto|]. split; [exact B|]. intros b Hb Kb.
      apply ancestor_inv in Hb as [->|(u & Eu & Hb)]; [unfold is_kept in Kb; congruence|]. apply C; [congruence|exact Kb].
Qed.

Definition roots_upto (k : nat) : Prop := forall i, i < k -> nth_error ps i = Some None -> is_kept enabled i.

Lemma find_parent_ok k : k <= n -> roots_upto k -> forall fuel j p, j <= k -> j < fuel -> nth_error ps j = Some (Some p) ->
  exists s rs, find_parent fuel sk (lmap k) j = Ok (s, new_index enabled s) /\ up_to j s rs.
Proof.
  intros Hk Rt. induction fuel as [|fuel IH]; intros j p Hj Hf E; [lia|]. cbn [find_parent].
  destruct (ps_inv _ _ E) as (jt & Ej & Ep). rewrite (rd_some _ _ _ Ej). cbn [obind]. rewrite Ep.
  pose proof (V j p E) as Lp. destruct (nth_error_lt sk p) as [jp Ejp]; [unfold n in Hk; lia|].
  rewrite (rd_some _ _ _ (lmap_nth k p ltac:(lia))). cbn [obind].
  destruct (nth_error_lt enabled p) as [[|] Ee]; [lia| |].
  - rewrite lentry_kept by (auto; lia). exists p, []. split; [reflexivity|]. apply up_here; assumption.
  - rewrite lentry_none by (right; exact Ee). pose proof (ps_nth _ _ Ejp) as Epp. destruct (jparent jp) as [q|] eqn:Eq.
    + destruct (IH p q) as (s & rs & F & U); [lia|lia|exact Epp|]. exists s, (rs ++ [p]). split; [exact F|]. eapply up_skip; eauto.
    + pose proof (Rt p ltac:(lia) Epp) as K. unfold is_kept in K. congruence.
Qed.

Definition qcollect (rs : list nat) (q : quat) : quat :=
  fold_right (fun r q => match nth_error sk r with Some j => qmul (jprerot j) q | None => q end) q rs.
Lemma qcollect_app a b q : qcollect (a ++ b) q = qcollect a (qcollect b q).
Proof. unfold qcollect. apply fold_right_app. Qed.

Lemma collect_ok j s rs : up_to j s rs -> forall fuel q, j <= fuel -> 0 < fuel ->
  exists jt, nth_error sk j = Some jt /\ collect_prerot fuel sk (jparent jt) s q = Ok (qcollect rs q).
Proof.
  induction 1 as [j s E K|j p s rs E O H IH]; intros fuel q Hf Hf0.
  - destruct (ps_inv _ _ E) as (jt & Ej & Ep). exists jt. split; [exact Ej|]. rewrite Ep. destruct fuel as [|fuel]; [lia|]. cbn [collect_prerot].
    rewrite Nat.eqb_refl. reflexivity.
  - destruct (ps_inv _ _ E) as (jt & Ej & Ep). exists jt. split; [exact Ej|]. rewrite Ep. destruct fuel as [|fuel]; [lia|]. cbn [collect_prerot].
    pose proof (V j p E) as Lp. pose proof (up_to_lt _ _ _ H) as Ls. destruct (Nat.eqb_spec p s); [lia|].
    destruct (IH fuel (match nth_error sk p with Some j' => qmul (jprerot j') q | None => q end)) as (jp & Ejp & C); [lia|lia|].
    rewrite (rd_some _ _ _ Ejp). cbn [obind]. rewrite Ejp in C. rewrite C, qcollect_app. cbn [qcollect fold_right]. rewrite Ejp. reflexivity.
Qed.

Lemma nearest_self i : is_kept enabled i -> nearest_kept ps enabled i i.
Proof. intros K. split; [apply ancestor_self; rewrite ps_len; apply kept_nth in K; tauto|]. auto. Qed.
Lemma nearest_up i p a : nth_error ps i = Some (Some p) -> nth_error enabled i = Some false -> nearest_kept ps enabled p a -> nearest_kept ps enabled i a.
Proof.
  intros E O (A & B & C). split; [eapply ancestor_up; eauto|]. split; [exact B|]. intros b Hb Kb.
  apply ancestor_inv in Hb as [->|(u & Eu & Hb)]; [unfold is_kept in Kb; congruence|]. apply C; [congruence|exact Kb].
Qed.

Lemma find_mapped_ok k : k <= n -> roots_upto k -> forall fuel i, i < k -> i < fuel ->
  exists a, nearest_kept ps enabled i a /\ find_mapped fuel sk (lmap k) (Some i) = Ok (Some (new_index enabled a)).
Proof.
  intros Hk Rt. induction fuel as [|fuel IH]; intros i Hi Hf; [lia|]. cbn [find_mapped].
  rewrite (rd_some _ _ _ (lmap_nth k i ltac:(lia))). cbn [obind].
  destruct (nth_error_lt enabled i) as [[|] Ee]; [unfold n in Hk; lia| |].
  - rewrite lentry_kept by (auto; lia). exists i. split; [apply nearest_self, Ee|reflexivity].
  - rewrite lentry_none by (right; exact Ee). destruct (nth_error_lt sk i) as [jt Ej]; [unfold n in Hk; lia|].
    rewrite (rd_some _ _ _ Ej). cbn [obind]. pose proof (ps_nth _ _ Ej) as Ep. destruct (jparent jt) as [p|] eqn:Eq.
    + pose proof (V i p Ep). destruct (IH p) as (a & Na & F); [lia|lia|]. exists a. split; [eapply nearest_up; eauto|exact F].
    + pose proof (Rt i Hi Ep) as K. unfold is_kept in K. congruence.
Qed.

(** What the new joint for the kept joint [a] is. *)
Definition joint_for (a : nat) (jt jt' : joint) : Prop :=
  (jparent jt = None /\ jt' = Joint None (joffset jt) (jprerot jt)) \/
  exists s rs ss sa, up_to a s rs /\ nth_error ref s = Some ss /\ nth_error ref a = Some sa /\
    jt' = Joint (Some (new_index enabled s)) (aff_point (tf_affine (tf_inv (js_world ss))) (trans (js_world sa))) (qcollect rs (jprerot jt)).

Record built (k : nat) (b : sbuild) : Prop := {
  bu_imap : sb_imap b = lmap k;
  bu_last : sb_last b = lmap k;
  bu_len : List.length (sb_joints b) = new_index enabled k;
  bu_joint : forall a jt, a < k -> is_kept enabled a -> nth_error sk a = Some jt ->
    exists jt', nth_error (sb_joints b) (new_index enabled a) = Some jt' /\ joint_for a jt jt';
  bu_map_len : List.length (sb_map b) = n;
  bu_map : forall i, i < k -> exists a, nearest_kept ps enabled i a /\ nth_error (sb_map b) i = Some (Some (new_index enabled a))
}.

Lemma built_0 : built 0 (SB [] (repeat None n) (repeat None n) (repeat None n)).
Proof.
  constructor; cbn [sb_imap sb_last sb_joints sb_map]; try (symmetry; apply lmap_0); try reflexivity.
  - intros a jt H. lia.
  - apply repeat_length.
  - intros i H. lia.
Qed.

Lemma step_ok k b : k < n -> roots_upto k -> built k b ->
  (nth_error ps k = Some None -> is_kept enabled k) ->
  exists b', simplify_step sk ref enabled k b = Ok b' /\ built (S k) b'.
Proof.
  intros Hk Rt B Rk. unfold simplify_step. destruct (nth_error_lt sk k Hk) as [j Ej]. rewrite (rd_some _ _ _ Ej). cbn [obind].
  pose proof (ps_nth _ _ Ej) as Ep.
  destruct (nth_error_lt enabled k) as [e Ee]; [unfold n in Hk; lia|].
  (* parent and offset *)
  assert (P : exists s parent offset,
    match jparent j with
    | None => Ok (k, None, joffset j)
    | Some _ =>
      obind (find_parent (S (List.length sk)) sk (sb_last b) k) (fun x => let '(s, c) := x in
      obind (rd ref s) (fun rs => obind (rd ref k) (fun ra =>
      Ok (s, Some c, aff_point (tf_affine (tf_inv (js_world rs))) (trans (js_world ra))))))
    end = Ok (s, parent, offset) /\
    (e = true -> exists q, collect_prerot (S (List.length sk)) sk (jparent j) s (jprerot j) = Ok q /\ joint_for k j (Joint parent offset q))).
  { destruct (jparent j) as [p|] eqn:Eq.
    - rewrite (bu_last _ _ B). destruct (find_parent_ok k ltac:(lia) Rt (S (List.length sk)) k p) as (s & rs & F & U); [lia|unfold n in Hk; lia|exact Ep|].
      rewrite F. cbn [obind]. pose proof (up_to_lt _ _ _ U) as Ls.
      destruct (nth_error_lt ref s) as [ss Es]; [unfold n in Hk; lia|]. destruct (nth_error_lt ref k) as [sa Ea]; [unfold n in Hk; lia|].
      rewrite (rd_some _ _ _ Es), (rd_some _ _ _ Ea). cbn [obind]. exists s, (Some (new_index enabled s)).
      eexists. split; [reflexivity|]. intros _. destruct (collect_ok _ _ _ U (S (List.length sk)) (jprerot j)) as (j' & Ej' & C); [unfold n in Hk; lia|lia|].
      assert (j' = j) as -> by congruence. rewrite Eq in C. exists (qcollect rs (jprerot j)). split; [exact C|]. right. exists s, rs, ss, sa. auto.
    - exists k, None, (joffset j). split; [reflexivity|]. intros _. exists (jprerot j). split; [reflexivity|]. left. auto. }
  destruct P as (s & parent & offset & P1 & P2). rewrite P1. cbn [obind]. rewrite (rd_some _ _ _ Ee). cbn [obind]. destruct e.
  - destruct (P2 eq_refl) as (q & C & J). rewrite C. cbn [obind]. rewrite (bu_imap _ _ B), (bu_last _ _ B), (bu_len _ _ B).
    rewrite (lmap_wr k Hk Ee). cbn [obind].
    destruct (Loops.wr_ok (sb_map b) k (Some (new_index enabled k))) as (jm & Em & Lm & N1 & N2); [rewrite (bu_map_len _ _ B); exact Hk|].
    rewrite Em. cbn [obind]. eexists. split; [reflexivity|]. constructor; cbn [sb_imap sb_last sb_joints sb_map]; try reflexivity.
    + rewrite app_length, (bu_len _ _ B), (new_index_S _ _ _ Ee). reflexivity.
    + intros a jt Ha Ka Ea. destruct (Nat.eq_dec a k) as [->|D].
      * assert (jt = j) as -> by congruence. exists (Joint parent offset q). split; [|exact J].
        rewrite nth_error_app2 by (rewrite (bu_len _ _ B); lia). rewrite (bu_len _ _ B), Nat.sub_diag. reflexivity.
      * destruct (bu_joint _ _ B a jt ltac:(lia) Ka Ea) as (jt' & Ej' & J'). exists jt'. split; [|exact J'].
        rewrite nth_error_app1; [exact Ej'|]. apply nth_error_len in Ej'. exact Ej'.
    + rewrite Lm. apply (bu_map_len _ _ B).
    + intros i Hi. destruct (Nat.eq_dec i k) as [->|D].
      * exists k. split; [apply nearest_self, Ee|exact N1].
      * destruct (bu_map _ _ B i ltac:(lia)) as (a & Na & E). exists a. split; [exact Na|]. rewrite N2 by exact D. exact E.
  - rewrite (bu_imap _ _ B). cbn [find_mapped]. rewrite (rd_some _ _ _ (lmap_nth k k Hk)). cbn [obind].
    rewrite lentry_none by (left; lia). rewrite (rd_some _ _ _ Ej). cbn [obind]. destruct (jparent j) as [p|] eqn:Eq.
    + pose proof (V k p Ep) as Lp. destruct (find_mapped_ok k ltac:(lia) Rt (List.length sk) p Lp) as (a & Na & F); [unfold n in Hk; lia|].
      rewrite F. cbn [obind].
      destruct (Loops.wr_ok (sb_map b) k (Some (new_index enabled a))) as (jm & Em & Lm & N1 & N2); [rewrite (bu_map_len _ _ B); exact Hk|].
      rewrite Em. cbn [obind]. eexists. split; [reflexivity|]. constructor; cbn [sb_imap sb_last sb_joints sb_map].
      * rewrite (lmap_skip _ Ee). reflexivity.
      * rewrite (lmap_skip _ Ee). apply (bu_last _ _ B).
      * rewrite (new_index_S _ _ _ Ee), Nat.add_0_r. apply (bu_len _ _ B).
      * intros a' jt Ha Ka Ea. assert (a' <> k) by (intros ->; unfold is_kept in Ka; congruence). apply (bu_joint _ _ B); [lia|assumption..].
      * rewrite Lm. apply (bu_map_len _ _ B).
      * intros i Hi. destruct (Nat.eq_dec i k) as [->|D].
        -- exists a. split; [eapply nearest_up; eauto|exact N1].
        -- destruct (bu_map _ _ B i ltac:(lia)) as (a' & Na' & E). exists a'. split; [exact Na'|]. rewrite N2 by exact D. exact E.
    + pose proof (Rk Ep) as K. unfold is_kept in K. congruence.
Qed.

Lemma step_throw k b : k < n -> built k b -> nth_error ps k = Some None -> nth_error enabled k = Some false ->
  simplify_step sk ref enabled k b = Throw.
Proof.
  intros Hk B Ep Ee. unfold simplify_step. destruct (ps_inv _ _ Ep) as (j & Ej & Eq). rewrite (rd_some _ _ _ Ej). cbn [obind]. rewrite Eq.
  cbn [obind]. rewrite (rd_some _ _ _ Ee). cbn [obind]. rewrite (bu_imap _ _ B). cbn [find_mapped].
  rewrite (rd_some _ _ _ (lmap_nth k k Hk)). cbn [obind]. rewrite lentry_none by (left; lia). rewrite (rd_some _ _ _ Ej). cbn [obind]. rewrite Eq.
  assert (G : forall f im, 0 < f -> find_mapped f sk im None = Ok None) by (intros [|f] im Hf; [lia|reflexivity]).
  rewrite G by (unfold n in Hk; lia). reflexivity.
Qed.

Lemma loop_ok : forall k, k <= n ->
  (roots_upto k /\ exists b, ofold (simplify_step sk ref enabled) (seq 0 k) (SB [] (repeat None n) (repeat None n) (repeat None n)) = Ok b /\ built k b) \/
  ((exists i, nth_error ps i = Some None /\ nth_error enabled i = Some false) /\
   ofold (simplify_step sk ref enabled) (seq 0 k) (SB [] (repeat None n) (repeat None n) (repeat None n)) = Throw).
Proof.
  induction k as [|k IH]; intros Hk.
  - left. split; [intros i Hi; lia|]. eexists. split; [reflexivity|apply built_0].
  - rewrite seq_S, ofold_app. destruct IH as [(Rt & b & E & B)|(X & E)]; [lia| |].
    + rewrite E. cbn [obind ofold Nat.add].
      destruct (nth_error_lt enabled k) as [e Ee]; [unfold n in Hk; lia|].
      destruct (nth_error ps k) as [[p|]|] eqn:Ep; [| |apply nth_error_None in Ep; rewrite ps_len in Ep; lia].
      * left. destruct (step_ok k b ltac:(lia) Rt B) as (b' & E' & B'); [intros X; congruence|]. split; [|exists b'; rewrite E'; cbn [obind]; auto].
        intros i Hi Ei. destruct (Nat.eq_dec i k) as [->|]; [congruence|]. apply Rt; [lia|exact Ei].
      * destruct e.
        -- left. destruct (step_ok k b ltac:(lia) Rt B) as (b' & E' & B'); [intros _; exact Ee|]. split; [|exists b'; rewrite E'; cbn [obind]; auto].
           intros i Hi Ei. destruct (Nat.eq_dec i k) as [->|]; [exact Ee|]. apply Rt; [lia|exact Ei].
        -- right. split; [exists k; auto|]. rewrite (step_throw k b) by (auto; lia). reflexivity.
    + right. split; [exact X|]. rewrite E. reflexivity.
Qed.

(** ** Worlds *)

Definition loc (jp : list R) (r : nat) : tf := match nth_error sk r with Some jt => local_tf jt (jparam_at jp r) | None => tf_id end.
Definition tprod (jp : list R) (rs : list nat) : tf := fold_right (fun r t => tf_mul (loc jp r) t) tf_id rs.
Hypothesis U : unit_prerotations sk.

Lemma loc_ok jp r : tf_ok (loc jp r).
Proof. unfold loc. destruct (nth_error sk r) as [jt|] eqn:E; [apply tf_good_ok, local_tf_good, (U r _ E)|apply tf_id_ok]. Qed.
Lemma tprod_ok jp rs : tf_ok (tprod jp rs).
Proof. unfold tprod. induction rs as [|r rs IH]; cbn [fold_right]; [apply tf_id_ok|apply tf_mul_ok; [apply loc_ok|exact IH]]. Qed.
Lemma tprod_snoc jp rs p : tprod jp (rs ++ [p]) = tf_mul (tprod jp rs) (loc jp p).
Proof.
  induction rs as [|r rs IH].
  - unfold tprod. cbn [app fold_right]. rewrite tf_mul_id_l, tf_mul_id_r. reflexivity.
  - change (tprod jp ((r :: rs) ++ [p])) with (tf_mul (loc jp r) (tprod jp (rs ++ [p]))). rewrite IH.
    change (tprod jp (r :: rs)) with (tf_mul (loc jp r) (tprod jp rs)). apply tf_mul_assoc; [apply loc_ok|apply tprod_ok|apply loc_ok].
Qed.

Lemma up_to_world jp sts : fk_states sk jp sts -> forall j s rs, up_to j s rs -> forall ss, nth_error sts s = Some ss ->
  exists jt sp, nth_error sk j = Some jt /\ parent_state sts (jparent jt) (Some sp) /\ js_world sp = tf_mul (js_world ss) (tprod jp rs).
Proof.
  intros F j s rs H. induction H as [j s E K|j p s rs E O H IH]; intros ss Es.
  - destruct (ps_inv _ _ E) as (jt & Ej & Ep). exists jt, ss. split; [exact Ej|]. rewrite Ep. split; [exists ss; auto|].
    unfold tprod. cbn [fold_right]. rewrite tf_mul_id_r. reflexivity.
  - destruct (ps_inv _ _ E) as (jt & Ej & Ep). destruct (IH ss Es) as (jp' & sp & Ejp & Pp & W).
    destruct F as [Fl F]. destruct (F p jp' Ejp) as (ps' & Pp' & Ew).
    assert (ps' = Some sp) as ->. { destruct (jparent jp'); cbn [parent_state] in *; [|congruence]. destruct Pp as (x & X1 & X2), Pp' as (y & Y1 & Y2). congruence. }
    eexists jt, _. split; [exact Ej|]. rewrite Ep. split; [eexists; split; [exact Ew|reflexivity]|].
    rewrite js_world_set. cbn [parent_tf]. rewrite W, tprod_snoc. unfold loc at 1. rewrite Ejp. symmetry. apply tf_mul_assoc.
    + apply tf_good_ok. eapply (fk_good sk jp sts V U); [split; [exact Fl|exact F]|exact Es].
    + apply tprod_ok.
    + apply tf_good_ok, local_tf_good, (U p _ Ejp).
Qed.

Lemma exp2_0 : exp2 0 = 1%R.
Proof. unfold exp2. rewrite Rmult_0_l. apply exp_0. Qed.
Lemma qaxis_0 v : qaxis 0 v = qid.
Proof. unfold qaxis, qid. replace (0 / 2)%R with 0%R by lra. rewrite sin_0, cos_0. vec_unfold. f_equal; ring. Qed.

Lemma loc_translates jp r jt : nth_error sk r = Some jt -> only_translates (jparam_at jp r) ->
  rot (loc jp r) = jprerot jt /\ scl (loc jp r) = 1%R.
Proof.
  intros E (H1 & H2 & H3 & H4). unfold loc. rewrite E. unfold local_tf. cbn [rot scl].
  rewrite H1, H2, H3, H4, !qaxis_0, !qmul_id_r, exp2_0. auto.
Qed.
Lemma tprod_translates jp rs : (forall r, In r rs -> r < n /\ only_translates (jparam_at jp r)) ->
  (forall q, qmul (rot (tprod jp rs)) q = qcollect rs q) /\ scl (tprod jp rs) = 1%R.
Proof.
  induction rs as [|r rs IH]; intros H.
  - split; [intros q; apply qmul_id_l|reflexivity].
  - destruct IH as [IH1 IH2]. { intros r' Hr. apply H. right. exact Hr. }
    destruct (H r (or_introl eq_refl)) as [Hr Tr]. destruct (nth_error_lt sk r Hr) as [jt Ej].
    destruct (loc_translates jp r jt Ej Tr) as [A B]. change (tprod jp (r :: rs)) with (tf_mul (loc jp r) (tprod jp rs)). cbn [tf_mul rot scl].
    rewrite A, B, IH2. split; [|ring]. intros q. rewrite <- qmul_assoc, IH1. cbn [qcollect fold_right]. rewrite Ej. reflexivity.
Qed.
Lemma loc_ext jp jp' r : jparam_at jp r = jparam_at jp' r -> loc jp r = loc jp' r.
Proof. intros H. unfold loc. rewrite H. reflexivity. Qed.
Lemma tprod_ext jp jp' rs : (forall r, In r rs -> jparam_at jp r = jparam_at jp' r) -> tprod jp rs = tprod jp' rs.
Proof.
  unfold tprod. induction rs as [|r rs IH]; intros H; cbn [fold_right]; [reflexivity|].
  rewrite (loc_ext jp jp' r) by (apply H; left; reflexivity). f_equal. apply IH. intros r' Hr. apply H. right. exact Hr.
Qed.
Lemma qcollect_id rs q : (forall r, In r rs -> forall j, nth_error sk r = Some j -> jprerot j = qid) -> qcollect rs q = q.
Proof.
  unfold qcollect. induction rs as [|r rs IH]; intros H; cbn [fold_right]; [reflexivity|].
  fold (qcollect rs q) in *. unfold qcollect in *. rewrite IH by (intros r' Hr; apply H; right; exact Hr).
  destruct (nth_error sk r) as [j|] eqn:E; [|reflexivity]. rewrite (H r (or_introl eq_refl) j E). apply qmul_id_l.
Qed.

(** The offset of the new joint: what the removed joints make of the old one. *)
Lemma new_offset jref a jt s rs ss sa : fk_states sk jref ref -> nth_error sk a = Some jt -> no_translation (jparam_at jref a) ->
  up_to a s rs -> nth_error ref s = Some ss -> nth_error ref a = Some sa ->
  aff_point (tf_affine (tf_inv (js_world ss))) (trans (js_world sa)) = tf_point (tprod jref rs) (joffset jt).
Proof.
  intros F Ej (T1 & T2 & T3) Hu Es Ea. destruct (up_to_world jref ref F a s rs Hu ss Es) as (jt' & sp & Ej' & Pp & W).
  assert (jt' = jt) as -> by congruence. destruct F as [Fl F]. destruct (F a jt Ej) as (pst & Pst & Est).
  assert (pst = Some sp) as ->. { destruct (jparent jt); cbn [parent_state] in *; [|congruence]. destruct Pp as (x & X1 & X2), Pst as (y & Y1 & Y2). congruence. }
  rewrite Est in Ea. apply (f_equal (fun o => match o with Some x => x | None => sa end)) in Ea. subst sa.
  assert (G : tf_ok (js_world ss)). { apply tf_good_ok. eapply (fk_good sk jref ref V U); [split; [exact Fl|exact F]|exact Es]. }
  rewrite js_world_set. cbn [parent_tf]. rewrite W, tf_affine_point.
  change (trans (tf_mul (tf_mul (js_world ss) (tprod jref rs)) (local_tf jt (jparam_at jref a)))) with
    (tf_point (tf_mul (js_world ss) (tprod jref rs)) (trans (local_tf jt (jparam_at jref a)))).
  unfold local_tf at 1. cbn [trans]. rewrite T1, T2, T3. change (V3 0 0 0) with vzero. rewrite vadd_0_r.
  rewrite (tf_point_mul _ _ _ G (tprod_ok jref rs)), <- (tf_point_mul _ _ _ (tf_inv_ok _ G) G), (tf_mul_inv_l _ G).
  unfold tf_point at 1. cbn [tf_id rot trans scl]. rewrite vscale_1, qrot_id, vadd_0_l. reflexivity.
Qed.

Lemma between_removed a r : between ps enabled a r -> r < n /\ nth_error enabled r = Some false.
Proof. induction 1 as [a r E O|a p r E O H IH]; [|exact IH]. split; [apply off_nth in O; tauto|exact O]. Qed.

Lemma worlds_kept b jref jp jp' sts sts' : built n b -> fk_states sk jref ref ->
  (forall a, is_kept enabled a -> no_translation (jparam_at jref a)) ->
  fk_states sk jp sts -> fk_states (sb_joints b) jp' sts' ->
  (forall a, is_kept enabled a -> jparam_at jp' (new_index enabled a) = jparam_at jp a) ->
  (forall r, nth_error enabled r = Some false -> jparam_at jp r = jparam_at jref r /\ only_translates (jparam_at jref r)) ->
  (forall a, is_kept enabled a -> no_translation (jparam_at jp a) \/ forall r j, between ps enabled a r -> nth_error sk r = Some j -> jprerot j = qid) ->
  same_worlds enabled sts sts'.
Proof.
  intros B Fref Nref F F' Hk Hr Ht. intros a. induction (lt_wf a) as [a _ IH]. intros s Ka Es.
  assert (Ha : a < n) by (apply kept_nth in Ka; tauto). destruct (nth_error_lt sk a Ha) as [jt Ej].
  destruct (bu_joint _ _ B a jt Ha Ka Ej) as (jt' & Ej' & J).
  destruct (proj2 F' _ _ Ej') as (pst' & Pst' & Est'). exists (joint_state_set jt' (jparam_at jp' (new_index enabled a)) pst').
  split; [exact Est'|]. destruct (proj2 F _ _ Ej) as (pst & Pst & Est). rewrite Est in Es.
  apply (f_equal (fun o => match o with Some x => x | None => s end)) in Es. subst s. rewrite !js_world_set, (Hk a Ka).
  destruct J as [(Jn & ->)|(s & rs & ss & sa & Hu & Es & Ea & ->)].
  - rewrite Jn in Pst. cbn [parent_state] in Pst. cbn [jparent parent_state] in Pst'. subst pst pst'. cbn [parent_tf]. reflexivity.
  - pose proof (up_to_lt _ _ _ Hu) as Ls. pose proof (up_to_kept _ _ _ Hu) as Ks.
    destruct (nth_error_lt sts s) as [st Est_s]; [destruct F as [Fl _]; unfold n in Ha; lia|].
    destruct (IH s Ls st Ks Est_s) as (st' & Est_s' & W).
    cbn [jparent parent_state] in Pst'. destruct Pst' as (x & X1 & ->). assert (x = st') as -> by congruence.
    destruct (up_to_world jp sts F a s rs Hu st Est_s) as (jt0 & sp & Ej0 & Pp & Wp). assert (jt0 = jt) as -> by congruence.
    assert (pst = Some sp) as ->. { destruct (jparent jt); cbn [parent_state] in *; [|congruence]. destruct Pp as (y & Y1 & Y2), Pst as (z & Z1 & Z2). congruence. }
    cbn [parent_tf]. rewrite W, Wp.
    assert (Rs : forall r, In r rs -> r < n /\ only_translates (jparam_at jp r) /\ jparam_at jp r = jparam_at jref r).
    { intros r Hin. pose proof (up_to_removed _ _ _ Hu r Hin) as Or. destruct (Hr r Or) as [A C]. split; [apply off_nth in Or; tauto|]. rewrite A. auto. }
    rewrite <- tf_mul_assoc; [|apply tf_good_ok; eapply (fk_good sk jp sts V U); eauto|apply tprod_ok|apply tf_good_ok, local_tf_good, (U a _ Ej)].
    f_equal. destruct (tprod_translates jp rs) as [Q1 Q2]. { intros r Hin. destruct (Rs r Hin) as (A & C & _). auto. }
    rewrite (new_offset jref a jt s rs ss sa Fref Ej (Nref a Ka) Hu Es Ea).
    rewrite <- (tprod_ext jp jref rs) by (intros r Hin; apply (Rs r Hin)).
    destruct (tprod jp rs) as [pq pt psc] eqn:Et. cbn [rot scl] in Q1, Q2. subst psc. unfold tf_mul, local_tf, tf_point. cbn [rot trans scl joffset jprerot]. f_equal.
    + rewrite <- Q1, !qmul_assoc. reflexivity.
    + rewrite !vscale_1, qrot_add, vadd_assoc. f_equal. destruct (Ht a Ka) as [(T1 & T2 & T3)|Tid].
      * rewrite T1, T2, T3. symmetry. apply qrot_zero.
      * assert (pq = qid) as ->; [|symmetry; apply qrot_id]. rewrite <- (qmul_id_r pq), Q1. apply qcollect_id.
        intros r Hin j Hj. apply (Tid r j); [apply (up_to_between _ _ _ Hu r Hin)|exact Hj].
    + ring.
Qed.

Lemma built_parents b : built n b -> parents_first (sk_parents (sb_joints b)) /\ unit_prerotations (sb_joints b).
Proof.
  intros B. assert (A : forall m jt', nth_error (sb_joints b) m = Some jt' -> exists a jt, is_kept enabled a /\ a < n /\ new_index enabled a = m /\
    nth_error sk a = Some jt /\ joint_for a jt jt').
  { intros m jt' E. pose proof (nth_error_len _ _ _ E) as Lm. rewrite (bu_len _ _ B) in Lm.
    destruct (new_index_onto enabled n m) as (a & Ha & Ka & Ea); [unfold n; lia|exact Lm|]. destruct (nth_error_lt sk a Ha) as [jt Ej].
    destruct (bu_joint _ _ B a jt Ha Ka Ej) as (jt2 & E2 & J). rewrite Ea in E2. assert (jt2 = jt') as -> by congruence. exists a, jt. auto 6. }
  split.
  - intros m p E. unfold sk_parents in E. rewrite nth_error_map in E. destruct (nth_error (sb_joints b) m) as [jt'|] eqn:Em; [|discriminate].
    cbn in E. destruct (A m jt' Em) as (a & jt & Ka & Ha & <- & Ej & [(_ & ->)|(s & rs & ss & sa & Hu & _ & _ & ->)]); cbn [jparent] in E; [discriminate|].
    injection E as <-. apply new_index_lt; [apply (up_to_lt _ _ _ Hu)|unfold n in Ha; lia|apply (up_to_kept _ _ _ Hu)].
  - intros m jt' Em. destruct (A m jt' Em) as (a & jt & Ka & Ha & <- & Ej & [(_ & ->)|(s & rs & ss & sa & Hu & _ & _ & ->)]); cbn [jprerot].
    + apply (U a _ Ej).
    + assert (Q : forall rs, qunit (qcollect rs (jprerot jt))); [|apply Q]. clear - Ej U. induction rs as [|r rs IH]; cbn [qcollect fold_right]; [apply (U a _ Ej)|].
      destruct (nth_error sk r) as [j|] eqn:E; [apply qunit_mul; [apply (U r _ E)|exact IH]|exact IH].
Qed.
End Loop.

(** ** Offsets of the disabled joints *)

Lemma zero_offsets_ok enabled off : (List.length off = 7 * List.length enabled)%nat ->
  exists off', zero_offsets enabled off = Ok off' /\ List.length off' = List.length off /\
    forall a d, (a < List.length enabled)%nat -> (d < 7)%nat ->
      nth (7 * a + d) off' 0%R = if nth a enabled false then 0%R else nth (7 * a + d) off 0%R.
Proof.
  intros L. unfold zero_offsets.
  set (Inv := fun (k : nat) (o : list R) => List.length o = List.length off /\ forall a d, (d < 7)%nat -> (a < List.length enabled)%nat ->
      nth (7 * a + d) o 0%R = if (a <? k)%nat && nth a enabled false then 0%R else nth (7 * a + d) off 0%R).
  match goal with |- context[ofold ?f (seq 0 ?m) off] => destruct (ofold_seq_inv f Inv m off) as (o & E & I) end.
  - split; [reflexivity|]. intros a d _ _. reflexivity.
  - intros k o Hk [I1 I2]. destruct (nth_error_lt enabled k Hk) as [e Ee]. rewrite (rd_some _ _ _ Ee). cbn [obind].
    pose proof (nth_error_nth enabled k false Ee) as Ne. destruct e.
    + set (Inv2 := fun (m : nat) (o2 : list R) => List.length o2 = List.length off /\
        forall i, nth i o2 0%R = if (k * 7 <=? i)%nat && (i <? k * 7 + m)%nat then 0%R else nth i o 0%R).
      match goal with |- context[ofold ?f (seq 0 7) o] => destruct (ofold_seq_inv f Inv2 7 o) as (o2 & E2 & J1 & J2) end.
      * split; [exact I1|]. intros i. destruct (Nat.leb_spec (k * 7) i), (Nat.ltb_spec i (k * 7 + 0)); try reflexivity. lia.
      * intros m o2 Hm [J1 J2]. destruct (Loops.wr_ok o2 (k * 7 + m) 0%R) as (o3 & E3 & L3 & N1 & N2); [lia|]. exists o3. split; [exact E3|]. split; [lia|].
        intros i. destruct (Nat.eq_dec i (k * 7 + m)) as [->|D].
        -- rewrite (nth_error_nth _ _ _ N1). destruct (Nat.leb_spec (k * 7) (k * 7 + m)), (Nat.ltb_spec (k * 7 + m) (k * 7 + S m)); try lia. reflexivity.
        -- assert (EN : nth i o3 0%R = nth i o2 0%R). { specialize (N2 i D). rewrite <- !nth_default_eq. unfold nth_default. rewrite N2. reflexivity. }
           rewrite EN, J2. f_equal. f_equal. destruct (Nat.ltb_spec i (k * 7 + m)), (Nat.ltb_spec i (k * 7 + S m)); reflexivity || lia.
      * exists o2. split; [exact E2|]. split; [exact J1|]. intros a d Hd Ha. rewrite J2, (I2 a d Hd Ha).
        destruct (Nat.eq_dec a k) as [->|D].
        -- rewrite Ne. destruct (Nat.leb_spec (k * 7) (7 * k + d)), (Nat.ltb_spec (7 * k + d) (k * 7 + 7)), (Nat.ltb_spec k (S k)); try lia. reflexivity.
        -- replace ((k * 7 <=? 7 * a + d)%nat && (7 * a + d <? k * 7 + 7)%nat) with false.
           ++ f_equal. f_equal. destruct (Nat.ltb_spec a k), (Nat.ltb_spec a (S k)); reflexivity || lia.
           ++ destruct (Nat.leb_spec (k * 7) (7 * a + d)), (Nat.ltb_spec (7 * a + d) (k * 7 + 7)); try reflexivity. lia.
    + exists o. split; [reflexivity|]. split; [exact I1|]. intros a d Hd Ha. rewrite (I2 a d Hd Ha). destruct (Nat.eq_dec a k) as [->|D].
      * rewrite Ne, !andb_false_r. reflexivity.
      * f_equal. f_equal. destruct (Nat.ltb_spec a k), (Nat.ltb_spec a (S k)); reflexivity || lia.
  - exists o. split; [exact E|]. destruct I as [I1 I2]. split; [exact I1|]. intros a d Ha Hd. rewrite (I2 a d Hd Ha).
    apply Nat.ltb_lt in Ha. rewrite Ha. reflexivity.
Qed.

Lemma apply_zero pt : pt_wf pt -> exists q, pt_apply pt (repeat 0%R (pt_cols pt)) = Ok q /\ List.length q = pt_rows pt /\
  forall r, (r < pt_rows pt)%nat -> nth r q 0%R = nth r (pt_offsets pt) 0%R.
Proof.
  intros W. destruct (apply_affine_lemma pt (repeat 0%R (pt_cols pt)) W) as (q & E & Lq & N); [apply repeat_length|].
  exists q. split; [exact E|]. split; [exact Lq|]. intros r Hr. rewrite (N r Hr), sumn_zero; [ring|].
  intros c _. rewrite (nth_repeat). ring.
Qed.

Lemma jparam_ext p q a b : (forall d, (d < 7)%nat -> nth (7 * a + d) p 0%R = nth (7 * b + d) q 0%R) -> jparam_at p a = jparam_at q b.
Proof. intros H. unfold jparam_at. cbv zeta. f_equal; apply H; lia. Qed.
