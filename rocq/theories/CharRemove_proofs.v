From Coq Require Import Bool Reals List Arith Lia Lra String.
From Verif Require Import Prelude Loops Rbool R3 LinAlg Transform_model Transform_proofs Skeleton_model Skeleton_spec Skeleton_proofs FK_model FK_spec FK_proofs
  ParamTransform_model ParamTransform_spec ParamTransform_proofs ParamTransform_map_proofs Locator_model Skin_model Skin_spec Skin_props Blend_model
  Simplify_model Simplify_spec Simplify_proofs CharUtil_model CharUtil_spec CharRemove_spec.
Import ListNotations.
Local Open Scope nat_scope.

(** ** Numbering *)

Definition nentry (base : nat) (enabled : list bool) (k i : nat) : option nat :=
  if (i <? k) && nth i enabled false then Some (base + new_index enabled i) else None.
Definition nmap (base : nat) (enabled : list bool) (k : nat) : list (option nat) := map (nentry base enabled k) (seq 0 (List.length enabled)).

Lemma is_kept_nth enabled i : is_kept enabled i <-> i < List.length enabled /\ nth i enabled false = true.
Proof.
  unfold is_kept. split.
  - intros H. split; [apply (nth_error_len _ _ _ H)|apply (nth_error_nth _ _ _ H)].
  - intros [H1 H2]. rewrite (nth_error_nth' enabled false H1), H2. reflexivity.
Qed.
Lemma nmap_nth b e k i : i < List.length e -> nth_error (nmap b e k) i = Some (nentry b e k i).
Proof. intros H. unfold nmap. apply map_nth_error. rewrite (nth_error_nth' _ 0) by (rewrite seq_length; exact H). rewrite seq_nth by exact H. reflexivity. Qed.
Lemma nmap_length b e k : List.length (nmap b e k) = List.length e.
Proof. unfold nmap. rewrite map_length, seq_length. reflexivity. Qed.
Lemma nmap_0 b e : nmap b e 0 = repeat None (List.length e).
Proof. unfold nmap. generalize 0 at 2. induction (List.length e) as [|m IH]; intros s; cbn [seq map repeat]; [reflexivity|]. f_equal. apply IH. Qed.
Lemma nmap_wr b e k : is_kept e k -> wr (nmap b e k) k (Some (b + new_index e k)) = Ok (nmap b e (S k)).
Proof.
  intros K. pose proof (proj1 (is_kept_nth _ _) K) as [H Kn].
  destruct (Loops.wr_ok (nmap b e k) k (Some (b + new_index e k))) as (l' & E & Ll & N1 & N2); [rewrite nmap_length; exact H|].
  rewrite E. f_equal. apply nth_error_ext_len; [rewrite Ll, !nmap_length; reflexivity|]. rewrite Ll, nmap_length. intros i Hi.
  rewrite nmap_nth by exact Hi. destruct (Nat.eq_dec i k) as [->|D].
  - rewrite N1. unfold nentry. rewrite Kn. destruct (Nat.ltb_spec k (S k)); [reflexivity|lia].
  - rewrite N2, nmap_nth by assumption. f_equal. unfold nentry. f_equal. f_equal.
    destruct (Nat.ltb_spec i k), (Nat.ltb_spec i (S k)); reflexivity || lia.
Qed.
Lemma nmap_skip b e k : nth k e false = false -> nmap b e (S k) = nmap b e k.
Proof.
  intros H. unfold nmap. apply map_ext_in. intros i _. unfold nentry. destruct (Nat.eq_dec i k) as [->|D].
  - rewrite H, !andb_false_r. reflexivity.
  - f_equal. f_equal. destruct (Nat.ltb_spec i k), (Nat.ltb_spec i (S k)); reflexivity || lia.
Qed.
Lemma nmap_kept b e k i : is_kept e i -> i < k -> nth_error (nmap b e k) i = Some (Some (b + new_index e i)).
Proof.
  intros K Hk. apply is_kept_nth in K as [H K]. rewrite nmap_nth by exact H. unfold nentry. rewrite K. destruct (Nat.ltb_spec i k); [reflexivity|lia].
Qed.
Lemma nmap_inv b e k i j : nth_error (nmap b e k) i = Some (Some j) -> is_kept e i /\ j = b + new_index e i.
Proof.
  intros E. pose proof (nth_error_len _ _ _ E) as H. rewrite nmap_length in H. rewrite nmap_nth in E by exact H. unfold nentry in E.
  destruct (nth i e false) eqn:N; [|rewrite andb_false_r in E; discriminate]. split; [apply is_kept_nth; auto|]. destruct (i <? k); cbn in E; congruence.
Qed.
Lemma nmap_off b e k i : i < List.length e -> ~ is_kept e i -> nth_error (nmap b e k) i = Some None.
Proof.
  intros H K. rewrite nmap_nth by exact H. unfold nentry. destruct (nth i e false) eqn:N; [|rewrite andb_false_r; reflexivity].
  exfalso. apply K, is_kept_nth. auto.
Qed.
Lemma nmap_injective b e k : jmap_injective (nmap b e k).
Proof. intros x y j Hx Hy. apply nmap_inv in Hx as [Kx ->], Hy as [Ky E]. eapply new_index_inj; eauto. lia. Qed.
Lemma kept_dec e i : is_kept e i \/ ~ is_kept e i.
Proof. destruct (nth_error e i) as [[]|] eqn:E; unfold is_kept; rewrite E; auto; right; discriminate. Qed.
Lemma new_index_step e k : k < List.length e -> new_index e (S k) = if nth k e false then S (new_index e k) else new_index e k.
Proof.
  intros H. rewrite (new_index_S e k (nth k e false)) by (apply nth_error_nth'; exact H). destruct (nth k e false); lia.
Qed.
Lemma new_index_bound e i : is_kept e i -> new_index e i < new_index e (List.length e).
Proof. intros K. apply new_index_lt; [apply (nth_error_len _ _ _ K)|lia|exact K]. Qed.

(** ** The flags *)

Lemma flags_ok n : forall js flags, List.length flags = n -> (forall j, In j js -> j < n) ->
  exists flags', ofold (fun j flags => if (j <? n)%nat then wr flags j true else Throw) js flags = Ok flags' /\ List.length flags' = n /\
    forall a, nth_error flags' a = Some true <-> nth_error flags a = Some true \/ In a js.
Proof.
  induction js as [|j js IH]; intros flags L H; cbn [ofold].
  - exists flags. split; [reflexivity|]. split; [exact L|]. intros a. split; [auto|]. intros [X|[]]. exact X.
  - pose proof (H j (or_introl eq_refl)) as Hj. destruct (Nat.ltb_spec j n) as [_|]; [|lia].
    destruct (Loops.wr_ok flags j true) as (f1 & E1 & L1 & N1 & O1); [lia|]. rewrite E1. cbn [obind].
    destruct (IH f1) as (f' & E & L' & A); [lia|intros; apply H; right; assumption|]. exists f'. split; [exact E|]. split; [exact L'|].
    intros a. rewrite A. destruct (Nat.eq_dec a j) as [->|D].
    + rewrite N1. split; [intros _; right; left; reflexivity|auto].
    + rewrite O1 by exact D. split; [intros [X|X]; [auto|right; right; exact X]|intros [X|[X|X]]; [auto|congruence|auto]].
Qed.
Lemma flags_throw n : forall js flags, List.length flags = n -> (exists j, In j js /\ n <= j) ->
  ofold (fun j flags => if (j <? n)%nat then wr flags j true else Throw) js flags = Throw.
Proof.
  induction js as [|j js IH]; intros flags L (k & Hk & Hn); [destruct Hk|]. cbn [ofold]. destruct (Nat.ltb_spec j n) as [Hj|]; [|reflexivity].
  destruct (Loops.wr_ok flags j true) as (f1 & E1 & L1 & _); [lia|]. rewrite E1. cbn [obind]. apply IH; [lia|].
  exists k. split; [|exact Hn]. destruct Hk as [->|Hk]; [lia|exact Hk].
Qed.
Lemma removal_flags_ok n js : (forall j, In j js -> j < n) ->
  exists flags, removal_flags n js = Ok flags /\ List.length flags = n /\ forall a, nth_error flags a = Some true <-> In a js.
Proof.
  intros H. destruct (flags_ok n js (repeat false n)) as (f & E & L & A); [apply repeat_length|exact H|]. exists f. split; [exact E|]. split; [exact L|].
  intros a. rewrite A. split; [|auto]. intros [X|X]; [|exact X]. exfalso. pose proof (nth_error_In _ _ X) as Y. apply repeat_spec in Y. discriminate.
Qed.

Section Sk.
Variable sk : skeleton.
Hypothesis V : valid_sk sk.
Let ps := sk_parents sk.
Let n := List.length sk.

Lemma psn i j : nth_error sk i = Some j -> nth_error ps i = Some (jparent j).
Proof. intros E. unfold ps, sk_parents. rewrite nth_error_map, E. reflexivity. Qed.

Lemma under_removed_ok flags : List.length flags = n -> forall fuel i, i < n -> S i < fuel ->
  exists b, under_removed fuel sk flags (Some i) = Ok b /\ (b = true <-> exists a, ancestor ps i a /\ nth_error flags a = Some true).
Proof.
  intros L. induction fuel as [|fuel IH]; intros i Hi Hf; [lia|]. cbn [under_removed].
  destruct (nth_error_lt flags i) as [b Eb]; [lia|]. rewrite (rd_some _ _ _ Eb). cbn [obind].
  assert (Si : ancestor ps i i) by (apply ancestor_self; unfold ps, sk_parents; rewrite map_length; exact Hi).
  destruct b. { exists true. split; [reflexivity|]. split; [intros _; eauto|auto]. }
  destruct (nth_error_lt sk i Hi) as [jt Ej]. rewrite (rd_some _ _ _ Ej). cbn [obind]. destruct (jparent jt) as [p|] eqn:Ep.
  - pose proof (valid_sk_parent sk i jt p V Ej Ep) as Hp. destruct (IH p) as (b & E & B); [unfold n in *; lia|lia|]. exists b. split; [exact E|].
    rewrite B. split; intros (a & A & F).
    + exists a. split; [|exact F]. eapply ancestor_up; [|exact A]. rewrite (psn _ _ Ej), Ep. reflexivity.
    + apply ancestor_inv in A as [->|(u & Eu & A)]; [congruence|]. rewrite (psn _ _ Ej), Ep in Eu. injection Eu as <-. eauto.
  - exists false. split; [destruct fuel; [lia|reflexivity]|]. split; [discriminate|]. intros (a & A & F).
    apply ancestor_inv in A as [->|(u & Eu & A)]; [congruence|]. rewrite (psn _ _ Ej), Ep in Eu. discriminate.
Qed.

(** The marks as a list. *)
Lemma marks_exist js : exists enabled, marks sk js enabled.
Proof.
  destruct (removal_flags_ok n (filter (fun j => j <? n) js)) as (flags & _ & L & A).
  { intros j Hj. apply filter_In in Hj as [_ Hj]. apply Nat.ltb_lt, Hj. }
  exists (map (fun i => match under_removed (S n) sk flags (Some i) with Ok b => negb b | _ => false end) (seq 0 n)).
  split; [rewrite map_length, seq_length; reflexivity|]. intros i. rewrite is_kept_nth, map_length, seq_length. split.
  - intros [Hi H]. split; [unfold sk_parents; rewrite map_length; exact Hi|]. intros a Ha Hj.
    rewrite (nth_indep _ false (match under_removed (S n) sk flags (Some 0) with Ok b => negb b | _ => false end)) in H by (rewrite map_length, seq_length; exact Hi).
    rewrite (map_nth (fun i => match under_removed (S n) sk flags (Some i) with Ok b => negb b | _ => false end)), seq_nth in H by exact Hi. cbn [Nat.add] in H.
    destruct (under_removed_ok flags L (S n) i Hi ltac:(lia)) as (b & E & B). rewrite E in H.
    assert (b = true); [|subst b; discriminate]. apply B. exists a. split; [exact Ha|]. apply A, filter_In. split; [exact Hj|]. apply Nat.ltb_lt.
    apply ancestor_bounds in Ha as [_ Ha]. unfold ps, sk_parents in Ha. rewrite map_length in Ha. exact Ha.
  - intros [Hi H]. unfold sk_parents in Hi. rewrite map_length in Hi. split; [exact Hi|].
    rewrite (nth_indep _ false (match under_removed (S n) sk flags (Some 0) with Ok b => negb b | _ => false end)) by (rewrite map_length, seq_length; exact Hi).
    rewrite (map_nth (fun i => match under_removed (S n) sk flags (Some i) with Ok b => negb b | _ => false end)), seq_nth by exact Hi. cbn [Nat.add].
    destruct (under_removed_ok flags L (S n) i Hi ltac:(lia)) as (b & E & B). rewrite E. destruct b; [|reflexivity]. exfalso.
    destruct (proj1 B eq_refl) as (a & Ha & F). apply (H a Ha). apply A, filter_In in F. apply F.
Qed.
Lemma stays_parent js i p : stays ps js i -> nth_error ps i = Some (Some p) -> stays ps js p.
Proof.
  intros [Hi H] E. assert (Hp : p < List.length ps) by (pose proof (V i p E); lia). split; [exact Hp|]. intros a Ha. apply H. eapply ancestor_up; eauto.
Qed.

(** ** The joints *)
Variables (js : list nat) (enabled : list bool) (names : list string).
Hypothesis M : marks sk js enabled.
Hypothesis Ln : List.length names = n.

Record kept_joints (k : nat) (joints : skeleton) (nms : list string) : Prop := {
  kj_len : List.length joints = new_index enabled k;
  kj_names : List.length nms = new_index enabled k;
  kj_joint : forall i jt, i < k -> is_kept enabled i -> nth_error sk i = Some jt ->
    nth_error joints (new_index enabled i) = Some (Joint (option_map (new_index enabled) (jparent jt)) (joffset jt) (jprerot jt));
  kj_name : forall i, i < k -> is_kept enabled i -> nth_error nms (new_index enabled i) = nth_error names i
}.

Lemma keep_joints_ok flags : List.length flags = n -> (forall a, nth_error flags a = Some true <-> In a js) ->
  exists joints nms, keep_joints names sk flags = Ok (nmap 0 enabled n, joints, nms) /\ kept_joints n joints nms.
Proof.
  intros Lf A. destruct M as [Le Mk].
  set (P := fun (k : nat) (st : list (option nat) * skeleton * list string) => exists joints nms, st = (nmap 0 enabled k, joints, nms) /\ kept_joints k joints nms).
  assert (exists st, keep_joints names sk flags = Ok st /\ P n st) as (st & E & joints & nms & -> & K); [|eauto].
  unfold keep_joints. fold n. apply (ofold_seq_inv _ P).
  - exists [], []. split; [rewrite nmap_0, Le; reflexivity|]. split; try reflexivity; intros; lia.
  - intros k st Hk (joints & nms & -> & K). fold n. destruct (under_removed_ok flags Lf (S n) k Hk ltac:(lia)) as (b & E & B). rewrite E. cbn [obind].
    assert (Kb : b = negb (nth k enabled false)).
    { destruct (nth k enabled false) eqn:N; cbn [negb].
      - destruct b; [|reflexivity]. destruct (proj1 B eq_refl) as (a & Ha & F). apply A in F.
        destruct (proj1 (Mk k)) as [_ St]; [apply is_kept_nth; split; [unfold n in *; lia|exact N]|]. destruct (St a Ha F).
      - destruct b; [reflexivity|]. exfalso. assert (S' : stays ps js k).
        { split; [unfold ps, sk_parents; rewrite map_length; exact Hk|]. intros a Ha F. assert (false = true); [|discriminate]. apply B. exists a. split; [exact Ha|]. apply A, F. }
        apply Mk, is_kept_nth in S' as [_ S']. congruence. }
    subst b. destruct (nth k enabled false) eqn:N; cbn [negb].
    + assert (Kk : is_kept enabled k) by (apply is_kept_nth; split; [unfold n in *; lia|exact N]).
      rewrite (kj_len _ _ _ K). change (new_index enabled k) with (0 + new_index enabled k) at 1. rewrite (nmap_wr 0 enabled k Kk). cbn [obind].
      destruct (nth_error_lt sk k Hk) as [jt Ej]. rewrite (rd_some _ _ _ Ej). cbn [obind].
      destruct (nth_error_lt names k) as [nm En]; [lia|]. rewrite (rd_some _ _ _ En). cbn [obind].
      assert (Ep : match jparent jt with None => Ok None | Some p => rd (nmap 0 enabled (S k)) p end = Ok (option_map (new_index enabled) (jparent jt))).
      { destruct (jparent jt) as [p|] eqn:Q; [|reflexivity]. pose proof (valid_sk_parent sk k jt p V Ej Q) as Hp.
        assert (Kp : is_kept enabled p) by (apply Mk; eapply stays_parent; [apply Mk, Kk|]; rewrite (psn _ _ Ej), Q; reflexivity).
        rewrite (rd_some _ _ _ (nmap_kept 0 enabled (S k) p Kp ltac:(lia))). reflexivity. }
      rewrite Ep. cbn [obind]. eexists. split; [reflexivity|]. eexists _, _. split; [reflexivity|].
      assert (Lk : k < List.length enabled) by (unfold n in *; lia). pose proof (new_index_step enabled k Lk) as St. rewrite N in St.
      split.
      * rewrite app_length, (kj_len _ _ _ K), St. cbn. lia.
      * rewrite app_length, (kj_names _ _ _ K), St. cbn. lia.
      * intros i jt' Hi Ki Ei. destruct (Nat.eq_dec i k) as [->|D].
        -- assert (jt' = jt) as -> by congruence. rewrite nth_error_app2 by (rewrite (kj_len _ _ _ K); lia). rewrite (kj_len _ _ _ K), Nat.sub_diag. reflexivity.
        -- rewrite nth_error_app1; [apply (kj_joint _ _ _ K); auto; lia|]. rewrite (kj_len _ _ _ K). apply new_index_lt; [lia|lia|exact Ki].
      * intros i Hi Ki. destruct (Nat.eq_dec i k) as [->|D].
        -- rewrite nth_error_app2 by (rewrite (kj_names _ _ _ K); lia). rewrite (kj_names _ _ _ K), Nat.sub_diag, En. reflexivity.
        -- rewrite nth_error_app1; [apply (kj_name _ _ _ K); auto; lia|]. rewrite (kj_names _ _ _ K). apply new_index_lt; [lia|lia|exact Ki].
    + eexists. split; [reflexivity|]. exists joints, nms. split; [rewrite (nmap_skip 0 enabled k N); reflexivity|].
      assert (Lk : k < List.length enabled) by (unfold n in *; lia). pose proof (new_index_step enabled k Lk) as St. rewrite N in St.
      assert (D : forall i, i < S k -> is_kept enabled i -> i < k).
      { intros i Hi Ki. destruct (Nat.eq_dec i k) as [->|]; [|lia]. apply is_kept_nth in Ki as [_ Ki]. congruence. }
      split; rewrite ?St; intros; try apply K; auto.
Qed.

Lemma kept_parents_first joints nms : kept_joints n joints nms -> valid_sk joints.
Proof.
  intros K. destruct M as [Le Mk]. intros m q E. unfold sk_parents in E. rewrite nth_error_map in E. destruct (nth_error joints m) as [jt'|] eqn:Ej; [|discriminate].
  cbn in E. injection E as E. assert (Hm : m < new_index enabled n) by (rewrite <- (kj_len _ _ _ K); apply (nth_error_len _ _ _ Ej)).
  destruct (new_index_onto enabled n m) as (i & Hi & Ki & Ei); [unfold n; lia|exact Hm|].
  destruct (nth_error_lt sk i Hi) as [jt Et]. pose proof (kj_joint _ _ _ K i jt Hi Ki Et) as J. rewrite Ei, Ej in J. injection J as ->. cbn [jparent] in E.
  destruct (jparent jt) as [p|] eqn:Q; [|discriminate]. cbn in E. injection E as <-. rewrite <- Ei.
  assert (Kp : is_kept enabled p) by (apply Mk; eapply stays_parent; [apply Mk, Ki|]; rewrite (psn _ _ Et), Q; reflexivity).
  apply new_index_lt; [apply (valid_sk_parent sk i jt p V Et Q)|unfold n in *; lia|exact Kp].
Qed.

(** ** Up to the nearest joint that stays *)
Lemma climb_mapped_ok : forall fuel i, i < n -> S i < fuel ->
  (exists a, nearest_kept ps enabled i a /\ climb_mapped fuel sk (nmap 0 enabled n) (Some i) = Ok (Some (new_index enabled a))) \/
  ((forall a, ancestor ps i a -> ~ is_kept enabled a) /\ climb_mapped fuel sk (nmap 0 enabled n) (Some i) = Ok None).
Proof.
  destruct M as [Le Mk]. assert (Lps : List.length ps = n) by (unfold ps, sk_parents; apply map_length).
  induction fuel as [|fuel IH]; intros i Hi Hf; [lia|]. cbn [climb_mapped]. destruct (kept_dec enabled i) as [K|K].
  - left. exists i. split.
    + split; [apply ancestor_self; lia|]. auto.
    + rewrite (rd_some _ _ _ (nmap_kept 0 enabled n i K Hi)). reflexivity.
  - rewrite (rd_some _ _ _ (nmap_off 0 enabled n i ltac:(unfold n in *; lia) K)). cbn [obind].
    destruct (nth_error_lt sk i Hi) as [jt Ej]. rewrite (rd_some _ _ _ Ej). cbn [obind]. destruct (jparent jt) as [p|] eqn:Q.
    + pose proof (valid_sk_parent sk i jt p V Ej Q) as Hp. assert (Ep : nth_error ps i = Some (Some p)) by (rewrite (psn _ _ Ej), Q; reflexivity).
      destruct (IH p) as [(a & (A1 & A2 & A3) & E)|(A & E)]; [lia|lia| |].
      * left. exists a. split; [|exact E]. split; [eapply ancestor_up; eauto|]. split; [exact A2|]. intros b Hb Kb.
        apply ancestor_inv in Hb as [->|(u & Eu & Hb)]; [contradiction|]. apply A3; [congruence|exact Kb].
      * right. split; [|exact E]. intros a Ha. apply ancestor_inv in Ha as [->|(u & Eu & Ha)]; [exact K|]. apply A. congruence.
    + right. split; [|destruct fuel; [lia|reflexivity]]. intros a Ha. apply ancestor_inv in Ha as [->|(u & Eu & Ha)]; [exact K|].
      rewrite (psn _ _ Ej), Q in Eu. discriminate.
Qed.
Lemma climb_all_ok : exists up, climb_all sk (nmap 0 enabled n) = Ok up /\ List.length up = n /\
  forall i, i < n -> (exists a, nearest_kept ps enabled i a /\ nth_error up i = Some (Some (new_index enabled a))) \/
    ((forall a, ancestor ps i a -> ~ is_kept enabled a) /\ nth_error up i = Some None).
Proof.
  set (P := fun (k : nat) (up : list (option nat)) => List.length up = k /\
    forall i, i < k -> (exists a, nearest_kept ps enabled i a /\ nth_error up i = Some (Some (new_index enabled a))) \/
    ((forall a, ancestor ps i a -> ~ is_kept enabled a) /\ nth_error up i = Some None)).
  assert (exists up, climb_all sk (nmap 0 enabled n) = Ok up /\ P n up) as (up & E & L & N); [|eauto].
  unfold climb_all. fold n. apply (ofold_seq_inv _ P).
  - split; [reflexivity|]. intros i Hi. lia.
  - intros k up Hk (L & N). fold n.
    assert (exists m, climb_mapped (S n) sk (nmap 0 enabled n) (Some k) = Ok m /\ ((exists a, nearest_kept ps enabled k a /\ m = Some (new_index enabled a)) \/
       ((forall a, ancestor ps k a -> ~ is_kept enabled a) /\ m = None))) as (m & E & D).
    { destruct (climb_mapped_ok (S n) k Hk ltac:(lia)) as [(a & A & E)|(A & E)]; eexists; (split; [exact E|]); eauto. }
    rewrite E. cbn [obind]. eexists. split; [reflexivity|]. split; [rewrite app_length, L; cbn; lia|].
    intros i Hi. destruct (Nat.eq_dec i k) as [->|X].
    + rewrite nth_error_app2 by lia. rewrite L, Nat.sub_diag. cbn [nth_error]. destruct D as [(a & A & ->)|(A & ->)]; eauto.
    + rewrite nth_error_app1 by lia. apply N. lia.
Qed.

End Sk.

(** ** The parameters *)

Definition drives_mapped (pt : ptransform) (jmap : list (option nat)) (c : nat) : Prop :=
  exists e j, In e (pt_entries pt) /\ ecol e = c /\ nth_error jmap (erow e / 7) = Some (Some j).

Lemma mark_cols C : forall (l : list entry) valid, List.length valid = C -> (forall e, In e l -> ecol e < C) ->
  exists valid', ofold (fun e valid => wr valid (ecol e) true) l valid = Ok valid' /\ List.length valid' = C /\
    forall c, is_kept valid' c <-> is_kept valid c \/ exists e, In e l /\ ecol e = c.
Proof.
  induction l as [|e l IH]; intros valid L H; cbn [ofold].
  - exists valid. split; [reflexivity|]. split; [exact L|]. intros c. split; [auto|]. intros [X|(e & [] & _)]. exact X.
  - destruct (Loops.wr_ok valid (ecol e) true) as (v1 & E1 & L1 & N1 & O1); [rewrite L; apply H; left; reflexivity|]. rewrite E1. cbn [obind].
    destruct (IH v1) as (v' & E & L' & A); [lia|intros; apply H; right; assumption|]. exists v'. split; [exact E|]. split; [exact L'|].
    intros c. rewrite A. unfold is_kept. destruct (Nat.eq_dec c (ecol e)) as [->|D].
    + rewrite N1. split; [intros _; right; exists e; split; [left|]; reflexivity|auto].
    + rewrite O1 by exact D. split; [intros [X|(e0 & X & Y)]; [auto|right; exists e0; split; [right|]; assumption]|].
      intros [X|(e0 & [<-|X] & Y)]; [auto|congruence|eauto].
Qed.

Lemma row_entries_in pt r e : In e (row_entries pt r) <-> In e (pt_entries pt) /\ erow e = r.
Proof. unfold row_entries. rewrite filter_In, Nat.eqb_eq. reflexivity. Qed.

Section Add.
Variables (pt : ptransform) (jmap : list (option nat)).
Hypothesis W : pt_wf pt.
Hypothesis Rows : pt_rows pt = 7 * List.length jmap.

Lemma jrow r : r < pt_rows pt -> exists m, nth_error jmap (r / 7) = Some m.
Proof. intros H. apply nth_error_lt. apply Nat.div_lt_upper_bound; lia. Qed.

Lemma used_params_ok : exists valid, used_params pt jmap = Ok valid /\ List.length valid = pt_cols pt /\ forall c, is_kept valid c <-> drives_mapped pt jmap c.
Proof.
  set (P := fun (k : nat) (valid : list bool) => List.length valid = pt_cols pt /\
    forall c, is_kept valid c <-> exists e j, In e (pt_entries pt) /\ ecol e = c /\ erow e < k /\ nth_error jmap (erow e / 7) = Some (Some j)).
  assert (exists valid, used_params pt jmap = Ok valid /\ P (pt_rows pt) valid) as (valid & E & L & N).
  - unfold used_params. apply (ofold_seq_inv _ P).
    + split; [apply repeat_length|]. intros c. split.
      * intros K. apply nth_error_In, repeat_spec in K. discriminate.
      * intros (e & j & _ & _ & H & _). lia.
    + intros k valid Hk (L & N). destruct (jrow k Hk) as [m Em]. rewrite (rd_some _ _ _ Em). cbn [obind]. destruct m as [j|].
      * destruct (mark_cols (pt_cols pt) (row_entries pt k) valid L) as (v' & E & L' & A).
        { intros e He. apply row_entries_in in He as [He _]. apply (wf_entries pt W e He). }
        exists v'. split; [exact E|]. split; [exact L'|]. intros c. rewrite A, N. split.
        -- intros [(e & j' & H1 & H2 & H3 & H4)|(e & H1 & H2)]; [exists e, j'; repeat split; auto|].
           apply row_entries_in in H1 as [H1 Hr]. exists e, j. rewrite Hr. repeat split; auto.
        -- intros (e & j' & H1 & H2 & H3 & H4). destruct (Nat.eq_dec (erow e) k) as [Er|].
           ++ right. exists e. split; [apply row_entries_in; auto|exact H2].
           ++ left. exists e, j'. repeat split; auto. lia.
      * exists valid. split; [reflexivity|]. split; [exact L|]. intros c. rewrite N. split; intros (e & j' & H1 & H2 & H3 & H4); exists e, j'; repeat split; auto.
        destruct (Nat.eq_dec (erow e) k) as [Er|]; [|lia]. rewrite Er, Em in H4. discriminate.
  - exists valid. split; [exact E|]. split; [exact L|]. intros c. rewrite N. split; intros (e & j & H1 & H2 & H3).
    + exists e, j. destruct H3. auto.
    + exists e, j. repeat split; auto. apply (wf_entries pt W e H1).
Qed.

(** The names of the marked parameters. *)
Definition kept_names (nms : list string) (valid : list bool) : list string :=
  map (fun i => nth i nms EmptyString) (filter (fun i => nth i valid false) (seq 0 (List.length valid))).
Lemma kept_count valid k : k <= List.length valid -> List.length (filter (fun i => nth i valid false) (seq 0 k)) = new_index valid k.
Proof.
  induction k as [|k IH]; intros H; [reflexivity|]. rewrite seq_S, filter_app, app_length, IH, new_index_step by lia. cbn [Nat.add filter].
  destruct (nth k valid false); cbn; lia.
Qed.
Lemma kept_names_length nms valid : List.length (kept_names nms valid) = new_index valid (List.length valid).
Proof. unfold kept_names. rewrite map_length. apply kept_count. lia. Qed.
Lemma filter_at valid i k : is_kept valid i -> i < k -> k <= List.length valid -> nth_error (filter (fun i => nth i valid false) (seq 0 k)) (new_index valid i) = Some i.
Proof.
  intros K. induction k as [|k IH]; intros Hi Hk; [lia|]. rewrite seq_S, filter_app. cbn [Nat.add filter].
  destruct (Nat.eq_dec i k) as [->|D].
  - apply is_kept_nth in K as [_ K]. rewrite K. rewrite nth_error_app2, kept_count, Nat.sub_diag by (rewrite ?kept_count; lia). reflexivity.
  - rewrite nth_error_app1; [apply IH; lia|]. rewrite kept_count by lia. apply new_index_lt; [lia|lia|exact K].
Qed.
Lemma kept_names_at nms valid i : is_kept valid i -> i < List.length nms -> nth_error (kept_names nms valid) (new_index valid i) = nth_error nms i.
Proof.
  intros K H. unfold kept_names. rewrite nth_error_map. pose proof (nth_error_len _ _ _ K).
  rewrite (filter_at valid i (List.length valid) K) by lia. cbn [option_map]. symmetry. apply nth_error_nth'. exact H.
Qed.

Lemma number_params_ok valid names : List.length valid = pt_cols pt -> (forall c nm, is_kept valid c -> nth_error (pt_name pt) c = Some nm -> ~ In nm names) ->
  number_params pt valid names = Ok (nmap (List.length names) valid (pt_cols pt), names ++ kept_names (pt_name pt) valid).
Proof.
  intros L F. set (b := List.length names).
  set (P := fun (k : nat) (st : list (option nat) * list string) =>
    st = (nmap b valid k, names ++ map (fun i => nth i (pt_name pt) EmptyString) (filter (fun i => nth i valid false) (seq 0 k)))).
  assert (exists st, number_params pt valid names = Ok st /\ P (pt_cols pt) st) as (st & E & ->); [|rewrite E; unfold kept_names; rewrite L; reflexivity].
  unfold number_params. apply (ofold_seq_inv _ P).
  - unfold P. rewrite nmap_0, L, app_nil_r. reflexivity.
  - intros k st Hk ->. cbn [fst snd]. rewrite (rd_some valid k (nth k valid false)) by (apply nth_error_nth'; lia). cbn [obind].
    destruct (nth k valid false) eqn:N; cbn [negb].
    + assert (K : is_kept valid k) by (apply is_kept_nth; split; [lia|exact N]).
      assert (En : nth_error (pt_name pt) k = Some (nth k (pt_name pt) EmptyString)) by (apply nth_error_nth'; rewrite (wf_names pt W); exact Hk).
      rewrite (rd_some _ _ _ En). cbn [obind]. destruct (existsb (String.eqb _) names) eqn:X.
      { exfalso. apply existsb_exists in X as (x & Hx & Ex). apply String.eqb_eq in Ex. subst x. apply (F k _ K En Hx). }
      rewrite app_length, map_length, kept_count by lia. fold b. rewrite (nmap_wr b valid k K). cbn [obind]. eexists. split; [reflexivity|].
      unfold P. rewrite seq_S, filter_app, map_app. cbn [Nat.add filter]. rewrite N. cbn [map]. rewrite app_assoc. reflexivity.
    + eexists. split; [reflexivity|]. unfold P. rewrite (nmap_skip b valid k N), seq_S, filter_app. cbn [Nat.add filter]. rewrite N, app_nil_r. reflexivity.
Qed.
Lemma number_params_throw valid names c nm : List.length valid = pt_cols pt -> is_kept valid c -> nth_error (pt_name pt) c = Some nm -> In nm names ->
  number_params pt valid names = Throw.
Proof.
  intros L K En Hn. assert (Hc : c < pt_cols pt) by (rewrite <- L; apply (nth_error_len _ _ _ K)).
  set (P := fun (k : nat) (r : outcome (list (option nat) * list string)) => r = Throw \/ exists mp l, r = Ok (mp, l) /\ List.length mp = pt_cols pt /\ k <= c).
  unfold number_params. set (f := fun i (st : list (option nat) * list string) => _).
  assert (H : forall k, k <= pt_cols pt -> P k (ofold f (seq 0 k) (repeat None (pt_cols pt), names))).
  { induction k as [|k IH]; intros Hk.
    - right. eexists _, _. split; [reflexivity|]. split; [apply repeat_length|lia].
    - rewrite seq_S, ofold_app. destruct (IH ltac:(lia)) as [->|(mp & l & -> & Lm & Kc)]; [left; reflexivity|]. cbn [obind Nat.add ofold].
      assert (S1 : P (S k) (f k (mp, l))); [|destruct S1 as [S1|(mp' & l' & S1 & S2)]; rewrite S1; [left; reflexivity|right; exists mp', l'; auto]].
      unfold f. cbn [fst snd]. rewrite (rd_some valid k (nth k valid false)) by (apply nth_error_nth'; lia). cbn [obind].
      destruct (nth k valid false) eqn:N; cbn [negb].
      + assert (Ek : nth_error (pt_name pt) k = Some (nth k (pt_name pt) EmptyString)) by (apply nth_error_nth'; rewrite (wf_names pt W); lia).
        rewrite (rd_some _ _ _ Ek). cbn [obind]. destruct (existsb (String.eqb _) names) eqn:X; [left; reflexivity|].
        destruct (Loops.wr_ok mp k (Some (List.length l))) as (m1 & E1 & L1 & _); [lia|]. rewrite E1. cbn [obind]. right. eexists _, _. split; [reflexivity|]. split; [lia|].
        destruct (Nat.eq_dec k c) as [->|]; [|lia]. exfalso. rewrite En in Ek. injection Ek as Ek.
        assert (existsb (String.eqb (nth c (pt_name pt) EmptyString)) names = true); [|congruence]. apply existsb_exists. exists nm. split; [exact Hn|]. rewrite <- Ek. apply String.eqb_refl.
      + right. eexists _, _. split; [reflexivity|]. split; [exact Lm|]. destruct (Nat.eq_dec k c) as [->|]; [|lia]. apply is_kept_nth in K as [_ K]. congruence. }
  destruct (H (pt_cols pt) (le_n _)) as [E|(mp & l & _ & _ & X)]; [exact E|lia].
Qed.

(** The stored entries in closed form. *)
Variables (valid : list bool) (base nT : nat).
Hypothesis Lv : List.length valid = pt_cols pt.
Hypothesis Mv : forall c, is_kept valid c <-> drives_mapped pt jmap c.
Hypothesis Rng : forall a j, nth_error jmap a = Some (Some j) -> j < nT.
Definition row_new (r : nat) : list entry :=
  match nth_error jmap (r / 7) with
  | Some (Some j) => map (fun e => Entry (7 * j + r mod 7) (base + new_index valid (ecol e)) (eval e)) (row_entries pt r)
  | _ => []
  end.
Lemma mapped_entries_ok old : mapped_entries pt jmap (nmap base valid (pt_cols pt)) (nT * 7) old = Ok (old ++ flat_map row_new (seq 0 (pt_rows pt))).
Proof.
  set (P := fun (k : nat) (es : list entry) => es = old ++ flat_map row_new (seq 0 k)).
  assert (exists es, mapped_entries pt jmap (nmap base valid (pt_cols pt)) (nT * 7) old = Ok es /\ P (pt_rows pt) es) as (es & E & ->); [|exact E].
  unfold mapped_entries. apply (ofold_seq_inv _ P); [unfold P; cbn; rewrite app_nil_r; reflexivity|].
  intros k es Hk ->. destruct (jrow k Hk) as [m Em]. rewrite (rd_some _ _ _ Em). cbn [obind]. unfold P. rewrite seq_S, flat_map_app. cbn [Nat.add flat_map]. rewrite app_nil_r.
  assert (Ern : row_new k = match m with Some j => map (fun e => Entry (7 * j + k mod 7) (base + new_index valid (ecol e)) (eval e)) (row_entries pt k) | None => [] end) by (unfold row_new; rewrite Em; reflexivity).
  rewrite Ern. destruct m as [j|]; [|rewrite !app_nil_r; eauto].
  assert (Hr : j * 7 + k mod 7 < nT * 7) by (pose proof (Rng _ _ Em); pose proof (Nat.mod_upper_bound k 7 ltac:(lia)); lia).
  assert (G : forall l es, (forall e, In e l -> is_kept valid (ecol e)) ->
    ofold (fun e triplets => obind (rd (nmap base valid (pt_cols pt)) (ecol e)) (fun o => match o with
        | None => Ok triplets
        | Some c => if (j * 7 + k mod 7 <? nT * 7)%nat then Ok (triplets ++ [Entry (j * 7 + k mod 7) c (eval e)]) else CheckFail
        end)) l es = Ok (es ++ map (fun e => Entry (7 * j + k mod 7) (base + new_index valid (ecol e)) (eval e)) l)).
  { induction l as [|e l IH]; intros es H; cbn [ofold map]; [rewrite app_nil_r; reflexivity|].
    pose proof (H e (or_introl eq_refl)) as Ke. rewrite (rd_some _ _ _ (nmap_kept base valid (pt_cols pt) (ecol e) Ke ltac:(rewrite <- Lv; apply (nth_error_len _ _ _ Ke)))). cbn [obind].
    destruct (Nat.ltb_spec (j * 7 + k mod 7) (nT * 7)) as [_|]; [|lia]. cbn [obind]. rewrite IH by (intros; apply H; right; assumption).
    rewrite <- app_assoc. cbn [app]. replace (j * 7 + k mod 7) with (7 * j + k mod 7) by lia. reflexivity. }
  eexists. split; [apply G|rewrite app_assoc; reflexivity]. intros e He. apply row_entries_in in He as [He Hr']. apply Mv. exists e, j. rewrite Hr'. auto.
Qed.

Local Open Scope R_scope.
Hypothesis Inj : jmap_injective jmap.
Lemma row_dot_app a b q r : row_dot (a ++ b) q r = row_dot a q r + row_dot b q r.
Proof. unfold row_dot. rewrite map_app. apply rsum_app. Qed.
Lemma row_dot_none es q r : (forall e, In e es -> erow e <> r) -> row_dot es q r = 0.
Proof. intros H. apply rsum_map_zero. intros e He. destruct (Nat.eqb_spec (erow e) r) as [X|]; [destruct (H e He X)|reflexivity]. Qed.
Lemma row_dot_flat h l q r : row_dot (flat_map h l) q r = rsum (map (fun k : nat => row_dot (h k) q r) l).
Proof. induction l as [|x l IH]; [reflexivity|]. cbn [flat_map map rsum]. rewrite row_dot_app, IH. reflexivity. Qed.

Lemma row_new_rows k e : In e (row_new k) -> exists j, nth_error jmap (k / 7) = Some (Some j) /\ erow e = (7 * j + k mod 7)%nat.
Proof. unfold row_new. destruct (nth_error jmap (k / 7)) as [[j|]|]; try (intros []). intros H. apply in_map_iff in H as (x & <- & _). exists j. auto. Qed.

Lemma new_row_dot q q' a j d : (forall c, is_kept valid c -> nth (base + new_index valid c) q' 0 = nth c q 0) ->
  nth_error jmap a = Some (Some j) -> (d < 7)%nat ->
  row_dot (flat_map row_new (seq 0 (pt_rows pt))) q' (7 * j + d) = row_dot (pt_entries pt) q (7 * a + d).
Proof.
  intros Q Ea Hd. destruct (div7 a d Hd) as [D1 D2]. pose proof (nth_error_len _ _ _ Ea) as La. rewrite row_dot_flat.
  change (rsum (map (fun k => row_dot (row_new k) q' (7 * j + d)) (seq 0 (pt_rows pt)))) with (sumn (pt_rows pt) (fun k => row_dot (row_new k) q' (7 * j + d))).
  rewrite (sumn_single _ (7 * a + d)); [|lia|].
  - unfold row_new. rewrite D1, Ea, D2. unfold row_dot, row_entries. rewrite map_map. cbn [erow ecol eval].
    assert (G : forall l, (forall e, In e l -> In e (pt_entries pt)) ->
      rsum (map (fun x => if (7 * j + d =? 7 * j + d)%nat then eval x * nth (base + new_index valid (ecol x)) q' 0 else 0) (filter (fun e => (erow e =? 7 * a + d)%nat) l)) =
      rsum (map (fun e => if (erow e =? 7 * a + d)%nat then eval e * nth (ecol e) q 0 else 0) l)).
    { induction l as [|e l IH]; intros H; [reflexivity|]. cbn [filter map rsum]. destruct (Nat.eqb_spec (erow e) (7 * a + d)) as [Er|Er].
      - cbn [map rsum]. rewrite IH by (intros; apply H; right; assumption). rewrite Nat.eqb_refl. rewrite Q; [reflexivity|].
        apply Mv. exists e, j. split; [apply H; left; reflexivity|]. rewrite Er, D1. auto.
      - rewrite IH by (intros; apply H; right; assumption). ring. }
    apply G. auto.
  - intros k Hk Nk. apply row_dot_none. intros e He Er. apply row_new_rows in He as (j' & Ej & Ee). apply Nk.
    pose proof (Nat.mod_upper_bound k 7 ltac:(lia)). assert (j' = j) by lia. subst j'. assert (k mod 7 = d)%nat by lia.
    pose proof (Inj _ _ _ Ej Ea). pose proof (Nat.div_mod k 7 ltac:(lia)). lia.
Qed.
Lemma new_row_none q' j d : (forall a, nth_error jmap a <> Some (Some j)) -> (d < 7)%nat -> row_dot (flat_map row_new (seq 0 (pt_rows pt))) q' (7 * j + d) = 0.
Proof.
  intros H Hd. apply row_dot_none. intros e He Er. apply in_flat_map in He as (k & _ & He). apply row_new_rows in He as (j' & Ej & Ee).
  pose proof (Nat.mod_upper_bound k 7 ltac:(lia)). assert (j' = j) by lia. subst j'. destruct (H _ Ej).
Qed.
Lemma new_cols e : In e (flat_map row_new (seq 0 (pt_rows pt))) -> exists c, is_kept valid c /\ ecol e = (base + new_index valid c)%nat.
Proof.
  intros He. apply in_flat_map in He as (k & _ & He). unfold row_new in He. destruct (nth_error jmap (k / 7)) as [[j|]|] eqn:Ek; try destruct He.
  apply in_map_iff in He as (x & <- & Hx). apply row_entries_in in Hx as [Hx Hr]. exists (ecol x). split; [|reflexivity]. apply Mv. exists x, j. rewrite Hr. auto.
Qed.
End Add.

(** ** Sets, parents, limits and weights *)

Lemma set_bit_in nm k : forall sets nm' i, in_set (set_bit sets nm k) nm' i <-> in_set sets nm' i \/ (nm' = nm /\ i = k).
Proof.
  induction sets as [|[n s] sets IH]; intros nm' i; cbn [set_bit].
  - split; [intros (x & [E|[]] & X); injection E as <- <-; right; split; [reflexivity|]; apply Nat.eqb_eq, X|].
    intros [(x & [] & _)|[-> ->]]. eexists. split; [left; reflexivity|]. apply Nat.eqb_refl.
  - destruct (String.eqb_spec n nm) as [->|D].
    + split.
      * intros (x & [E|H] & X); [|left; exists x; split; [right|]; assumption]. injection E as <- <-. apply orb_true_iff in X as [X|X].
        -- right. split; [reflexivity|]. apply Nat.eqb_eq, X.
        -- left. exists s. split; [left; reflexivity|exact X].
      * intros [(x & [E|H] & X)|[-> ->]].
        -- injection E as <- <-. eexists. split; [left; reflexivity|]. cbn. rewrite X. apply orb_true_r.
        -- exists x. split; [right; exact H|exact X].
        -- eexists. split; [left; reflexivity|]. cbn. rewrite Nat.eqb_refl. reflexivity.
    + split.
      * intros (x & [E|H] & X); [left; exists x; split; [left|]; assumption|].
        destruct (proj1 (IH nm' i)) as [(y & H1 & H2)|H1]; [exists x; auto|left; exists y; split; [right|]; assumption|right; exact H1].
      * intros [(x & [E|H] & X)|H].
        -- exists x. split; [left|]; assumption.
        -- destruct (proj2 (IH nm' i)) as (y & H1 & H2); [left; exists x; auto|exists y; split; [right|]; assumption].
        -- destruct (proj2 (IH nm' i)) as (y & H1 & H2); [right; exact H|exists y; split; [right|]; assumption].
Qed.

Lemma mapped_sets_ok pt valid base : List.length valid = pt_cols pt -> pt_cols pt <= kMaxModelParams -> base + new_index valid (List.length valid) <= kMaxModelParams -> forall sets,
  exists sets', mapped_sets pt (nmap base valid (pt_cols pt)) sets = Ok sets' /\
    forall nm k, in_set sets' nm k <-> in_set sets nm k \/ exists i, in_set (pt_sets pt) nm i /\ is_kept valid i /\ k = base + new_index valid i.
Proof.
  intros L Hm Hb. unfold mapped_sets. induction (pt_sets pt) as [|x l IH]; intros sets; cbn [ofold].
  - exists sets. split; [reflexivity|]. intros nm k. split; [auto|]. intros [H|(i & (s & [] & _) & _)]. exact H.
  - match goal with |- context [ofold ?g (seq 0 (pt_cols pt)) sets] => set (f := g) end.
    assert (Step : forall m s0, m <= pt_cols pt -> exists s1, ofold f (seq 0 m) s0 = Ok s1 /\
      forall nm k, in_set s1 nm k <-> in_set s0 nm k \/ exists i, i < m /\ nm = fst x /\ snd x i = true /\ is_kept valid i /\ k = base + new_index valid i).
    { induction m as [|m IHm]; intros s0 Hle.
      - exists s0. split; [reflexivity|]. intros nm k. split; [auto|]. intros [H|(i & H & _)]; [exact H|lia].
      - rewrite seq_S, ofold_app. destruct (IHm s0 ltac:(lia)) as (s1 & E & A). rewrite E. cbn [obind ofold Nat.add].
        assert (Fs : exists s2, f m s1 = Ok s2 /\ forall nm k, in_set s2 nm k <-> in_set s1 nm k \/ (nm = fst x /\ snd x m = true /\ is_kept valid m /\ k = base + new_index valid m)).
        { unfold f. destruct (Nat.ltb_spec m kMaxModelParams) as [_|]; [|lia]. cbn [negb]. destruct (snd x m) eqn:Sx; cbn [negb].
          - destruct (kept_dec valid m) as [K|K].
            + rewrite (rd_some _ _ _ (nmap_kept base valid (pt_cols pt) m K Hle)). cbn [obind]. pose proof (new_index_bound valid m K).
              destruct (Nat.ltb_spec (base + new_index valid m) kMaxModelParams) as [_|]; [|lia]. cbn [negb]. eexists. split; [reflexivity|].
              intros nm k. rewrite set_bit_in. split; intros [X|X]; auto; right; [destruct X; auto|destruct X as (? & _ & _ & ?); auto].
            + rewrite (rd_some _ _ _ (nmap_off base valid (pt_cols pt) m ltac:(lia) K)). cbn [obind]. exists s1. split; [reflexivity|].
              intros nm k. split; [auto|]. intros [H|(_ & _ & H & _)]; [exact H|destruct (K H)].
          - exists s1. split; [reflexivity|]. intros nm k. split; [auto|]. intros [H|(_ & H & _)]; [exact H|discriminate]. }
        destruct Fs as (s2 & E2 & A2). rewrite E2. exists s2. split; [reflexivity|]. intros nm k. rewrite A2, A. split.
        + intros [[H|(i & Hi & H)]|H]; [auto|right; exists i; split; [lia|exact H]|right; exists m; split; [lia|exact H]].
        + intros [H|(i & Hi & H)]; [auto|]. destruct (Nat.eq_dec i m) as [->|]; [right; exact H|left; right; exists i; split; [lia|exact H]]. }
    destruct (Step (pt_cols pt) sets (le_n _)) as (s1 & E1 & A1). rewrite E1. cbn [obind]. destruct (IH s1) as (s2 & E2 & A2). exists s2. split; [exact E2|].
    intros nm k. rewrite A2, A1. split.
    + intros [[H|(i & Hi & -> & Sx & K & Ek)]|(i & (s & Hs & Si) & K & Ek)]; [auto| |].
      * right. exists i. split; [exists (snd x); split; [left; destruct x|]; auto|]. auto.
      * right. exists i. split; [exists s; split; [right|]; assumption|]. auto.
    + intros [H|(i & (s & [Hs|Hs] & Si) & K & Ek)]; [auto| |].
      * left. right. subst x. exists i. split; [rewrite <- L; apply (nth_error_len _ _ _ K)|]. auto.
      * right. exists i. split; [exists s; split; assumption|]. auto.
Qed.

Definition mapped_to (jmap : list (option nat)) (j : nat) : bool := match nth_error jmap j with Some (Some _) => true | _ => false end.
Definition parent_mapped {A} (parent : A -> option nat) (jmap : list (option nat)) (x : A) : bool :=
  match parent x with Some p => mapped_to jmap p | None => false end.

Lemma map_parents_ok {A} (parent : A -> option nat) with_parent jmap : forall l,
  (forall x, In x l -> exists p, parent x = Some p /\ p < List.length jmap) ->
  exists l', map_parents parent with_parent jmap l = Ok l' /\
    Forall2 (fun x x' => exists p k, parent x = Some p /\ nth_error jmap p = Some (Some k) /\ x' = with_parent x k) (filter (parent_mapped parent jmap) l) l'.
Proof.
  intros l H. unfold map_parents. match goal with |- context [ofold ?g l []] => set (f := g) end.
  assert (G : forall l acc, (forall x, In x l -> exists p, parent x = Some p /\ p < List.length jmap) -> exists l', ofold f l acc = Ok (acc ++ l') /\
    Forall2 (fun x x' => exists p k, parent x = Some p /\ nth_error jmap p = Some (Some k) /\ x' = with_parent x k) (filter (parent_mapped parent jmap) l) l').
  { clear l H. induction l as [|x l IH]; intros acc H; cbn [ofold filter]; [exists []; rewrite app_nil_r; split; [reflexivity|constructor]|].
    destruct (H x (or_introl eq_refl)) as (p & Ep & Hp). destruct (nth_error_lt jmap p Hp) as [m Em].
    unfold f at 1. rewrite Ep, Em. unfold parent_mapped at 1. rewrite Ep. unfold mapped_to. rewrite Em. destruct m as [k|]; cbn [obind].
    - destruct (IH (acc ++ [with_parent x k])) as (l' & E & F); [intros; apply H; right; assumption|]. exists (with_parent x k :: l'). rewrite E, <- app_assoc. split; [reflexivity|].
      constructor; [exists p, k; auto|exact F].
    - destruct (IH acc) as (l' & E & F); [intros; apply H; right; assumption|]. exists l'. auto. }
  destruct (G l [] H) as (l' & E & F). exists l'. auto.
Qed.

Definition limit_mapped (jmap pmap : list (option nat)) (l : flimit) : bool :=
  forallb (mapped_to jmap) (limit_joints (ldata (fl_limit l))) && forallb (mapped_to pmap) (limit_params (ldata (fl_limit l))).
Definition limit_to (jmap pmap : list (option nat)) (l l' : flimit) : Prop :=
  (exists d, limit_moved (fun j k => nth_error jmap j = Some (Some k)) (ldata (fl_limit l)) d /\
     limit_renamed (fun i k => nth_error pmap i = Some (Some k)) d (ldata (fl_limit l'))) /\
  lweight (fl_limit l') = lweight (fl_limit l) /\ fl_map l' = fl_map l /\ fl_inv l' = fl_inv l /\ fl_offset l' = fl_offset l.

Lemma map_limit_ok jmap pmap l : (forall j, In j (limit_joints (ldata (fl_limit l))) -> j < List.length jmap) ->
  (forall i, In i (limit_params (ldata (fl_limit l))) -> i < List.length pmap) ->
  exists o, map_limit jmap pmap l = Ok o /\ match o with Some l' => limit_mapped jmap pmap l = true /\ limit_to jmap pmap l l' | None => limit_mapped jmap pmap l = false end.
Proof.
  intros HJ HP. unfold map_limit, limit_mapped, limit_to.
  destruct (ldata (fl_limit l)) as [p lo hi|j p lo hi|j p lo hi|r t sc off a b|e p|p q n1 n2 off] eqn:D; cbn [limit_joints limit_params forallb] in *; unfold mapped_to.
  all: repeat match goal with
    | H : forall i, _ -> i < List.length ?mm |- context [rd ?mm ?i] => let m := fresh "m" in let E := fresh "E" in
        destruct (nth_error_lt mm i (H i ltac:(cbn; tauto))) as [m E]; rewrite (rd_some _ _ _ E), ?E; cbn [obind]
    end.
  all: eexists; split; [reflexivity|]; repeat match goal with m : option nat |- _ => destruct m; cbn [option_map andb] end; try reflexivity.
  all: split; [reflexivity|]; cbn [fl_limit fl_map fl_inv fl_offset ldata lweight]; split; [|auto].
  all: eexists; split; econstructor; eassumption.
Qed.
Lemma map_limits_ok jmap pmap ls : (forall l j, In l ls -> In j (limit_joints (ldata (fl_limit l))) -> j < List.length jmap) ->
  (forall l i, In l ls -> In i (limit_params (ldata (fl_limit l))) -> i < List.length pmap) ->
  exists ls', map_limits jmap pmap ls = Ok ls' /\ Forall2 (limit_to jmap pmap) (filter (limit_mapped jmap pmap) ls) ls'.
Proof.
  unfold map_limits. match goal with |- context [ofold ?g ls []] => set (f := g) end.
  assert (G : forall ls acc, (forall l j, In l ls -> In j (limit_joints (ldata (fl_limit l))) -> j < List.length jmap) ->
    (forall l i, In l ls -> In i (limit_params (ldata (fl_limit l))) -> i < List.length pmap) ->
    exists ls', ofold f ls acc = Ok (acc ++ ls') /\ Forall2 (limit_to jmap pmap) (filter (limit_mapped jmap pmap) ls) ls').
  { clear ls. induction ls as [|x l IH]; intros acc HJ HP; cbn [ofold filter]; [exists []; rewrite app_nil_r; split; [reflexivity|constructor]|].
    destruct (map_limit_ok jmap pmap x) as (o & E & O); [intros j; apply HJ; left; reflexivity|intros i; apply HP; left; reflexivity|].
    unfold f at 1. rewrite E. cbn [obind]. destruct o as [l'|].
    - destruct O as [O1 O2]. rewrite O1. destruct (IH (acc ++ [l'])) as (r & E' & F); [intros y j Hy; apply HJ; right; exact Hy|intros y j Hy; apply HP; right; exact Hy|].
      exists (l' :: r). rewrite E', <- app_assoc. split; [reflexivity|constructor; assumption].
    - rewrite O. destruct (IH acc) as (r & E' & F); [intros y j Hy; apply HJ; right; exact Hy|intros y j Hy; apply HP; right; exact Hy|]. exists r. auto. }
  intros HJ HP. destruct (G ls [] HJ HP) as (ls' & E & F). exists ls'. auto.
Qed.

Local Open Scope R_scope.
Lemma forall2_intro {A B} (P : A -> B -> Prop) : forall l l', List.length l = List.length l' ->
  (forall i x y, nth_error l i = Some x -> nth_error l' i = Some y -> P x y) -> Forall2 P l l'.
Proof.
  induction l as [|x l IH]; intros [|y l'] L H; try discriminate; constructor; [apply (H 0%nat); reflexivity|]. apply IH; [cbn in L; lia|]. intros i a b X Y. apply (H (S i)); assumption.
Qed.
Definition weight_to (up : list (option nat)) (x x' : nat * R) : Prop := snd x' = snd x /\ (snd x <> 0 -> nth_error up (fst x) = Some (Some (fst x'))).
Lemma map_weights_ok up skin : (forall row j w, In row skin -> In (j, w) row -> w <> 0 -> exists k, nth_error up j = Some (Some k)) ->
  exists skin', map_weights up skin = Ok skin' /\ Forall2 (Forall2 (weight_to up)) skin skin'.
Proof.
  unfold map_weights. match goal with |- context [ofold ?g skin []] => set (f := g) end.
  assert (G : forall skin acc, (forall row j w, In row skin -> In (j, w) row -> w <> 0 -> exists k, nth_error up j = Some (Some k)) ->
    exists skin', ofold f skin acc = Ok (acc ++ skin') /\ Forall2 (Forall2 (weight_to up)) skin skin').
  { clear skin. induction skin as [|row l IH]; intros acc H; cbn [ofold]; [exists []; rewrite app_nil_r; split; [reflexivity|constructor]|].
    destruct (map_weights_correct up row) as (row' & E & L & N); [intros j w; apply H; left; reflexivity|].
    unfold f at 1. rewrite E. cbn [obind]. destruct (IH (acc ++ [row'])) as (r & E' & F); [intros y j w Hy; apply H; right; exact Hy|].
    exists (row' :: r). rewrite E', <- app_assoc. split; [reflexivity|]. constructor; [|exact F].
    apply forall2_intro; [lia|]. intros i [a w] [b w'] X Y. destruct (N i a w X) as (j' & Ej & _ & Hk). rewrite Ej in Y. injection Y as <- <-. split; [reflexivity|]. exact Hk. }
  intros H. destruct (G skin [] H) as (s' & E & F). exists s'. auto.
Qed.

Local Open Scope nat_scope.
Lemma new_index_le e k : new_index e k <= List.length e.
Proof.
  assert (G : forall l : list bool, List.length (filter (fun b => b) l) <= List.length l) by (induction l as [|[] l IH]; cbn [filter List.length]; lia).
  unfold new_index. etransitivity; [apply G|]. rewrite firstn_length. lia.
Qed.

Lemma add_mapped_ok pt jmap nT res : pt_wf pt -> pt_rows pt = 7 * List.length jmap -> (forall a j, nth_error jmap a = Some (Some j) -> j < nT) ->
  pt_rows res = nT * 7 -> List.length (pt_name res) + pt_cols pt <= kMaxModelParams ->
  (forall c nm, drives_mapped pt jmap c -> nth_error (pt_name pt) c = Some nm -> ~ In nm (pt_name res)) ->
  let base := List.length (pt_name res) in
  exists valid sets, List.length valid = pt_cols pt /\ (forall c, is_kept valid c <-> drives_mapped pt jmap c) /\
    add_mapped pt jmap res = Ok (PT (pt_name res ++ kept_names (pt_name pt) valid) (pt_rows res) (base + new_index valid (pt_cols pt))
      (pt_entries res ++ flat_map (row_new pt jmap valid base) (seq 0 (pt_rows pt))) (pt_offsets res) (pt_active res) sets (pt_pose res) (pt_blend res) (pt_face res),
      nmap base valid (pt_cols pt)) /\
    forall nm k, in_set sets nm k <-> in_set (pt_sets res) nm k \/ exists i, in_set (pt_sets pt) nm i /\ is_kept valid i /\ k = base + new_index valid i.
Proof.
  intros W Rows Rng Rr Max Fresh base. destruct (used_params_ok pt jmap W Rows) as (valid & Eu & Lv & Mv).
  pose proof (new_index_le valid (List.length valid)) as Hle.
  destruct (mapped_sets_ok pt valid base Lv (wf_max pt W) ltac:(unfold base; lia) (pt_sets res)) as (sets & Es & As).
  exists valid, sets. split; [exact Lv|]. split; [exact Mv|]. split; [|exact As].
  unfold add_mapped. rewrite Eu. cbn [obind]. rewrite (number_params_ok pt jmap W Rows valid (pt_name res) Lv).
  - cbn [obind]. fold base. rewrite Rr, (mapped_entries_ok pt jmap Rows valid base nT Lv Mv Rng). cbn [obind]. rewrite Es. cbn [obind].
    rewrite app_length, (kept_names_length pt jmap Rows), Lv. reflexivity.
  - intros c nm K. apply Fresh, Mv, K.
Qed.
