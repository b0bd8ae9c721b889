(** Replacing a part of a skeleton: the loops (C97). *)

From Coq Require Import Bool Reals List Arith Lia Lra String Sorted.
From Verif Require Import Prelude Loops Rbool R3 LinAlg Transform_model Transform_proofs Skeleton_model Skeleton_spec Skeleton_proofs FK_model FK_spec FK_proofs
  ParamTransform_model ParamTransform_spec ParamTransform_proofs ParamTransform_map_proofs Locator_model Skin_model Skin_spec Skin_props
  Simplify_model Simplify_spec Simplify_proofs CharUtil_model CharUtil_spec CharMotion_spec CharMotion_props CharRemove_spec CharRemove_proofs CharSplice_spec.
Import ListNotations.
Local Open Scope nat_scope.

Definition maps (order : list from) (side : nat -> from) (n : nat) (jmap : list (option nat)) : Prop :=
  List.length jmap = n /\ forall i q, nth_error jmap i = Some (Some q) <-> placed order (side i) q.
Record built (src tgt : fchar) (troot sroot : nat) (order : list from) (b : combined) : Prop := {
  bu_joints : List.length (cb_joints b) = List.length order;
  bu_names : map (fun nm => Some nm) (cb_names b) = map (from_name src tgt) order;
  bu_assoc : forall nm q, find_assoc (cb_assoc b) nm = Some q <-> nth_error (cb_names b) q = Some nm;
  bu_joint : forall q o, placed order o q -> exists jt par, from_joint src tgt o = Some jt /\ nth_error (cb_joints b) q = Some (Joint par (joffset jt) (jprerot jt)) /\
    match from_parent src tgt troot sroot o with None => par = None | Some o' => exists q', q' < q /\ placed order o' q' /\ par = Some q' end
}.

Lemma names_at src tgt troot sroot order b q o : built src tgt troot sroot order b -> placed order o q -> nth_error (cb_names b) q = from_name src tgt o.
Proof.
  intros B P. pose proof (f_equal (fun l => nth_error l q) (bu_names _ _ _ _ _ _ B)) as E. cbv beta in E. rewrite !nth_error_map in E.
  unfold placed in P. rewrite P in E. cbn [option_map] in E. destruct (nth_error (cb_names b) q); cbn [option_map] in E; congruence.
Qed.
Lemma names_len src tgt troot sroot order b : built src tgt troot sroot order b -> List.length (cb_names b) = List.length order.
Proof. intros B. pose proof (f_equal (@List.length _) (bu_names _ _ _ _ _ _ B)) as E. rewrite !map_length in E. exact E. Qed.
Lemma placed_in order o : In o order <-> exists q, placed order o q.
Proof. split; [apply In_nth_error|intros (q & H); eapply nth_error_In; exact H]. Qed.
Lemma placed_len order o q : placed order o q -> q < List.length order.
Proof. apply nth_error_len. Qed.
Lemma placed_old order o' o q : q < List.length order -> placed (order ++ [o']) o q <-> placed order o q.
Proof. intros H. unfold placed. rewrite nth_error_app1 by exact H. reflexivity. Qed.
Lemma placed_new order o' o q : placed (order ++ [o']) o q -> placed order o q \/ (q = List.length order /\ o = o').
Proof.
  intros P. pose proof (placed_len _ _ _ P) as L. rewrite app_length in L. cbn in L. destruct (Nat.eq_dec q (List.length order)) as [->|D].
  - right. unfold placed in P. rewrite nth_error_app2, Nat.sub_diag in P by lia. injection P as <-. auto.
  - left. apply placed_old in P; [exact P|lia].
Qed.
Lemma placed_last order o : placed (order ++ [o]) o (List.length order).
Proof. unfold placed. rewrite nth_error_app2, Nat.sub_diag by lia. reflexivity. Qed.

Lemma maps_other order (side side' : nat -> from) n jmap i : (forall a b, side a <> side' b) -> maps order side n jmap -> maps (order ++ [side' i]) side n jmap.
Proof.
  intros D [L M]. split; [exact L|]. intros k q. rewrite M. split; intros P.
  - apply placed_old; [apply (placed_len _ _ _ P)|exact P].
  - apply placed_new in P as [P|[_ P]]; [exact P|destruct (D _ _ P)].
Qed.
Lemma maps_add order side n jmap i : (forall a b, side a = side b -> a = b) -> ~ In (side i) order -> i < n -> maps order side n jmap ->
  exists jmap', wr jmap i (Some (List.length order)) = Ok jmap' /\ maps (order ++ [side i]) side n jmap'.
Proof.
  intros Inj New Hi [L M]. destruct (Loops.wr_ok jmap i (Some (List.length order))) as (j' & E & L' & N1 & N2); [lia|]. exists j'. split; [exact E|]. split; [lia|].
  intros k q. destruct (Nat.eq_dec k i) as [->|D].
  - rewrite N1. split; [intros X; injection X as <-; apply placed_last|]. intros P. apply placed_new in P as [P|[-> _]]; [|reflexivity]. destruct New. apply placed_in. eauto.
  - rewrite N2 by exact D. rewrite M. split; intros P; [apply placed_old; [apply (placed_len _ _ _ P)|exact P]|].
    apply placed_new in P as [P|[_ P]]; [exact P|destruct (D (Inj _ _ P))].
Qed.

(** One joint more. *)
Section Step.
Variables (src tgt : fchar) (troot sroot : nat).
Lemma names_in order b nm : built src tgt troot sroot order b -> In nm (cb_names b) <-> In (Some nm) (map (from_name src tgt) order).
Proof.
  intros B. rewrite <- (bu_names _ _ _ _ _ _ B), in_map_iff. split; [intros H; exists nm; auto|]. intros (x & E & H). congruence.
Qed.
Lemma add_joint_ok (names : list string) (sk : skeleton) side order b jmap i jt nm :
  (forall a c : nat, side a = side c -> a = c) -> built src tgt troot sroot order b -> maps order side (List.length sk) jmap ->
  nth_error sk i = Some jt -> nth_error names i = Some nm -> from_joint src tgt (side i) = Some jt -> from_name src tgt (side i) = Some nm ->
  (forall p, jparent jt = Some p -> exists o' pn, from_parent src tgt troot sroot (side i) = Some o' /\ In o' order /\ nth_error names p = Some pn /\ from_name src tgt o' = Some pn) ->
  (jparent jt = None -> from_parent src tgt troot sroot (side i) = None) ->
  (In (Some nm) (map (from_name src tgt) order) -> add_joint names sk i (b, jmap) = Throw) /\
  (~ In (Some nm) (map (from_name src tgt) order) -> exists b' jmap', add_joint names sk i (b, jmap) = Ok (b', jmap') /\
     built src tgt troot sroot (order ++ [side i]) b' /\ maps (order ++ [side i]) side (List.length sk) jmap').
Proof.
  intros Inj B M Ej En Fj Fn Par NoPar. unfold add_joint. rewrite (rd_some _ _ _ Ej), (rd_some _ _ _ En). cbn [obind]. split.
  - intros H. apply (names_in order b nm B) in H. apply In_nth_error in H as (q & Hq). apply (bu_assoc _ _ _ _ _ _ B) in Hq. rewrite Hq. reflexivity.
  - intros H. destruct (find_assoc (cb_assoc b) nm) as [q|] eqn:Eq.
    { apply (bu_assoc _ _ _ _ _ _ B) in Eq. destruct H. apply (names_in order b nm B). eapply nth_error_In. exact Eq. }
    assert (New : ~ In (side i) order) by (intros X; apply H; rewrite <- Fn; apply in_map, X).
    destruct (maps_add order side (List.length sk) jmap i Inj New (nth_error_len _ _ _ Ej) M) as (jmap' & Ew & M').
    rewrite (bu_joints _ _ _ _ _ _ B), Ew. cbn [obind].
    assert (Lk : forall pn q, pn <> nm -> nth_error (cb_names b) q = Some pn -> find_assoc ((nm, List.length order) :: cb_assoc b) pn = Some q).
    { intros pn q D E. cbn [find_assoc]. destruct (String.eqb_spec nm pn) as [X|_]; [congruence|]. apply (bu_assoc _ _ _ _ _ _ B), E. }
    assert (Ep : exists par, match jparent jt with None => Ok None | Some p => obind (rd names p) (fun pn => match find_assoc ((nm, List.length order) :: cb_assoc b) pn with None => CheckFail | Some q => Ok (Some q) end) end = Ok par /\
       match from_parent src tgt troot sroot (side i) with None => par = None | Some o' => exists q', q' < List.length order /\ placed order o' q' /\ par = Some q' end).
    { destruct (jparent jt) as [p|]; [|rewrite NoPar by reflexivity; exists None; auto]. destruct (Par p eq_refl) as (o' & pn & Eo & Io & Epn & Fpn). rewrite (rd_some _ _ _ Epn). cbn [obind].
      apply placed_in in Io as (q' & Pq). rewrite (Lk pn q').
      - exists (Some q'). split; [reflexivity|]. rewrite Eo. exists q'. repeat split; auto. apply (placed_len _ _ _ Pq).
      - intros ->. apply H. rewrite <- Fpn. apply in_map, placed_in. eauto.
      - rewrite (names_at _ _ _ _ _ _ _ _ B Pq). exact Fpn. }
    destruct Ep as (par & Ep & Hp). rewrite Ep. cbn [obind]. eexists _, jmap'. split; [reflexivity|]. split; [|exact M']. constructor; cbn [cb_joints cb_names cb_assoc].
    + rewrite !app_length, (bu_joints _ _ _ _ _ _ B). reflexivity.
    + rewrite !map_app, (bu_names _ _ _ _ _ _ B). cbn [map]. rewrite Fn. reflexivity.
    + intros n q. cbn [find_assoc]. pose proof (names_len _ _ _ _ _ _ B) as Ln. destruct (String.eqb_spec nm n) as [<-|D].
      * split; [intros X; injection X as <-; rewrite nth_error_app2, <- Ln, Nat.sub_diag by lia; reflexivity|]. intros X. destruct (Nat.lt_ge_cases q (List.length (cb_names b))) as [Hq|Hq].
        -- rewrite nth_error_app1 in X by exact Hq. destruct H. apply (names_in order b nm B). eapply nth_error_In. exact X.
        -- apply nth_error_len in X. rewrite app_length in X. cbn in X. f_equal. lia.
      * rewrite (bu_assoc _ _ _ _ _ _ B). split; intros X; [rewrite nth_error_app1; [exact X|apply (nth_error_len _ _ _ X)]|]. destruct (Nat.lt_ge_cases q (List.length (cb_names b))) as [Hq|Hq].
        -- rewrite nth_error_app1 in X by exact Hq. exact X.
        -- rewrite nth_error_app2 in X by exact Hq. destruct (q - List.length (cb_names b)) as [|k]; [injection X; congruence|destruct k; discriminate].
    + intros q o P. apply placed_new in P as [P|[-> ->]].
      * destruct (bu_joint _ _ _ _ _ _ B q o P) as (j0 & pa & E1 & E2 & E3). exists j0, pa. split; [exact E1|].
        split; [rewrite nth_error_app1; [exact E2|apply (nth_error_len _ _ _ E2)]|]. destruct (from_parent src tgt troot sroot o) as [o'|]; [|exact E3].
        destruct E3 as (q' & H1 & H2 & H3). exists q'. repeat split; auto. apply placed_old; [apply (placed_len _ _ _ H2)|exact H2].
      * exists jt, par. split; [exact Fj|]. split; [rewrite <- (bu_joints _ _ _ _ _ _ B), nth_error_app2, Nat.sub_diag by lia; reflexivity|].
        destruct (from_parent src tgt troot sroot (side i)) as [o'|]; [|exact Hp]. destruct Hp as (q' & H1 & H2 & H3). exists q'. repeat split; auto. apply placed_old; assumption.
Qed.
End Step.

(** ** Sorted lists of numbers *)

Lemma sorted_above x l : StronglySorted lt (x :: l) -> forall y, In y l -> x < y.
Proof. intros H. inversion H as [|a b S F]; subst. apply Forall_forall, F. Qed.
Lemma sorted_same : forall l l' : list nat, StronglySorted lt l -> StronglySorted lt l' -> (forall x, In x l <-> In x l') -> l = l'.
Proof.
  induction l as [|x l IH]; intros [|y l'] H H' E; [reflexivity|destruct (proj2 (E y) (or_introl eq_refl))|destruct (proj1 (E x) (or_introl eq_refl))|].
  pose proof (sorted_above _ _ H) as A. pose proof (sorted_above _ _ H') as A'.
  assert (x = y) as <-.
  { destruct (proj1 (E x) (or_introl eq_refl)) as [X|X]; [congruence|]. destruct (proj2 (E y) (or_introl eq_refl)) as [Y|Y]; [congruence|]. specialize (A y Y). specialize (A' x X). lia. }
  f_equal. apply IH; [inversion H; assumption|inversion H'; assumption|]. intros z. split; intros Hz.
  - destruct (proj1 (E z) (or_intror Hz)) as [X|X]; [subst z; specialize (A x Hz); lia|exact X].
  - destruct (proj2 (E z) (or_intror Hz)) as [X|X]; [subst z; specialize (A' x Hz); lia|exact X].
Qed.
Lemma sorted_filter f n : forall a, StronglySorted lt (filter f (seq a n)).
Proof.
  induction n as [|n IH]; intros a; cbn [seq filter]; [constructor|]. destruct (f a); [|apply IH]. constructor; [apply IH|]. apply Forall_forall. intros x Hx.
  apply filter_In in Hx as [Hx _]. apply in_seq in Hx. lia.
Qed.
Lemma sorted_split a x b a' b' : StronglySorted lt (a ++ x :: b) -> (a ++ x :: b : list nat) = a' ++ x :: b' -> a = a' /\ b = b'.
Proof.
  revert a'. induction a as [|y a IH]; intros [|z a'] H E; cbn in *.
  - injection E as <-. auto.
  - injection E as E1 E2. subst. pose proof (sorted_above _ _ H z ltac:(apply in_or_app; right; left; reflexivity)). lia.
  - injection E as E1 E2. subst y. pose proof (sorted_above _ _ H x ltac:(apply in_or_app; right; left; reflexivity)). lia.
  - injection E as -> E. destruct (IH a') as [-> ->]; [inversion H; assumption|exact E|auto].
Qed.
Lemma spliced_unique tps sps troot sroot o1 o2 : spliced tps sps troot sroot o1 -> spliced tps sps troot sroot o2 -> o1 = o2.
Proof.
  intros (b & m & a & -> & S1 & S2 & I1 & I2) (b' & m' & a' & -> & S1' & S2' & I1' & I2').
  assert (m = m') as <- by (apply sorted_same; auto; intros x; rewrite I2, I2'; reflexivity).
  assert (E : b ++ troot :: a = b' ++ troot :: a') by (apply sorted_same; auto; intros x; rewrite I1, I1'; reflexivity).
  destruct (sorted_split _ _ _ _ _ S1 E) as [-> ->]. reflexivity.
Qed.

(** ** All joints *)

Section Loop.
Variables (src tgt : fchar) (troot sroot : nat).
Let sps := sk_parents (fc_joints src).
Let tps := sk_parents (fc_joints tgt).
Let ns := List.length (fc_joints src).
Let nt := List.length (fc_joints tgt).
Hypothesis Vs : valid_sk (fc_joints src).
Hypothesis Vt : valid_sk (fc_joints tgt).
Hypothesis Ls : List.length (fc_names src) = ns.
Hypothesis Lt : List.length (fc_names tgt) = nt.
Hypothesis Hs : sroot < ns.
Hypothesis Ht : troot < nt.
Hypothesis Same : nth_error (fc_names src) sroot = nth_error (fc_names tgt) troot.

Definition anc (sk : skeleton) (r i : nat) : bool := match is_ancestor (S (List.length sk)) (sk_parents sk) i r with Ok b => b | _ => false end.
Lemma anc_ok sk r i : valid_sk sk -> i < List.length sk -> r < List.length sk ->
  is_ancestor (S (List.length sk)) (sk_parents sk) i r = Ok (anc sk r i) /\ (anc sk r i = true <-> ancestor (sk_parents sk) i r).
Proof.
  intros V Hi Hr. unfold anc. assert (L : List.length (sk_parents sk) = List.length sk) by apply map_length.
  destruct (is_ancestor_correct (sk_parents sk) i r (S (List.length sk)) V) as (b & E & H); [lia..|]. rewrite E. auto.
Qed.
Definition mids (m : nat) : list from := map inr (filter (anc (fc_joints src) sroot) (seq (S sroot) m)).
Definition piece (i : nat) : list from :=
  if i =? troot then inl i :: mids (ns - S sroot) else if anc (fc_joints tgt) troot i then [] else [inl i].
Definition order_to (m : nat) : list from := flat_map piece (seq 0 m).

Definition name_eq_dec (a b : option string) : {a = b} + {a <> b}.
Proof. decide equality. apply string_dec. Defined.
Lemma nodup_more (l : list (option string)) l' : ~ NoDup l -> ~ NoDup (l ++ l').
Proof.
  revert l'. intros l' H X. apply H. clear H. induction l as [|x l IH]; [constructor|]. cbn in X. inversion X as [|a b N1 N2]; subst.
  constructor; [intros Y; apply N1, in_or_app; auto|apply IH, N2].
Qed.
Lemma nodup_snoc (l : list (option string)) x : NoDup l -> ~ In x l -> NoDup (l ++ [x]).
Proof.
  induction l as [|y l IH]; intros H N; cbn; [constructor; [intros []|constructor]|]. inversion H as [|a b N1 N2]; subst. constructor.
  - intros X. apply in_app_or in X as [X|[X|[]]]; [exact (N1 X)|]. apply N. left. auto.
  - apply IH; [exact N2|]. intros X. apply N. right. exact X.
Qed.
Lemma dup_snoc (l : list (option string)) x : In x l -> ~ NoDup (l ++ [x]).
Proof.
  induction l as [|y l IH]; intros H X; [destruct H|]. cbn in X. inversion X as [|a b N1 N2]; subst. destruct H as [->|H]; [apply N1, in_or_app; right; left; reflexivity|exact (IH H N2)].
Qed.

Definition outs (order : list from) (r : outcome (combined * list (option nat))) (tmap : list (option nat)) : Prop :=
  (NoDup (map (from_name src tgt) order) /\ exists b smap, r = Ok (b, smap) /\ built src tgt troot sroot order b /\ maps order inr ns smap /\ maps order inl nt tmap) \/
  (~ NoDup (map (from_name src tgt) order) /\ r = Throw).
Definition outt (order : list from) (r : outcome (combined * list (option nat) * list (option nat))) : Prop :=
  (NoDup (map (from_name src tgt) order) /\ exists b smap tmap, r = Ok (b, smap, tmap) /\ built src tgt troot sroot order b /\ maps order inr ns smap /\ maps order inl nt tmap) \/
  (~ NoDup (map (from_name src tgt) order) /\ r = Throw).

Lemma src_step order b smap tmap k : NoDup (map (from_name src tgt) order) -> built src tgt troot sroot order b -> maps order inr ns smap -> maps order inl nt tmap -> k < ns ->
  (forall jt p, nth_error (fc_joints src) k = Some jt -> jparent jt = Some p -> In (if p =? sroot then inl troot else inr p) order) ->
  outs (order ++ [inr k]) (add_joint (fc_names src) (fc_joints src) k (b, smap)) tmap.
Proof.
  intros D B Ms Mt Hk Par. destruct (nth_error_lt (fc_joints src) k Hk) as [jt Ej]. destruct (nth_error_lt (fc_names src) k) as [nm En]; [lia|].
  destruct (add_joint_ok src tgt troot sroot (fc_names src) (fc_joints src) inr order b smap k jt nm) as [H1 H2]; [intros a c X; congruence|exact B|exact Ms|exact Ej|exact En|exact Ej|exact En| | |].
  - intros p Ep. specialize (Par jt p Ej Ep). cbn [from_parent]. rewrite Ej, Ep. cbn [option_map].
    assert (Hp : p < ns) by (pose proof (valid_sk_parent _ k jt p Vs Ej Ep); lia). destruct (nth_error_lt (fc_names src) p) as [pn Epn]; [lia|].
    eexists _, pn. split; [reflexivity|]. split; [exact Par|]. split; [exact Epn|]. destruct (Nat.eqb_spec p sroot) as [E0|]; cbn [from_name]; [rewrite E0 in Epn|]; congruence.
  - intros Ep. cbn [from_parent]. rewrite Ej, Ep. reflexivity.
  - unfold outs. rewrite map_app. cbn [map from_name]. rewrite En. destruct (in_dec name_eq_dec (Some nm) (map (from_name src tgt) order)) as [I|I].
    + right. split; [apply dup_snoc, I|apply H1, I].
    + left. split; [apply nodup_snoc; assumption|]. destruct (H2 I) as (b' & s' & E & B' & M'). exists b', s'. split; [exact E|]. split; [exact B'|]. split; [exact M'|].
      apply (maps_other order inl inr); [discriminate|exact Mt].
Qed.
Lemma tgt_step order b smap tmap i : NoDup (map (from_name src tgt) order) -> built src tgt troot sroot order b -> maps order inr ns smap -> maps order inl nt tmap -> i < nt ->
  (forall jt p, nth_error (fc_joints tgt) i = Some jt -> jparent jt = Some p -> In (inl p) order) ->
  outt (order ++ [inl i]) (obind (add_joint (fc_names tgt) (fc_joints tgt) i (b, tmap)) (fun bt => Ok (fst bt, smap, snd bt))).
Proof.
  intros D B Ms Mt Hk Par. destruct (nth_error_lt (fc_joints tgt) i Hk) as [jt Ej]. destruct (nth_error_lt (fc_names tgt) i) as [nm En]; [lia|].
  destruct (add_joint_ok src tgt troot sroot (fc_names tgt) (fc_joints tgt) inl order b tmap i jt nm) as [H1 H2]; [intros a c X; congruence|exact B|exact Mt|exact Ej|exact En|exact Ej|exact En| | |].
  - intros p Ep. specialize (Par jt p Ej Ep). cbn [from_parent]. rewrite Ej, Ep. cbn [option_map].
    assert (Hp : p < nt) by (pose proof (valid_sk_parent _ i jt p Vt Ej Ep); lia). destruct (nth_error_lt (fc_names tgt) p) as [pn Epn]; [lia|].
    eexists _, pn. split; [reflexivity|]. split; [exact Par|]. split; [exact Epn|]. exact Epn.
  - intros Ep. cbn [from_parent]. rewrite Ej, Ep. reflexivity.
  - unfold outt. rewrite map_app. cbn [map from_name]. rewrite En. destruct (in_dec name_eq_dec (Some nm) (map (from_name src tgt) order)) as [I|I].
    + right. split; [apply dup_snoc, I|]. rewrite (H1 I). reflexivity.
    + left. split; [apply nodup_snoc; assumption|]. destruct (H2 I) as (b' & s' & E & B' & M'). exists b', smap, s'. rewrite E. split; [reflexivity|]. split; [exact B'|]. split; [|exact M'].
      apply (maps_other order inr inl); [discriminate|exact Ms].
Qed.

Definition inner (k : nat) (bs : combined * list (option nat)) : outcome (combined * list (option nat)) :=
  obind (is_ancestor (S (List.length (fc_joints src))) (sk_parents (fc_joints src)) k sroot)
    (fun a => if a then add_joint (fc_names src) (fc_joints src) k bs else Ok bs).
Lemma ancestor_parent sk i jt p r : valid_sk sk -> nth_error sk i = Some jt -> jparent jt = Some p -> i <> r -> ancestor (sk_parents sk) i r <-> ancestor (sk_parents sk) p r.
Proof.
  intros V E P N. assert (Ep : nth_error (sk_parents sk) i = Some (Some p)) by (unfold sk_parents; rewrite nth_error_map, E; cbn; congruence). split; intros H.
  - apply ancestor_inv in H as [H|(p' & E' & H)]; [contradiction|]. congruence.
  - eapply ancestor_up; eassumption.
Qed.
Lemma inner_ok order b smap tmap : NoDup (map (from_name src tgt) order) -> built src tgt troot sroot order b -> maps order inr ns smap -> maps order inl nt tmap -> In (inl troot) order ->
  forall m, m <= ns - S sroot -> outs (order ++ mids m) (ofold inner (seq (S sroot) m) (b, smap)) tmap.
Proof.
  intros D B Ms Mt Hr. induction m as [|m IH]; intros Hm.
  - unfold mids. cbn. rewrite app_nil_r. left. split; [exact D|]. eauto 7.
  - rewrite seq_S, ofold_app. assert (E : mids (S m) = mids m ++ (if anc (fc_joints src) sroot (S sroot + m) then [inr (S sroot + m)] else [])).
    { unfold mids. rewrite seq_S, filter_app, map_app. f_equal. cbn [filter]. destruct (anc (fc_joints src) sroot (S sroot + m)); reflexivity. }
    rewrite E, app_assoc. destruct (IH ltac:(lia)) as [(D' & b' & s' & Er & B' & Ms' & Mt')|[D' Er]].
    + rewrite Er. cbn [obind ofold]. unfold inner at 1. destruct (anc_ok (fc_joints src) sroot (S sroot + m) Vs) as [Ea Ha]; [fold ns; lia|exact Hs|]. rewrite Ea. cbn [obind].
      destruct (anc (fc_joints src) sroot (S sroot + m)).
      * assert (X : outs ((order ++ mids m) ++ [inr (S sroot + m)]) (add_joint (fc_names src) (fc_joints src) (S sroot + m) (b', s')) tmap).
        { apply src_step; auto; [lia|]. intros jt p Ej Ep. apply in_or_app. destruct (Nat.eqb_spec p sroot) as [E0|N]; [left; exact Hr|]. right.
          assert (Hp : ancestor (sk_parents (fc_joints src)) p sroot) by (apply (ancestor_parent _ (S sroot + m) jt p sroot Vs Ej Ep); [lia|]; apply Ha; reflexivity).
          pose proof (ancestor_le _ _ _ Vs Hp). pose proof (valid_sk_parent _ _ jt p Vs Ej Ep). unfold mids. apply in_map, filter_In. split; [apply in_seq; lia|].
          apply (anc_ok (fc_joints src) sroot p Vs); [fold ns; lia|exact Hs|exact Hp]. }
        destruct (add_joint (fc_names src) (fc_joints src) (S sroot + m) (b', s')); exact X.
      * rewrite app_nil_r. left. split; [exact D'|]. exists b', s'. auto.
    + rewrite Er. cbn [obind]. right. split; [|reflexivity]. rewrite map_app. apply nodup_more, D'.
Qed.

Lemma combine_result : outt (order_to nt) (combine_joints (fc_names src) (fc_joints src) (fc_names tgt) (fc_joints tgt) sroot troot).
Proof.
  unfold combine_joints. fold nt ns. match goal with |- outt _ (ofold ?g _ ?i) => set (f := g); set (init := i) end.
  assert (G : forall m, m <= nt -> outt (order_to m) (ofold f (seq 0 m) init)); [|apply G; lia].
  induction m as [|m IH]; intros Hm.
  - left. split; [constructor|]. eexists _, _, _. split; [reflexivity|]. split; [|split].
    + constructor; cbn; [reflexivity|reflexivity| |]. * intros nm q. split; [discriminate|]. destruct q; discriminate. * intros q o X. destruct q; discriminate.
    + split; [apply repeat_length|]. intros i q. split; intros X; [|destruct q; discriminate]. exfalso. pose proof (nth_error_len _ _ _ X) as L. rewrite repeat_length in L. rewrite nth_error_repeat in X by exact L. discriminate.
    + split; [apply repeat_length|]. intros i q. split; intros X; [|destruct q; discriminate]. exfalso. pose proof (nth_error_len _ _ _ X) as L. rewrite repeat_length in L. rewrite nth_error_repeat in X by exact L. discriminate.
  - rewrite seq_S, ofold_app. assert (E : order_to (S m) = order_to m ++ piece m) by (unfold order_to; rewrite seq_S, flat_map_app; cbn [flat_map Nat.add]; rewrite app_nil_r; reflexivity).
    rewrite E. cbn [Nat.add]. destruct (IH ltac:(lia)) as [(D & b & s & t & Er & B & Ms & Mt)|[D Er]].
    2:{ rewrite Er. right. split; [|reflexivity]. rewrite map_app. apply nodup_more, D. }
    rewrite Er. cbn [obind ofold].
    assert (Kept : forall p, p < m -> ~ below tps troot p -> In (inl p) (order_to m)).
    { intros p Hp N. apply in_flat_map. exists p. split; [apply in_seq; lia|]. unfold piece. destruct (Nat.eqb_spec p troot); [left; reflexivity|].
      destruct (anc_ok (fc_joints tgt) troot p Vt) as [_ Ha]; [fold nt; lia|exact Ht|]. destruct (anc (fc_joints tgt) troot p); [|left; reflexivity]. destruct N. split; [apply Ha; reflexivity|assumption]. }
    assert (Par : ~ below tps troot m -> forall jt p, nth_error (fc_joints tgt) m = Some jt -> jparent jt = Some p -> In (inl p) (order_to m)).
    { intros N jt p Ej Ep. apply Kept; [apply (valid_sk_parent _ m jt p Vt Ej Ep)|]. intros [A _]. pose proof (ancestor_le _ _ _ Vt A). pose proof (valid_sk_parent _ m jt p Vt Ej Ep).
      apply N. split; [|lia]. apply (ancestor_parent _ m jt p troot Vt Ej Ep); [lia|exact A]. }
    unfold piece, f at 1. destruct (Nat.eqb_spec m troot) as [->|N].
    + assert (Nb : ~ below tps troot troot) by (intros [_ X]; congruence).
      pose proof (tgt_step (order_to troot) b s t troot D B Ms Mt Ht (Par Nb)) as X.
      destruct (add_joint (fc_names tgt) (fc_joints tgt) troot (b, t)) as [[b' t']| | | |]; cbn [obind fst snd] in *.
      * destruct X as [(D' & b2 & s2 & t2 & E2 & B2 & Ms2 & Mt2)|[D' E2]]; [|discriminate]. injection E2 as <- <- <-.
        pose proof (inner_ok _ b' s t' D' B2 Ms2 Mt2 ltac:(apply in_or_app; right; left; reflexivity) (ns - S sroot) (le_n _)) as Y. rewrite <- app_assoc in Y. cbn [List.app] in Y.
        match goal with |- context [ofold ?h (seq (S sroot) (ns - S sroot)) (b', s)] => change (ofold h (seq (S sroot) (ns - S sroot)) (b', s)) with (ofold inner (seq (S sroot) (ns - S sroot)) (b', s)) end.
        destruct (ofold inner (seq (S sroot) (ns - S sroot)) (b', s)) as [[b3 s3]| | | |]; cbn [obind fst snd]; (destruct Y as [(D3 & b4 & s4 & E4 & Y)|[D3 E4]]; [|]); try discriminate.
        -- injection E4 as <- <-. left. split; [exact D3|]. exists b3, s3, t'. auto.
        -- right. auto.
      * destruct X as [(D' & b2 & s2 & t2 & E2 & _)|[D' E2]]; [discriminate|]. right. split; [|exact E2].
        change (inl troot :: mids (ns - S sroot)) with ([inl troot] ++ mids (ns - S sroot)). rewrite app_assoc, map_app. apply nodup_more, D'.
      * destruct X as [(D' & b2 & s2 & t2 & E2 & _)|[D' E2]]; discriminate.
      * destruct X as [(D' & b2 & s2 & t2 & E2 & _)|[D' E2]]; discriminate.
      * destruct X as [(D' & b2 & s2 & t2 & E2 & _)|[D' E2]]; discriminate.
    + destruct (anc_ok (fc_joints tgt) troot m Vt) as [Ea Ha]; [fold nt; lia|exact Ht|]. fold nt in Ea. rewrite Ea. cbn [obind].
      destruct (anc (fc_joints tgt) troot m).
      * rewrite app_nil_r. left. split; [exact D|]. exists b, s, t. auto.
      * assert (Nb : ~ below tps troot m) by (intros [X _]; apply Ha in X; discriminate).
        pose proof (tgt_step (order_to m) b s t m D B Ms Mt ltac:(lia) (Par Nb)) as X.
        destruct (obind (add_joint (fc_names tgt) (fc_joints tgt) m (b, t)) (fun bt => Ok (fst bt, s, snd bt))); exact X.
Qed.

Lemma order_spliced : spliced tps sps troot sroot (order_to nt).
Proof.
  set (kp := fun i => negb (anc (fc_joints tgt) troot i) || (i =? troot)).
  exists (filter kp (seq 0 troot)), (filter (anc (fc_joints src) sroot) (seq (S sroot) (ns - S sroot))), (filter kp (seq (S troot) (nt - S troot))).
  assert (Eq : seq 0 nt = seq 0 troot ++ troot :: seq (S troot) (nt - S troot)).
  { replace nt with (troot + S (nt - S troot)) at 1 by lia. rewrite seq_app. reflexivity. }
  assert (FM : forall l, ~ In troot l -> flat_map piece l = map inl (filter kp l)).
  { induction l as [|x l IH]; intros N; [reflexivity|]. cbn [flat_map filter]. rewrite IH by (intros X; apply N; right; exact X). unfold piece, kp at 2.
    destruct (Nat.eqb_spec x troot) as [->|]; [destruct N; left; reflexivity|]. destruct (anc (fc_joints tgt) troot x); reflexivity. }
  assert (EF : filter kp (seq 0 troot) ++ troot :: filter kp (seq (S troot) (nt - S troot)) = filter kp (seq 0 nt)).
  { rewrite Eq, filter_app. cbn [filter]. unfold kp at 4. rewrite Nat.eqb_refl, orb_true_r. reflexivity. }
  split.
  { unfold order_to. rewrite Eq, flat_map_app. cbn [flat_map]. rewrite !FM; [|intros X; apply in_seq in X; lia|intros X; apply in_seq in X; lia].
    f_equal. unfold piece. rewrite Nat.eqb_refl. cbn [List.app]. reflexivity. }
  rewrite EF. split; [apply sorted_filter|]. split; [apply sorted_filter|]. split.
  - intros i. rewrite filter_In, in_seq. unfold tps, sk_parents. rewrite map_length. fold (sk_parents (fc_joints tgt)). fold nt. unfold kp. split.
    + intros [H1 H2]. split; [lia|]. intros [A N]. destruct (anc_ok (fc_joints tgt) troot i Vt) as [_ Ha]; [fold nt; lia|exact Ht|]. apply Ha in A. rewrite A in H2.
      cbn in H2. apply Nat.eqb_eq in H2. contradiction.
    + intros [H1 H2]. split; [lia|]. destruct (Nat.eqb_spec i troot) as [->|N]; [apply orb_true_r|]. rewrite orb_false_r. destruct (anc (fc_joints tgt) troot i) eqn:A; [|reflexivity].
      destruct H2. split; [|exact N]. apply (anc_ok (fc_joints tgt) troot i Vt); [fold nt; lia|exact Ht|exact A].
  - intros k. rewrite filter_In, in_seq. split.
    + intros [H1 H2]. split; [|lia]. apply (anc_ok (fc_joints src) sroot k Vs); [fold ns; lia|exact Hs|exact H2].
    + intros [A N]. pose proof (ancestor_le _ _ _ Vs A). destruct (ancestor_bounds _ _ _ A) as [L _]. unfold sps, sk_parents in L. rewrite map_length in L. fold ns in L.
      split; [lia|]. apply (anc_ok (fc_joints src) sroot k Vs); [fold ns; lia|exact Hs|exact A].
Qed.
End Loop.

(** ** The way up by names *)

Section Climb.
Variables (src tgt : fchar) (troot sroot : nat) (order : list from) (b : combined).
Hypothesis B : built src tgt troot sroot order b.
Hypothesis Lt : List.length (fc_names tgt) = List.length (fc_joints tgt).

Lemma assoc_known i nm : nth_error (fc_names tgt) i = Some nm ->
  match find_assoc (cb_assoc b) nm with Some q => exists o, placed order o q /\ from_name src tgt o = Some nm | None => ~ known src tgt order i end.
Proof.
  intros En. destruct (find_assoc (cb_assoc b) nm) as [q|] eqn:E.
  - apply (bu_assoc _ _ _ _ _ _ B) in E. destruct (nth_error_lt order q) as [o P]; [rewrite <- (names_len _ _ _ _ _ _ B); apply (nth_error_len _ _ _ E)|].
    exists o. split; [exact P|]. rewrite <- (names_at _ _ _ _ _ _ _ _ B P). exact E.
  - intros (o & I & Fo). apply placed_in in I as (q & P). rewrite En in Fo. pose proof (names_at _ _ _ _ _ _ _ _ B P) as X. rewrite Fo in X.
    apply (bu_assoc _ _ _ _ _ _ B) in X. congruence.
Qed.
Lemma climb_found fuel i : valid_sk (fc_joints tgt) -> i < List.length (fc_joints tgt) ->
  (known src tgt order i \/ exists p, nth_error (sk_parents (fc_joints tgt)) i = Some (Some p) /\ known src tgt order p) ->
  exists q, climb_names (S (S fuel)) (fc_names tgt) (fc_joints tgt) (cb_assoc b) i (Some i) = Ok q /\ stands_for src tgt order i q.
Proof.
  intros V Hi K. cbn [climb_names]. destruct (nth_error_lt (fc_names tgt) i) as [nm En]; [lia|]. rewrite (rd_some _ _ _ En). cbn [obind].
  pose proof (assoc_known i nm En) as A. destruct (find_assoc (cb_assoc b) nm) as [q|].
  - exists q. split; [reflexivity|]. destruct A as (o & P & F). exists o. split; [exact P|]. left. congruence.
  - destruct K as [K|(p & Ep & K)]; [contradiction|]. destruct (nth_error_lt (fc_joints tgt) i Hi) as [jt Ej]. rewrite (rd_some _ _ _ Ej). cbn [obind].
    assert (Jp : jparent jt = Some p) by (unfold sk_parents in Ep; rewrite nth_error_map, Ej in Ep; cbn in Ep; congruence). rewrite Jp.
    pose proof (valid_sk_parent _ i jt p V Ej Jp). destruct (nth_error_lt (fc_names tgt) p) as [pn Epn]; [lia|]. rewrite (rd_some _ _ _ Epn). cbn [obind].
    pose proof (assoc_known p pn Epn) as Ap. destruct (find_assoc (cb_assoc b) pn) as [q|]; [|contradiction]. exists q. split; [reflexivity|].
    destruct Ap as (o & P & F). exists o. split; [exact P|]. right. split; [exact A|]. exists p. split; [exact Ep|congruence].
Qed.
Lemma climb_all_found fuel : valid_sk (fc_joints tgt) -> replaceable src tgt order ->
  exists up, climb_all_names (S (S fuel)) (fc_names tgt) (fc_joints tgt) (cb_assoc b) = Ok up /\ List.length up = List.length (fc_joints tgt) /\
    forall i, i < List.length (fc_joints tgt) -> exists q, nth_error up i = Some (Some q) /\ stands_for src tgt order i q.
Proof.
  intros V K. set (P := fun m (up : list (option nat)) => List.length up = m /\ forall i, i < m -> exists q, nth_error up i = Some (Some q) /\ stands_for src tgt order i q).
  assert (exists up, climb_all_names (S (S fuel)) (fc_names tgt) (fc_joints tgt) (cb_assoc b) = Ok up /\ P (List.length (fc_joints tgt)) up) as (up & E & H); [|exists up; destruct H; auto].
  unfold climb_all_names. apply (ofold_seq_inv _ P); [split; [reflexivity|intros; lia]|]. intros m up Hm [L N].
  destruct (climb_found fuel m V Hm (K m Hm)) as (q & E & S0). rewrite E. cbn [obind]. eexists. split; [reflexivity|]. split; [rewrite app_length; cbn; lia|].
  intros i Hi. destruct (Nat.eq_dec i m) as [->|D].
  - exists q. rewrite nth_error_app2, L, Nat.sub_diag by lia. auto.
  - destruct (N i ltac:(lia)) as (q' & E' & S'). exists q'. rewrite nth_error_app1 by lia. auto.
Qed.

Lemma climb_stuck i p jt nm pn : nth_error (fc_joints tgt) i = Some jt -> jparent jt = Some p -> nth_error (fc_names tgt) i = Some nm -> nth_error (fc_names tgt) p = Some pn ->
  find_assoc (cb_assoc b) nm = None -> find_assoc (cb_assoc b) pn = None ->
  forall fuel a, a = i \/ a = p -> climb_names fuel (fc_names tgt) (fc_joints tgt) (cb_assoc b) i (Some a) = OutOfFuel.
Proof.
  intros Ej Ep En Epn F1 F2. induction fuel as [|fuel IH]; intros a Ha; [reflexivity|]. cbn [climb_names].
  destruct Ha as [->| ->]; [rewrite (rd_some _ _ _ En)|rewrite (rd_some _ _ _ Epn)]; cbn [obind]; [rewrite F1|rewrite F2]; rewrite (rd_some _ _ _ Ej); cbn [obind]; rewrite Ep; apply IH; auto.
Qed.
Lemma climb_cases fuel i : valid_sk (fc_joints tgt) -> i < List.length (fc_joints tgt) -> (nth_error (sk_parents (fc_joints tgt)) i = Some None -> known src tgt order i) ->
  (exists q, climb_names fuel (fc_names tgt) (fc_joints tgt) (cb_assoc b) i (Some i) = Ok q) \/ climb_names fuel (fc_names tgt) (fc_joints tgt) (cb_assoc b) i (Some i) = OutOfFuel.
Proof.
  intros V Hi R. destruct (nth_error_lt (fc_names tgt) i) as [nm En]; [lia|]. destruct (nth_error_lt (fc_joints tgt) i Hi) as [jt Ej].
  pose proof (assoc_known i nm En) as A. destruct (find_assoc (cb_assoc b) nm) as [q|] eqn:F1.
  - destruct fuel; [right; reflexivity|]. left. exists q. cbn [climb_names]. rewrite (rd_some _ _ _ En). cbn [obind]. rewrite F1. reflexivity.
  - destruct (jparent jt) as [p|] eqn:Jp.
    2:{ destruct A. apply R. unfold sk_parents. rewrite nth_error_map, Ej. cbn. congruence. }
    pose proof (valid_sk_parent _ i jt p V Ej Jp). destruct (nth_error_lt (fc_names tgt) p) as [pn Epn]; [lia|].
    destruct (find_assoc (cb_assoc b) pn) as [q|] eqn:F2.
    + destruct fuel as [|[|fuel]]; [right; reflexivity| |].
      * right. cbn [climb_names]. rewrite (rd_some _ _ _ En). cbn [obind]. rewrite F1, (rd_some _ _ _ Ej). reflexivity.
      * left. exists q. cbn [climb_names]. rewrite (rd_some _ _ _ En). cbn [obind]. rewrite F1, (rd_some _ _ _ Ej). cbn [obind]. rewrite Jp, (rd_some _ _ _ Epn). cbn [obind]. rewrite F2. reflexivity.
    + right. apply (climb_stuck i p jt nm pn); auto.
Qed.
Lemma climb_all_stuck fuel i p : valid_sk (fc_joints tgt) -> (forall i, nth_error (sk_parents (fc_joints tgt)) i = Some None -> known src tgt order i) ->
  nth_error (sk_parents (fc_joints tgt)) i = Some (Some p) -> ~ known src tgt order i -> ~ known src tgt order p ->
  climb_all_names fuel (fc_names tgt) (fc_joints tgt) (cb_assoc b) = OutOfFuel.
Proof.
  intros V R Ep Ki Kp. assert (Hi : i < List.length (fc_joints tgt)) by (apply nth_error_len in Ep; unfold sk_parents in Ep; rewrite map_length in Ep; exact Ep).
  destruct (nth_error_lt (fc_joints tgt) i Hi) as [jt Ej]. assert (Jp : jparent jt = Some p) by (unfold sk_parents in Ep; rewrite nth_error_map, Ej in Ep; cbn in Ep; congruence).
  pose proof (valid_sk_parent _ i jt p V Ej Jp). destruct (nth_error_lt (fc_names tgt) i) as [nm En]; [lia|]. destruct (nth_error_lt (fc_names tgt) p) as [pn Epn]; [lia|].
  pose proof (assoc_known i nm En) as A. pose proof (assoc_known p pn Epn) as Ap.
  destruct (find_assoc (cb_assoc b) nm) as [q|] eqn:F1; [destruct Ki; destruct A as (o & P & F); exists o; split; [apply placed_in; eauto|congruence]|].
  destruct (find_assoc (cb_assoc b) pn) as [q|] eqn:F2; [destruct Kp; destruct Ap as (o & P & F); exists o; split; [apply placed_in; eauto|congruence]|].
  pose proof (climb_stuck i p jt nm pn Ej Jp En Epn F1 F2 fuel i (or_introl eq_refl)) as St.
  unfold climb_all_names. match goal with |- ofold ?g _ _ = _ => set (f := g) end.
  assert (G : forall l acc, (forall k, In k l -> k < List.length (fc_joints tgt)) -> In i l -> ofold f l acc = OutOfFuel).
  { induction l as [|k l IH]; intros acc Hl I; [destruct I|]. cbn [ofold]. unfold f at 1.
    destruct (climb_cases fuel k V (Hl k (or_introl eq_refl)) (R k)) as [(q & E)|E]; rewrite E; [|reflexivity]. cbn [obind]. apply IH; [intros; apply Hl; right; assumption|].
    destruct I as [->|I]; [congruence|exact I]. }
  apply G; [intros k Hk; apply in_seq in Hk; lia|apply in_seq; lia].
Qed.
End Climb.

(** ** The parameters of both *)

Lemma maps_injective order side n jmap : (forall a c : nat, side a = side c -> a = c) -> maps order side n jmap -> jmap_injective jmap.
Proof. intros Inj [_ M] a c j E1 E2. apply M in E1, E2. apply Inj. unfold placed in *. congruence. Qed.
Lemma drives_maps pt order side n jmap c : maps order side n jmap -> drives_mapped pt jmap c <-> drives_placed pt side order c.
Proof.
  intros [_ M]. split.
  - intros (e & j & H1 & H2 & H3). exists e. repeat split; auto. apply placed_in. exists j. apply M, H3.
  - intros (e & H1 & H2 & H3). apply placed_in in H3 as (q & P). exists e, q. repeat split; auto. apply M, P.
Qed.
Lemma kept_names_in nms valid nm : List.length valid = List.length nms -> In nm (kept_names nms valid) -> exists i, is_kept valid i /\ nth_error nms i = Some nm.
Proof.
  intros L H. unfold kept_names in H. apply in_map_iff in H as (i & E & H). apply filter_In in H as [H1 H2]. apply in_seq in H1. exists i.
  split; [apply is_kept_nth; split; [lia|exact H2]|]. rewrite <- E. apply nth_error_nth'. lia.
Qed.
Lemma mapped_to_placed order side n jmap j : maps order side n jmap -> mapped_to jmap j = true <-> In (side j) order.
Proof.
  intros [_ M]. unfold mapped_to. rewrite placed_in. destruct (nth_error jmap j) as [[q|]|] eqn:E; split; intros H; try discriminate.
  - exists q. apply M, E.
  - reflexivity.
  - destruct H as (q & P). apply M in P. congruence.
  - destruct H as (q & P). apply M in P. congruence.
Qed.
