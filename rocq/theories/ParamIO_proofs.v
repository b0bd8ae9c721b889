From Coq Require Import Bool Reals List Arith Ascii String Lia Lra FinFun.
From Verif Require Import Prelude LinAlg Rbool Str_model Str_spec Str_proofs ParamTransform_model ParamTransform_spec
  ParamTransform_proofs ParamTransform_map_proofs ParamIO_model ParamIO_spec.
Import ListNotations.
Local Open Scope R_scope.

(** ** Lookups *)

Lemma str_eqb_true a b : str_eqb a b = true <-> a = b.
Proof. unfold str_eqb. destruct (list_eq_dec ascii_dec a b); split; congruence. Qed.

Lemma find_str_from_some nm l : forall i k, find_str_from i nm l = Some k ->
  exists j, k = (i + j)%nat /\ nth_error l j = Some nm.
Proof.
  induction l as [|x l IH]; intros i k; cbn; [discriminate|]. destruct (str_eqb x nm) eqn:E.
  - intros H; injection H as <-. exists 0%nat. apply str_eqb_true in E. subst. split; [lia|reflexivity].
  - intros H. destruct (IH _ _ H) as [j [-> Hj]]. exists (S j). split; [lia|exact Hj].
Qed.
Lemma find_str_from_none nm l : forall i, find_str_from i nm l = None <-> ~ In nm l.
Proof.
  induction l as [|x l IH]; intros i; cbn; [tauto|]. destruct (str_eqb x nm) eqn:E.
  - apply str_eqb_true in E. split; [discriminate|]. intros H. exfalso. apply H. left. exact E.
  - rewrite IH. split; [|tauto]. intros H [C|C]; [|exact (H C)]. apply str_eqb_true in C. congruence.
Qed.
Lemma find_str_some nm l k : find_str nm l = Some k -> nth_error l k = Some nm.
Proof. intros H. apply find_str_from_some in H as [j [-> Hj]]. exact Hj. Qed.
Lemma find_str_none nm l : find_str nm l = None <-> ~ In nm l.
Proof. apply find_str_from_none. Qed.
Lemma find_str_lt nm l k : find_str nm l = Some k -> (k < List.length l)%nat.
Proof. intros H. apply find_str_some in H. apply nth_error_Some. congruence. Qed.

(** ** The copy loop *)

Definition scaled (row : nat) (w : R) (e : entry) : entry := Entry row (ecol e) (eval e * w).

Lemma copy_refs_ok ref row w : ref <> row -> forall fuel todo done,
  (List.length todo + List.length (filter (fun e => Nat.eqb (erow e) ref) todo) < fuel)%nat ->
  copy_refs fuel (List.length done) (done ++ todo) ref row w =
    Ok (done ++ todo ++ map (scaled row w) (filter (fun e => Nat.eqb (erow e) ref) todo)).
Proof.
  intros N. induction fuel as [|fuel IH]; intros todo done Hf; [lia|].
  cbn [copy_refs]. destruct todo as [|t r].
  - cbn [filter map app]. rewrite !app_nil_r, (proj2 (nth_error_None done (List.length done))) by lia. reflexivity.
  - rewrite nth_error_app2, Nat.sub_diag by lia. cbn [nth_error]. cbn [filter] in Hf |- *.
    destruct (Nat.eqb (erow t) ref) eqn:E.
    + specialize (IH (r ++ [scaled row w t]) (done ++ [t])).
      replace (List.length (done ++ [t])) with (S (List.length done)) in IH by (rewrite app_length; cbn [List.length]; lia).
      assert (F : filter (fun e => Nat.eqb (erow e) ref) (r ++ [scaled row w t]) = filter (fun e => Nat.eqb (erow e) ref) r).
      { rewrite filter_app. cbn [filter scaled erow]. destruct (Nat.eqb_spec row ref); [congruence|]. apply app_nil_r. }
      rewrite F in IH. rewrite app_length in IH. cbn [List.length] in Hf, IH.
      replace ((done ++ [t]) ++ r ++ [scaled row w t]) with ((done ++ t :: r) ++ [scaled row w t]) in IH
        by (rewrite <- !app_assoc; reflexivity).
      unfold scaled at 1 in IH. rewrite IH by lia. f_equal. cbn [map]. rewrite <- !app_assoc. reflexivity.
    + specialize (IH r (done ++ [t])). replace (List.length (done ++ [t])) with (S (List.length done)) in IH by (rewrite app_length; cbn [List.length]; lia).
      cbn [List.length] in Hf.
      replace ((done ++ [t]) ++ r) with (done ++ t :: r) in IH by (rewrite <- !app_assoc; reflexivity).
      rewrite IH by lia. f_equal. rewrite <- !app_assoc. reflexivity.
Qed.

Lemma copy_refs_diverges row w : forall fuel tr trips i e,
  (tr <= i)%nat -> nth_error trips i = Some e -> erow e = row -> copy_refs fuel tr trips row row w = OutOfFuel.
Proof.
  induction fuel as [|fuel IH]; intros tr trips i e Hi He Er; [reflexivity|]. cbn [copy_refs].
  assert (Hlt : (i < List.length trips)%nat) by (apply nth_error_Some; congruence).
  destruct (nth_error trips tr) as [t|] eqn:Et; [|apply nth_error_None in Et; lia].
  destruct (Nat.eq_dec i tr) as [->|N].
  - rewrite He in Et. injection Et as <-. rewrite Er, Nat.eqb_refl.
    apply (IH (S tr) _ (List.length trips) (Entry row (ecol e) (eval e * w))); [lia| |reflexivity].
    rewrite nth_error_app2, Nat.sub_diag by lia. reflexivity.
  - apply (IH (S tr) _ i e); [lia| |exact Er]. destruct (Nat.eqb (erow t) row); [|exact He].
    rewrite nth_error_app1 by exact Hlt. exact He.
Qed.

Lemma filter_length_le {A} (f : A -> bool) l : (List.length (filter f l) <= List.length l)%nat.
Proof. induction l as [|x l IH]; [reflexivity|]. cbn. destruct (f x); cbn; lia. Qed.

(** ** Coefficients *)

Definition ecoef (es : list entry) (r c : nat) : R :=
  rsum (map (fun e => if andb (Nat.eqb (erow e) r) (Nat.eqb (ecol e) c) then eval e else 0) es).

Lemma ecoef_app a b r c : ecoef (a ++ b) r c = ecoef a r c + ecoef b r c.
Proof. unfold ecoef. rewrite map_app. apply rsum_app. Qed.
Lemma ecoef_one e r c : ecoef [e] r c = if andb (Nat.eqb (erow e) r) (Nat.eqb (ecol e) c) then eval e else 0.
Proof. unfold ecoef. cbn. ring. Qed.
Lemma ecoef_scaled es ref row w r c :
  ecoef (map (scaled row w) (filter (fun e => Nat.eqb (erow e) ref) es)) r c =
  if Nat.eqb r row then w * ecoef es ref c else 0.
Proof.
  induction es as [|e es IH]; cbn [filter map].
  - unfold ecoef. cbn. destruct (Nat.eqb r row); ring.
  - change (e :: es) with ([e] ++ es). rewrite (ecoef_app [e] es), ecoef_one.
    destruct (Nat.eqb_spec (erow e) ref) as [E|E]; cbn [andb].
    + cbn [map]. change (?a :: ?b) with ([a] ++ b). rewrite ecoef_app, IH, ecoef_one. cbn [scaled erow ecol eval].
      rewrite (Nat.eqb_sym row r). destruct (Nat.eqb r row), (Nat.eqb (ecol e) c); cbn [andb]; ring.
    + rewrite IH. destruct (Nat.eqb r row); ring.
Qed.
Lemma ecoef_out es r c : (forall e, In e es -> (ecol e < c)%nat) -> ecoef es r c = 0.
Proof.
  intros H. unfold ecoef. apply rsum_map_zero. intros e He. specialize (H e He).
  destruct (Nat.eqb_spec (ecol e) c); [lia|]. rewrite andb_false_r. reflexivity.
Qed.
Lemma ecoef_filter_zero es r c : ecoef (filter (fun e => negb (Reqb (eval e) 0)) es) r c = ecoef es r c.
Proof.
  induction es as [|e es IH]; [reflexivity|]. cbn [filter].
  change (e :: es) with ([e] ++ es). rewrite (ecoef_app [e] es), ecoef_one.
  destruct (Reqb_spec (eval e) 0) as [Z|Z]; cbn [negb].
  - rewrite IH, Z. destruct (andb _ _); ring.
  - change (e :: ?b) with ([e] ++ b). rewrite ecoef_app, IH, ecoef_one. reflexivity.
Qed.

(** ** Simulation *)

Record sim (n : nat) (st : pstate) (m : meaning) : Prop := {
  sim_names : ps_names st = m_names m;
  sim_nodup : NoDup (m_names m);
  sim_range : forall e, In e (ps_trip st) -> (erow e < n)%nat /\ (ecol e < List.length (m_names m))%nat;
  sim_coef : forall r c nm, nth_error (m_names m) c = Some nm -> ecoef (ps_trip st) r c = m_coef m r nm;
  sim_out : forall r nm, ~ In nm (m_names m) -> m_coef m r nm = 0;
  sim_offlen : List.length (ps_off st) = n;
  sim_off : forall r, (r < n)%nat -> nth r (ps_off st) 0 = m_const m r
}.

Lemma nodup_snoc {A} (l : list A) x : NoDup l -> ~ In x l -> NoDup (l ++ [x]).
Proof.
  intros H N. induction l as [|y l IH]; cbn; [constructor; [intros []|constructor]|].
  inversion H; subst. constructor.
  - rewrite in_app_iff. intros [K|[K|[]]]; [contradiction|]. subst. apply N. left. reflexivity.
  - apply IH; [assumption|]. intros K. apply N. right. exact K.
Qed.

Lemma nth_error_snoc {A} (l : list A) x c y : nth_error (l ++ [x]) c = Some y ->
  (nth_error l c = Some y /\ (c < List.length l)%nat) \/ (c = List.length l /\ y = x).
Proof.
  intros H. destruct (Nat.lt_ge_cases c (List.length l)) as [L|L].
  - rewrite nth_error_app1 in H by exact L. auto.
  - rewrite nth_error_app2 in H by exact L. destruct (c - List.length l)%nat as [|k] eqn:E.
    + cbn in H. injection H as <-. right. split; [lia|reflexivity].
    + cbn in H. destruct k; discriminate.
Qed.

Lemma exec_term_sim joints row n st m t m' :
  sim n st m -> (row < n)%nat -> term_means joints row m t m' ->
  exists F st', (forall fuel, (F <= fuel)%nat -> exec_term fuel joints row st t = Ok st') /\ sim n st' m' /\ ps_act st' = ps_act st.
Proof.
  intros S Hr H. destruct H as [m c|m w nm Hin|m w nm Hn Hj|m w nm ref Hn Hc Hne]; cbn [exec_term].
  - exists 0%nat. destruct (wr_ok (ps_off st) row c 0) as [off [E [L N]]]; [rewrite (sim_offlen n st m S); exact Hr|].
    eexists. split; [intros fuel _; rewrite E; reflexivity|]. split; [|reflexivity].
    constructor; cbn; try apply S.
    + rewrite L. apply S.
    + intros r Hrr. rewrite N. destruct (Nat.eqb r row); [reflexivity|apply (sim_off n st m S r Hrr)].
  - exists 0%nat. unfold add_term. rewrite (sim_names n st m S).
    destruct (find_str nm (m_names m)) as [c|] eqn:E; [|apply find_str_none in E; contradiction].
    eexists. split; [intros fuel _; reflexivity|]. split; [|reflexivity].
    pose proof (find_str_some _ _ _ E) as Ec.
    constructor; cbn [ps_names ps_trip ps_off m_names m_coef m_const]; try apply S.
    + reflexivity.
    + intros e He. apply in_app_iff in He as [He|[<-|[]]]; [apply (sim_range n st m S e He)|].
      cbn. split; [exact Hr|]. apply nth_error_Some. congruence.
    + intros r c' nm' Hc'. rewrite ecoef_app, ecoef_one, (sim_coef n st m S r c' nm' Hc'). cbn [erow ecol eval].
      unfold add_coef. f_equal. rewrite (Nat.eqb_sym row r). destruct (Nat.eqb r row); cbn [andb]; [|reflexivity].
      destruct (list_eq_dec ascii_dec nm' nm) as [->|Nn].
      * destruct (Nat.eqb_spec c c') as [|Nc]; [reflexivity|]. exfalso. apply Nc.
        apply (proj1 (NoDup_nth_error (m_names m)) (sim_nodup n st m S)); [apply nth_error_Some; congruence|congruence].
      * destruct (Nat.eqb_spec c c') as [<-|]; [|reflexivity]. congruence.
    + intros r nm' Hn'. unfold add_coef. rewrite (sim_out n st m S r nm' Hn').
      destruct (list_eq_dec ascii_dec nm' nm) as [->|]; [contradiction|]. destruct (Nat.eqb r row); ring.
  - exists 0%nat. unfold add_term. rewrite (sim_names n st m S).
    rewrite (proj2 (find_str_none nm (m_names m)) Hn), (proj2 (find_str_none _ joints) Hj).
    eexists. split; [intros fuel _; reflexivity|]. split; [|reflexivity].
    constructor; cbn [ps_names ps_trip ps_off m_names m_coef m_const]; try apply S.
    + reflexivity.
    + apply nodup_snoc; [apply S|exact Hn].
    + rewrite app_length. cbn [List.length]. intros e He. apply in_app_iff in He as [He|[<-|[]]].
      * pose proof (sim_range n st m S e He). lia.
      * cbn. lia.
    + intros r c' nm' Hc'. rewrite ecoef_app, ecoef_one. cbn [erow ecol eval].
      unfold add_coef. rewrite (Nat.eqb_sym row r). apply nth_error_snoc in Hc' as [[Hc' Hl]|[-> ->]].
      * rewrite (sim_coef n st m S r c' nm' Hc'). f_equal.
        destruct (Nat.eqb_spec (List.length (m_names m)) c'); [lia|]. rewrite andb_false_r.
        destruct (list_eq_dec ascii_dec nm' nm) as [->|]; [|destruct (Nat.eqb r row); reflexivity].
        exfalso. apply Hn. eapply nth_error_In. exact Hc'.
      * rewrite Nat.eqb_refl, andb_true_r, (sim_out n st m S r nm Hn), ecoef_out;
          [|intros e He; apply (sim_range n st m S e He)].
        destruct (list_eq_dec ascii_dec nm nm); [|contradiction]. destruct (Nat.eqb r row); reflexivity.
    + intros r nm' Hn'. unfold add_coef. rewrite in_app_iff in Hn'. rewrite (sim_out n st m S r nm') by tauto.
      destruct (list_eq_dec ascii_dec nm' nm) as [->|]; [exfalso; apply Hn'; right; left; reflexivity|].
      destruct (Nat.eqb r row); ring.
  - unfold add_term. unfold channel_of in Hc.
    destruct (find_str (fst (split_dot nm)) joints) as [j|]; [|discriminate].
    destruct (find_str (snd (split_dot nm)) channel_names) as [l|]; [|discriminate]. injection Hc as Hc.
    rewrite (sim_names n st m S), (proj2 (find_str_none nm (m_names m)) Hn), Hc.
    exists (Datatypes.S (List.length (ps_trip st) + List.length (ps_trip st))). eexists. split.
    + intros fuel Hf. pose proof (copy_refs_ok ref row w Hne fuel (ps_trip st) []) as K. cbn [List.length app] in K.
      rewrite K; [cbn [obind]; reflexivity|]. clear K.
      pose proof (filter_length_le (fun e => Nat.eqb (erow e) ref) (ps_trip st)). lia.
    + split; [|reflexivity]. constructor; cbn [ps_names ps_trip ps_off m_names m_coef m_const app]; try apply S; try reflexivity.
      * intros e He. apply in_app_iff in He as [He|He]; [apply (sim_range n st m S e He)|].
        apply in_map_iff in He as [e0 [<- He]]. apply filter_In in He as [He _]. cbn. split; [exact Hr|].
        apply (sim_range n st m S e0 He).
      * intros r c nm' Hc'. rewrite ecoef_app, ecoef_scaled, !(sim_coef n st m S _ _ _ Hc'). unfold add_row. reflexivity.
      * intros r nm' Hn'. unfold add_row. rewrite !(sim_out n st m S) by exact Hn'. destruct (Nat.eqb r row); ring.
Qed.

Lemma parse_terms_sim stod joints row n m ds ts m' st :
  sim n st m -> (row < n)%nat -> reads_terms stod ds ts -> terms_mean joints row m ts m' ->
  exists F st', (forall fuel, (F <= fuel)%nat -> parse_terms stod fuel joints row ds st = Ok st') /\ sim n st' m' /\ ps_act st' = ps_act st.
Proof.
  intros S Hr R. revert m st S m'. induction R as [|d ds ts Hd R IH|d ds t ts Hd R IH]; intros m st S m' H.
  - inversion H; subst. exists 0%nat, st. split; [reflexivity|]. split; [exact S|reflexivity].
  - destruct (IH m st S m' H) as [F [st' [E [S' A]]]]. exists F, st'. split; [|auto].
    intros fuel Hf. cbn [parse_terms]. rewrite Hd. cbn [obind]. apply E. exact Hf.
  - inversion H as [|? ? m1 ? ? H1 H2]; subst.
    destruct (exec_term_sim joints row n st m t m1 S Hr H1) as [F1 [st1 [E1 [S1 A1]]]].
    destruct (IH m1 st1 S1 m' H2) as [F2 [st2 [E2 [S2 A2]]]].
    exists (F1 + F2)%nat, st2. split; [|split; [exact S2|congruence]].
    intros fuel Hf. cbn [parse_terms]. rewrite Hd. cbn [obind]. rewrite E1 by lia. cbn [obind]. apply E2. lia.
Qed.

Lemma read_line_row joints l row ds : read_line joints l = Ok (Some (row, ds)) -> (row < List.length joints * 7)%nat.
Proof.
  unfold read_line. destruct (_ || _)%bool; [discriminate|].
  destruct (tokenize (strip_comment l) _ true) as [[|lhs [|rhs [|? ?]]]| | | |]; cbn [obind]; try discriminate.
  destruct (tokenize lhs _ true) as [[|jn [|an [|? ?]]]| | | |]; cbn [obind]; try discriminate.
  destruct (trim white_default jn) as [jn'| | | |]; cbn [obind]; try discriminate.
  destruct (find_str jn' joints) as [j|] eqn:J; [|discriminate].
  destruct (trim white_default an) as [an'| | | |]; cbn [obind]; try discriminate.
  destruct (find_str an' channel_names) as [a|] eqn:A; [|discriminate].
  destruct (tokenize rhs _ true) as [d| | | |]; cbn [obind]; try discriminate.
  intros H. injection H as <- _. apply find_str_lt in J. apply find_str_lt in A. cbn in A. lia.
Qed.

Lemma parse_lines_sim stod joints n m ls es m' st :
  n = (List.length joints * 7)%nat -> List.length (ps_act st) = n ->
  sim n st m -> reads_lines stod joints ls es -> exprs_mean joints m es m' ->
  exists F st', (forall fuel, (F <= fuel)%nat -> parse_lines stod fuel joints ls st = Ok st') /\ sim n st' m' /\
    forall r, nth r (ps_act st') false = true <-> nth r (ps_act st) false = true \/ exists ts, In (r, ts) es.
Proof.
  intros En La S R. revert m st S La m'. induction R as [|l ls es Hl R IH|l ls row ds ts es Hl Ht R IH]; intros m st S La m' H.
  - inversion H; subst. exists 0%nat, st. split; [reflexivity|]. split; [exact S|]. intros r. split; [auto|]. intros [K|[ts []]]; exact K.
  - destruct (IH m st S La m' H) as [F [st' [E [S' A]]]]. exists F, st'. split; [|auto].
    intros fuel Hf. cbn [parse_lines]. rewrite Hl. cbn [obind]. apply E. exact Hf.
  - inversion H as [|? ? ? m1 ? ? H1 H2]; subst.
    pose proof (read_line_row _ _ _ _ Hl) as Hrow.
    destruct (wr_ok (ps_act st) row true false) as [act [EA [LA NA]]]; [rewrite La; exact Hrow|].
    assert (S0 : sim (List.length joints * 7) (PState (ps_names st) (ps_trip st) (ps_off st) act) m) by (constructor; cbn; apply S).
    destruct (parse_terms_sim stod joints row _ m ds ts m1 _ S0 Hrow Ht H1) as [F1 [st1 [E1 [S1 A1]]]]. cbn in A1.
    assert (L1 : List.length (ps_act st1) = (List.length joints * 7)%nat) by (rewrite A1, LA; exact La).
    destruct (IH m1 st1 S1 L1 m' H2) as [F2 [st2 [E2 [S2 A2]]]].
    exists (F1 + F2)%nat, st2. split; [|split; [exact S2|]].
    + intros fuel Hf. cbn [parse_lines]. rewrite Hl. cbn [obind]. rewrite EA. cbn [obind]. rewrite E1 by lia. cbn [obind]. apply E2. lia.
    + intros r. rewrite A2, A1, NA. destruct (Nat.eqb_spec r row) as [->|Nr].
      * split; [|auto]. intros _. right. exists ts. left. reflexivity.
      * split.
        -- intros [K|[ts' K]]; [auto|right; exists ts'; right; exact K].
        -- intros [K|[ts' [K|K]]]; [auto|injection K; congruence|right; exists ts'; exact K].
Qed.

Lemma string_of_list_ascii_inj a b : string_of_list_ascii a = string_of_list_ascii b -> a = b.
Proof.
  intros H. rewrite <- (list_ascii_of_string_of_list_ascii a), H. apply list_ascii_of_string_of_list_ascii.
Qed.

Lemma parse_meaning_lemma stod joints data es m :
  reads_lines stod joints (get_lines [] data) es -> exprs_mean joints m0 es m ->
  exists F pt, (forall fuel, (F <= fuel)%nat -> parse_transform stod fuel joints data = Ok pt) /\ represents pt joints m es.
Proof.
  intros R H.
  assert (S0 : sim (List.length joints * 7) (init_state (List.length joints)) m0).
  { constructor; cbn.
    - reflexivity.
    - constructor.
    - intros e [].
    - intros r [|c] nm Hc; discriminate.
    - reflexivity.
    - apply repeat_length.
    - intros r _. apply nth_repeat0. }
  destruct (parse_lines_sim stod joints _ m0 _ es m (init_state (List.length joints)) eq_refl (repeat_length _ _) S0 R H) as [F [st [E [S A]]]].
  exists F. eexists. split.
  - intros fuel Hf. unfold parse_transform. rewrite (E fuel Hf). cbn [obind]. reflexivity.
  - unfold represents. cbn [pt_name pt_cols pt_rows pt_entries pt_offsets pt_active].
    rewrite (sim_names _ _ _ S). split; [reflexivity|]. split.
    { apply FinFun.Injective_map_NoDup; [intros a b; apply string_of_list_ascii_inj|apply (sim_nodup _ _ _ S)]. }
    split; [reflexivity|]. split; [reflexivity|]. split; [|split; [|split; [|split]]].
    + intros r c nm Hc. unfold coeff. cbn [pt_entries]. change (ecoef (filter (fun e => negb (Reqb (eval e) 0)) (ps_trip st)) r c = m_coef m r nm).
      rewrite ecoef_filter_zero. apply (sim_coef _ _ _ S). exact Hc.
    + intros e He. apply filter_In in He as [He _]. apply (sim_range _ _ _ S e He).
    + apply (sim_offlen _ _ _ S).
    + apply (sim_off _ _ _ S).
    + intros r. rewrite A. cbn [init_state ps_act]. split; [|auto]. intros [K|K]; [|exact K].
      exfalso. revert K. generalize (List.length joints * 7)%nat. clear. intros k. revert r.
      induction k as [|k IH]; intros [|r]; cbn; try discriminate. apply IH.
Qed.

(** ** Termination *)

Lemma tokenize_total s ds b : exists l, tokenize s ds b = Ok l.
Proof.
  destruct s as [|c r]; [exists []; reflexivity|].
  destruct (tokenize_lemma (c :: r) ds) as [ps [_ [H1 H2]]]; [discriminate|].
  destruct b; [exists (filter (fun p => negb (Nat.eqb (List.length p) 0)) ps); exact H2|exists ps; exact H1].
Qed.
Lemma trim_total ws s : exists r, trim ws s = Ok r.
Proof. destruct (trim_lemma ws s) as [r [H _]]. eauto. Qed.

Lemma read_term_no_loop stod d : read_term stod d <> OutOfFuel.
Proof.
  unfold read_term. destruct (tokenize_total d ["*"%char] true) as [l ->]. cbn [obind].
  destruct l as [|a [|b [|? ?]]]; try discriminate; unfold stod_or_throw; destruct (stod a); cbn [obind]; try discriminate.
  destruct (trim_total white_default b) as [rr ->]. discriminate.
Qed.
Lemma read_line_no_loop joints l : read_line joints l <> OutOfFuel.
Proof.
  unfold read_line. destruct (_ || _)%bool; [discriminate|].
  destruct (tokenize_total (strip_comment l) ["="%char] true) as [p ->]. cbn [obind].
  destruct p as [|lhs [|rhs [|? ?]]]; try discriminate.
  destruct (tokenize_total lhs ["."%char] true) as [a ->]. cbn [obind].
  destruct a as [|jn [|an [|? ?]]]; try discriminate.
  destruct (trim_total white_default jn) as [jn' ->]. cbn [obind].
  destruct (find_str jn' joints); [|discriminate].
  destruct (trim_total white_default an) as [an' ->]. cbn [obind].
  destruct (find_str an' channel_names); [|discriminate].
  destruct (tokenize_total rhs ["+"%char] true) as [d ->]. discriminate.
Qed.

(** The outcome settles once the budget is large enough, and is not OutOfFuel. *)
Definition settles {A} (f : nat -> outcome A) : Prop :=
  exists F o, o <> OutOfFuel /\ forall fuel, (F <= fuel)%nat -> f fuel = o.

Lemma settles_const {A} (o : outcome A) : o <> OutOfFuel -> settles (fun _ => o).
Proof. intros H. exists 0%nat, o. auto. Qed.
Lemma settles_bind {A B} (f : nat -> outcome A) (g : nat -> A -> outcome B) :
  settles f -> (forall a, settles (fun fuel => g fuel a)) -> settles (fun fuel => obind (f fuel) (g fuel)).
Proof.
  intros [F [o [N E]]] H. destruct o as [a| | | |]; try contradiction.
  - destruct (H a) as [G [o2 [N2 E2]]]. exists (F + G)%nat, o2. split; [exact N2|]. intros fuel Hf.
    rewrite E by lia. cbn. apply E2. lia.
  - exists F, Throw. split; [discriminate|]. intros fuel Hf. rewrite E by exact Hf. reflexivity.
  - exists F, CheckFail. split; [discriminate|]. intros fuel Hf. rewrite E by exact Hf. reflexivity.
  - exists F, UB. split; [discriminate|]. intros fuel Hf. rewrite E by exact Hf. reflexivity.
Qed.

Lemma wr_no_loop {A} (l : list A) i a : wr l i a <> OutOfFuel.
Proof. unfold wr. destruct (upd l i a); discriminate. Qed.

Lemma exec_term_settles joints row st t :
  (forall w nm, t = TParam w nm -> channel_of joints nm <> Some row) ->
  settles (fun fuel => exec_term fuel joints row st t).
Proof.
  intros H. destruct t as [c|w nm]; cbn [exec_term].
  - apply settles_bind; [apply settles_const; apply wr_no_loop|intros a; apply settles_const; discriminate].
  - specialize (H w nm eq_refl). unfold add_term, channel_of in *.
    destruct (find_str nm (ps_names st)); [apply settles_const; discriminate|]. revert H.
    destruct (find_str (fst (split_dot nm)) joints) as [n|]; [|intros _; apply settles_const; discriminate].
    destruct (find_str (snd (split_dot nm)) channel_names) as [n0|]; [|intros _; apply settles_const; discriminate]. intros H.
    apply settles_bind; [|intros a; apply settles_const; discriminate].
    exists (Datatypes.S (List.length (ps_trip st) + List.length (ps_trip st))). eexists. split; [|intros fuel Hf].
    2:{ apply (copy_refs_ok (n * 7 + n0) row w (fun C => H (f_equal Some C)) fuel (ps_trip st) []).
        pose proof (filter_length_le (fun e => Nat.eqb (erow e) (n * 7 + n0)) (ps_trip st)). lia. }
    discriminate.
Qed.

Lemma parse_terms_settles stod joints row ds : forall st,
  (forall d w nm, In d ds -> read_term stod d = Ok (Some (TParam w nm)) -> channel_of joints nm <> Some row) ->
  settles (fun fuel => parse_terms stod fuel joints row ds st).
Proof.
  induction ds as [|d ds IH]; intros st H; cbn [parse_terms]; [apply settles_const; discriminate|].
  pose proof (read_term_no_loop stod d) as NL. pose proof (H d) as Hd.
  destruct (read_term stod d) as [[t|]| | | |]; cbn [obind]; try (apply settles_const; discriminate); try contradiction.
  - apply settles_bind; [|intros a; apply IH; intros; eapply H; [right|]; eassumption].
    apply exec_term_settles. intros w nm ->. apply (Hd w nm); [left; reflexivity|reflexivity].
  - apply IH. intros; eapply H; [right|]; eassumption.
Qed.

Lemma parse_lines_settles stod joints ls : forall st, no_self_reference stod joints ls ->
  settles (fun fuel => parse_lines stod fuel joints ls st).
Proof.
  induction ls as [|l ls IH]; intros st H; cbn [parse_lines]; [apply settles_const; discriminate|].
  assert (HR : no_self_reference stod joints ls) by (intros l0 row ds d w nm K; apply (H l0); right; exact K).
  pose proof (read_line_no_loop joints l) as NL. pose proof (H l) as Hl.
  destruct (read_line joints l) as [[[row ds]|]| | | |]; cbn [obind]; try (apply settles_const; discriminate); try contradiction; [|apply IH; exact HR].
  apply settles_bind; [|intros a; apply IH; exact HR].
  apply settles_bind; [apply settles_const; apply wr_no_loop|]. intros act. apply parse_terms_settles.
  intros d w nm Hd Hr. apply (Hl row ds d w nm); auto. left. reflexivity.
Qed.

Lemma parse_terminates_lemma stod joints data : no_self_reference stod joints (get_lines [] data) ->
  exists F o, o <> OutOfFuel /\ forall fuel, (F <= fuel)%nat -> parse_transform stod fuel joints data = o.
Proof.
  intros H. unfold parse_transform. apply (settles_bind (fun fuel => parse_lines stod fuel joints (get_lines [] data) _)).
  - apply parse_lines_settles. exact H.
  - intros a. apply settles_const. discriminate.
Qed.

(** ** Lines and comments *)
Lemma get_lines_line l cur rest : ~ In newline l ->
  get_lines cur (l ++ newline :: rest) = (cur ++ l) :: get_lines [] rest.
Proof.
  revert cur; induction l as [|c l IH]; intros cur H.
  - cbn. rewrite app_nil_r. reflexivity.
  - cbn [app get_lines]. destruct (Ascii.eqb_spec c "010"%char) as [->|Ne].
    + exfalso. apply H. left. reflexivity.
    + rewrite IH by (intros X; apply H; right; exact X). rewrite <- app_assoc. reflexivity.
Qed.
Lemma get_lines_lemma ls : (forall l, In l ls -> ~ In newline l) -> get_lines [] (unlines ls) = ls.
Proof.
  induction ls as [|l ls IH]; intros H; [reflexivity|].
  unfold unlines. cbn [flat_map]. rewrite <- app_assoc. cbn [app].
  rewrite get_lines_line by (apply H; left; reflexivity). cbn [app]. f_equal. apply IH.
  intros x Hx. apply H. right. exact Hx.
Qed.
Lemma hash_eq x l : ~ In "#"%char (x :: l) -> existsb (Ascii.eqb x) ["#"%char] = false.
Proof.
  intros H. cbn. rewrite orb_false_r. apply Ascii.eqb_neq. intros ->. apply H. left. reflexivity.
Qed.
Lemma find_hash l k c : ~ In "#"%char l -> find_from ["#"%char] (l ++ "#"%char :: c) k = Some (k + List.length l)%nat.
Proof.
  revert k; induction l as [|x l IH]; intros k H; cbn [app find_from List.length].
  - cbn. rewrite Nat.add_0_r. reflexivity.
  - rewrite (hash_eq x l H), IH by (intros X; apply H; right; exact X). f_equal. lia.
Qed.
Lemma find_no_hash l k : ~ In "#"%char l -> find_from ["#"%char] l k = None.
Proof.
  revert k; induction l as [|x l IH]; intros k H; cbn [find_from]; [reflexivity|].
  rewrite (hash_eq x l H). apply IH. intros X; apply H; right; exact X.
Qed.
Lemma strip_commented lc : plain_line lc -> strip_comment (commented lc) = fst lc /\ strip_comment (fst lc) = fst lc.
Proof.
  intros [_ H]. destruct lc as [l c]; cbn [fst] in *. unfold strip_comment, commented, find_first_of. cbn [fst snd skipn].
  rewrite (find_no_hash l 0 H). split; [|reflexivity]. destruct c as [c|]; [|rewrite (find_no_hash l 0 H); reflexivity].
  rewrite find_hash by exact H. cbn [Nat.add]. rewrite firstn_app, firstn_all, Nat.sub_diag. cbn. apply app_nil_r.
Qed.
Lemma read_commented joints lc : plain_line lc -> read_line joints (commented lc) = read_line joints (fst lc).
Proof. intros H. destruct (strip_commented lc H) as [E1 E2]. unfold read_line. rewrite E1, E2. reflexivity. Qed.
Lemma comments_lemma stod fuel joints ls : (forall lc, In lc ls -> plain_line lc) ->
  parse_transform stod fuel joints (unlines (map commented ls)) = parse_transform stod fuel joints (unlines (map fst ls)).
Proof.
  intros H. unfold parse_transform. rewrite !get_lines_lemma.
  - assert (E : forall st, parse_lines stod fuel joints (map commented ls) st = parse_lines stod fuel joints (map fst ls) st).
    { induction ls as [|lc ls IH]; intros st; [reflexivity|]. cbn [map parse_lines].
      rewrite read_commented by (apply H; left; reflexivity).
      destruct (read_line joints (fst lc)) as [[[row ds]|]| | | |]; cbn [obind]; try reflexivity.
      - destruct (wr (ps_act st) row true); cbn [obind]; try reflexivity.
        match goal with |- obind ?x _ = _ => destruct x end; cbn [obind]; try reflexivity.
        apply IH. intros x Hx. apply H. right. exact Hx.
      - apply IH. intros x Hx. apply H. right. exact Hx. }
    rewrite E. reflexivity.
  - intros l Hl. apply in_map_iff in Hl as [lc [<- Hl]]. destruct (H lc Hl) as [N _].
    intros X. apply N. unfold commented. destruct (snd lc); [apply in_or_app; left|]; exact X.
  - intros l Hl. apply in_map_iff in Hl as [lc [<- Hl]]. apply (H lc Hl).
Qed.
