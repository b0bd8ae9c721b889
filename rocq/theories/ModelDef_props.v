(** Theorems about model definitions (C125). *)

From Coq Require Import List Arith Ascii ZArith Bool String Reals Lia.
From Verif Require Import Prelude Loops Str_model Str_spec Str_proofs ParamTransform_model ParamIO_model ParamIO_spec ParamIO_proofs ParamIO_props Lines_model Lines_spec Lines_proofs Lines_props
  Marker_model LocIO_model LocIO_spec LimIO_model LimIO_spec LimIO_proofs LimIO_props LimLines_props Marker_spec ModelDef_model ModelDef_spec.
Import ListNotations.
Local Open Scope outcome_scope.
Local Open Scope list_scope.
Local Open Scope nat_scope.

Lemma tok_words l ws : tokenize l blanks true = Ok ws <-> words l ws.
Proof.
  split; intros E.
  - destruct l as [|c l]; [left; split; [reflexivity|]; injection E as <-; reflexivity|right].
    destruct (tokenize_lemma (c :: l) blanks) as (ps & S & _ & E'); [discriminate|]. exists ps. split; [exact S|]. congruence.
  - destruct E as [(-> & ->)|(ps & S & ->)]; [reflexivity|]. destruct l as [|c l].
    + rewrite (splits_unique blanks [] ps [[]] S); [reflexivity|]. constructor. intros ? [].
    + destruct (tokenize_lemma (c :: l) blanks) as (ps' & S' & _ & E); [discriminate|]. rewrite E. rewrite (splits_unique _ _ _ _ S S'). reflexivity.
Qed.
Lemma tok_pieces i ps : tokenize i ["="%char] true = Ok ps -> (i = [] /\ ps = []) \/ exists qs, splits ["="%char] i qs /\ ps = filter (fun p => negb (Nat.eqb (List.length p) 0)) qs.
Proof.
  intros E. destruct i as [|c l]; [left; split; [reflexivity|]; injection E as <-; reflexivity|right].
  destruct (tokenize_lemma (c :: l) ["="%char]) as (qs & S & _ & E'); [discriminate|]. exists qs. split; [exact S|]. congruence.
Qed.
Lemma starts_iff kw a : starts_with kw a = true <-> exists r, a = kw ++ r.
Proof.
  split.
  - revert a. induction kw as [|c kw IH]; intros a H; [exists a; reflexivity|]. destruct a as [|d a]; [discriminate|]. cbn [starts_with] in H.
    apply andb_prop in H. destruct H as [H1 H2]. apply Ascii.eqb_eq in H1. subst d. destruct (IH a H2) as [r ->]. exists r. reflexivity.
  - intros [r ->]. induction kw as [|c kw IH]; [destruct r; reflexivity|]. cbn [app starts_with]. rewrite Ascii.eqb_refl. exact IH.
Qed.
Lemma keyword_iff kw l : starts_with kw (before_hash l) = true <-> exists a, keyword_line kw l a.
Proof.
  split.
  - intros H. exists (before_hash l). split; [apply before_hash_spec|apply starts_iff; exact H].
  - intros (a & U & S). rewrite (before_hash_iff l a U). apply starts_iff. exact S.
Qed.
Lemma defines_iff kw l n ws : defines kw l n ws <-> starts_with kw (before_hash l) = true /\ exists w, tokenize (before_hash l) blanks true = Ok (w :: n :: ws).
Proof.
  split.
  - intros (a & w & K & W). split; [apply keyword_iff; exists a; exact K|]. exists w. destruct K as [U _]. rewrite (before_hash_iff l a U). apply tok_words. exact W.
  - intros (S & w & T). apply tok_words in T. exists (before_hash l), w. split; [|exact T]. split; [apply before_hash_spec|apply starts_iff; exact S].
Qed.

Lemma index_from_param n : forall params b k, index_from n params b = Some k <-> exists i, k = b + i /\ is_param params n i.
Proof.
  induction params as [|m params IH]; intros b k; cbn [index_from].
  - split; [discriminate|]. intros (i & _ & H & _). destruct i; discriminate.
  - unfold s_eqb. destruct (list_eq_dec ascii_dec m n) as [->|N].
    + split.
      * intros H. injection H as <-. exists 0. split; [lia|]. split; [reflexivity|]. intros i Hi. lia.
      * intros (i & -> & H & B). destruct i as [|i]; [f_equal; lia|]. exfalso. apply (B 0); [lia|reflexivity].
    + rewrite IH. split.
      * intros (i & -> & H & B). exists (S i). split; [lia|]. split; [exact H|]. intros [|j] Hj; [cbn; congruence|]. apply (B j). lia.
      * intros (i & -> & H & B). destruct i as [|i]; [cbn in H; congruence|]. exists i. split; [lia|]. split; [exact H|]. intros j Hj. apply (B (S j)). lia.
Qed.
Lemma named_iff params n k : named params n = Ok k <-> is_param params n k.
Proof.
  unfold named. pose proof (index_from_param n params 0 k) as H. destruct (index_from n params 0) as [j|].
  - split; intros X; [injection X as ->; destruct (proj1 H eq_refl) as (i & -> & P); exact P|].
    f_equal. assert (Y : Some j = Some k) by (apply H; exists k; auto). injection Y as ->. reflexivity.
  - split; [discriminate|]. intros X. assert (Y : None = Some k) by (apply H; exists k; auto). discriminate.
Qed.

Section Named.
Context {X : Type} (item : str -> outcome (list X)) (kw : str).

Lemma named_lines_keep : forall ls m m' n, named_lines item kw ls m = Ok m' -> (forall l ws, In l ls -> ~ defines kw l n ws) -> lookup m' n = lookup m n.
Proof.
  induction ls as [|l ls IH]; intros m m' n H N; cbn [named_lines] in H; [injection H as ->; reflexivity|].
  assert (N' : forall l ws, In l ls -> ~ defines kw l n ws) by (intros; apply N; right; assumption).
  destruct (starts_with kw (before_hash l)) eqn:S; cbn [negb] in H; [|exact (IH _ _ _ H N')].
  destruct (tokenize (before_hash l) blanks true) as [ts| | | |] eqn:T; cbn [obind] in H; try discriminate.
  destruct ts as [|w [|d ws]]; try discriminate. destruct (items item ws) as [x| | | |]; cbn [obind] in H; try discriminate.
  rewrite (IH _ _ _ H N'). unfold lookup. cbn [find fst]. unfold s_eqb. destruct (list_eq_dec ascii_dec d n) as [->|]; [|reflexivity].
  exfalso. apply (N l ws); [left; reflexivity|]. apply defines_iff. split; [exact S|]. exists w. exact T.
Qed.
Lemma named_lines_last ls m n ws : named_lines item kw ls [] = Ok m -> last_definition kw ls n ws -> exists xs, items item ws = Ok xs /\ lookup m n = Some xs.
Proof.
  intros H (l1 & l & l2 & -> & D & N). revert H. generalize ([] : list (str * list X)) as m0.
  induction l1 as [|a l1 IH]; intros m0 H; cbn [app named_lines] in H.
  - apply defines_iff in D. destruct D as (S & w & T). rewrite S in H. cbn [negb] in H. rewrite T in H. cbn [obind] in H.
    destruct (items item ws) as [x| | | |]; cbn [obind] in H; try discriminate. exists x. split; [reflexivity|].
    rewrite (named_lines_keep _ _ _ n H N). unfold lookup. cbn [find fst]. unfold s_eqb. destruct (list_eq_dec ascii_dec n n); [reflexivity|congruence].
  - destruct (starts_with kw (before_hash a)); cbn [negb] in H; [|exact (IH _ H)].
    destruct (tokenize (before_hash a) blanks true) as [ts| | | |]; cbn [obind] in H; try discriminate.
    destruct ts as [|w [|d ws']]; try discriminate. destruct (items item ws') as [x| | | |]; cbn [obind] in H; try discriminate. exact (IH _ H).
Qed.
Lemma named_lines_in : forall ls m m', named_lines item kw ls m = Ok m' -> forall n xs, In (n, xs) m' -> In (n, xs) m \/ exists ws, items item ws = Ok xs.
Proof.
  induction ls as [|l ls IH]; intros m m' H n xs I; cbn [named_lines] in H; [injection H as ->; left; exact I|].
  destruct (starts_with kw (before_hash l)); cbn [negb] in H; [|exact (IH _ _ H _ _ I)].
  destruct (tokenize (before_hash l) blanks true) as [ts| | | |]; cbn [obind] in H; try discriminate.
  destruct ts as [|w [|d ws']]; try discriminate. destruct (items item ws') as [x| | | |] eqn:E; cbn [obind] in H; try discriminate.
  destruct (IH _ _ H _ _ I) as [[Y|Y]|Y]; [|left; exact Y|right; exact Y]. injection Y as <- <-. right. exists ws'. exact E.
Qed.
Lemma named_lines_bad (Bad : forall w, item w = Throw \/ exists x, item w = Ok x) : forall ls m,
  (exists m', named_lines item kw ls m = Ok m') \/ named_lines item kw ls m = Throw.
Proof.
  assert (G : forall ws, items item ws = Throw \/ exists x, items item ws = Ok x).
  { induction ws as [|w ws IH]; cbn [items]; [right; eexists; reflexivity|]. destruct (Bad w) as [->|[x ->]]; cbn [obind]; [left; reflexivity|].
    destruct IH as [->|[y ->]]; cbn [obind]; [left; reflexivity|right; eexists; reflexivity]. }
  induction ls as [|l ls IH]; intros m; cbn [named_lines]; [left; eexists; reflexivity|].
  destruct (starts_with kw (before_hash l)); cbn [negb]; [|apply IH]. destruct (tokenize_total (before_hash l) blanks true) as [ts ->]. cbn [obind].
  destruct ts as [|w [|d ws']]; try (right; reflexivity). destruct (G ws') as [->|[x ->]]; cbn [obind]; [right; reflexivity|apply IH].
Qed.
Lemma named_lines_ok : forall ls m, (exists m', named_lines item kw ls m = Ok m') <->
  forall l a, In l ls -> keyword_line kw l a -> exists n ws xs, defines kw l n ws /\ items item ws = Ok xs.
Proof.
  induction ls as [|l ls IH]; intros m; cbn [named_lines]; [split; [intros _ l a []|intros _; eexists; reflexivity]|].
  destruct (starts_with kw (before_hash l)) eqn:S; cbn [negb].
  - destruct (tokenize (before_hash l) blanks true) as [ts| | | |] eqn:T.
    2-5: destruct (tokenize_total (before_hash l) blanks true) as [? T']; congruence.
    cbn [obind]. split.
    + intros [m' H] l' a [<-|I] K.
      * destruct ts as [|w [|d ws]]; try discriminate. destruct (items item ws) as [x| | | |] eqn:E; cbn [obind] in H; try discriminate.
        exists d, ws, x. split; [|exact E]. apply defines_iff. split; [exact S|]. exists w. exact T.
      * destruct ts as [|w [|d ws]]; try discriminate. destruct (items item ws) as [x| | | |] eqn:E; cbn [obind] in H; try discriminate.
        apply (proj1 (IH ((d, x) :: m)) (ex_intro _ m' H) l' a I K).
    + intros H. destruct (proj1 (keyword_iff kw l) S) as [a K]. destruct (H l a (or_introl eq_refl) K) as (n & ws & xs & D & E).
      apply defines_iff in D. destruct D as (_ & w & T'). rewrite T in T'. injection T' as ->. rewrite E. cbn [obind]. apply IH. intros l' a' I. apply H. right. exact I.
  - rewrite IH. split; intros H l' a I K; [|exact (H l' a (or_intror I) K)]. destruct I as [<-|I]; [|exact (H l' a I K)].
    exfalso. assert (Y : starts_with kw (before_hash l) = true) by (apply keyword_iff; exists a; exact K). congruence.
Qed.
End Named.

Lemma items_sets params ws xs : items (set_item params) ws = Ok xs <-> Forall2 (set_word params) ws xs.
Proof.
  revert xs. induction ws as [|w ws IH]; intros xs; cbn [items].
  - split; intros H; [injection H as <-; constructor|inversion H; reflexivity].
  - unfold set_item at 1. destruct (trim_lemma [" "; "009"]%char w) as (n & E & T). rewrite E. cbn [obind]. unfold param_index. split.
    + intros H. destruct (named params n) as [k| | | |] eqn:N; cbn [obind] in H; try discriminate. destruct (k <? max_params) eqn:L; cbn [obind] in H; try discriminate.
      destruct (items (set_item params) ws) as [y| | | |]; cbn [obind] in H; try discriminate. injection H as <-. cbn [app]. constructor; [|apply IH; reflexivity].
      exists n. split; [exact T|]. split; [apply named_iff; exact N|apply Nat.ltb_lt; exact L].
    + intros H. inversion H as [|w' k ws' xs' (n' & T' & P & L) R]; subst. rewrite (trimmed_unique_lemma _ _ _ _ T' T) in P.
      rewrite (proj2 (named_iff _ _ _) P). cbn [obind]. rewrite (proj2 (Nat.ltb_lt k max_params) L). cbn [obind]. rewrite (proj2 (IH xs') R). reflexivity.
Qed.
Lemma items_poses {F} (stof : str -> option F) params ws xs : items (pose_item stof params) ws = Ok xs -> pose_words stof params ws xs.
Proof.
  revert xs. induction ws as [|w ws IH]; intros xs H; cbn [items] in H; [injection H as <-; constructor|].
  unfold pose_item in H at 1. destruct (trim_lemma [" "; "009"]%char w) as (i & E & T). rewrite E in H. cbn [obind] in H.
  destruct (tokenize i ["="%char] true) as [c| | | |] eqn:C; cbn [obind] in H; try discriminate.
  assert (P : pieces w c) by (exists i; split; [exact T|apply tok_pieces; exact C]).
  assert (K : forall x, (let* y := items (pose_item stof params) ws in Ok (x ++ y))%out = Ok xs -> exists y, xs = x ++ y /\ pose_words stof params ws y).
  { intros x Hx. destruct (items (pose_item stof params) ws) as [y| | | |]; cbn [obind] in Hx; try discriminate. injection Hx as <-. exists y. split; [reflexivity|apply IH; reflexivity]. }
  destruct c as [|n [|v [|]]].
  - apply (K []) in H. destruct H as (y & -> & Y). eapply pw_skip; [exact P|discriminate|exact Y].
  - apply (K []) in H. destruct H as (y & -> & Y). eapply pw_skip; [exact P|discriminate|exact Y].
  - unfold param_index in H. destruct (named params n) as [k| | | |] eqn:N; cbn [obind] in H; try discriminate. destruct (stof v) as [x|] eqn:V; cbn [obind] in H; [|discriminate].
    apply (K [(k, x)]) in H. destruct H as (y & -> & Y). eapply pw_take; [exact P|apply named_iff; exact N|exact V|exact Y].
  - apply (K []) in H. destruct H as (y & -> & Y). eapply pw_skip; [exact P|cbn; lia|exact Y].
Qed.
Lemma set_item_total params w : set_item params w = Throw \/ exists x, set_item params w = Ok x.
Proof.
  unfold set_item, param_index, named. destruct (trim_lemma [" "; "009"]%char w) as (n & E & _). rewrite E. cbn [obind]. destruct (index_from n params 0); cbn [obind]; [|left; reflexivity].
  destruct (n0 <? max_params); [right; eexists; reflexivity|left; reflexivity].
Qed.
Lemma pose_item_total {F} (stof : str -> option F) params w : pose_item stof params w = Throw \/ exists x, pose_item stof params w = Ok x.
Proof.
  unfold pose_item, param_index, named. destruct (trim_lemma [" "; "009"]%char w) as (n & E & _). rewrite E. cbn [obind]. destruct (tokenize_total n ["="%char] true) as [c ->]. cbn [obind].
  destruct c as [|a [|b [|]]]; try (right; eexists; reflexivity). destruct (index_from a params 0); cbn [obind]; [|left; reflexivity].
  destruct (stof b); [right; eexists; reflexivity|left; reflexivity].
Qed.

(** C125. A text of parameter sets is accepted if and only if each of its lines that begin with the keyword names a set and then only parameters that exist; otherwise
    an exception is thrown. *)
Theorem sets_accepted_iff : forall params text,
  ((exists m, parse_sets params text = Ok m) <->
   forall line a, In line (text_lines [] text) -> keyword_line (lit "parameterset") line a ->
     exists n ws ks, defines (lit "parameterset") line n ws /\ Forall2 (set_word params) ws ks) /\
  ((forall m, parse_sets params text <> Ok m) -> parse_sets params text = Throw).
Proof.
  intros params text. unfold parse_sets. split.
  - rewrite named_lines_ok. split; intros H l a I K; destruct (H l a I K) as (n & ws & xs & D & E); exists n, ws, xs; (split; [exact D|apply items_sets; exact E]).
  - intros H. destruct (named_lines_bad _ (lit "parameterset") (set_item_total params) (text_lines [] text) []) as [[m E]|E]; [destruct (H m E)|exact E].
Qed.
Print Assumptions sets_accepted_iff.

(** C125. The set of a name holds the parameters that the last line that defines it names, and nothing else; other names have no set. *)
Theorem parsed_sets : forall params text m n, parse_sets params text = Ok m ->
  (forall ws, last_definition (lit "parameterset") (text_lines [] text) n ws -> exists s, lookup m n = Some s /\ Forall2 (set_word params) ws s) /\
  ((forall line ws, In line (text_lines [] text) -> ~ defines (lit "parameterset") line n ws) -> lookup m n = None).
Proof.
  intros params text m n H. split.
  - intros ws D. destruct (named_lines_last _ _ _ _ _ _ H D) as (s & E & L). exists s. split; [exact L|apply items_sets; exact E].
  - intros N. rewrite (named_lines_keep _ _ _ _ _ n H N). reflexivity.
Qed.
Print Assumptions parsed_sets.

(** C125. The same for pose constraints, which are the pairs name=value of the line, in its order; the text is accepted or an exception is thrown. *)
Theorem parsed_poses : forall (F : Type) (stof : str -> option F) params text,
  ((exists m, parse_poses stof params text = Ok m) \/ parse_poses stof params text = Throw) /\
  forall m n, parse_poses stof params text = Ok m ->
  (forall ws, last_definition (lit "poseconstraints") (text_lines [] text) n ws -> exists s, lookup m n = Some s /\ pose_words stof params ws s) /\
  ((forall line ws, In line (text_lines [] text) -> ~ defines (lit "poseconstraints") line n ws) -> lookup m n = None).
Proof.
  intros F stof params text. split; [apply named_lines_bad; apply pose_item_total|]. intros m n H. split.
  - intros ws D. destruct (named_lines_last _ _ _ _ _ _ H D) as (s & E & L). exists s. split; [exact L|apply items_poses; exact E].
  - intros N. rewrite (named_lines_keep _ _ _ _ _ n H N). reflexivity.
Qed.
Print Assumptions parsed_poses.

(** ** Whole definitions *)

Lemma is_param_lt params n k : is_param params n k -> k < List.length params.
Proof. intros [H _]. apply nth_error_Some. congruence. Qed.
Lemma sets_range params text m n s k : parse_sets params text = Ok m -> In (n, s) m -> In k s -> k < List.length params.
Proof.
  intros H I K. destruct (named_lines_in _ _ _ _ _ H _ _ I) as [[]|[ws E]]. apply items_sets in E. clear - E K. induction E as [|w j ws s (r & _ & P & _) R IH]; [destruct K|].
  destruct K as [<-|K]; [exact (is_param_lt _ _ _ P)|exact (IH K)].
Qed.
Lemma poses_range {F} (stof : str -> option F) params text m n s k x : parse_poses stof params text = Ok m -> In (n, s) m -> In (k, x) s -> k < List.length params.
Proof.
  intros H I K. destruct (named_lines_in _ _ _ _ _ H _ _ I) as [[]|[ws E]]. apply items_poses in E. clear - E K. induction E as [| |w ws s a v j y _ P _ _ IH]; [destruct K|auto|].
  destruct K as [Y|K]; [injection Y as <- <-; exact (is_param_lt _ _ _ P)|exact (IH K)].
Qed.
Lemma parse_shape stod fuel joints data pt : parse_transform stod fuel joints data = Ok pt -> pt_rows pt = List.length joints * 7 /\ pt_cols pt = List.length (pt_name pt).
Proof. unfold parse_transform. intros H. step H. injection H as <-. cbn [pt_rows pt_cols pt_name]. split; [reflexivity|]. rewrite map_length. reflexivity. Qed.

(** C125. Whatever the text is, the sets and limits of the definition that is loaded from it are ones of parameters and joints that exist. *)
Theorem loaded_definition_fits : forall (M : Type) stod (e : nums R M) fuel joints text pt sets ls,
  load_definition stod e fuel joints text = Ok (pt, sets, ls) -> fits joints pt sets [] ls.
Proof.
  intros M stod e fuel joints text pt sets ls H. unfold load_definition in H. step H. step H. unfold load_data in H. step H. step H. step H. injection H as <- <- <-.
  destruct (parse_shape _ _ _ _ _ E1) as [S1 S2]. split; [exact S1|]. split; [exact S2|].
  assert (L : List.length (pt_names a1) = pt_cols a1) by (unfold pt_names; rewrite map_length, S2; reflexivity).
  split; [intros n s k I K; rewrite <- L; exact (sets_range _ _ _ _ _ _ E2 I K)|]. split; [intros n s k x []|]. exact (parsed_limits_in_range _ _ _ _ _ _ _ E3).
Qed.
Print Assumptions loaded_definition_fits.

(** C125. A definition whose last line is ended is read by its lines after the first, without comments, blanks around them and empty lines. *)
Theorem definition_lines_partial : forall (M : Type) stod (e : nums R M) fuel joints h ls rs,
  lines_ok (h :: ls) -> ~ ends_in_cr (h :: ls) -> List.length ls < fuel -> Forall2 cleaned (map fst ls) rs ->
  load_definition stod e fuel joints (text_of (h :: ls)) =
  load_data stod e fuel joints (flat_map (fun r => match r with [] => [] | _ => r ++ [lf] end) rs).
Proof.
  intros M stod e fuel joints h ls rs K C F R.
  assert (W : while_lines fuel (snd (get_line (open_text (text_of (h :: ls))))) = Ok (map fst ls)).
  { pose proof (line_loop_sees_all_partial (h :: ls) (S fuel) K C ltac:(cbn; lia)) as W. cbn [while_lines] in W.
    destruct (i_fail _); [discriminate|]. destruct (while_lines fuel _) as [r| | | |] eqn:E; cbn [obind] in W; try discriminate. cbn [map] in W. injection W as _ ->. reflexivity. }
  unfold load_definition. rewrite W. cbn [obind].
  assert (J : join_lines (map fst ls) = Ok (flat_map (fun r => match r with [] => [] | _ => r ++ [lf] end) rs)).
  { clear - R. revert R. generalize (map fst ls). intros lines R. induction R as [|l r lines' rs' H R IH]; [reflexivity|]. cbn [join_lines flat_map]. rewrite (proj2 (clean_line_iff l r) H). cbn [obind]. rewrite IH. cbn [obind].
    destruct r as [|c r]; [reflexivity|]. rewrite <- app_assoc. reflexivity. }
  rewrite J. reflexivity.
Qed.
Print Assumptions definition_lines_partial.

(** C125. After loadParameters with sections has returned, everything in the character is of parameters and joints that exist, whatever the character was. *)
Theorem loaded_parameters_fit : forall (M : Type) stod (e : nums R M) fuel joints param (c c' : loaded),
  load_parameters stod e fuel joints param c = (c', Ok tt) -> param <> [] -> fits joints (ld_pt c') (ld_sets c') (ld_poses c') (ld_limits c').
Proof.
  intros M stod e fuel joints param c c' H N. unfold load_parameters in H. destruct param as [|p0 param0]; [contradiction|]. set (param := p0 :: param0) in *. clearbody param.
  destruct (parse_transform _ _ _ _) as [pt| | | |] eqn:E1; try discriminate.
  destruct (parse_sets _ _) as [sets| | | |] eqn:E2; try discriminate.
  destruct (parse_poses _ _ _) as [poses| | | |] eqn:E3; try discriminate.
  destruct (parse_limits _ _ _ _) as [ls| | | |] eqn:E4; try discriminate.
  injection H as <-. cbn [ld_pt ld_sets ld_poses ld_limits]. destruct (parse_shape _ _ _ _ _ E1) as [S1 S2]. split; [exact S1|]. split; [exact S2|].
  assert (L : List.length (pt_names pt) = pt_cols pt) by (unfold pt_names; rewrite map_length, S2; reflexivity).
  split; [intros n s k I K; rewrite <- L; exact (sets_range _ _ _ _ _ _ E2 I K)|].
  split; [intros n s k x I K; rewrite <- L; exact (poses_range _ _ _ _ _ _ _ _ E3 I K)|]. exact (parsed_limits_in_range _ _ _ _ _ _ _ E4).
Qed.
Print Assumptions loaded_parameters_fit.

(** ** Examples *)

Example exmd_sets : exists m, parse_sets exli_params (file ["parameterset arms bend"; "# sets"; "parameterset arms twist bend # both"; "parameterset none"]%string) = Ok m /\
  lookup m (lit "arms") = Some [1; 0] /\ lookup m (lit "none") = Some [] /\ lookup m (lit "bend") = None.
Proof. eexists. split; [vm_compute; reflexivity|]. repeat split. Qed.
Example exmd_last : last_definition (lit "parameterset") (text_lines [] (file ["parameterset arms bend"; "# sets"; "parameterset arms twist bend # both"]%string)) (lit "arms") [lit "twist"; lit "bend"].
Proof.
  exists [lit "parameterset arms bend"; lit "# sets"], (lit "parameterset arms twist bend # both"), []. split; [reflexivity|]. split; [|intros l ws' []].
  apply defines_iff. split; [reflexivity|]. eexists. reflexivity.
Qed.
Example exmd_poses : exists m, parse_poses read_number exli_params (file ["poseconstraints rest bend=110 twist=10"; "limit bend minmax [0, 10]"; "poseconstraints flat"]%string) = Ok m /\
  lookup m (lit "rest") = Some [(0, 2%Z); (1, 1%Z)] /\ lookup m (lit "flat") = Some [].
Proof. eexists. split; [vm_compute; reflexivity|]. repeat split. Qed.
(** Reals with nothing to print. *)
Definition exmd_nums : nums R unit :=
  {| n_show := fun _ => lit "1"; n_stof := ex_stod; n_eqb := fun _ _ => false; n_zero := 0%R; n_one := 1%R; n_max := 2%R; n_min := 0%R;
     n_jump := fun _ _ _ => false; n_norm := fun n o => (n, o); n_split := fun _ => ([], [], []); n_join := fun _ _ _ => tt |}.
Definition exmd_text : str :=
  file ["Momentum Model Definition V1.0"; ""; "root.tx = 1*bend  # first"; "  limit bend minmax [1, 2] 2"; "l_arm.rx = 2*twist + 1*bend"; "parameterset all twist bend"; "limit l_arm.rx minmax [1, 2]"]%string.
Example exmd_loaded : exists pt, load_definition ex_stod exmd_nums 20 exli_joints exmd_text =
    Ok (pt, [(lit "all", [1; 0])], [PL (LMinMax 0 1%R 2%R) 2%R; PL (LMinMaxJoint 1 3 1%R 2%R) 1%R]) /\ pt_names pt = [lit "bend"; lit "twist"].
Proof. eexists. split; [vm_compute; reflexivity|reflexivity]. Qed.
Definition exmd_param : smap :=
  [(lit "ParameterTransform", file ["root.tx = 1*bend"]%string); (lit "Limits", file ["limit bend minmax [1, 2]"]%string); (lit "PoseConstraints", file ["poseconstraints rest bend=1"]%string)].
Example exmd_parameters : forall c, exists c', load_parameters ex_stod exmd_nums 20 exli_joints exmd_param c = (c', Ok tt) /\
  ld_limits c' = [PL (LMinMax 0 1%R 2%R) 1%R] /\ ld_poses c' = [(lit "rest", [(0, 1%R)])].
Proof. intros c. eexists. split; [lazy; reflexivity|]. split; reflexivity. Qed.

(** ** Findings *)

(** C125. The first line of a model definition is not looked at: a definition without the line of the format loses its first parameter. *)
Theorem definition_first_line_refuted : exists joints pt, load_definition ex_stod exmd_nums 20 joints (file ["root.tx = 1*bend"; "l_arm.rx = 2*twist"]%string) = Ok (pt, [], []) /\
  pt_names pt = [lit "twist"].
Proof. exists exli_joints. eexists. split; reflexivity. Qed.
Print Assumptions definition_first_line_refuted.

(** C125. A last line that is not ended is not read. *)
Theorem definition_last_line_refuted : exists joints pt pt', load_definition ex_stod exmd_nums 20 joints (file ["Momentum Model Definition V1.0"; "root.tx = 1*bend"; "limit bend minmax [1, 2]"]%string) =
    Ok (pt, [], [PL (LMinMax 0 1%R 2%R) 1%R]) /\
  load_definition ex_stod exmd_nums 20 joints (file ["Momentum Model Definition V1.0"; "root.tx = 1*bend"]%string ++ lit "limit bend minmax [1, 2]") = Ok (pt', [], []).
Proof. exists exli_joints. eexists _, _. split; reflexivity. Qed.
Print Assumptions definition_last_line_refuted.

(** C125. Words of a pose constraint that are no pair are skipped without a message: with blanks around the equality sign the constraint is empty. *)
Theorem pose_constraint_blanks_refuted : exists params m, parse_poses read_number params (file ["poseconstraints rest bend = 110"]%string) = Ok m /\ lookup m (lit "rest") = Some [].
Proof. exists exli_params. eexists. split; [vm_compute; reflexivity|reflexivity]. Qed.
Print Assumptions pose_constraint_blanks_refuted.

(** C125. A second line with the name of a set replaces the set, and any word that begins with the keyword defines one. *)
Theorem set_defined_twice_refuted : exists params m, parse_sets params (file ["parameterset arms bend"; "parametersets arms twist"]%string) = Ok m /\ lookup m (lit "arms") = Some [1].
Proof. exists exli_params. eexists. split; [vm_compute; reflexivity|reflexivity]. Qed.
Print Assumptions set_defined_twice_refuted.

(** C125. When loadParameters throws, the character has the new transform with the old limits, which may be of parameters that do not exist any more. *)
Theorem load_parameters_exception_refuted : exists joints param (c c' : loaded (M := unit)),
  fits joints (ld_pt c) (ld_sets c) (ld_poses c) (ld_limits c) /\
  load_parameters ex_stod exmd_nums 20 joints param c = (c', Throw) /\ ~ fits joints (ld_pt c') (ld_sets c') (ld_poses c') (ld_limits c').
Proof.
  exists exli_joints, [(lit "ParameterTransform", file ["root.tx = 1*bend"]%string); (lit "Limits", lit "limit bend minmax")].
  exists (Loaded (PT ["a"; "b"]%string 14 2 [] [] [] [] [] [] []) [] [] [PL (LMinMax 1 1%R 2%R) 1%R]). eexists. split; [|split; [lazy; reflexivity|]].
  - repeat split; try (intros; contradiction). constructor; [|constructor]. cbn. lia.
  - intros (_ & _ & _ & _ & H). inversion H as [|x l H1 _]; subst. cbn in H1. lia.
Qed.
Print Assumptions load_parameters_exception_refuted.

(** C125. Without sections the transform is replaced by one without parameters, but the limits stay. *)
Theorem load_parameters_empty_refuted : exists joints (c c' : loaded (M := unit)),
  fits joints (ld_pt c) (ld_sets c) (ld_poses c) (ld_limits c) /\
  load_parameters ex_stod exmd_nums 20 joints [] c = (c', Ok tt) /\ pt_cols (ld_pt c') = 0 /\ ~ fits joints (ld_pt c') (ld_sets c') (ld_poses c') (ld_limits c').
Proof.
  exists exli_joints, (Loaded (PT ["a"; "b"]%string 14 2 [] [] [] [] [] [] []) [] [] [PL (LMinMax 1 1%R 2%R) 1%R]). eexists. split; [|split; [reflexivity|split; [reflexivity|]]].
  - repeat split; try (intros; contradiction). constructor; [|constructor]. cbn. lia.
  - intros (_ & _ & _ & _ & H). inversion H as [|x l H1 _]; subst. cbn in H1. lia.
Qed.
Print Assumptions load_parameters_empty_refuted.
