(** Theorems about the text of parameter limits (C124). *)

From Coq Require Import List Arith ZArith Ascii Bool String Lia.
From Verif Require Import Prelude Loops Str_model Str_proofs Lines_model Lines_proofs Marker_model LocIO_model LocIO_spec LocIO_props LimIO_model LimIO_spec LimIO_proofs.
Import ListNotations.
Local Open Scope outcome_scope.
Local Open Scope list_scope.

(** C124. Limits of parameters and joints with proper names, where linear limits come in groups of segments that meet, are parsed back from what is written for
    them, with the numbers as printed. *)
Theorem written_limits_parse : forall (F M : Type) (e : nums F M) good round joints params ls,
  reads e good round -> List.Forall (writable e good joints params) ls -> in_segments e round None ls ->
  exists text ls', write_limits e joints params ls = Ok text /\ parse_limits e joints params text = Ok ls' /\ Forall2 (as_printed e round) ls ls'.
Proof. intros F M e good round joints params ls RD W S. exact (written_parsed e good round joints params RD (List.length ls) ls (le_n _) W S). Qed.
Print Assumptions written_limits_parse.

(** ** Any text *)

Lemma named_lt names n k : named names n = Ok k -> k < List.length names.
Proof.
  unfold named. assert (A : forall names b k, index_from n names b = Some k -> k < b + List.length names).
  { clear. induction names as [|m r IH]; intros b k E; [discriminate|]. cbn [index_from] in E. destruct (s_eqb m n); [injection E as <-; cbn; lia|].
    apply IH in E. cbn. lia. }
  destruct (index_from n names 0) eqn:E; [|discriminate]. intros H. injection H as <-. apply A in E. exact E.
Qed.
Lemma joint_param_lt joints n j q : joint_param joints n = Ok (j, q) -> j < List.length joints /\ q < 7.
Proof.
  unfold joint_param. destruct (find_first_of _ _ _); [|discriminate].
  destruct (named joints _) as [j'| | | |] eqn:E1; cbn [obind]; try discriminate. destruct (named param_names _) as [q'| | | |] eqn:E2; cbn [obind]; try discriminate.
  intros H. injection H as <- <-. split; [exact (named_lt _ _ _ E1)|exact (named_lt _ _ _ E2)].
Qed.

Ltac step H := match type of H with
  | obind ?x _ = _ => let E := fresh "E" in destruct x eqn:E; cbn [obind] in H; try discriminate H
  end.

Section Range.
Context {F M : Type} (e : nums F M) (joints params : list str).

Lemma minmax_range n ts ls ts' : parse_minmax e joints params n ts = Ok (ls, ts') -> List.Forall (in_range (M := M) joints params) ls.
Proof.
  unfold parse_minmax. destruct (find_first_of _ _ _); intros H.
  - step H. step H. destruct a0 as [[x y] ts1]. step H. injection H as <- _. constructor; [|constructor]. destruct a as [j q]. exact (joint_param_lt _ _ _ _ E).
  - step H. step H. destruct a0 as [[x y] ts1]. step H. injection H as <- _. constructor; [|constructor]. exact (named_lt _ _ _ E).
Qed.
Lemma passive_range n ts ls ts' : parse_passive e joints n ts = Ok (ls, ts') -> List.Forall (in_range (M := M) joints params) ls.
Proof.
  unfold parse_passive. intros H. step H. step H. destruct a0 as [[x y] ts1]. step H. injection H as <- _. constructor; [|constructor]. destruct a as [j q]. exact (joint_param_lt _ _ _ _ E).
Qed.
Lemma segments_range i t : i < List.length params -> t < List.length params -> forall fuel prev rmin ts ls ts', segments e fuel i t prev rmin ts = Ok (ls, ts') ->
  forall w, List.Forall (in_range (M := M) joints params) (map (fun l => PL l w) ls).
Proof.
  intros Hi Ht. induction fuel as [|fuel IH]; intros prev rmin ts ls ts' H w; cbn [segments] in H.
  - destruct (negb _); [|discriminate]. injection H as <- _. constructor.
  - destruct (negb _); [injection H as <- _; constructor|]. step H. step H. destruct a0 as [[a1 a2] a3].
    match type of H with (if ?c then _ else _) = _ => destruct c; [discriminate|] end. step H. destruct a0 as [r1 r2]. apply IH with (w := w) in E1.
    injection H as <- _. cbn [map]. constructor; [split; assumption|exact E1].
Qed.
Lemma linear_range n ts ls ts' : parse_linear e params n ts = Ok (ls, ts') -> List.Forall (in_range (M := M) joints params) ls.
Proof.
  unfold parse_linear. intros H. step H. step H. step H. destruct (negb _); [discriminate|]. step H. step H. injection H as <- _. destruct a2 as [l1 l2].
  apply (segments_range a a1 (named_lt _ _ _ E) (named_lt _ _ _ E1)) with (1 := E2).
Qed.
Lemma halfplane_range n ts ls ts' : parse_halfplane e params n ts = Ok (ls, ts') -> List.Forall (in_range (M := M) joints params) ls.
Proof.
  unfold parse_halfplane. intros H. step H. step H. step H. step H. destruct a2 as [[x y] ts1]. step H. step H. injection H as <- _. constructor; [|constructor].
  split; [exact (named_lt _ _ _ E)|exact (named_lt _ _ _ E1)].
Qed.
Lemma ellipsoid_range n ts ls ts' : parse_ellipsoid e joints n ts = Ok (ls, ts') -> List.Forall (in_range (M := M) joints params) ls.
Proof.
  unfold parse_ellipsoid. intros H. step H. step H. step H. step H. step H. step H. step H. step H. injection H as <- _. constructor; [|constructor].
  split; [exact (named_lt _ _ _ E)|exact (named_lt _ _ _ E2)].
Qed.
Lemma line_range line ls : parse_line e joints params line = Ok ls -> List.Forall (in_range (M := M) joints params) ls.
Proof.
  unfold parse_line. destruct (negb _); intros H; [injection H as <-; constructor|]. step H. step H. step H. step H. step H. destruct a3 as [ls3 ts3]. cbn [fst snd] in *.
  destruct (at_tok _ _); [|discriminate]. injection H as <-.
  destruct (s_eqb _ _); [exact (minmax_range _ _ _ _ E3)|]. destruct (s_eqb _ _); [exact (passive_range _ _ _ _ E3)|]. destruct (s_eqb _ _); [exact (linear_range _ _ _ _ E3)|].
  destruct (s_eqb _ _); [exact (halfplane_range _ _ _ _ E3)|]. destruct (s_eqb _ _); [exact (ellipsoid_range _ _ _ _ E3)|]. destruct (s_eqb _ _); [exact (ellipsoid_range _ _ _ _ E3)|].
  discriminate.
Qed.
End Range.

(** C124. Whatever the text is, every limit that it is parsed to is one of parameters and joints that exist. *)
Theorem parsed_limits_in_range : forall (F M : Type) (e : nums F M) joints params text ls,
  parse_limits e joints params text = Ok ls -> List.Forall (in_range joints params) ls.
Proof.
  intros F M e joints params text. unfold parse_limits. generalize (text_lines [] text). intros lines. induction lines as [|l lines IH]; intros ls H; cbn [parse_lines] in H.
  - injection H as <-. constructor.
  - step H. step H. injection H as <-. apply Forall_app. split; [exact (line_range e joints params l _ E)|exact (IH _ eq_refl)].
Qed.
Print Assumptions parsed_limits_in_range.

(** ** Examples *)

Example ones_reads : reads ones_nums (fun _ => True) (fun x => x).
Proof.
  constructor.
  - intros x _. apply number_like_iff. cbn [ones_nums n_show]. unfold show_ones.
    assert (A : forall n, forallb num_char (repeat "1"%char n ++ ["0"%char]) = true) by (induction n as [|n IH]; [reflexivity|exact IH]).
    destruct (x <? 0)%Z.
    + eexists _, _. split; [reflexivity|]. split; [reflexivity|]. cbn [app forallb]. apply A.
    + cbn [app]. specialize (A (Z.to_nat (Z.abs x))). destruct (Z.to_nat (Z.abs x)); eexists _, _; (split; [reflexivity|]); (split; [reflexivity|exact A]).
  - intros x _. cbn [ones_nums n_show n_stof]. rewrite <- (app_nil_r (show_ones x)). apply read_show.
  - intros x y _ _. cbn [ones_nums n_eqb]. apply Z.eqb_eq.
  - split; discriminate.
Qed.

Definition exli_joints : list str := map lit ["root"; "l_arm"]%string.
Definition exli_params : list str := map lit ["bend"; "twist"; "pose.1"]%string.
Definition exli_limits : list (plimit Z (list Z * list Z * list Z)) :=
  [PL (LMinMax 0 (-2) 3) 1; PL (LMinMaxJoint 1 4 0 5) 7; PL (LLinear 0 1 (-1) 3 (-1000) (-3)) 4; PL (LLinear 0 1 1 (-3) (-3) 0) 4; PL (LLinear 0 1 (-2) (-3) 0 1000) 4;
   PL (LLinear 0 1 2 0 (-1000) 9) 1; PL (LMinMaxPassive 0 6 1 2) 1; PL (LHalfPlane 2 0 (1, -1) 5) 2; PL (LEllipsoid 1 [1; 2; 3] 0 ([4; 5; 6], [7; 8; 9], [1; 1; 2])) 1]%Z.
Example exli_parsed : (let* t := write_limits ones_nums exli_joints exli_params exli_limits in parse_limits ones_nums exli_joints exli_params t)%out = Ok exli_limits.
Proof. vm_compute. reflexivity. Qed.
Example exli_writable : List.Forall (writable ones_nums (fun _ => True) exli_joints exli_params) exli_limits /\ in_segments ones_nums (fun x => x) None exli_limits.
Proof.
  assert (W : forall names k n, nth_error names k = Some n -> name_like n -> NoDup names -> first_named names k n).
  { intros names k n E N D. split; [exact E|]. split; [exact N|]. intros i m Hi Em X. subst m.
    assert (i = k); [|lia]. apply (proj1 (NoDup_nth_error names) D); [apply nth_error_Some; congruence|congruence]. }
  assert (NJ : NoDup exli_joints) by (repeat constructor; cbn; intuition discriminate).
  assert (NP : NoDup exli_params) by (repeat constructor; cbn; intuition discriminate).
  assert (P : forall s, forallb (fun c => negb (Ascii.eqb c ".")) s = true -> no_period s).
  { intros s H D. rewrite forallb_forall in H. specialize (H _ D). discriminate. }
  assert (GF : forall l : list Z, List.Forall (fun _ => True) l) by (intros l; apply List.Forall_forall; auto).
  split.
  - unfold exli_limits. repeat (apply List.Forall_cons; [split; [exact I|]; cbn|]); [| | | | | | | | |constructor].
    + split; [exact I|]. split; [exact I|]. eexists. split; [apply W; [reflexivity|apply id_word; reflexivity|exact NP]|apply P; reflexivity].
    + split; [exact I|]. split; [exact I|]. split; [lia|]. eexists. split; [apply W; [reflexivity|apply id_word; reflexivity|exact NJ]|apply P; reflexivity].
    + split; [exact I|]. split; [exact I|]. split; [right; exact I|]. split; [discriminate|]. split; eexists; (apply W; [reflexivity|apply id_word; reflexivity|exact NP]).
    + split; [exact I|]. split; [exact I|]. split; [right; exact I|]. split; [discriminate|]. split; eexists; (apply W; [reflexivity|apply id_word; reflexivity|exact NP]).
    + split; [exact I|]. split; [exact I|]. split; [right; exact I|]. split; [discriminate|]. split; eexists; (apply W; [reflexivity|apply id_word; reflexivity|exact NP]).
    + split; [exact I|]. split; [exact I|]. split; [right; exact I|]. split; [discriminate|]. split; eexists; (apply W; [reflexivity|apply id_word; reflexivity|exact NP]).
    + split; [exact I|]. split; [exact I|]. split; [lia|]. eexists. split; [apply W; [reflexivity|apply id_word; reflexivity|exact NJ]|apply P; reflexivity].
    + split; [exact I|]. split; [exact I|]. split; [exact I|]. split; eexists; (apply W; [reflexivity|apply id_word; reflexivity|exact NP]).
    + repeat (split; [first [reflexivity|apply GF]|]). split; eexists; (apply W; [reflexivity|apply id_word; reflexivity|exact NJ]).
  - repeat split; try (left; reflexivity).
    + right. eexists. split; [reflexivity|]. unfold goes_on. cbn [p_limit p_weight nth_error]. repeat (split; [reflexivity|]). split; [intros X; cbv in X; discriminate X|]. split; reflexivity.
    + right. eexists. split; [reflexivity|]. unfold goes_on. cbn [p_limit p_weight nth_error]. repeat (split; [reflexivity|]). split; [intros X; cbv in X; discriminate X|]. split; reflexivity.
Qed.

(** ** Findings *)

Notation M0 := (list Z * list Z * list Z)%type.

(** C124. A limit of a model parameter with a period in its name is parsed as a limit of the joint parameter of that name; if there is no such joint the text is
    refused. *)
Theorem limit_name_with_period_refuted : exists joints params (l l' : plimit Z M0) text params2 l2 text2,
  write_limits ones_nums joints params [l] = Ok text /\ parse_limits ones_nums joints params text = Ok [l'] /\
  (exists k x y, p_limit l = LMinMax k x y) /\ (exists j q x y, p_limit l' = LMinMaxJoint j q x y) /\
  write_limits ones_nums joints params2 [l2] = Ok text2 /\ parse_limits ones_nums joints params2 text2 = Throw.
Proof.
  exists exli_joints, [lit "root.tx"], (PL (LMinMax 0 1%Z 2%Z) 1%Z). eexists _, _. exists [lit "pose.1"], (PL (LMinMax 0 1%Z 2%Z) 1%Z). eexists.
  split; [reflexivity|]. split; [vm_compute; reflexivity|]. split; [eexists _, _, _; reflexivity|]. split; [eexists _, _, _, _; reflexivity|]. split; [reflexivity|]. vm_compute. reflexivity.
Qed.
Print Assumptions limit_name_with_period_refuted.

(** C124. The lower end of the range of a linear limit is not written unless the limit before it ends there: it is parsed as unbounded below. *)
Theorem linear_limit_lower_end_refuted : exists joints params (l l' : plimit Z M0) text,
  write_limits ones_nums joints params [l] = Ok text /\ parse_limits ones_nums joints params text = Ok [l'] /\
  p_limit l = LLinear 0 1 2%Z 0%Z 3%Z 9%Z /\ p_limit l' = LLinear 0 1 2%Z 0%Z (-1000)%Z 9%Z.
Proof.
  exists exli_joints, exli_params, (PL (LLinear 0 1 2%Z 0%Z 3%Z 9%Z) 1%Z). eexists _, _. split; [reflexivity|]. split; [vm_compute; reflexivity|]. split; reflexivity.
Qed.
Print Assumptions linear_limit_lower_end_refuted.

(** C124. Of linear limits that follow each other only the weight of the first is written. *)
Theorem linear_limit_weight_refuted : exists joints params (a b : plimit Z M0) text a' b',
  write_limits ones_nums joints params [a; b] = Ok text /\ parse_limits ones_nums joints params text = Ok [a'; b'] /\
  p_limit b' = p_limit b /\ p_weight b = 5%Z /\ p_weight b' = p_weight a /\ p_weight a = 2%Z.
Proof.
  exists exli_joints, exli_params, (PL (LLinear 0 1 1%Z 0%Z (-1000)%Z 0%Z) 2%Z), (PL (LLinear 0 1 2%Z 0%Z 0%Z 1000%Z) 5%Z). eexists _, _, _.
  split; [reflexivity|]. split; [vm_compute; reflexivity|]. repeat split.
Qed.
Print Assumptions linear_limit_weight_refuted.

(** C124. Two linear limits whose ranges touch but whose values do not are written as segments of one function, which is refused. *)
Theorem linear_limit_gap_refuted : exists joints params (a b : plimit Z M0) text,
  write_limits ones_nums joints params [a; b] = Ok text /\ parse_limits ones_nums joints params text = Throw.
Proof.
  exists exli_joints, exli_params, (PL (LLinear 0 1 1%Z 0%Z (-1000)%Z 0%Z) 2%Z), (PL (LLinear 0 1 2%Z 5%Z 0%Z 1000%Z) 2%Z). eexists. split; [reflexivity|]. vm_compute. reflexivity.
Qed.
Print Assumptions linear_limit_gap_refuted.

(** C124. A name with other characters than letters, digits, underscores and periods is written and then refused, and one that is not ASCII is not defined. *)
Theorem limit_name_characters_refuted : exists joints params params2 (l : plimit Z M0) text text2,
  write_limits ones_nums joints params [l] = Ok text /\ parse_limits ones_nums joints params text = Throw /\
  write_limits ones_nums joints params2 [l] = Ok text2 /\ parse_limits ones_nums joints params2 text2 = UB.
Proof.
  exists exli_joints, [lit "left-arm"], [[ascii_of_nat 195; ascii_of_nat 169]], (PL (LMinMax 0 1%Z 2%Z) 1%Z). eexists _, _.
  split; [reflexivity|]. split; [vm_compute; reflexivity|]. split; [reflexivity|]. vm_compute. reflexivity.
Qed.
Print Assumptions limit_name_characters_refuted.

(** C124. Any word that starts with limit begins a limit. *)
Theorem limit_keyword_refuted : exists joints params (l : plimit Z M0),
  parse_limits ones_nums joints params (file ["limits_off bend minmax [10, 110]"]%string) = Ok [l].
Proof. exists exli_joints, exli_params. eexists. vm_compute. reflexivity. Qed.
Print Assumptions limit_keyword_refuted.
