(** More theorems about the text of parameter limits: parsing ends, line by line (C124). *)

From Coq Require Import List Arith ZArith Ascii Bool String Lia.
From Verif Require Import Prelude Loops Str_model Str_proofs Lines_model Lines_proofs Marker_model LocIO_model LocIO_spec LocIO_props LimIO_model LimIO_spec LimIO_proofs LimIO_props.
Import ListNotations.
Local Open Scope outcome_scope.
Local Open Scope list_scope.

(** Tokens up to the end of the text or to an error. *)
Fixpoint fine (ts : list tok) : Prop :=
  match ts with
  | [] => False
  | TEof :: r | TBad _ :: r => r = []
  | _ :: r => fine r
  end.
Definition cur (ts : list tok) : Prop := fine ts /\ arrive ts = Ok ts.
Definition safe {A} (k : nat) (ts : list tok) (o : outcome (A * list tok)) : Prop :=
  match o with
  | Ok (_, ts') => cur ts' /\ k + List.length ts' <= List.length ts
  | OutOfFuel => False
  | _ => True
  end.
Definition safe1 (k : nat) (ts : list tok) (o : outcome (list tok)) : Prop :=
  match o with
  | Ok ts' => cur ts' /\ k + List.length ts' <= List.length ts
  | OutOfFuel => False
  | _ => True
  end.

Lemma span_le p s a b : span p s = Some (a, b) -> List.length b <= List.length s.
Proof.
  revert a b. induction s as [|c s IH]; intros a b H; cbn [span] in H; [injection H as <- <-; cbn; lia|].
  destruct (negative c); [discriminate|]. destruct (p c).
  - destruct (span p s) as [[a' b']|] eqn:E; [|discriminate]. injection H as <- <-. specialize (IH _ _ eq_refl). cbn. lia.
  - injection H as <- <-. cbn. lia.
Qed.
Lemma span_lt p c s a b : p c = true -> span p (c :: s) = Some (a, b) -> List.length b < List.length (c :: s).
Proof.
  intros P H. cbn [span] in H. destruct (negative c); [discriminate|]. rewrite P in H. destruct (span p s) as [[a' b']|] eqn:E; [|discriminate].
  injection H as <- <-. apply span_le in E. cbn. lia.
Qed.
Lemma lex_fine fuel s : List.length s <= fuel -> fine (lex fuel s).
Proof.
  revert s. induction fuel as [|fuel IH]; intros s H; destruct s as [|c s]; cbn [lex]; try reflexivity; cbn [List.length] in H; [lia|].
  destruct (negative c); [reflexivity|]. destruct (is_space c); [apply IH; lia|].
  destruct (Ascii.eqb c "["%char); [cbn [fine]; apply IH; lia|]. destruct (Ascii.eqb c "]"%char); [cbn [fine]; apply IH; lia|].
  destruct (Ascii.eqb c ","%char); [cbn [fine]; apply IH; lia|].
  destruct (num_start c) eqn:N.
  - destruct (span num_char (c :: s)) as [[a b]|] eqn:E; [|reflexivity]. apply span_lt in E; [|unfold num_char; rewrite N; reflexivity]. cbn [fine]. apply IH. cbn in E. lia.
  - destruct (id_start c) eqn:I; [|reflexivity].
    destruct (span id_char (c :: s)) as [[a b]|] eqn:E; [|reflexivity]. apply span_lt in E; [|unfold id_char; rewrite I; reflexivity]. cbn [fine]. apply IH. cbn in E. lia.
Qed.

Lemma arrive_safe ts : fine ts -> safe1 0 ts (arrive ts).
Proof. destruct ts as [|[| | | | | |[]] r]; cbn; intros H; try contradiction; try exact I; (split; [split; [exact H|reflexivity]|lia]). Qed.
Lemma advance_safe t r : cur (t :: r) -> t <> TEof -> safe1 1 (t :: r) (advance (t :: r)).
Proof.
  intros [H A] N. assert (Fr : fine r) by (destruct t as [| | | | | |[]]; cbn in *; try discriminate; try contradiction; exact H).
  replace (advance (t :: r)) with (arrive r) by (destruct t; try reflexivity; contradiction).
  pose proof (arrive_safe r Fr) as S. destruct (arrive r); cbn in *; try exact S. split; [apply S|]. destruct S. lia.
Qed.
Lemma eat_safe t ts : t = TOpen \/ t = TClose \/ t = TComma -> cur ts -> safe1 1 ts (eat t ts).
Proof.
  intros T C. unfold eat. destruct (at_tok t ts) eqn:A; [|exact I]. destruct ts as [|u r]; [destruct C as [[] _]|]. apply advance_safe; [exact C|].
  intros ->. cbn in A. destruct T as [->|[->| ->]]; discriminate.
Qed.

Lemma bind_safe1 {A} k j m ts o (f : list tok -> outcome (A * list tok)) :
  safe1 k ts o -> (forall ts', cur ts' -> safe j ts' (f ts')) -> m <= k + j -> safe m ts (obind o f).
Proof.
  intros H G L. destruct o as [ts'| | | |]; cbn in *; try exact H. destruct H as [C H]. specialize (G ts' C). unfold safe in *.
  destruct (f ts') as [[x ts2]| | | |]; try exact G. split; [apply G|]. destruct G. lia.
Qed.
Lemma bind_safe {A B} k j m ts (o : outcome (A * list tok)) (f : A * list tok -> outcome (B * list tok)) :
  safe k ts o -> (forall x ts', cur ts' -> safe j ts' (f (x, ts'))) -> m <= k + j -> safe m ts (obind o f).
Proof.
  intros H G L. destruct o as [[x ts']| | | |]; cbn in *; try exact H. destruct H as [C H]. specialize (G x ts' C). unfold safe in *.
  destruct (f (x, ts')) as [[y ts2]| | | |]; try exact G. split; [apply G|]. destruct G. lia.
Qed.
Lemma bind_other {A B} k ts (o : outcome B) (f : B -> outcome (A * list tok)) : o <> OutOfFuel -> (forall x, safe k ts (f x)) -> safe k ts (obind o f).
Proof. intros H G. destruct o; cbn; try exact I; [apply G|contradiction]. Qed.
Lemma named_total names n : named names n <> OutOfFuel.
Proof. unfold named. destruct (index_from _ _ _); discriminate. Qed.
Lemma joint_param_total joints n : joint_param joints n <> OutOfFuel.
Proof.
  unfold joint_param. destruct (find_first_of _ _ _); [|discriminate]. pose proof (named_total joints (firstn n0 n)) as H1. destruct (named joints _); cbn [obind]; try discriminate; [|intros _; apply H1; reflexivity].
  pose proof (named_total param_names (skipn (n0 + 1) n)) as H2. destruct (named param_names _); cbn [obind]; try discriminate. intros _. apply H2. reflexivity.
Qed.
Lemma done_safe {A} (x : A) ts : cur ts -> safe 0 ts (Ok (x, ts)).
Proof. intros C. split; [exact C|lia]. Qed.

Lemma get_id_safe ts : cur ts -> safe 1 ts (get_id ts).
Proof.
  intros C. unfold get_id. destruct ts as [|[| | |s|s| |b] r]; try exact I. apply bind_safe1 with (k := 1) (j := 0); [apply advance_safe; [exact C|discriminate]| |lia].
  intros ts' C'. apply done_safe. exact C'.
Qed.

Section Total.
Context {F M : Type} (e : nums F M) (joints params : list str).

Lemma get_num_safe ts : cur ts -> safe 1 ts (get_num e ts).
Proof.
  intros C. unfold get_num. destruct ts as [|[| | |s|s| |b] r]; try exact I. destruct (n_stof e s); [|exact I].
  apply bind_safe1 with (k := 1) (j := 0); [apply advance_safe; [exact C|discriminate]| |lia].
  intros ts' C'. apply done_safe. exact C'.
Qed.
Lemma get_more_safe n : forall ts, cur ts -> safe 0 ts (get_more e n ts).
Proof.
  induction n as [|n IH]; intros ts C; cbn [get_more]; [apply done_safe; exact C|].
  apply bind_safe1 with (k := 1) (j := 0); [apply eat_safe; auto| |lia]. intros t1 C1.
  apply bind_safe with (k := 1) (j := 0); [apply get_num_safe; exact C1| |lia]. intros x t2 C2. cbn [fst snd].
  apply bind_safe with (k := 0) (j := 0); [apply IH; exact C2| |lia]. intros y t3 C3. apply done_safe. exact C3.
Qed.
Lemma get_vec_safe n ts : cur ts -> safe 1 ts (get_vec e n ts).
Proof.
  intros C. unfold get_vec. apply bind_safe1 with (k := 1) (j := 0); [apply eat_safe; auto| |lia]. intros t1 C1.
  apply bind_safe with (k := 1) (j := 0); [apply get_num_safe; exact C1| |lia]. intros x t2 C2. cbn [fst snd].
  apply bind_safe with (k := 0) (j := 0); [apply get_more_safe; exact C2| |lia]. intros y t3 C3. cbn [fst snd].
  apply bind_safe1 with (k := 1) (j := 0); [apply eat_safe; auto| |lia]. intros t4 C4. apply done_safe. exact C4.
Qed.
Lemma get_pair_safe ts : cur ts -> safe 1 ts (get_pair e ts).
Proof.
  intros C. unfold get_pair. apply bind_safe with (k := 1) (j := 0); [apply get_vec_safe; exact C| |lia]. intros v t1 C1. cbn [fst snd].
  destruct v as [|a [|b [|]]]; try exact I. apply (done_safe (a, b)). exact C1.
Qed.
Lemma cur_cons ts : cur ts -> 1 <= List.length ts.
Proof. intros [H _]. destruct ts; [contradiction|cbn; lia]. Qed.
Lemma dyn_loop_safe fuel : forall first ts, cur ts -> List.length ts <= fuel -> safe 0 ts (dyn_loop e fuel first ts).
Proof.
  induction fuel as [|fuel IH]; intros first ts C L; cbn [dyn_loop]; (destruct (at_tok TClose ts); [apply done_safe; exact C|]).
  - apply cur_cons in C. lia.
  - assert (G : forall t1, cur t1 -> List.length t1 <= S fuel ->
        safe 0 t1 (let* x := get_num e t1 in let* r := dyn_loop e fuel false (snd x) in Ok (fst x :: fst r, snd r))).
    { intros t1 C1 L1. pose proof (get_num_safe t1 C1) as N. destruct (get_num e t1) as [[x t2]| | | |]; cbn [obind]; try exact N; try exact I. destruct N as [C2 L2]. cbn [fst snd].
      specialize (IH false t2 C2 ltac:(lia)). unfold safe in *. destruct (dyn_loop e fuel false t2) as [[y t3]| | | |]; cbn [obind fst snd]; try exact IH; try exact I.
      split; [apply IH|]. destruct IH. lia. }
    destruct first; cbn [obind]; [apply G; assumption|].
    pose proof (eat_safe TComma ts ltac:(auto) C) as N. destruct (eat TComma ts) as [t1| | | |]; cbn [obind]; try exact N; try exact I. destruct N as [C1 L1].
    specialize (G t1 C1 ltac:(lia)). unfold safe in *. destruct (let* x := _ in _) as [[y t3]| | | |]; try exact G. split; [apply G|]. destruct G. lia.
Qed.
Lemma get_dyn_safe ts : cur ts -> safe 1 ts (get_dyn e ts).
Proof.
  intros C. unfold get_dyn. apply bind_safe1 with (k := 1) (j := 0); [apply eat_safe; auto| |lia]. intros t1 C1.
  apply bind_safe with (k := 0) (j := 0); [apply dyn_loop_safe; [exact C1|lia]| |lia]. intros x t2 C2. cbn [fst snd].
  apply bind_safe1 with (k := 1) (j := 0); [apply eat_safe; auto| |lia]. intros t3 C3. apply done_safe. exact C3.
Qed.
Lemma get_weight_safe ts : cur ts -> safe 0 ts (get_weight e ts).
Proof.
  intros C. unfold get_weight. destruct (at_tok TEof ts); [apply done_safe; exact C|]. pose proof (get_num_safe ts C) as N. unfold safe in *.
  destruct (get_num e ts) as [[x t]| | | |]; try exact N. split; [apply N|]. destruct N. lia.
Qed.
Lemma segments_safe i t : forall fuel prev rmin ts, cur ts -> List.length ts <= fuel -> safe 0 ts (segments (M := M) e fuel i t prev rmin ts).
Proof.
  induction fuel as [|fuel IH]; intros prev rmin ts C L; cbn [segments]; (destruct (negb _); [apply done_safe; exact C|]).
  - apply cur_cons in C. lia.
  - pose proof (get_dyn_safe ts C) as N. destruct (get_dyn e ts) as [[v t1]| | | |]; cbn [obind]; try exact N; try exact I. destruct N as [C1 L1]. cbn [fst snd].
    apply bind_other.
    + destruct v as [|a [|b [|c [|]]]]; try discriminate. destruct (n_eqb _ _ _); discriminate.
    + intros [[a b] rmax]. match goal with |- safe _ _ (if ?c then _ else _) => destruct c; [exact I|] end.
      specialize (IH (Some (a, b)) rmax t1 C1 ltac:(lia)). unfold safe in *. destruct (segments e fuel i t _ _ t1) as [[y t3]| | | |]; cbn [obind fst snd]; try exact IH; try exact I.
      split; [apply IH|]. destruct IH. lia.
Qed.

Lemma minmax_safe n ts : cur ts -> safe 0 ts (parse_minmax (M := M) e joints params n ts).
Proof.
  intros C. unfold parse_minmax. destruct (find_first_of _ _ _).
  - apply bind_other; [apply joint_param_total|]. intros q. apply bind_safe with (k := 1) (j := 0); [apply get_pair_safe; exact C| |lia]. intros [x y] t1 C1.
    apply bind_safe with (k := 0) (j := 0); [apply get_weight_safe; exact C1| |lia]. intros w t2 C2. apply done_safe. exact C2.
  - apply bind_other; [apply named_total|]. intros q. apply bind_safe with (k := 1) (j := 0); [apply get_pair_safe; exact C| |lia]. intros [x y] t1 C1.
    apply bind_safe with (k := 0) (j := 0); [apply get_weight_safe; exact C1| |lia]. intros w t2 C2. apply done_safe. exact C2.
Qed.
Lemma passive_safe n ts : cur ts -> safe 0 ts (parse_passive (M := M) e joints n ts).
Proof.
  intros C. unfold parse_passive.
  apply bind_other; [apply joint_param_total|]. intros q. apply bind_safe with (k := 1) (j := 0); [apply get_pair_safe; exact C| |lia]. intros [x y] t1 C1.
  apply bind_safe with (k := 0) (j := 0); [apply get_weight_safe; exact C1| |lia]. intros w t2 C2. apply done_safe. exact C2.
Qed.
Lemma linear_safe n ts : cur ts -> safe 0 ts (parse_linear (M := M) e params n ts).
Proof.
  intros C. unfold parse_linear. apply bind_other; [apply named_total|]. intros k. apply bind_safe with (k := 1) (j := 0); [apply get_id_safe; exact C| |lia]. intros i t1 C1. cbn [fst snd].
  apply bind_other; [apply named_total|]. intros t. destruct (negb _); [exact I|].
  apply bind_safe with (k := 0) (j := 0); [apply segments_safe; [exact C1|lia]| |lia]. intros r t2 C2. cbn [fst snd].
  apply bind_safe with (k := 0) (j := 0); [apply get_weight_safe; exact C2| |lia]. intros w t3 C3. apply done_safe. exact C3.
Qed.
Lemma halfplane_safe n ts : cur ts -> safe 0 ts (parse_halfplane (M := M) e params n ts).
Proof.
  intros C. unfold parse_halfplane. apply bind_other; [apply named_total|]. intros k. apply bind_safe with (k := 1) (j := 0); [apply get_id_safe; exact C| |lia]. intros i t1 C1. cbn [fst snd].
  apply bind_other; [apply named_total|]. intros t. apply bind_safe with (k := 1) (j := 0); [apply get_pair_safe; exact C1| |lia]. intros [x y] t2 C2.
  apply bind_safe with (k := 1) (j := 0); [apply get_num_safe; exact C2| |lia]. intros o t3 C3. cbn [fst snd].
  apply bind_safe with (k := 0) (j := 0); [apply get_weight_safe; exact C3| |lia]. intros w t4 C4. apply done_safe. exact C4.
Qed.
Lemma ellipsoid_safe n ts : cur ts -> safe 0 ts (parse_ellipsoid (M := M) e joints n ts).
Proof.
  intros C. unfold parse_ellipsoid. apply bind_other; [apply named_total|]. intros k.
  apply bind_safe with (k := 1) (j := 0); [apply get_vec_safe; exact C| |lia]. intros o t1 C1. cbn [fst snd].
  apply bind_safe with (k := 1) (j := 0); [apply get_id_safe; exact C1| |lia]. intros i t2 C2. cbn [fst snd].
  apply bind_other; [apply named_total|]. intros t.
  apply bind_safe with (k := 1) (j := 0); [apply get_vec_safe; exact C2| |lia]. intros a t3 C3. cbn [fst snd].
  apply bind_safe with (k := 1) (j := 0); [apply get_vec_safe; exact C3| |lia]. intros b t4 C4. cbn [fst snd].
  apply bind_safe with (k := 1) (j := 0); [apply get_vec_safe; exact C4| |lia]. intros c t5 C5. cbn [fst snd].
  apply bind_safe with (k := 0) (j := 0); [apply get_weight_safe; exact C5| |lia]. intros w t6 C6. apply done_safe. exact C6.
Qed.

Lemma parse_line_total line : parse_line (M := M) e joints params line <> OutOfFuel.
Proof.
  unfold parse_line. destruct (negb _); [discriminate|].
  pose proof (arrive_safe _ (lex_fine _ (before_hash line) (le_n _))) as A. destruct (arrive _) as [ts| | | |]; cbn [obind]; try discriminate; [|contradiction].
  destruct A as [C _].
  pose proof (get_id_safe ts C) as I1. destruct (get_id ts) as [[i t1]| | | |]; cbn [obind fst snd]; try discriminate; [|contradiction]. destruct I1 as [C1 _].
  pose proof (get_id_safe t1 C1) as I2. destruct (get_id t1) as [[n t2]| | | |]; cbn [obind fst snd]; try discriminate; [|contradiction]. destruct I2 as [C2 _].
  pose proof (get_id_safe t2 C2) as I3. destruct (get_id t2) as [[k t3]| | | |]; cbn [obind fst snd]; try discriminate; [|contradiction]. destruct I3 as [C3 _].
  match goal with |- obind ?o _ <> _ => assert (S : safe 0 t3 o) end.
  { destruct (s_eqb _ _); [apply minmax_safe; exact C3|]. destruct (s_eqb _ _); [apply passive_safe; exact C3|]. destruct (s_eqb _ _); [apply linear_safe; exact C3|].
    destruct (s_eqb _ _); [apply halfplane_safe; exact C3|]. destruct (s_eqb _ _); [apply ellipsoid_safe; exact C3|]. destruct (s_eqb _ _); [apply ellipsoid_safe; exact C3|]. exact I. }
  match goal with |- obind ?o _ <> _ => destruct o as [[ls t4]| | | |]; cbn [obind fst snd]; try discriminate; [|contradiction] end.
  destruct (at_tok TEof t4); discriminate.
Qed.
End Total.

(** C124. Parsing ends on every text: with limits, with an exception, or at a character that is not ASCII. *)
Theorem limits_parse_ends : forall (F M : Type) (e : nums F M) joints params text, parse_limits e joints params text <> OutOfFuel.
Proof.
  intros F M e joints params text. unfold parse_limits. generalize (text_lines [] text). intros lines. induction lines as [|l lines IH]; cbn [parse_lines]; [discriminate|].
  pose proof (parse_line_total e joints params l) as T. destruct (parse_line e joints params l); cbn [obind]; try congruence.
  destruct (parse_lines e joints params lines); cbn [obind]; congruence.
Qed.
Print Assumptions limits_parse_ends.

Lemma text_lines_app : forall a acc b, text_lines acc (a ++ lf :: b) = text_lines acc a ++ text_lines [] b \/
  text_lines acc (a ++ lf :: b) = text_lines acc a ++ [] :: text_lines [] b.
Proof.
  induction a as [|c a IH]; intros acc b; cbn [app text_lines].
  - rewrite Ascii.eqb_refl. destruct acc; [right; reflexivity|left; reflexivity].
  - destruct (Ascii.eqb c lf); [|apply IH]. cbn [app]. destruct (IH [] b) as [E|E]; rewrite E; [left|right]; reflexivity.
Qed.
(** C124. Lines are independent: two texts with an end of line between them are parsed to the limits of the one followed by those of the other. *)
Theorem limit_lines_independent : forall (F M : Type) (e : nums F M) joints params a b,
  parse_limits e joints params (a ++ lf :: b) = (let* x := parse_limits e joints params a in let* y := parse_limits e joints params b in Ok (x ++ y))%out.
Proof.
  intros F M e joints params a b. unfold parse_limits.
  assert (G : forall l1 l2, parse_lines e joints params (l1 ++ l2) = (let* x := parse_lines e joints params l1 in let* y := parse_lines e joints params l2 in Ok (x ++ y))%out).
  { induction l1 as [|l l1 IH]; intros l2; cbn [app parse_lines obind].
    - destruct (parse_lines e joints params l2); reflexivity.
    - rewrite IH. destruct (parse_line e joints params l); cbn [obind]; try reflexivity. destruct (parse_lines e joints params l1); cbn [obind]; try reflexivity.
      destruct (parse_lines e joints params l2); cbn [obind]; try reflexivity. rewrite app_assoc. reflexivity. }
  destruct (text_lines_app a [] b) as [E|E]; rewrite E, G; [reflexivity|]. cbn [parse_lines].
  replace (parse_line e joints params []) with (Ok (A := list (plimit F M)) []) by reflexivity. cbn [obind].
  destruct (parse_lines e joints params (text_lines [] a)); cbn [obind]; try reflexivity. destruct (parse_lines e joints params (text_lines [] b)); reflexivity.
Qed.
Print Assumptions limit_lines_independent.

Definition has_line_end (l : str) : Prop := In lf l.
Lemma text_lines_one : forall l acc, ~ has_line_end l -> acc ++ l <> [] -> text_lines acc l = [acc ++ l].
Proof.
  induction l as [|c l IH]; intros acc N E; cbn [text_lines].
  - rewrite app_nil_r in *. destruct acc; [contradiction|reflexivity].
  - destruct (Ascii.eqb_spec c lf) as [->|_]; [exfalso; apply N; left; reflexivity|].
    rewrite IH; [rewrite <- app_assoc; reflexivity| |destruct acc; discriminate]. intros H. apply N. right. exact H.
Qed.
(** C124. A line that does not begin with the word limit has no limits, and what follows a # in a line does not matter. *)
Theorem other_limit_lines : forall (F M : Type) (e : nums F M) joints params line comment,
  ~ has_line_end line -> ~ has_line_end comment ->
  (starts_with (lit "limit") line = false -> parse_limits e joints params line = Ok []) /\
  parse_limits e joints params (line ++ "#"%char :: comment) = parse_limits e joints params line.
Proof.
  intros F M e joints params line comment N1 N2.
  assert (One : forall l, ~ has_line_end l -> parse_limits e joints params l = (let* a := parse_line e joints params l in Ok a)%out).
  { intros l N. unfold parse_limits. destruct l as [|c l]; [reflexivity|]. rewrite text_lines_one; [|exact N|discriminate]. cbn [app parse_lines obind].
    destruct (parse_line e joints params (c :: l)); cbn [obind]; try reflexivity. rewrite app_nil_r. reflexivity. }
  assert (SA : forall n a b, starts_with n a = true -> starts_with n (a ++ b) = true).
  { induction n as [|x n IH]; intros a b H; [destruct a; reflexivity|]. destruct a as [|y a]; [discriminate|]. cbn [starts_with app] in *.
    apply andb_prop in H. destruct H as [H1 H2]. rewrite H1. apply IH. exact H2. }
  assert (BH : forall l, starts_with (lit "limit") l = false -> starts_with (lit "limit") (before_hash l) = false).
  { intros l H. destruct (starts_with (lit "limit") (before_hash l)) eqn:E; [|reflexivity]. rewrite <- H. symmetry.
    destruct (before_hash_spec l) as [[X _]|(b & X & _)]; rewrite X; [exact E|apply SA; exact E]. }
  assert (BH2 : before_hash (line ++ "#"%char :: comment) = before_hash line).
  { apply before_hash_iff. right. destruct (before_hash_spec line) as [[X N]|(b & X & N)].
    - exists comment. split; [rewrite <- X; reflexivity|exact N].
    - exists (b ++ "#"%char :: comment). split; [rewrite X at 1; rewrite <- app_assoc; reflexivity|exact N]. }
  split.
  - intros S. rewrite One by exact N1. unfold parse_line. rewrite (BH _ S). reflexivity.
  - rewrite !One; [|exact N1|]. { unfold parse_line. rewrite BH2. reflexivity. }
    intros H. apply in_app_or in H. destruct H as [H|[H|H]]; [exact (N1 H)|discriminate H|exact (N2 H)].
Qed.
Print Assumptions other_limit_lines.

Example exll_lines : parse_limits ones_nums exli_joints exli_params
    (file ["# limits"; "limit bend minmax [0, 110] # comment"; "parameter bend"; "limit l_arm.ry minmax [10, 110] 1110"]%string) =
  Ok [PL (LMinMax 0 0 2) 1; PL (LMinMaxJoint 1 4 1 2) 3]%Z.
Proof. vm_compute. reflexivity. Qed.
Example exll_refused : List.Forall (fun t => parse_limits ones_nums exli_joints exli_params (lit t) = Throw)
  ["limit bend minmax [0, 110] 10 10"; "limit bend minmax [0, 110, 110]"; "limit bend minmax [0 110]"; "limit bend"; "limit l_arm minmax [0, 110]"; "limit l_arm.rw minmax [0, 110]";
   "limit bend linear twist [0, 110] [0, 110]  10 bend"; "limit bend linear twist"; "limit bend linear twist []"; "limit bend linear twist [0,0,0,0]"; "limit bend linear twist [0, 0, ]"]%string.
Proof. repeat constructor. Qed.

(** ** Writing *)

Section Write.
Context {F M : Type} (e : nums F M) (joints params : list str).
Notation group := (option (nat * nat * F * F)).
Definition closing (open : group) : str := match open with Some (_, _, w, _) => end_linear e w | None => [] end.
(** What one limit adds to the text, and the group after it. *)
Definition one (open : group) (l : plimit F M) : outcome (str * group) :=
  let fresh :=
    match p_limit l with
    | LLinear i t a b rmin rmax =>
      let* m := param_name params i in let* n := param_name params t in
      let out := closing open ++ lit "limit " ++ m ++ lit " linear " ++ n in
      if n_eqb e rmin (n_zero e) && n_eqb e rmax (n_zero e)
      then Ok (out ++ lit " " ++ show_vec e [a; b] ++ end_linear e (p_weight l), None)
      else Ok (out ++ show_segment e a b rmax, Some (i, t, p_weight l, rmax))
    | _ =>
      let* s := show_limit e joints params (p_limit l) in
      Ok (closing open ++ lit "limit " ++ s ++ (if n_eqb e (p_weight l) (n_one e) then [] else lit " " ++ n_show e (p_weight l)) ++ [lf], None)
    end in
  match open, p_limit l with
  | Some (i, t, w0, last), LLinear i' t' a b rmin rmax =>
    if (i' =? i) && (t' =? t) && n_eqb e rmin last then Ok (show_segment e a b rmax, Some (i, t, w0, rmax)) else fresh
  | _, _ => fresh
  end.
Lemma write_one open l r : write_from e joints params open (l :: r) =
  (let* o := one open l in let* rest := write_from e joints params (snd o) r in Ok (fst o ++ rest))%out.
Proof.
  destruct l as [l w]. unfold one. cbn [write_from p_limit p_weight].
  destruct open as [[[[i t] w0] last]|], l as [k x y|j q x y|j q x y|i' t' a b mn mx|c d nn o|pj o q m]; cbn [closing];
    try (match goal with |- context [show_limit ?A ?B ?C ?D] => destruct (show_limit A B C D) as [sh| | | |] end; cbn [obind fst snd]; try reflexivity).
  - destruct ((i' =? i) && (t' =? t) && n_eqb e mn last); [reflexivity|]. destruct (param_name params i'); cbn [obind]; try reflexivity. destruct (param_name params t'); cbn [obind]; try reflexivity.
    destruct (n_eqb e mn (n_zero e) && n_eqb e mx (n_zero e)); reflexivity.
  - destruct (param_name params i'); cbn [obind]; try reflexivity. destruct (param_name params t'); cbn [obind]; try reflexivity.
    destruct (n_eqb e mn (n_zero e) && n_eqb e mx (n_zero e)); reflexivity.
Qed.
Lemma one_fresh p o open l : one o p = Ok (fst open, snd open) -> ~ continues e p l ->
  one (snd open) l = (let* x := one None l in Ok (closing (snd open) ++ fst x, snd x))%out.
Proof.
  intros H N. assert (G : match snd open with None => True | Some (i, t, _, last) => exists a b x, p_limit p = LLinear i t a b x last end).
  { destruct p as [p w]. unfold one in H. cbn [p_limit p_weight] in *. destruct open as [s g]. cbn [fst snd] in *.
    destruct o as [[[[i0 t0] w0] last0]|], p as [k x y|j q x y|j q x y|i' t' a b mn mx|c d nn oo|pj oo q m];
      try (match type of H with context [show_limit ?A ?B ?C ?D] => destruct (show_limit A B C D) as [sh| | | |] end; cbn [obind] in H; try discriminate; injection H as _ <-; exact I).
    - destruct ((i' =? i0) && (t' =? t0) && n_eqb e mn last0) eqn:Q.
      + injection H as _ <-. apply andb_prop in Q. destruct Q as [Q _]. apply andb_prop in Q. destruct Q as [Q1 Q2]. apply Nat.eqb_eq in Q1, Q2. subst. eexists _, _, _. reflexivity.
      + destruct (param_name params i'); cbn [obind] in H; try discriminate. destruct (param_name params t'); cbn [obind] in H; try discriminate.
        destruct (n_eqb e mn (n_zero e) && n_eqb e mx (n_zero e)); injection H as _ <-; [exact I|]. eexists _, _, _. reflexivity.
    - destruct (param_name params i'); cbn [obind] in H; try discriminate. destruct (param_name params t'); cbn [obind] in H; try discriminate.
      destruct (n_eqb e mn (n_zero e) && n_eqb e mx (n_zero e)); injection H as _ <-; [exact I|]. eexists _, _, _. reflexivity. }
  destruct open as [s g]. cbn [fst snd] in *. clear H. destruct l as [l w]. unfold one. cbn [p_limit p_weight].
  assert (C : match g, l with Some (i, t, _, last), LLinear i' t' _ _ mn _ => (i' =? i) && (t' =? t) && n_eqb e mn last = false | _, _ => True end).
  { destruct g as [[[[i t] w0] last]|]; [|exact I]. destruct l as [| | |i' t' a b mn mx| |]; try exact I. destruct G as (a0 & b0 & x0 & G).
    destruct (i' =? i) eqn:Q1; [|reflexivity]. destruct (t' =? t) eqn:Q2; [|reflexivity]. destruct (n_eqb e mn last) eqn:Q3; [|reflexivity].
    apply Nat.eqb_eq in Q1, Q2. subst i' t'. exfalso. apply N. exists i, t, a0, b0, x0, last, a, b, mn, mx. split; [exact G|]. split; [reflexivity|exact Q3]. }
  destruct g as [[[[i t] w0] last]|], l as [k x y|j q x y|j q x y|i' t' a b mn mx|c d nn oo|pj oo q m]; cbn [closing];
    try (match goal with |- context [show_limit ?A ?B ?C ?D] => destruct (show_limit A B C D) as [sh| | | |] end; cbn [obind fst snd]; reflexivity).
  - rewrite C. destruct (param_name params i'); cbn [obind]; try reflexivity. destruct (param_name params t'); cbn [obind]; try reflexivity.
    destruct (n_eqb e mn (n_zero e) && n_eqb e mx (n_zero e)); cbn [obind fst snd app]; rewrite <- ?app_assoc; reflexivity.
  - destruct (param_name params i'); cbn [obind]; try reflexivity. destruct (param_name params t'); cbn [obind]; try reflexivity.
    destruct (n_eqb e mn (n_zero e) && n_eqb e mx (n_zero e)); reflexivity.
Qed.
Lemma write_nil open : write_from e joints params open [] = Ok (closing open).
Proof. destruct open as [[[[i t] w] x]|]; reflexivity. Qed.
Lemma write_split : forall l1 open p l l2, ~ continues e p l ->
  write_from e joints params open (l1 ++ p :: l :: l2) =
  (let* a := write_from e joints params open (l1 ++ [p]) in let* b := write_from e joints params None (l :: l2) in Ok (a ++ b))%out.
Proof.
  induction l1 as [|x l1 IH]; intros open p l l2 N; cbn [app].
  - rewrite !(write_one open p). destruct (one open p) as [[s g]| | | |] eqn:E; cbn [obind fst snd]; try reflexivity. rewrite write_nil. cbn [obind].
    rewrite (write_one g l), (write_one None l). rewrite (one_fresh p open (s, g) l E N : one g l = _). destruct (one None l) as [[s' g']| | | |]; cbn [obind fst snd]; try reflexivity.
    destruct (write_from e joints params g' l2); cbn [obind]; try reflexivity. rewrite <- !app_assoc. reflexivity.
  - rewrite !(write_one open x). destruct (one open x) as [[s g]| | | |]; cbn [obind fst snd]; try reflexivity. rewrite IH by exact N.
    destruct (write_from e joints params g (l1 ++ [p])); cbn [obind]; try reflexivity. destruct (write_from e joints params None (l :: l2)); cbn [obind]; try reflexivity.
    rewrite app_assoc. reflexivity.
Qed.
End Write.

(** C124. Limits are written one after the other: only a linear limit that continues the one before it shares its line. *)
Theorem limits_written_apart : forall (F M : Type) (e : nums F M) joints params l1 p l l2, ~ continues e p l ->
  write_limits e joints params (l1 ++ p :: l :: l2) =
  (let* a := write_limits e joints params (l1 ++ [p]) in let* b := write_limits e joints params (l :: l2) in Ok (a ++ b))%out.
Proof. intros. apply write_split. assumption. Qed.
Print Assumptions limits_written_apart.
Example exll_apart : ~ continues ones_nums (PL (LLinear 0 1 1%Z 0%Z (-1000)%Z 3%Z) 1%Z) (PL (LLinear 0 2 1%Z 0%Z 3%Z 1000%Z) 1%Z : plimit Z (list Z * list Z * list Z)).
Proof. intros (i & t & a & b & x & y & a' & b' & z & y' & H1 & H2 & _). injection H1 as <- <- _ _ _ _. discriminate. Qed.
