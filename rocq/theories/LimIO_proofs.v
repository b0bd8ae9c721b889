(** Proofs about the text of parameter limits. *)

From Coq Require Import List Arith Ascii Bool String Lia.
From Verif Require Import Prelude Loops Str_model Str_proofs Lines_model Lines_proofs Marker_model LocIO_model LimIO_model LimIO_spec.
Import ListNotations.
Local Open Scope outcome_scope.
Local Open Scope list_scope.

(** ** Characters *)

Ltac by_char c := destruct c as [[] [] [] [] [] [] [] []]; vm_compute; try reflexivity; try discriminate; auto.

Lemma num_start_facts c : num_start c = true ->
  (negative c = false /\ is_space c = false) /\ (Ascii.eqb c "[" = false /\ Ascii.eqb c "]" = false) /\ Ascii.eqb c "," = false.
Proof. by_char c. Qed.
Lemma id_start_facts c : id_start c = true ->
  (negative c = false /\ is_space c = false) /\ (Ascii.eqb c "[" = false /\ Ascii.eqb c "]" = false) /\ Ascii.eqb c "," = false /\ num_start c = false.
Proof. by_char c. Qed.
Lemma num_char_fine c : num_char c = true -> negative c = false.
Proof. by_char c. Qed.
Lemma id_char_fine c : id_char c = true -> negative c = false.
Proof. by_char c. Qed.

(** Neither a hash nor an end of line. *)
Definition quietc (c : ascii) : bool := negb (Ascii.eqb c "#") && negb (Ascii.eqb c lf).
Definition quiet (s : str) : bool := forallb quietc s.
Lemma num_quiet c : num_char c = true -> quietc c = true.
Proof. by_char c. Qed.
Lemma id_quiet c : id_char c = true -> quietc c = true.
Proof. by_char c. Qed.
Lemma forallb_impl {A} (p q : A -> bool) l : (forall x, p x = true -> q x = true) -> forallb p l = true -> forallb q l = true.
Proof. intros H. rewrite !forallb_forall. auto. Qed.
Lemma quiet_app a b : quiet (a ++ b) = quiet a && quiet b.
Proof. apply forallb_app. Qed.
Lemma name_first_eq c : name_first c = id_start c.
Proof. destruct c as [[] [] [] [] [] [] [] []]; reflexivity. Qed.
Lemma name_char_eq c : name_char c = id_char c.
Proof. destruct c as [[] [] [] [] [] [] [] []]; reflexivity. Qed.
Lemma number_first_eq c : number_first c = num_start c.
Proof. destruct c as [[] [] [] [] [] [] [] []]; reflexivity. Qed.
Lemma number_char_eq c : number_char c = num_char c.
Proof. destruct c as [[] [] [] [] [] [] [] []]; reflexivity. Qed.
Lemma forallb_same {A} (p q : A -> bool) l : (forall x, p x = q x) -> forallb p l = forallb q l.
Proof. intros H. induction l as [|x l IH]; [reflexivity|]. cbn. rewrite H, IH. reflexivity. Qed.
Lemma name_like_iff s : name_like s <-> exists c r, s = c :: r /\ id_start c = true /\ forallb id_char s = true.
Proof. unfold name_like. rewrite (forallb_same _ _ s name_char_eq). split; intros [c [r [E [C A]]]]; exists c, r; rewrite name_first_eq in *; auto. Qed.
Lemma number_like_iff s : number_like s <-> exists c r, s = c :: r /\ num_start c = true /\ forallb num_char s = true.
Proof. unfold number_like. rewrite (forallb_same _ _ s number_char_eq). split; intros [c [r [E [C A]]]]; exists c, r; rewrite number_first_eq in *; auto. Qed.
Lemma quiet_number s : number_like s -> quiet s = true.
Proof. rewrite number_like_iff. intros [c [r [_ [_ H]]]]. exact (forallb_impl _ _ _ num_quiet H). Qed.
Lemma quiet_name s : name_like s -> quiet s = true.
Proof. rewrite name_like_iff. intros [c [r [_ [_ H]]]]. exact (forallb_impl _ _ _ id_quiet H). Qed.
Lemma quiet_hash s : quiet s = true -> before_hash s = s.
Proof.
  intros H. apply before_hash_iff. left. split; [reflexivity|]. intros D. unfold quiet in H. rewrite forallb_forall in H. specialize (H _ D). discriminate.
Qed.
Lemma quiet_lines s r : forall acc, quiet s = true -> text_lines acc (s ++ lf :: r) = (acc ++ s) :: text_lines [] r.
Proof.
  induction s as [|c s IH]; intros acc H.
  - cbn [app text_lines]. rewrite Ascii.eqb_refl, app_nil_r. reflexivity.
  - cbn [quiet forallb] in H. apply andb_true_iff in H. destruct H as [H1 H2]. unfold quietc in H1. apply andb_true_iff in H1. destruct H1 as [_ H1].
    apply negb_true_iff in H1. cbn [app text_lines]. rewrite H1, IH by exact H2. rewrite <- app_assoc. reflexivity.
Qed.

Lemma starts_with_lit n b : starts_with n (n ++ b) = true.
Proof. induction n as [|c n IH]; [reflexivity|]. cbn. rewrite Ascii.eqb_refl. exact IH. Qed.

(** ** Tokens *)

Definition lexes (s : str) (ts : list tok) : Prop := forall fuel, List.length s <= fuel -> lex fuel s = ts.
Definition stops (p : ascii -> bool) (s : str) : Prop := s = [] \/ exists c r, s = c :: r /\ negative c = false /\ p c = false.

Lemma span_app p n s : (forall c, p c = true -> negative c = false) -> forallb p n = true -> stops p s -> span p (n ++ s) = Some (n, s).
Proof.
  intros P H S. induction n as [|c n IH].
  - destruct S as [->|[c [r [-> [A B]]]]]; [reflexivity|]. cbn [app span]. rewrite A, B. reflexivity.
  - cbn [forallb] in H. apply andb_true_iff in H. destruct H as [H1 H2]. cbn [app span]. rewrite (P _ H1), H1, (IH H2). reflexivity.
Qed.

Lemma lexes_end : lexes [] [TEof].
Proof. intros fuel _. destruct fuel; reflexivity. Qed.
Lemma lexes_space s ts : lexes s ts -> lexes (" "%char :: s) ts.
Proof. intros H [|fuel] L; cbn in L; [lia|]. cbn [lex]. change (negative " ") with false. change (is_space " ") with true. cbv iota. apply H. lia. Qed.
Lemma lexes_open s ts : lexes s ts -> lexes ("["%char :: s) (TOpen :: ts).
Proof.
  intros H [|fuel] L; cbn in L; [lia|]. cbn [lex]. change (negative "[") with false. change (is_space "[") with false. change (Ascii.eqb "[" "[") with true. cbv iota.
  rewrite H by lia. reflexivity.
Qed.
Lemma lexes_close s ts : lexes s ts -> lexes ("]"%char :: s) (TClose :: ts).
Proof.
  intros H [|fuel] L; cbn in L; [lia|]. cbn [lex]. change (negative "]") with false. change (is_space "]") with false. change (Ascii.eqb "]" "[") with false.
  change (Ascii.eqb "]" "]") with true. cbv iota. rewrite H by lia. reflexivity.
Qed.
Lemma lexes_comma s ts : lexes s ts -> lexes (","%char :: s) (TComma :: ts).
Proof.
  intros H [|fuel] L; cbn in L; [lia|]. cbn [lex]. change (negative ",") with false. change (is_space ",") with false. change (Ascii.eqb "," "[") with false.
  change (Ascii.eqb "," "]") with false. change (Ascii.eqb "," ",") with true. cbv iota. rewrite H by lia. reflexivity.
Qed.
Lemma lexes_number n s ts : number_like n -> stops num_char s -> lexes s ts -> lexes (n ++ s) (TNum n :: ts).
Proof.
  rewrite number_like_iff. intros [c [r [E [C A]]]] S H fuel L. pose proof (span_app num_char n s num_char_fine A S) as SP. rewrite E in *. cbn [app] in *. cbn in L. rewrite app_length in L.
  destruct fuel as [|fuel]; [lia|]. cbn [lex]. destruct (num_start_facts c C) as [[F1 F2] [[F3 F4] F5]]. rewrite F1, F2, F3, F4, F5, C, SP, H by lia. reflexivity.
Qed.
Lemma lexes_name n s ts : name_like n -> stops id_char s -> lexes s ts -> lexes (n ++ s) (TId n :: ts).
Proof.
  rewrite name_like_iff. intros [c [r [E [C A]]]] S H fuel L. pose proof (span_app id_char n s id_char_fine A S) as SP. rewrite E in *. cbn [app] in *. cbn in L. rewrite app_length in L.
  destruct fuel as [|fuel]; [lia|]. cbn [lex]. destruct (id_start_facts c C) as [[F1 F2] [[F3 F4] [F5 F6]]]. rewrite F1, F2, F3, F4, F5, F6, C, SP, H by lia. reflexivity.
Qed.
Lemma stops_space p s : p " "%char = false -> stops p (" "%char :: s).
Proof. intros H. right. exists " "%char, s. split; [reflexivity|]. split; [reflexivity|exact H]. Qed.

Definition fine (ts : list tok) : Prop := arrive ts = Ok ts.
Lemma advance_fine t ts : fine ts -> advance (t :: ts) = Ok ts.
Proof. intros H. destruct ts as [|u ts]; [discriminate|]. unfold advance. destruct t; exact H. Qed.

(** ** Names *)

Lemma index_from_first names : forall k n b, nth_error names k = Some n -> (forall i m, i < k -> nth_error names i = Some m -> m <> n) ->
  index_from n names b = Some (b + k).
Proof.
  induction names as [|m r IH]; intros k n b E H; [destruct k; discriminate|]. cbn [index_from]. destruct k as [|k].
  - cbn in E. injection E as ->. destruct (s_eqb_spec n n); [|congruence]. f_equal. lia.
  - destruct (s_eqb_spec m n) as [D|_]; [destruct (H 0 m ltac:(lia) eq_refl D)|]. rewrite (IH k n (S b) E); [f_equal; lia|].
    intros i x Hi Ex. apply (H (S i) x); [lia|exact Ex].
Qed.
Lemma named_first names k n : first_named names k n -> named names n = Ok k.
Proof. intros [E [_ H]]. unfold named. rewrite (index_from_first names k n 0 E H). reflexivity. Qed.

Lemma no_period_find n : no_period n -> find_first_of ["."%char] n 0 = None.
Proof.
  intros H. unfold find_first_of. cbn [skipn]. destruct (find_from ["."%char] n 0) eqn:E; [|reflexivity].
  apply find_from_some in E. destruct E as [p [d [r [-> [_ [[<-|[]] _]]]]]]. destruct H. apply in_or_app. right. left. reflexivity.
Qed.
Lemma period_find n r : no_period n -> find_first_of ["."%char] (n ++ "."%char :: r) 0 = Some (List.length n).
Proof.
  intros H. unfold find_first_of. cbn [skipn]. destruct (find_from ["."%char] (n ++ "."%char :: r) 0) eqn:E.
  - apply find_from_some in E. destruct E as [p [d [r' [E [-> [[<-|[]] P]]]]]]. f_equal. cbn.
    revert p E P. induction n as [|c n IH]; intros p E P.
    + destruct p as [|x p]; [reflexivity|]. cbn in E. injection E as <- _. destruct (P "."%char); left; reflexivity.
    + destruct p as [|x p].
      * cbn in E. injection E as -> _. destruct H. left. reflexivity.
      * cbn in E. injection E as -> E. cbn. f_equal. apply IH; [intros D; apply H; right; exact D|exact E|intros y Hy; apply P; right; exact Hy].
  - exfalso. apply (find_from_none _ _ _ E "."%char); [apply in_or_app; right; left; reflexivity|left; reflexivity].
Qed.
Lemma param_names_first q p : nth_error param_names q = Some p -> first_named param_names q p.
Proof.
  intros E. split; [exact E|].
  do 7 (destruct q as [|q]; [cbn in E; injection E as <-; split;
    [eexists _, _; split; [reflexivity|split; reflexivity]|
     intros i m Hi Em; do 7 (destruct i as [|i]; [cbn in Em; try lia; injection Em as <-; discriminate|]); lia]|]).
  destruct q; discriminate.
Qed.
Lemma joint_param_read joints j n q p : first_named joints j n -> no_period n -> nth_error param_names q = Some p ->
  joint_param joints (n ++ "."%char :: p) = Ok (j, q) /\ name_like (n ++ "."%char :: p).
Proof.
  intros J P Q. apply param_names_first in Q. split.
  - unfold joint_param. rewrite (period_find n p P), firstn_app_exact, (named_first _ _ _ J). cbn [obind].
    replace (n ++ "."%char :: p) with ((n ++ ["."%char]) ++ p) by (rewrite <- app_assoc; reflexivity).
    replace (List.length n + 1) with (List.length (n ++ ["."%char])) by (rewrite app_length; reflexivity).
    rewrite skipn_app_exact, (named_first _ _ _ Q). reflexivity.
  - destruct J as [_ [J _]]. destruct Q as [_ [Q _]]. apply name_like_iff in J. apply name_like_iff in Q. apply name_like_iff. destruct J as [c [r [-> [C A]]]]. destruct Q as [c' [r' [E [_ A']]]].
    exists c, (r ++ "."%char :: p). split; [reflexivity|]. split; [exact C|]. rewrite forallb_app. rewrite A. cbn [forallb andb].
    change (id_char ".") with true. exact A'.
Qed.

(** ** Vectors *)

Section Text.
Context {F M : Type} (e : nums F M) (good : F -> Prop) (round : F -> F) (joints params : list str).
Hypothesis RD : reads e good round.

Definition more_toks (r : list F) : list tok := flat_map (fun y => [TComma; TNum (n_show e y)]) r.
Definition vtoks (v : list F) : list tok :=
  TOpen :: match v with [] => [] | x :: r => TNum (n_show e x) :: more_toks r end ++ [TClose].

Lemma lexes_more r s ts : List.Forall good r -> stops num_char s -> lexes s ts ->
  lexes (flat_map (fun y => ","%char :: " "%char :: n_show e y) r ++ s) (more_toks r ++ ts) /\
  stops num_char (flat_map (fun y => ","%char :: " "%char :: n_show e y) r ++ s).
Proof.
  intros G S L. induction G as [|x r Gx Gr [IH1 IH2]]; [split; assumption|]. cbn [flat_map more_toks app]. split.
  - rewrite <- app_assoc. apply lexes_comma, lexes_space, lexes_number; [apply (rd_text _ _ _ RD); exact Gx|exact IH2|exact IH1].
  - right. eexists _, _. split; [reflexivity|split; reflexivity].
Qed.
Lemma lexes_vec v s ts : List.Forall good v -> lexes s ts -> lexes (show_vec e v ++ s) (vtoks v ++ ts).
Proof.
  intros G L. unfold show_vec, vtoks. cbn [app]. apply lexes_open.
  assert (C : lexes (["]"%char] ++ s) ([TClose] ++ ts)) by (apply lexes_close; exact L).
  assert (S : stops num_char (["]"%char] ++ s)) by (right; eexists _, _; split; [reflexivity|split; reflexivity]).
  destruct v as [|x r]; [cbn [app]; exact C|].
  inversion G as [|y z Gx Gr]; subst. cbn [app]. rewrite <- !app_assoc.
  destruct (lexes_more r _ _ Gr S C) as [L1 L2]. apply lexes_number; [apply (rd_text _ _ _ RD); exact Gx|exact L2|].
  exact L1.
Qed.
Lemma quiet_vec v : List.Forall good v -> quiet (show_vec e v) = true.
Proof.
  intros G. unfold show_vec. cbn [quiet forallb]. apply andb_true_iff. split; [reflexivity|]. fold (quiet (match v with
              | [] => []
              | x :: r => n_show e x ++ flat_map (fun y => ","%char :: " "%char :: n_show e y) r
              end ++ ["]"%char])). rewrite quiet_app. apply andb_true_iff. split; [|reflexivity].
  destruct G as [|x r Gx Gr]; [reflexivity|]. rewrite quiet_app, (quiet_number _ (rd_text _ _ _ RD x Gx)). cbn [andb].
  induction Gr as [|y r Gy Gr IH]; [reflexivity|]. cbn [flat_map]. rewrite quiet_app, IH, andb_true_r. cbn [quiet forallb].
  apply (quiet_number _ (rd_text _ _ _ RD y Gy)).
Qed.

Lemma get_num_ok x ts : good x -> fine ts -> get_num e (TNum (n_show e x) :: ts) = Ok (round x, ts).
Proof. intros G H. unfold get_num. rewrite (rd_value _ _ _ RD x G), (advance_fine _ _ H). reflexivity. Qed.
Lemma fine_more r ts : fine ts -> fine (more_toks r ++ ts).
Proof. intros H. destruct r; [exact H|reflexivity]. Qed.
Lemma get_more_ok r ts : List.Forall good r -> get_more e (List.length r) (more_toks r ++ TClose :: ts) = Ok (map round r, TClose :: ts).
Proof.
  intros G. induction G as [|x r Gx Gr IH]; [reflexivity|]. cbn [List.length get_more more_toks flat_map app]. unfold eat. cbn [at_tok tok_is].
  rewrite advance_fine by reflexivity. cbn [obind]. fold (more_toks r). rewrite get_num_ok by (try exact Gx; apply fine_more; reflexivity). cbn [obind fst snd].
  rewrite IH. reflexivity.
Qed.
Lemma get_vec_ok v n ts : List.length v = n -> 1 <= n -> List.Forall good v -> fine ts -> get_vec e n (vtoks v ++ ts) = Ok (map round v, ts).
Proof.
  intros L N G H. destruct v as [|x r]; [cbn in L; lia|]. inversion G as [|y z Gx Gr]; subst. cbn [List.length]. unfold get_vec, vtoks.
  rewrite <- app_comm_cons. rewrite <- app_assoc. cbn [app]. unfold eat at 1. cbn [at_tok tok_is]. rewrite advance_fine by reflexivity. cbn [obind].
  rewrite get_num_ok by (try exact Gx; apply fine_more; reflexivity). cbn [obind fst snd]. rewrite Nat.sub_succ, Nat.sub_0_r, get_more_ok by exact Gr. cbn [obind fst snd].
  unfold eat. cbn [at_tok tok_is]. rewrite advance_fine by exact H. reflexivity.
Qed.
Lemma get_pair_ok x y ts : good x -> good y -> fine ts -> get_pair e (vtoks [x; y] ++ ts) = Ok (round x, round y, ts).
Proof. intros Gx Gy H. unfold get_pair. rewrite get_vec_ok; [reflexivity|reflexivity|lia|repeat constructor; assumption|exact H]. Qed.
Lemma dyn_more r ts : List.Forall good r -> forall fuel, List.length r <= fuel ->
  dyn_loop e fuel false (more_toks r ++ TClose :: ts) = Ok (map round r, TClose :: ts).
Proof.
  intros G. induction G as [|x r Gx Gr IH]; intros fuel L; [destruct fuel; reflexivity|]. cbn in L. destruct fuel as [|fuel]; [lia|].
  cbn [more_toks flat_map app dyn_loop at_tok tok_is]. unfold eat at 1. cbn [at_tok tok_is]. rewrite advance_fine by reflexivity. cbn [obind]. fold (more_toks r).
  rewrite get_num_ok by (try exact Gx; apply fine_more; reflexivity). cbn [obind fst snd]. rewrite IH by lia. reflexivity.
Qed.
Lemma more_toks_length r : List.length r <= List.length (more_toks r).
Proof. induction r as [|y r IH]; [apply le_n|]. unfold more_toks in *. cbn [flat_map app List.length]. lia. Qed.
Lemma get_dyn_ok v ts : List.Forall good v -> fine ts -> get_dyn e (vtoks v ++ ts) = Ok (map round v, ts).
Proof.
  intros G H. unfold get_dyn, vtoks. rewrite <- app_comm_cons. rewrite <- app_assoc. unfold eat at 1. cbn [at_tok tok_is app].
  rewrite advance_fine by (destruct v; reflexivity). cbn [obind].
  destruct G as [|x r Gx Gr].
  - cbn [app List.length dyn_loop at_tok tok_is obind fst snd]. unfold eat. cbn [at_tok tok_is]. rewrite advance_fine by exact H. reflexivity.
  - cbn [app List.length dyn_loop at_tok tok_is obind]. rewrite get_num_ok by (try exact Gx; apply fine_more; reflexivity). cbn [obind fst snd].
    rewrite dyn_more; [|exact Gr|]. 2:{ rewrite app_length. pose proof (more_toks_length r). lia. }
    cbn [obind fst snd]. unfold eat. cbn [at_tok tok_is]. rewrite advance_fine by exact H. reflexivity.
Qed.
Lemma get_id_ok n ts : fine ts -> get_id (TId n :: ts) = Ok (n, ts).
Proof. intros H. unfold get_id. rewrite (advance_fine _ _ H). reflexivity. Qed.

(** ** One line *)

Definition dispatch (n t : str) (ts : list tok) : outcome (list (plimit F M) * list tok) :=
  if s_eqb t (lit "minmax") then parse_minmax e joints params n ts
  else if s_eqb t (lit "minmax_passive") then parse_passive e joints n ts
  else if s_eqb t (lit "linear") then parse_linear e params n ts
  else if s_eqb t (lit "halfplane") then parse_halfplane e params n ts
  else if s_eqb t (lit "ellipsoid") then parse_ellipsoid e joints n ts
  else if s_eqb t (lit "elipsoid") then parse_ellipsoid e joints n ts
  else Throw.

Lemma parse_line_toks n t rest ts ls : name_like n -> name_like t -> quiet rest = true -> stops id_char rest -> lexes rest ts -> fine ts ->
  dispatch n t ts = Ok (ls, [TEof]) ->
  parse_line e joints params (lit "limit " ++ n ++ lit " " ++ t ++ rest) = Ok ls /\ quiet (lit "limit " ++ n ++ lit " " ++ t ++ rest) = true.
Proof.
  intros N T Q S L Fi D. set (line := lit "limit " ++ n ++ lit " " ++ t ++ rest).
  assert (QL : quiet line = true).
  { unfold line. rewrite !quiet_app, (quiet_name _ N), (quiet_name _ T), Q. reflexivity. }
  split; [|exact QL]. unfold parse_line. rewrite (quiet_hash _ QL).
  replace (starts_with (lit "limit") line) with true by (symmetry; apply (starts_with_lit (lit "limit") (lit " " ++ n ++ lit " " ++ t ++ rest))). cbn [negb].
  assert (LX : lexes line (TId (lit "limit") :: TId n :: TId t :: ts)).
  { unfold line. change (lit "limit ") with (lit "limit" ++ lit " "). rewrite <- app_assoc.
    apply lexes_name; [eexists _, _; split; [reflexivity|split; reflexivity]|apply stops_space; reflexivity|].
    cbn [lit list_ascii_of_string app]. apply lexes_space.
    apply lexes_name; [exact N|apply stops_space; reflexivity|]. apply lexes_space.
    apply lexes_name; assumption. }
  rewrite (LX _ (le_n _)). cbn [arrive obind]. rewrite get_id_ok by reflexivity. cbn [obind fst snd]. rewrite get_id_ok by reflexivity. cbn [obind fst snd].
  rewrite get_id_ok by exact Fi. cbn [obind fst snd]. fold (dispatch n t ts). rewrite D. reflexivity.
Qed.

(** The weight at the end of a line. *)
Definition wtext (w : F) : str := if n_eqb e w (n_one e) then [] else lit " " ++ n_show e w.
Definition wtoks (w : F) : list tok := (if n_eqb e w (n_one e) then [] else [TNum (n_show e w)]) ++ [TEof].
Definition wload (w : F) : F := if n_eqb e w (n_one e) then n_one e else round w.
Lemma lexes_weight w : good w -> lexes (wtext w) (wtoks w).
Proof.
  intros G. unfold wtext, wtoks. destruct (n_eqb e w (n_one e)); [apply lexes_end|]. cbn [lit list_ascii_of_string app]. apply lexes_space.
  replace (n_show e w) with (n_show e w ++ []) at 1 by apply app_nil_r.
  apply lexes_number; [apply (rd_text _ _ _ RD); exact G|left; reflexivity|apply lexes_end].
Qed.
Lemma weight_stops p w : p " "%char = false -> stops p (wtext w).
Proof. intros H. unfold wtext. destruct (n_eqb e w (n_one e)); [left; reflexivity|apply stops_space; exact H]. Qed.
Lemma quiet_weight w : good w -> quiet (wtext w) = true.
Proof. intros G. unfold wtext. destruct (n_eqb e w (n_one e)); [reflexivity|]. rewrite quiet_app, (quiet_number _ (rd_text _ _ _ RD w G)). reflexivity. Qed.
Lemma fine_weight w : fine (wtoks w).
Proof. unfold wtoks. destruct (n_eqb e w (n_one e)); reflexivity. Qed.
Lemma get_weight_ok w : good w -> get_weight e (wtoks w) = Ok (wload w, [TEof]).
Proof.
  intros G. unfold get_weight, wtoks, wload. destruct (n_eqb e w (n_one e)); cbn [app at_tok tok_is]; [reflexivity|]. apply get_num_ok; [exact G|reflexivity].
Qed.
Lemma wload_spec w : good w -> (w = n_one e -> wload w = n_one e) /\ (w <> n_one e -> wload w = round w).
Proof.
  intros G. unfold wload. pose proof (rd_eq _ _ _ RD w (n_one e) (or_introl G) (or_intror (or_intror (or_introl eq_refl)))) as E.
  destruct (n_eqb e w (n_one e)); split; intros H; try reflexivity; [destruct H; apply E; reflexivity|apply E in H; discriminate].
Qed.

Lemma id_word s : id_start (hd " "%char s) = true -> forallb id_char s = true -> name_like s.
Proof. rewrite name_like_iff. destruct s as [|c r]; [discriminate|]. intros A B. exists c, r. auto. Qed.

(** A limit that is not linear is written as a line that is parsed as it. *)
Lemma plain_limit l w s : writable e good joints params (PL l w) -> (forall i t a b x y, l <> LLinear i t a b x y) -> show_limit e joints params l = Ok s ->
  exists l', parse_line e joints params (lit "limit " ++ s ++ wtext w) = Ok [l'] /\ quiet (lit "limit " ++ s ++ wtext w) = true /\ as_printed e round (PL l w) l'.
Proof.
  intros [Gw W] NL E. cbn [p_weight p_limit] in *. pose proof (wload_spec w Gw) as WL. pose proof (fine_weight w) as FW.
  assert (SP : forall r, stops id_char (lit " " ++ r)) by (intros r; apply stops_space; reflexivity).
  destruct l as [k x y|j q x y|j q x y|i t a b x y|a b [x y] o|p o q m].
  - destruct W as [Gx [Gy [n [N P]]]]. cbn [show_limit] in E. unfold param_name in E. rewrite (proj1 N) in E. cbn [obind] in E. injection E as <-.
    exists (PL (LMinMax k (round x) (round y)) (wload w)).
    assert (A : parse_line e joints params (lit "limit " ++ n ++ lit " " ++ lit "minmax" ++ (lit " " ++ show_vec e [x; y] ++ wtext w)) = Ok [PL (LMinMax k (round x) (round y)) (wload w)] /\
      quiet (lit "limit " ++ n ++ lit " " ++ lit "minmax" ++ (lit " " ++ show_vec e [x; y] ++ wtext w)) = true).
    { apply (parse_line_toks n (lit "minmax") _ (vtoks [x; y] ++ wtoks w)).
      - exact (proj1 (proj2 N)).
      - apply id_word; reflexivity.
      - rewrite !quiet_app, quiet_vec, quiet_weight by (try exact Gw; repeat constructor; assumption). reflexivity.
      - apply SP.
      - cbn [lit list_ascii_of_string app]. apply lexes_space, lexes_vec; [repeat constructor; assumption|apply lexes_weight; exact Gw].
      - reflexivity.
      - unfold dispatch. change (s_eqb (lit "minmax") (lit "minmax")) with true. cbv iota. unfold parse_minmax. rewrite (no_period_find n P), (named_first _ _ _ N). cbn [obind].
        rewrite get_pair_ok by assumption. cbn [obind]. rewrite get_weight_ok by exact Gw. reflexivity. }
    assert (Eq : lit "limit " ++ n ++ lit " " ++ lit "minmax" ++ (lit " " ++ show_vec e [x; y] ++ wtext w) = lit "limit " ++ (n ++ lit " minmax " ++ show_vec e [x; y]) ++ wtext w).
    { rewrite <- !app_assoc. reflexivity. }
    rewrite Eq in A. split; [exact (proj1 A)|]. split; [exact (proj2 A)|].
    split; [cbn; auto|exact WL].
  - destruct W as [Gx [Gy [Q [n [N P]]]]]. cbn [show_limit] in E. unfold joint_param_name in E.
    destruct (nth_error param_names q) as [pn|] eqn:Eq; [|apply nth_error_None in Eq; cbn in Eq; lia].
    rewrite (proj1 N) in E. cbn [obind] in E. injection E as <-.
    destruct (joint_param_read joints j n q pn N P Eq) as [JP NL'].
    exists (PL (LMinMaxJoint j q (round x) (round y)) (wload w)). set (nn := n ++ "."%char :: pn) in *.
    assert (A : parse_line e joints params (lit "limit " ++ nn ++ lit " " ++ lit "minmax" ++ (lit " " ++ show_vec e [x; y] ++ wtext w)) = Ok [PL (LMinMaxJoint j q (round x) (round y)) (wload w)] /\
      quiet (lit "limit " ++ nn ++ lit " " ++ lit "minmax" ++ (lit " " ++ show_vec e [x; y] ++ wtext w)) = true).
    { apply (parse_line_toks nn (lit "minmax") _ (vtoks [x; y] ++ wtoks w)).
      - exact NL'.
      - apply id_word; reflexivity.
      - rewrite !quiet_app, quiet_vec, quiet_weight by (try exact Gw; repeat constructor; assumption). reflexivity.
      - apply SP.
      - cbn [lit list_ascii_of_string app]. apply lexes_space, lexes_vec; [repeat constructor; assumption|apply lexes_weight; exact Gw].
      - reflexivity.
      - unfold dispatch. change (s_eqb (lit "minmax") (lit "minmax")) with true. cbv iota. unfold parse_minmax.
        unfold nn at 1. rewrite (period_find n pn P), JP. cbn [obind].
        rewrite get_pair_ok by assumption. cbn [obind]. rewrite get_weight_ok by exact Gw. reflexivity. }
    assert (Eq' : lit "limit " ++ nn ++ lit " " ++ lit "minmax" ++ (lit " " ++ show_vec e [x; y] ++ wtext w) = lit "limit " ++ (nn ++ lit " minmax " ++ show_vec e [x; y]) ++ wtext w).
    { rewrite <- !app_assoc. reflexivity. }
    rewrite Eq' in A. split; [exact (proj1 A)|]. split; [exact (proj2 A)|].
    split; [cbn; auto|exact WL].
  - destruct W as [Gx [Gy [Q [n [N P]]]]]. cbn [show_limit] in E. unfold joint_param_name in E.
    destruct (nth_error param_names q) as [pn|] eqn:Eq; [|apply nth_error_None in Eq; cbn in Eq; lia].
    rewrite (proj1 N) in E. cbn [obind] in E. injection E as <-.
    destruct (joint_param_read joints j n q pn N P Eq) as [JP NL'].
    exists (PL (LMinMaxPassive j q (round x) (round y)) (wload w)). set (nn := n ++ "."%char :: pn) in *.
    assert (A : parse_line e joints params (lit "limit " ++ nn ++ lit " " ++ lit "minmax_passive" ++ (lit " " ++ show_vec e [x; y] ++ wtext w)) = Ok [PL (LMinMaxPassive j q (round x) (round y)) (wload w)] /\
      quiet (lit "limit " ++ nn ++ lit " " ++ lit "minmax_passive" ++ (lit " " ++ show_vec e [x; y] ++ wtext w)) = true).
    { apply (parse_line_toks nn (lit "minmax_passive") _ (vtoks [x; y] ++ wtoks w)).
      - exact NL'.
      - apply id_word; reflexivity.
      - rewrite !quiet_app, quiet_vec, quiet_weight by (try exact Gw; repeat constructor; assumption). reflexivity.
      - apply SP.
      - cbn [lit list_ascii_of_string app]. apply lexes_space, lexes_vec; [repeat constructor; assumption|apply lexes_weight; exact Gw].
      - reflexivity.
      - unfold dispatch. change (s_eqb (lit "minmax_passive") (lit "minmax")) with false. change (s_eqb (lit "minmax_passive") (lit "minmax_passive")) with true. cbv iota.
        unfold parse_passive. rewrite JP. cbn [obind].
        rewrite get_pair_ok by assumption. cbn [obind]. rewrite get_weight_ok by exact Gw. reflexivity. }
    assert (Eq' : lit "limit " ++ nn ++ lit " " ++ lit "minmax_passive" ++ (lit " " ++ show_vec e [x; y] ++ wtext w) = lit "limit " ++ (nn ++ lit " minmax_passive " ++ show_vec e [x; y]) ++ wtext w).
    { rewrite <- !app_assoc. reflexivity. }
    rewrite Eq' in A. split; [exact (proj1 A)|]. split; [exact (proj2 A)|].
    split; [cbn; auto|exact WL].
  - destruct (NL i t a b x y eq_refl).
  - destruct W as [Gx [Gy [Go [[m N1] [n N2]]]]]. cbn [show_limit] in E. unfold param_name in E. rewrite (proj1 N1), (proj1 N2) in E. cbn [obind] in E. injection E as <-.
    set (nn := n_norm e (round x, round y) (round o)).
    exists (PL (LHalfPlane a b (fst nn) (snd nn)) (wload w)).
    assert (A : parse_line e joints params (lit "limit " ++ m ++ lit " " ++ lit "halfplane" ++ (lit " " ++ n ++ lit " " ++ show_vec e [x; y] ++ lit " " ++ n_show e o ++ wtext w)) = Ok [PL (LHalfPlane a b (fst nn) (snd nn)) (wload w)] /\
      quiet (lit "limit " ++ m ++ lit " " ++ lit "halfplane" ++ (lit " " ++ n ++ lit " " ++ show_vec e [x; y] ++ lit " " ++ n_show e o ++ wtext w)) = true).
    { apply (parse_line_toks m (lit "halfplane") _ (TId n :: vtoks [x; y] ++ TNum (n_show e o) :: wtoks w)).
      - exact (proj1 (proj2 N1)).
      - apply id_word; reflexivity.
      - rewrite !quiet_app, quiet_vec, quiet_weight, (quiet_name _ (proj1 (proj2 N2))), (quiet_number _ (rd_text _ _ _ RD o Go)) by (try exact Gw; repeat constructor; assumption). reflexivity.
      - apply SP.
      - cbn [lit list_ascii_of_string app]. apply lexes_space. apply lexes_name; [exact (proj1 (proj2 N2))|apply stops_space; reflexivity|]. apply lexes_space.
        apply lexes_vec; [repeat constructor; assumption|]. apply lexes_space. apply lexes_number; [apply (rd_text _ _ _ RD); exact Go|apply weight_stops; reflexivity|apply lexes_weight; exact Gw].
      - reflexivity.
      - unfold dispatch. change (s_eqb (lit "halfplane") (lit "minmax")) with false. change (s_eqb (lit "halfplane") (lit "minmax_passive")) with false.
        change (s_eqb (lit "halfplane") (lit "linear")) with false. change (s_eqb (lit "halfplane") (lit "halfplane")) with true. cbv iota.
        unfold parse_halfplane. rewrite (named_first _ _ _ N1). cbn [obind]. rewrite get_id_ok by reflexivity. cbn [obind fst snd]. rewrite (named_first _ _ _ N2). cbn [obind].
        rewrite get_pair_ok by (try assumption; reflexivity). cbn [obind]. rewrite get_num_ok by assumption. cbn [obind fst snd]. rewrite get_weight_ok by exact Gw. reflexivity. }
    assert (Eq' : lit "limit " ++ m ++ lit " " ++ lit "halfplane" ++ (lit " " ++ n ++ lit " " ++ show_vec e [x; y] ++ lit " " ++ n_show e o ++ wtext w) =
       lit "limit " ++ (m ++ lit " halfplane " ++ n ++ lit " " ++ show_vec e [x; y] ++ lit " " ++ n_show e o) ++ wtext w).
    { rewrite <- !app_assoc. reflexivity. }
    rewrite Eq' in A. split; [exact (proj1 A)|]. split; [exact (proj2 A)|].
    split; [cbn; fold nn; destruct nn; auto|exact WL].
  - destruct (n_split e m) as [[t r] sc] eqn:ES. destruct W as [L1 [L2 [L3 [L4 [G1 [G2 [G3 [G4 [[n1 N1] [n2 N2]]]]]]]]]].
    cbn [show_limit] in E. rewrite ES in E. unfold joint_name in E. rewrite (proj1 N1), (proj1 N2) in E. cbn [obind] in E. injection E as <-.
    exists (PL (LEllipsoid p (map round o) q (n_join e (map round t) (map round r) (map round sc))) (wload w)).
    assert (A : parse_line e joints params (lit "limit " ++ n1 ++ lit " " ++ lit "ellipsoid" ++ (lit " " ++ show_vec e o ++ lit " " ++ n2 ++ lit " " ++ show_vec e t ++ lit " " ++ show_vec e r ++ lit " " ++ show_vec e sc ++ wtext w)) =
        Ok [PL (LEllipsoid p (map round o) q (n_join e (map round t) (map round r) (map round sc))) (wload w)] /\
      quiet (lit "limit " ++ n1 ++ lit " " ++ lit "ellipsoid" ++ (lit " " ++ show_vec e o ++ lit " " ++ n2 ++ lit " " ++ show_vec e t ++ lit " " ++ show_vec e r ++ lit " " ++ show_vec e sc ++ wtext w)) = true).
    { apply (parse_line_toks n1 (lit "ellipsoid") _ (vtoks o ++ TId n2 :: vtoks t ++ vtoks r ++ vtoks sc ++ wtoks w)).
      - exact (proj1 (proj2 N1)).
      - apply id_word; reflexivity.
      - rewrite !quiet_app, !quiet_vec, quiet_weight, (quiet_name _ (proj1 (proj2 N2))) by assumption. reflexivity.
      - apply SP.
      - cbn [lit list_ascii_of_string app]. apply lexes_space. apply lexes_vec; [exact G1|]. apply lexes_space.
        apply lexes_name; [exact (proj1 (proj2 N2))|apply stops_space; reflexivity|]. apply lexes_space.
        apply lexes_vec; [exact G2|]. apply lexes_space. apply lexes_vec; [exact G3|]. apply lexes_space. apply lexes_vec; [exact G4|]. apply lexes_weight; exact Gw.
      - reflexivity.
      - unfold dispatch. change (s_eqb (lit "ellipsoid") (lit "minmax")) with false. change (s_eqb (lit "ellipsoid") (lit "minmax_passive")) with false.
        change (s_eqb (lit "ellipsoid") (lit "linear")) with false. change (s_eqb (lit "ellipsoid") (lit "halfplane")) with false.
        change (s_eqb (lit "ellipsoid") (lit "ellipsoid")) with true. cbv iota.
        unfold parse_ellipsoid. rewrite (named_first _ _ _ N1). cbn [obind]. rewrite get_vec_ok by (try assumption; try lia; reflexivity). cbn [obind fst snd].
        rewrite get_id_ok by reflexivity. cbn [obind fst snd]. rewrite (named_first _ _ _ N2). cbn [obind].
        rewrite get_vec_ok by (try assumption; try lia; reflexivity). cbn [obind fst snd].
        rewrite get_vec_ok by (try assumption; try lia; reflexivity). cbn [obind fst snd].
        rewrite get_vec_ok by (try assumption; try lia; reflexivity). cbn [obind fst snd].
        rewrite get_weight_ok by exact Gw. reflexivity. }
    assert (Eq' : lit "limit " ++ n1 ++ lit " " ++ lit "ellipsoid" ++ (lit " " ++ show_vec e o ++ lit " " ++ n2 ++ lit " " ++ show_vec e t ++ lit " " ++ show_vec e r ++ lit " " ++ show_vec e sc ++ wtext w) =
      lit "limit " ++ (n1 ++ lit " ellipsoid " ++ show_vec e o ++ lit " " ++ n2 ++ lit " " ++ show_vec e t ++ lit " " ++ show_vec e r ++ lit " " ++ show_vec e sc) ++ wtext w).
    { rewrite <- !app_assoc. reflexivity. }
    rewrite Eq' in A. split; [exact (proj1 A)|]. split; [exact (proj2 A)|].
    split; [cbn; rewrite ES; auto|exact WL].
Qed.

Lemma plain_limit_shown l w : writable e good joints params (PL l w) -> exists s, show_limit e joints params l = Ok s.
Proof.
  intros [_ W]. cbn [p_limit] in W. destruct l as [k x y|j q x y|j q x y|i t a b x y|a b [x y] o|p o q m]; cbn [show_limit].
  - destruct W as [_ [_ [n [N _]]]]. unfold param_name. rewrite (proj1 N). eexists. reflexivity.
  - destruct W as [_ [_ [Q [n [N _]]]]]. unfold joint_param_name. destruct (nth_error param_names q) eqn:Eq; [|apply nth_error_None in Eq; cbn in Eq; lia].
    rewrite (proj1 N). eexists. reflexivity.
  - destruct W as [_ [_ [Q [n [N _]]]]]. unfold joint_param_name. destruct (nth_error param_names q) eqn:Eq; [|apply nth_error_None in Eq; cbn in Eq; lia].
    rewrite (proj1 N). eexists. reflexivity.
  - eexists. reflexivity.
  - destruct W as [_ [_ [_ [[m N1] [n N2]]]]]. unfold param_name. rewrite (proj1 N1), (proj1 N2). eexists. reflexivity.
  - destruct (n_split e m) as [[t r] sc]. destruct W as [_ [_ [_ [_ [_ [_ [_ [_ [[n1 N1] [n2 N2]]]]]]]]]]. unfold joint_name. rewrite (proj1 N1), (proj1 N2). eexists. reflexivity.
Qed.

(** ** Linear limits *)

Definition linear (l : plimit F M) : Prop := match p_limit l with LLinear _ _ _ _ _ _ => True | _ => False end.
Definition seg (l : plimit F M) : str := match p_limit l with LLinear _ _ a b _ rmax => show_segment e a b rmax | _ => [] end.
Definition seg_nums (a b rmax : F) : list F := if n_eqb e rmax (n_max e) then [a; b] else [a; b; rmax].
Definition stoks (l : plimit F M) : list tok := match p_limit l with LLinear _ _ a b _ rmax => vtoks (seg_nums a b rmax) | _ => [] end.
Definition rmaxl (x : F) : F := if n_eqb e x (n_max e) then n_max e else round x.

Lemma max_eqb x : x = n_max e \/ good x -> (n_eqb e x (n_max e) = true <-> x = n_max e).
Proof. intros [H|H]; apply (rd_eq _ _ _ RD); unfold known; auto. Qed.
Lemma rmaxl_spec x : x = n_max e \/ good x -> (x = n_max e -> rmaxl x = n_max e) /\ (x <> n_max e -> rmaxl x = round x).
Proof.
  intros G. unfold rmaxl. pose proof (max_eqb x G) as E. destruct (n_eqb e x (n_max e)); split; intros H; try reflexivity; [destruct H; apply E; reflexivity|apply E in H; discriminate].
Qed.
Lemma seg_nums_good a b x : good a -> good b -> x = n_max e \/ good x -> List.Forall good (seg_nums a b x).
Proof.
  intros A B X. unfold seg_nums. pose proof (max_eqb x X) as E. destruct (n_eqb e x (n_max e)); repeat constructor; try assumption.
  destruct X as [->|X]; [|exact X]. pose proof (proj2 E eq_refl). discriminate.
Qed.
Lemma seg_text a b x : show_segment e a b x = " "%char :: show_vec e (seg_nums a b x).
Proof. unfold show_segment, seg_nums. destruct (n_eqb e x (n_max e)); reflexivity. Qed.

Lemma lexes_segs g s ts : List.Forall (fun l => linear l /\ writable e good joints params l) g -> lexes s ts -> lexes (flat_map seg g ++ s) (flat_map stoks g ++ ts).
Proof.
  intros H L. induction H as [|l g [Ll W] _ IH]; [exact L|]. cbn [flat_map]. rewrite <- !app_assoc. destruct l as [l w]. unfold linear in Ll. cbn [p_limit] in Ll.
  destruct W as [_ W]. cbn [p_limit] in W. unfold seg at 1, stoks at 1. cbn [p_limit]. destruct l as [| | |i t a b mn mx| |]; try contradiction.
  destruct W as [Ga [Gb [Gx _]]]. rewrite seg_text. cbn [app]. apply lexes_space, lexes_vec; [apply seg_nums_good; assumption|exact IH].
Qed.
Lemma quiet_segs g : List.Forall (fun l => linear l /\ writable e good joints params l) g -> quiet (flat_map seg g) = true.
Proof.
  intros H. induction H as [|l g [Ll W] _ IH]; [reflexivity|]. cbn [flat_map]. rewrite quiet_app, IH, andb_true_r. destruct l as [l w]. unfold linear in Ll. cbn [p_limit] in Ll.
  destruct W as [_ W]. cbn [p_limit] in W. unfold seg. cbn [p_limit]. destruct l as [| | |i t a b mn mx| |]; try contradiction.
  destruct W as [Ga [Gb [Gx _]]]. rewrite seg_text. apply (quiet_vec (seg_nums a b mx)). apply seg_nums_good; assumption.
Qed.
Lemma fine_segs g ts : fine ts -> fine (flat_map stoks g ++ ts).
Proof.
  intros H. induction g as [|l g IH]; [exact H|]. cbn [flat_map]. rewrite <- app_assoc. unfold stoks at 1. destruct (p_limit l); try exact IH. reflexivity.
Qed.

Lemma segment_step fuel i t prev rmin' a b mx rest : good a -> good b -> mx = n_max e \/ good mx -> n_eqb e rmin' (n_max e) = false ->
  match prev with Some q => n_jump e q (round a, round b) rmin' = false | None => True end -> fine rest ->
  segments e (S fuel) i t prev rmin' (vtoks (seg_nums a b mx) ++ rest) =
  (let* r := segments e fuel i t (Some (round a, round b)) (rmaxl mx) rest in Ok (LLinear i t (round a) (round b) rmin' (rmaxl mx) :: fst r, snd r)).
Proof.
  intros Ga Gb Gx N J Fi. cbn [segments]. change (at_tok TOpen (vtoks (seg_nums a b mx) ++ rest)) with true. cbn [negb].
  rewrite get_dyn_ok by (try exact Fi; apply seg_nums_good; assumption). cbn [obind fst snd].
  unfold seg_nums, rmaxl. destruct (n_eqb e mx (n_max e)); cbn [map].
  - cbn [obind]. destruct prev as [q|]; [rewrite J|]; reflexivity.
  - rewrite N. cbn [obind]. destruct prev as [q|]; [rewrite J|]; reflexivity.
Qed.

Fixpoint chain (p : plimit F M) (g : list (plimit F M)) : Prop :=
  match g with
  | [] => True
  | l :: g => goes_on e round p l /\ writable e good joints params l /\ chain l g
  end.
Lemma chain_linear p g : chain p g -> List.Forall (fun l => linear l /\ writable e good joints params l) g.
Proof.
  revert p. induction g as [|l g IH]; intros p H; [constructor|]. destruct H as [G [W C]]. constructor; [|exact (IH _ C)]. split; [|exact W].
  unfold goes_on in G. unfold linear. destruct (p_limit p), (p_limit l); try contradiction. exact I.
Qed.

Lemma chain_read tail : fine tail -> at_tok TOpen tail = false -> forall g p i t a b mn mx w fuel, p = PL (LLinear i t a b mn mx) w -> writable e good joints params p -> chain p g ->
  List.length g <= fuel ->
  exists lims, segments e fuel i t (Some (round a, round b)) (rmaxl mx) (flat_map stoks g ++ tail) = Ok (lims, tail) /\
    Forall2 (fun l lm => as_printed e round l (PL lm (round w))) g lims.
Proof.
  intros Fi At. induction g as [|l g IH]; intros p i t a b mn mx w fuel Ep Wp C L.
  - exists []. split; [|constructor]. cbn [flat_map app]. destruct fuel; cbn [segments]; rewrite At; reflexivity.
  - destruct C as [G [W C]]. subst p. destruct l as [l lw]. unfold goes_on in G. cbn [p_limit p_weight] in G. destruct l as [| | |i' t' a' b' mn' mx'| |]; try contradiction.
    destruct G as [-> [-> [-> [-> [NM [NR J]]]]]].
    cbn in L. destruct fuel as [|fuel]; [lia|].
    destruct (IH _ i t a' b' mx mx' w fuel eq_refl W C ltac:(lia)) as [lims [E R]].
    destruct Wp as [_ [_ [_ [Gmx [Nmn _]]]]]. cbn [p_limit] in *.
    pose proof (proj2 (rmaxl_spec mx Gmx) NM) as RM.
    pose proof W as [_ [Ga [Gb [Gx _]]]]. cbn [p_limit] in *.
    exists (LLinear i t (round a') (round b') (rmaxl mx) (rmaxl mx') :: lims). split.
    + cbn [flat_map]. rewrite <- app_assoc. unfold stoks at 1. cbn [p_limit].
      rewrite segment_step; [|exact Ga|exact Gb|exact Gx|rewrite RM; exact NR|rewrite RM; exact J|apply fine_segs; exact Fi]. rewrite E. reflexivity.
    + constructor; [|exact R]. unfold as_printed. cbn [p_limit p_weight].
      destruct (rmaxl_spec mx' Gx) as [R1 R2]. split; [|reflexivity]. repeat (split; [reflexivity|]).
      split; [intros D; destruct (Nmn D)|]. split; [intros _; exact RM|]. split; assumption.
Qed.

(** The line of a group of linear limits. *)
Lemma linear_line l g i t a b mx w m n : l = PL (LLinear i t a b (n_min e) mx) w -> writable e good joints params l -> chain l g ->
  first_named params i m -> first_named params t n ->
  exists ls', parse_line e joints params (lit "limit " ++ m ++ lit " " ++ lit "linear" ++ (lit " " ++ n ++ flat_map seg (l :: g) ++ lit " " ++ n_show e w)) = Ok ls' /\
    quiet (lit "limit " ++ m ++ lit " " ++ lit "linear" ++ (lit " " ++ n ++ flat_map seg (l :: g) ++ lit " " ++ n_show e w)) = true /\
    Forall2 (as_printed e round) (l :: g) ls'.
Proof.
  intros El W C N1 N2. pose proof (chain_linear l g C) as Lg. subst l. pose proof W as [Gw [Ga [Gb [Gx _]]]]. cbn [p_limit p_weight] in *.
  set (l := PL (LLinear i t a b (n_min e) mx) w) in *.
  assert (Al : List.Forall (fun l => linear l /\ writable e good joints params l) (l :: g)) by (constructor; [split; [exact I|exact W]|exact Lg]).
  set (tail := [TNum (n_show e w); TEof]).
  assert (GL : forall g, List.Forall (fun l => linear l /\ writable e good joints params l) g -> List.length g <= List.length (flat_map stoks g)).
  { clear. intros g H. induction H as [|x g [Hx _] _ IH]; [apply le_n|]. cbn [flat_map List.length]. rewrite app_length.
        unfold stoks at 1. unfold linear in Hx. destruct (p_limit x); try contradiction. unfold vtoks. cbn [List.length]. lia. }
  destruct (chain_read tail eq_refl eq_refl g l i t a b (n_min e) mx w (List.length (vtoks (seg_nums a b mx) ++ flat_map stoks g ++ tail) - 1) eq_refl W C) as [lims [E R]].
  { rewrite !app_length. specialize (GL g Lg). unfold vtoks. cbn [List.length tail]. lia. }
  set (ls' := map (fun lm => PL lm (round w)) (LLinear i t (round a) (round b) (n_min e) (rmaxl mx) :: lims)).
  assert (RS : Forall2 (as_printed e round) (l :: g) ls').
  { unfold ls'. cbn [map]. constructor.
    - unfold as_printed, l. cbn [p_limit p_weight]. destruct (rmaxl_spec mx Gx) as [R1 R2]. split; [|reflexivity]. repeat (split; [reflexivity|]).
      split; [intros D; destruct D; reflexivity|]. split; assumption.
    - clear - R. induction R as [|x y g lims H _ IH]; [constructor|]. cbn [map]. constructor; [exact H|exact IH]. }
  exists ls'. 
  assert (A : parse_line e joints params (lit "limit " ++ m ++ lit " " ++ lit "linear" ++ (lit " " ++ n ++ flat_map seg (l :: g) ++ lit " " ++ n_show e w)) = Ok ls' /\
    quiet (lit "limit " ++ m ++ lit " " ++ lit "linear" ++ (lit " " ++ n ++ flat_map seg (l :: g) ++ lit " " ++ n_show e w)) = true).
  { apply (parse_line_toks m (lit "linear") _ (TId n :: flat_map stoks (l :: g) ++ tail)).
    - exact (proj1 (proj2 N1)).
    - apply id_word; reflexivity.
    - rewrite !quiet_app, (quiet_segs _ Al), (quiet_name _ (proj1 (proj2 N2))), (quiet_number _ (rd_text _ _ _ RD w Gw)). reflexivity.
    - apply stops_space. reflexivity.
    - cbn [lit list_ascii_of_string app]. apply lexes_space. apply lexes_name; [exact (proj1 (proj2 N2))| |].
      + cbn [flat_map]. unfold seg at 1, l at 1. cbn [p_limit]. rewrite seg_text. apply stops_space. reflexivity.
      + apply lexes_segs; [exact Al|]. apply lexes_space. unfold tail. replace (n_show e w) with (n_show e w ++ []) at 1 by apply app_nil_r.
        apply lexes_number; [apply (rd_text _ _ _ RD); exact Gw|left; reflexivity|apply lexes_end].
    - reflexivity.
    - unfold dispatch. change (s_eqb (lit "linear") (lit "minmax")) with false. change (s_eqb (lit "linear") (lit "minmax_passive")) with false.
      change (s_eqb (lit "linear") (lit "linear")) with true. cbv iota. unfold parse_linear. rewrite (named_first _ _ _ N1). cbn [obind].
      rewrite get_id_ok by (apply fine_segs; reflexivity). cbn [obind fst snd]. rewrite (named_first _ _ _ N2). cbn [obind].
      cbn [flat_map]. change (stoks l) with (vtoks (seg_nums a b mx)). rewrite <- !app_assoc. change (at_tok TOpen (vtoks (seg_nums a b mx) ++ flat_map stoks g ++ tail)) with true. cbn [negb].
      assert (NM : n_eqb e (n_min e) (n_max e) = false).
      { destruct (n_eqb e (n_min e) (n_max e)) eqn:D; [|reflexivity]. apply (rd_eq _ _ _ RD) in D; [destruct (proj2 (rd_min _ _ _ RD) D)|unfold known; auto|unfold known; auto]. }
      replace (List.length (vtoks (seg_nums a b mx) ++ flat_map stoks g ++ tail)) with (S (List.length (vtoks (seg_nums a b mx) ++ flat_map stoks g ++ tail) - 1))
        by (unfold vtoks; cbn [app List.length]; lia).
      rewrite segment_step; [|exact Ga|exact Gb|exact Gx|exact NM|exact I|apply fine_segs; reflexivity]. rewrite E. cbn [obind fst snd].
      unfold get_weight, tail. cbn [at_tok tok_is]. rewrite get_num_ok by (try exact Gw; reflexivity). reflexivity. }
  split; [exact (proj1 A)|]. split; [exact (proj2 A)|exact RS].
Qed.

(** ** The whole text *)

Notation write := (write_from e joints params).

(** Writing goes on with a group of linear limits as long as they go on. *)
Lemma group_split : forall ls p i t a b mn mx w, p = PL (LLinear i t a b mn mx) w -> writable e good joints params p ->
  List.Forall (writable e good joints params) ls -> in_segments e round (Some p) ls ->
  exists g others, ls = g ++ others /\ chain p g /\ in_segments e round None others /\
    forall rest, write None others = Ok rest -> write (Some (i, t, w, mx)) ls = Ok (flat_map seg g ++ end_linear e w ++ rest).
Proof.
  induction ls as [|l ls IH]; intros p i t a b mn mx w Ep Wp W S.
  - exists [], []. split; [reflexivity|]. split; [exact I|]. split; [exact I|]. intros rest E. cbn in E. injection E as <-. cbn [write_from flat_map app]. rewrite app_nil_r. reflexivity.
  - inversion W as [|x y Wl Wr]; subst x y. pose proof S as [Sl Sr].
    assert (Fresh : in_segments e round None (l :: ls) ->
      (forall rest, write None (l :: ls) = Ok rest -> write (Some (i, t, w, mx)) (l :: ls) = Ok (end_linear e w ++ rest)) ->
      exists g others, l :: ls = g ++ others /\ chain p g /\ in_segments e round None others /\
        forall rest, write None others = Ok rest -> write (Some (i, t, w, mx)) (l :: ls) = Ok (flat_map seg g ++ end_linear e w ++ rest)).
    { intros A B. exists [], (l :: ls). split; [reflexivity|]. split; [exact I|]. split; [exact A|]. intros rest E. cbn [flat_map app]. apply B. exact E. }
    destruct l as [l lw]. cbn [p_limit] in Sl. destruct l as [k x y|j q x y|j q x y|i' t' a' b' mn' mx'|c d nn o|pj o q m].
    1, 2, 3, 5, 6: apply Fresh; [split; [exact I|exact Sr]|]; intros rest; cbn [write_from];
      match goal with |- context [show_limit ?A ?B ?C ?D] => destruct (show_limit A B C D) as [sh| | | |] end; cbn [obind]; try discriminate;
      destruct (write None ls) as [out| | | |]; cbn [obind]; try discriminate; intros E; apply (f_equal (fun o => match o with Ok z => z | _ => [] end)) in E; cbv beta iota in E; rewrite <- E; rewrite <- ?app_assoc; reflexivity.
    destruct Wp as [Gp Wp]. rewrite Ep in Gp, Wp. cbn [p_limit p_weight] in Gp, Wp. destruct Wp as [_ [_ [Gmx [Nmn _]]]].
    assert (Kmx : known e good mx) by (unfold known; tauto).
    destruct Sl as [Sl|Sl].
    + assert (Ne : n_eqb e mn' mx = false).
      { rewrite Sl. destruct (n_eqb e (n_min e) mx) eqn:D; [|reflexivity]. apply (rd_eq _ _ _ RD) in D; [destruct (Nmn (eq_sym D))|unfold known; tauto|exact Kmx]. }
      apply Fresh; [split; [left; exact Sl|exact Sr]|]. intros rest. cbn [write_from]. rewrite Ne, andb_false_r.
      destruct (param_name params i') as [m| | | |]; cbn [obind]; try discriminate. destruct (param_name params t') as [n| | | |]; cbn [obind]; try discriminate.
      destruct (n_eqb e mn' (n_zero e) && n_eqb e mx' (n_zero e)).
      * destruct (write None ls) as [out| | | |]; cbn [obind]; try discriminate. intros E; apply (f_equal (fun o => match o with Ok z => z | _ => [] end)) in E; cbv beta iota in E; rewrite <- E; rewrite <- ?app_assoc; reflexivity.
      * destruct (write (Some (i', t', lw, mx')) ls) as [out| | | |]; cbn [obind]; try discriminate. intros E; apply (f_equal (fun o => match o with Ok z => z | _ => [] end)) in E; cbv beta iota in E; rewrite <- E; rewrite <- ?app_assoc; reflexivity.
    + destruct Sl as [p' [E1 G]]. injection E1 as <-. pose proof G as G0. rewrite Ep in G. unfold goes_on in G. cbn [p_limit p_weight] in G.
      destruct G as [-> [-> [-> [-> [NM [NR J]]]]]].
      destruct (IH _ i t a' b' mx mx' w eq_refl Wl Wr Sr) as [g [others [-> [C [So Wo]]]]].
      exists (PL (LLinear i t a' b' mx mx') w :: g), others. split; [reflexivity|]. split; [split; [exact G0|split; [exact Wl|exact C]]|]. split; [exact So|].
      intros rest E. cbn [write_from]. rewrite !Nat.eqb_refl. replace (n_eqb e mx mx) with true by (symmetry; apply (rd_eq _ _ _ RD); [exact Kmx|exact Kmx|reflexivity]).
      cbn [andb]. rewrite (Wo rest E). cbn [obind flat_map]. unfold seg at 2. cbn [p_limit]. rewrite <- app_assoc. reflexivity.
Qed.

Lemma parse_cons line rest : quiet line = true ->
  parse_limits e joints params (line ++ lf :: rest) = (let* a := parse_line e joints params line in let* b := parse_limits e joints params rest in Ok (a ++ b)).
Proof. intros Q. unfold parse_limits. rewrite (quiet_lines line rest [] Q). reflexivity. Qed.

Lemma in_segments_plain p ls : ~ linear p -> in_segments e round (Some p) ls -> in_segments e round None ls.
Proof.
  intros NL. destruct ls as [|l ls]; [auto|]. intros [A B]. split; [|exact B]. destruct (p_limit l) eqn:El; auto.
  destruct A as [A|[p' [E G]]]; [left; exact A|]. injection E as <-. destruct NL. unfold goes_on in G. rewrite El in G. unfold linear. destruct (p_limit p); tauto.
Qed.

Lemma written_parsed : forall n ls, List.length ls <= n -> List.Forall (writable e good joints params) ls -> in_segments e round None ls ->
  exists text ls', write None ls = Ok text /\ parse_limits e joints params text = Ok ls' /\ Forall2 (as_printed e round) ls ls'.
Proof.
  induction n as [|n IH]; intros ls L W S; (destruct ls as [|l ls]; [exists [], []; split; [reflexivity|split; [reflexivity|constructor]]|]); cbn in L; [lia|].
  inversion W as [|x y Wl Wr]; subst x y. destruct S as [Sl Sr]. destruct l as [l w].
  assert (Plain : (forall i t a b x y, l <> LLinear i t a b x y) ->
    exists text ls', write None (PL l w :: ls) = Ok text /\ parse_limits e joints params text = Ok ls' /\ Forall2 (as_printed e round) (PL l w :: ls) ls').
  { intros NL. destruct (IH ls ltac:(lia) Wr) as [text [ls' [E1 [E2 R]]]].
    { apply (in_segments_plain (PL l w)); [|exact Sr]. unfold linear. cbn [p_limit]. intros D. destruct l; try contradiction. eapply NL. reflexivity. }
    destruct (plain_limit_shown l w Wl) as [s Es]. destruct (plain_limit l w s Wl NL Es) as [l' [P1 [P2 P3]]].
    exists ((lit "limit " ++ s ++ wtext w) ++ lf :: text), (l' :: ls'). split; [|split; [|constructor; assumption]].
    - destruct l; try (cbn [write_from]; rewrite Es; cbn [obind]; rewrite E1; cbn [obind app]; unfold wtext; rewrite <- !app_assoc; reflexivity).
      destruct (NL _ _ _ _ _ _ eq_refl).
    - rewrite parse_cons by exact P2. rewrite P1. cbn [obind]. rewrite E2. reflexivity. }
  destruct l as [k x y|j q x y|j q x y|i t a b mn mx|c d nn o|pj o q m]; try (apply Plain; discriminate). clear Plain.
  cbn [p_limit] in Sl. destruct Sl as [->|[p [D _]]]; [|discriminate].
  destruct (group_split ls _ i t a b (n_min e) mx w eq_refl Wl Wr Sr) as [g [others [-> [C [So Wo]]]]].
  rewrite app_length in L. apply Forall_app in Wr. destruct Wr as [_ Wo'].
  destruct (IH others ltac:(lia) Wo' So) as [text [ls' [E1 [E2 R]]]].
  pose proof Wl as [_ [_ [_ [_ [_ [[m N1] [k N2]]]]]]].
  destruct (linear_line _ g i t a b mx w m k eq_refl Wl C N1 N2) as [gs [P1 [P2 P3]]]. cbn [flat_map] in P1, P2. unfold seg at 1 in P1. unfold seg at 1 in P2. cbn [p_limit] in P1, P2.
  exists ((lit "limit " ++ m ++ lit " " ++ lit "linear" ++ (lit " " ++ k ++ (show_segment e a b mx ++ flat_map seg g) ++ lit " " ++ n_show e w)) ++ lf :: text), (gs ++ ls').
  split; [|split].
  - cbn [write_from]. unfold param_name. rewrite (proj1 N1), (proj1 N2). cbn [obind].
    replace (n_eqb e (n_min e) (n_zero e)) with false.
    2:{ symmetry. destruct (n_eqb e (n_min e) (n_zero e)) eqn:D; [|reflexivity]. apply (rd_eq _ _ _ RD) in D; [destruct (proj1 (rd_min _ _ _ RD) D)|unfold known; tauto|unfold known; tauto]. }
    cbn [andb]. rewrite (Wo text E1). cbn [obind]. unfold end_linear. rewrite <- !app_assoc. reflexivity.
  - rewrite parse_cons by exact P2. rewrite P1. cbn [obind]. rewrite E2. reflexivity.
  - apply (Forall2_app P3 R).
Qed.

End Text.
