(** Lemmas about the line reader and the section reader. *)

From Coq Require Import List Arith Ascii Bool String Lia.
From Verif Require Import Prelude Str_model Str_spec Str_proofs Lines_model Lines_spec.
Import ListNotations.
Local Notation length := List.length.

Lemma lf_eqb c : c <> lf -> Ascii.eqb c lf = false. Proof. apply Ascii.eqb_neq. Qed.
Lemma cr_eqb c : c <> cr -> Ascii.eqb c cr = false. Proof. apply Ascii.eqb_neq. Qed.

Lemma plain_cons c l : plain (c :: l) <-> c <> lf /\ c <> cr /\ plain l.
Proof. unfold plain; cbn; intuition congruence. Qed.

Lemma get_chars_plain l t : forall acc, plain l -> get_chars (l ++ t) acc = get_chars t (acc ++ l).
Proof.
  induction l as [|c l IH]; intros acc P.
  - rewrite app_nil_r; reflexivity.
  - apply plain_cons in P. destruct P as (A & B & C). cbn [app get_chars].
    rewrite lf_eqb, cr_eqb by assumption. rewrite IH by exact C. rewrite <- app_assoc. reflexivity.
Qed.

(** What follows a line whose end is a lone CR does not begin with LF. *)
Lemma not_lf_after r tl x : lines_ok r -> plain tl ->
  match r with ([], LF) :: _ => False | _ => True end ->
  text_of r ++ tl = lf :: x -> False.
Proof.
  intros K P M E. destruct r as [|[l e] r].
  - cbn in E. subst tl. apply plain_cons in P. tauto.
  - cbn [text_of flat_map fst snd] in E. destruct K as (PL & _ & _). destruct l as [|c l].
    + destruct e; cbn in E; [exact M| |]; discriminate.
    + cbn in E. injection E as E _. subst c. apply plain_cons in PL. tauto.
Qed.

Lemma get_line_step l e r tl : lines_ok ((l, e) :: r) -> plain tl ->
  get_line (open_text (text_of ((l, e) :: r) ++ tl)) =
  (l, match e, text_of r ++ tl with
      | CR, [] => {| i_rest := []; i_eof := true; i_fail := false |}
      | _, t => open_text t
      end).
Proof.
  intros (PL & K & M) P. unfold get_line. cbn [open_text i_good i_eof i_fail negb andb i_rest].
  cbn [text_of flat_map fst snd]. fold (text_of r).
  rewrite <- app_assoc, <- app_assoc, get_chars_plain by exact PL. cbn [app]. destruct e.
  - reflexivity.
  - reflexivity.
  - cbn [end_chars app get_chars]. rewrite lf_eqb by discriminate. rewrite Ascii.eqb_refl.
    destruct (text_of r ++ tl) as [|d x] eqn:E; [reflexivity|].
    destruct (Ascii.eqb_spec d lf) as [->|]; [|reflexivity].
    exfalso. apply (not_lf_after r tl x K P); [|exact E]. destruct r as [|[[|] []] r]; auto.
Qed.

Lemma text_of_nil r : text_of r = [] -> r = [].
Proof.
  destruct r as [|[l e] r]; [reflexivity|]. cbn. destruct l, e; discriminate.
Qed.

Lemma while_lines_good ls tl : lines_ok ls -> plain tl -> (ends_in_cr ls -> tl <> []) ->
  forall fuel, length ls < fuel -> while_lines fuel (open_text (text_of ls ++ tl)) = Ok (map fst ls).
Proof.
  revert tl. induction ls as [|[l e] r IH]; intros tl K P C fuel F.
  - destruct fuel; [lia|]. cbn [while_lines text_of flat_map app].
    unfold get_line. cbn [open_text i_good i_eof i_fail negb andb i_rest].
    assert (G : get_chars tl [] = (tl, {| i_rest := []; i_eof := true; i_fail := true |})).
    { rewrite <- (app_nil_r tl) at 1. rewrite get_chars_plain by exact P. reflexivity. }
    rewrite G. reflexivity.
  - destruct fuel as [|fuel]; [lia|]. cbn [while_lines]. rewrite get_line_step by assumption. cbn [fst snd].
    assert (N : ~ (e = CR /\ text_of r ++ tl = [])).
    { intros (-> & E). apply app_eq_nil in E. destruct E as (E1 & E2). apply text_of_nil in E1. subst.
      apply C; [|reflexivity]. exists [], l. reflexivity. }
    assert (E : match e, text_of r ++ tl with
      | CR, [] => {| i_rest := []; i_eof := true; i_fail := false |}
      | _, t => open_text t end = open_text (text_of r ++ tl)).
    { destruct e; try reflexivity. destruct (text_of r ++ tl); [|reflexivity]. exfalso. auto. }
    rewrite E. cbn [open_text i_fail]. fold (open_text (text_of r ++ tl)). rewrite IH; [reflexivity| | | |].
    + apply K.
    + exact P.
    + intros (r' & l' & ->). apply C. exists ((l, e) :: r'), l'. reflexivity.
    + cbn in F. lia.
Qed.

Lemma while_lines_at_cr fuel : while_lines fuel {| i_rest := []; i_eof := true; i_fail := false |} = OutOfFuel.
Proof. induction fuel as [|f IH]; [reflexivity|]. cbn [while_lines]. unfold get_line. cbn. rewrite IH. reflexivity. Qed.

Lemma while_lines_endless ls : lines_ok ls -> ends_in_cr ls -> forall fuel, while_lines fuel (open_text (text_of ls)) = OutOfFuel.
Proof.
  induction ls as [|[l e] r IH]; intros K C fuel.
  - destruct C as ([|] & ? & C); discriminate.
  - destruct fuel as [|fuel]; [reflexivity|]. cbn [while_lines].
    rewrite <- (app_nil_r (text_of _)). rewrite get_line_step; [|exact K|split; intros []]. cbn [fst snd].
    rewrite app_nil_r. destruct r as [|q r].
    + destruct C as (r' & l' & C). assert (e = CR).
      { destruct r' as [|? [|? ?]]; cbn in C; [injection C; auto|discriminate|discriminate]. }
      subst e. cbn [text_of flat_map i_fail]. rewrite while_lines_at_cr. reflexivity.
    + assert (E : match e, text_of (q :: r) with
      | CR, [] => {| i_rest := []; i_eof := true; i_fail := false |}
      | _, t => open_text t end = open_text (text_of (q :: r))).
      { destruct e; try reflexivity. destruct (text_of (q :: r)) eqn:E; [|reflexivity].
        apply text_of_nil in E. discriminate. }
      rewrite E. cbn [open_text i_fail]. fold (open_text (text_of (q :: r))). rewrite IH; [reflexivity|apply K|].
      destruct C as ([|p r'] & l' & C); [discriminate|]. cbn in C. injection C as _ C. exists r', l'. exact C.
Qed.

(** Every text has lines. *)
Lemma text_lines t : exists ls tl, lines_ok ls /\ plain tl /\ t = text_of ls ++ tl.
Proof.
  induction t as [|c t (ls & tl & K & P & E)].
  - exists [], []. repeat split; intros [].
  - destruct (ascii_dec c lf) as [->|Nl]; [|destruct (ascii_dec c cr) as [->|Nc]].
    + exists (([], LF) :: ls), tl. split; [|split; [exact P|cbn; rewrite E; reflexivity]].
      cbn. split; [split; intros []|]. split; [exact K|exact I].
    + destruct ls as [|[[|x l] e] r].
      * exists [([], CR)], tl. split; [|split; [exact P|cbn; cbn in E; rewrite E; reflexivity]].
        cbn. split; [split; intros []|tauto].
      * destruct e.
        -- exists (([], CRLF) :: r), tl. split; [|split; [exact P|cbn; cbn in E; rewrite E; reflexivity]].
           cbn. cbn in K. tauto.
        -- exists (([], CR) :: ([], CRLF) :: r), tl. split; [|split; [exact P|cbn; cbn in E; rewrite E; reflexivity]].
           cbn. cbn in K. tauto.
        -- exists (([], CR) :: ([], CR) :: r), tl. split; [|split; [exact P|cbn; cbn in E; rewrite E; reflexivity]].
           cbn. cbn in K. tauto.
      * exists (([], CR) :: (x :: l, e) :: r), tl. split; [|split; [exact P|cbn; cbn in E; rewrite E; reflexivity]].
        split; [split; intros []|]. split; [exact K|exact I].
    + destruct ls as [|[l e] r].
      * exists [], (c :: tl). split; [exact I|]. split; [apply plain_cons; auto|]. cbn in E |- *. rewrite E. reflexivity.
      * exists ((c :: l, e) :: r), tl. split; [|split; [exact P|]].
        -- destruct K as (PL & K). split; [apply plain_cons; auto|exact K].
        -- rewrite E. reflexivity.
Qed.

(** ** Sections *)

Lemma s_eqb_spec a b : reflect (a = b) (s_eqb a b).
Proof. unfold s_eqb. destruct (list_eq_dec ascii_dec a b); constructor; assumption. Qed.

Lemma before_hash_iff l a :
  ((l = a /\ ~ In "#"%char a) \/ (exists b, l = a ++ "#"%char :: b /\ ~ In "#"%char a)) -> before_hash l = a.
Proof.
  unfold before_hash, find_first_of. cbn [skipn]. intros H.
  destruct (find_from ["#"%char] l 0) as [k|] eqn:E.
  - apply find_from_some in E. destruct E as (p & d & r & -> & -> & [<-|[]] & Np).
    rewrite Nat.add_0_l, firstn_app_exact. destruct H as [(<- & H)|(b & H1 & H)].
    + exfalso. apply H. apply in_or_app. right. left. reflexivity.
    + assert (Np' : ~ In "#"%char p) by (intros I; apply (Np _ I); left; reflexivity). clear Np.
      revert p Np' H1. induction a as [|x a IHa]; intros [|y p] Np' H1; cbn in H1.
      * reflexivity.
      * injection H1 as -> _. exfalso. apply Np'. left. reflexivity.
      * injection H1 as <- _. exfalso. apply H. left. reflexivity.
      * injection H1 as -> H1. f_equal. apply IHa; [|intros I; apply Np'; right; exact I|exact H1].
        intros I. apply H. right. exact I.
  - pose proof (find_from_none _ _ _ E) as N. destruct H as [(-> & _)|(b & -> & _)]; [reflexivity|].
    exfalso. apply (N "#"%char); [|left; reflexivity]. apply in_or_app. right. left. reflexivity.
Qed.

Lemma before_hash_spec l :
  let a := before_hash l in (l = a /\ ~ In "#"%char a) \/ (exists b, l = a ++ "#"%char :: b /\ ~ In "#"%char a).
Proof.
  unfold before_hash, find_first_of. cbn [skipn].
  destruct (find_from ["#"%char] l 0) as [k|] eqn:E.
  - apply find_from_some in E. destruct E as (p & d & r & -> & -> & [<-|[]] & Np).
    rewrite Nat.add_0_l, firstn_app_exact. right. exists r. split; [reflexivity|].
    intros I. apply (Np _ I). left. reflexivity.
  - left. split; [reflexivity|]. intros I. apply (find_from_none _ _ _ E _ I). left. reflexivity.
Qed.

Lemma clean_line_iff l r : clean_line l = Ok r <-> cleaned l r.
Proof.
  unfold clean_line, cleaned. split.
  - intros E. exists (before_hash l). split; [apply before_hash_spec|].
    destruct (trim_lemma [" "; "009"]%char (before_hash l)) as (r' & E' & T). congruence.
  - intros (a & H & T). rewrite (before_hash_iff _ _ H).
    destruct (trim_lemma [" "; "009"]%char a) as (r' & -> & T'). f_equal. eapply trimmed_unique_lemma; eassumption.
Qed.

Lemma clean_total l : exists r, cleaned l r.
Proof.
  destruct (trim_lemma [" "; "009"]%char (before_hash l)) as (r & E & _). exists r. apply clean_line_iff. exact E.
Qed.

Lemma section_name_iff l n : section_name l = Some n <-> word n /\ l = header_of n.
Proof.
  unfold section_name, word, header_of. split.
  - destruct l as [|c r]; [discriminate|]. destruct (rev r) as [|d b] eqn:E; [discriminate|].
    destruct (_ && _)%bool eqn:C; [|discriminate]. intros H. injection H as <-.
    apply andb_prop in C. destruct C as (C & W). apply andb_prop in C. destruct C as (C & L).
    apply andb_prop in C. destruct C as (C & D). apply Ascii.eqb_eq in C, D. subst.
    apply (f_equal (@rev ascii)) in E. rewrite rev_involutive in E. cbn [rev] in E. subst r.
    rewrite forallb_forall in W. repeat split.
    + intros Z. apply (f_equal (@length ascii)) in Z. rewrite rev_length in Z. cbn in Z. rewrite Z in L. discriminate.
    + intros c I. apply W. apply in_rev. exact I.
  - intros ((N & W) & ->). rewrite rev_app_distr. cbn [rev app]. rewrite !Ascii.eqb_refl, rev_length, rev_involutive.
    destruct n as [|x n]; [congruence|]. cbn [length Nat.eqb negb andb].
    replace (forallb word_char (rev (x :: n))) with true; [reflexivity|]. symmetry. apply forallb_forall.
    intros c I. apply W. apply in_rev. exact I.
Qed.

Lemma section_name_none l : ~ is_header l -> section_name l = None.
Proof.
  intros H. destruct (section_name l) as [n|] eqn:E; [|reflexivity]. apply section_name_iff in E.
  exfalso. apply H. exists n. exact E.
Qed.

Lemma section_steps_app a b : forall st, section_steps st (a ++ b) = obind (section_steps st a) (fun st' => section_steps st' b).
Proof.
  induction a as [|x a IH]; intros st; [reflexivity|]. cbn [app section_steps].
  destruct (section_step st x); cbn [obind]; [apply IH|reflexivity..].
Qed.

Definition line_content (p : str * str) : str := match snd p with [] => [] | l => l ++ [lf] end.

Lemma steps_inside ls : Forall (fun p => cleaned (fst p) (snd p) /\ ~ is_header (snd p)) ls ->
  forall st, s_name st <> [] -> section_steps st (map fst ls) =
  Ok {| s_map := s_map st; s_name := s_name st; s_body := s_body st ++ flat_map line_content ls |}.
Proof.
  induction 1 as [|[l r] ls (C & N) F IH]; intros st NE.
  - cbn. rewrite app_nil_r. destruct st; reflexivity.
  - cbn [map section_steps fst]. cbn [fst snd] in C, N. unfold section_step.
    rewrite (proj2 (clean_line_iff _ _) C). cbn [obind].
    destruct r as [|c r].
    + cbn [length Nat.eqb obind]. rewrite IH by exact NE. cbn [flat_map line_content snd app]. reflexivity.
    + rewrite section_name_none by exact N. cbn [length Nat.eqb].
      destruct (s_name st) as [|x nm] eqn:EN; [congruence|]. cbn [length Nat.eqb obind].
      rewrite IH by (cbn; congruence). cbn [s_map s_name s_body flat_map].
      change (line_content (l, c :: r)) with ((c :: r) ++ [lf]). rewrite <- !app_assoc. reflexivity.
Qed.

Lemma steps_before ls : Forall (fun l => exists r, cleaned l r /\ ~ is_header r) ls ->
  forall st, s_name st = [] -> section_steps st ls = Ok st.
Proof.
  induction 1 as [|l ls (r & C & N) F IH]; intros st E; [reflexivity|].
  cbn [section_steps]. unfold section_step. rewrite (proj2 (clean_line_iff _ _) C). cbn [obind].
  destruct r as [|c r]; cbn [length Nat.eqb]; [apply IH; exact E|].
  rewrite section_name_none by exact N. rewrite E. cbn [length Nat.eqb obind]. apply IH. exact E.
Qed.

Lemma smap_get_set m k v n : smap_get (smap_set m k v) n = if list_eq_dec ascii_dec k n then Some v else smap_get m n.
Proof.
  unfold smap_get, smap_set. cbn [find fst]. unfold s_eqb at 1. destruct (list_eq_dec ascii_dec k n); reflexivity.
Qed.

Lemma steps_sections ss : Forall section_ok ss -> forall st, exists st',
  section_steps st (flat_map section_lines ss) = Ok st' /\
  forall n, smap_get (store_section st') n =
    match last_named n ss with Some s => Some (section_content s) | None => smap_get (store_section st) n end.
Proof.
  induction 1 as [|s ss (W & H & L) F IH]; intros st.
  - exists st. split; reflexivity.
  - cbn [flat_map section_lines app section_steps]. unfold section_step at 1.
    rewrite (proj2 (clean_line_iff _ _) H). cbn [obind].
    replace (length (header_of (se_name s)) =? 0) with false by reflexivity.
    rewrite (proj2 (section_name_iff _ _) (conj W eq_refl)). cbn [obind].
    rewrite section_steps_app, (steps_inside _ L) by apply W. cbn [obind s_map s_name s_body app].
    edestruct IH as (st' & E & G). exists st'. split; [exact E|].
    intros n. rewrite G. cbn [last_named]. destruct (last_named n ss); [reflexivity|].
    unfold store_section at 1. cbn [s_map s_name s_body].
    replace (length (se_name s) =? 0) with false
      by (destruct W as (W & _); destruct (se_name s); [congruence|reflexivity]).
    rewrite smap_get_set. destruct (list_eq_dec ascii_dec (se_name s) n); reflexivity.
Qed.

Lemma header_dec l : {is_header l} + {~ is_header l}.
Proof.
  destruct (section_name l) as [n|] eqn:E; [left|right].
  - apply section_name_iff in E. exists n. exact E.
  - intros (n & H). apply section_name_iff in H. congruence.
Qed.

(** Every list of lines is lines before the first header and sections. *)
Lemma file_sections ls : exists pre ss, ls = pre ++ flat_map section_lines ss /\
  Forall (fun l => exists r, cleaned l r /\ ~ is_header r) pre /\ Forall section_ok ss.
Proof.
  induction ls as [|l ls (pre & ss & -> & P & S)].
  - exists [], []. repeat split; constructor.
  - destruct (clean_total l) as (r & C). destruct (header_dec r) as [(n & W & ->)|N].
    + assert (X : exists ps, pre = map fst ps /\ Forall (fun p => cleaned (fst p) (snd p) /\ ~ is_header (snd p)) ps).
      { clear - P. induction P as [|x pre (y & Y) P (ps & -> & Q)]; [exists []; split; constructor|].
        exists ((x, y) :: ps). split; [reflexivity|]. constructor; [exact Y|exact Q]. }
      destruct X as (ps & -> & Q).
      exists [], ({| se_head := l; se_name := n; se_lines := ps |} :: ss).
      split; [reflexivity|]. split; [constructor|]. constructor; [|exact S].
      split; [exact W|]. split; [exact C|exact Q].
    + exists (l :: pre), ss. split; [reflexivity|]. split; [|exact S]. constructor; [|exact P]. exists r. auto.
Qed.
