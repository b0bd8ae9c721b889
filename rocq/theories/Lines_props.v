(** C77 and C78: lines and sections of text files. *)

From Coq Require Import List Arith Ascii Bool String Lia.
From Verif Require Import Prelude Str_model Str_spec Str_proofs Lines_model Lines_spec Lines_proofs.
Import ListNotations.
Local Notation length := List.length.

(** Every text is a list of ended lines and a rest without a line end. *)
Theorem text_has_lines t : exists ls tl, lines_ok ls /\ plain tl /\ t = text_of ls ++ tl.
Proof. exact (text_lines t). Qed.
Print Assumptions text_has_lines.

(** C77. A loop over a text whose last line is ended, but not by a lone CR, sees each line once, in
    order, without its end, however the others are ended, and then stops. *)
Theorem line_loop_sees_all_partial ls fuel :
  lines_ok ls -> ~ ends_in_cr ls -> length ls < fuel ->
  while_lines fuel (open_text (text_of ls)) = Ok (map fst ls).
Proof.
  intros K C F. rewrite <- (app_nil_r (text_of ls)). apply while_lines_good; [exact K|split; intros []|intros X; contradiction|exact F].
Qed.
Print Assumptions line_loop_sees_all_partial.

(** With a rest behind the last line end the loop sees everything but the rest. *)
Theorem line_loop_drops_rest_refuted ls tl fuel :
  lines_ok ls -> plain tl -> tl <> [] -> length ls < fuel ->
  while_lines fuel (open_text (text_of ls ++ tl)) = Ok (map fst ls).
Proof. intros K P N F. apply while_lines_good; auto. Qed.
Print Assumptions line_loop_drops_rest_refuted.

(** With a lone CR at the end it never stops. *)
Theorem line_loop_endless_refuted ls :
  lines_ok ls -> ends_in_cr ls -> forall fuel, while_lines fuel (open_text (text_of ls)) = OutOfFuel.
Proof. exact (while_lines_endless ls). Qed.
Print Assumptions line_loop_endless_refuted.

(** Lines ended in all three ways. *)
Example lines_case :
  let ls := [(list_ascii_of_string "a b", CRLF); ([], CR); (list_ascii_of_string "c", LF); ([], LF)] in
  lines_ok ls /\ ~ ends_in_cr ls /\ while_lines 9 (open_text (text_of ls)) = Ok (map fst ls).
Proof.
  cbv zeta. split; [|split; [|reflexivity]].
  - cbn. unfold plain, lf, cr. cbn. intuition discriminate.
  - intros (r & l & E). apply (f_equal (fun x => snd (last x ([], LF)))) in E. rewrite last_last in E. discriminate.
Qed.

(** C78. Every list of lines is lines before the first header, and sections. *)
Theorem file_has_sections ls : exists pre ss, ls = pre ++ flat_map section_lines ss /\
  Forall (fun l => exists r, cleaned l r /\ ~ is_header r) pre /\ Forall section_ok ss.
Proof. exact (file_sections ls). Qed.
Print Assumptions file_has_sections.

(** A model definition whose last line is ended: under each name is the content of the last section
    of that name, under other names nothing. A text whose first line is something else has no
    sections. *)
Theorem sections_found_partial h pre ss ls fuel :
  lines_ok ls -> ~ ends_in_cr ls -> length ls <= fuel ->
  map fst ls = h :: pre ++ flat_map section_lines ss ->
  Forall (fun l => exists r, cleaned l r /\ ~ is_header r) pre -> Forall section_ok ss ->
  exists m, load_sections fuel (text_of ls) = Ok m /\
    (trimmed [" "; "009"]%char h magic ->
     forall n, smap_get m n = option_map section_content (last_named n ss)) /\
    (~ trimmed [" "; "009"]%char h magic -> forall n, smap_get m n = None).
Proof.
  intros K C F E P S. destruct ls as [|[l e] r]; [discriminate|]. cbn [map fst] in E. injection E as -> E.
  unfold load_sections. rewrite <- (app_nil_r (text_of _)).
  assert (P0 : plain []) by (split; intros []).
  rewrite (get_line_step h e r [] K P0). rewrite app_nil_r. cbn [fst snd].
  destruct (trim_lemma [" "; "009"]%char h) as (tr & -> & T). cbn [obind].
  assert (Eo : match e, text_of r with
      | CR, [] => {| i_rest := []; i_eof := true; i_fail := false |}
      | _, t => open_text t end = open_text (text_of r)).
  { destruct e; try reflexivity. destruct (text_of r) eqn:X; [|reflexivity].
    apply text_of_nil in X. subst r. exfalso. apply C. exists [], h. reflexivity. }
  rewrite Eo. clear Eo. destruct (s_eqb_spec tr magic) as [->|NE]; cbn [negb].
  - rewrite (line_loop_sees_all_partial r fuel); cycle 1.
    + apply K.
    + intros (r' & l' & ->). apply C. exists ((h, e) :: r'), l'. reflexivity.
    + cbn in F. lia.
    + cbn [obind]. rewrite E, section_steps_app.
      rewrite (steps_before pre P) by reflexivity. cbn [obind].
      destruct (steps_sections ss S {| s_map := []; s_name := []; s_body := [] |}) as (st' & -> & G).
      cbn [obind]. eexists. split; [reflexivity|]. split; [|tauto].
      intros _ n. rewrite G. destruct (last_named n ss); reflexivity.
  - eexists. split; [reflexivity|]. split; [|intros _ n; reflexivity].
    intros T'. exfalso. apply NE. eapply trimmed_unique_lemma; eassumption.
Qed.
Print Assumptions sections_found_partial.

(** Without an end the last line is lost: a parameter is missing from its section. *)
Theorem sections_found_refuted :
  exists t m, load_sections 9 t = Ok m /\
    t = magic ++ [lf] ++ list_ascii_of_string "[limits]" ++ [lf] ++ list_ascii_of_string "limit a minmax" /\
    smap_get m (list_ascii_of_string "limits") = Some [].
Proof. eexists _, _. split; [|split; [reflexivity|]]; reflexivity. Qed.
Print Assumptions sections_found_refuted.

(** Two sections with comments, blank lines and a repeated name. *)
Example sections_case :
  let t := magic ++ [cr; lf] ++ list_ascii_of_string "# c" ++ [lf] ++ list_ascii_of_string "[A]" ++ [lf] ++ list_ascii_of_string " p # q" ++ [cr; lf] ++ [lf] ++ list_ascii_of_string "[B_1]" ++ [cr] ++
           list_ascii_of_string "r" ++ [lf] ++ list_ascii_of_string "[A] " ++ [lf] ++ list_ascii_of_string "s" ++ [lf] in
  exists m, load_sections 20 t = Ok m /\ smap_get m (list_ascii_of_string "A") = Some (list_ascii_of_string "s" ++ [lf]) /\
    smap_get m (list_ascii_of_string "B_1") = Some (list_ascii_of_string "r" ++ [lf]) /\ smap_get m (list_ascii_of_string "C") = None.
Proof. cbv zeta. eexists. split; [vm_compute; reflexivity|]. repeat split. Qed.
