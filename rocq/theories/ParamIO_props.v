(** C12, C13: reading parameter transforms. *)

From Coq Require Import Bool Reals List Arith Ascii String Lia Lra.
From Verif Require Import Prelude LinAlg Rbool Str_model ParamTransform_model ParamTransform_spec ParamIO_model ParamIO_spec ParamIO_proofs.
Import ListNotations.
Local Open Scope R_scope.

(** C12. Without self references every text is parsed (or rejected) in finitely
    many steps. *)
Theorem parse_terminates_partial : forall stod joints data,
  no_self_reference stod joints (get_lines [] data) ->
  exists F o, o <> OutOfFuel /\ forall fuel, (F <= fuel)%nat -> parse_transform stod fuel joints data = o.
Proof. exact parse_terminates_lemma. Qed.
Print Assumptions parse_terminates_partial.

(** A reader of the numbers 1 and 2. *)
Definition ex_stod (s : str) : option R :=
  match find_first_of (txt "12") s 0 with
  | Some k => match nth_error s k with Some c => if Ascii.eqb c "1"%char then Some 1 else Some 2 | None => None end
  | None => None
  end.
Definition nl : string := String "010"%char EmptyString.

(** C12. A channel that mentions itself after one of its own parameters is never
    done: the triplet list grows as fast as the loop walks it. *)
Theorem parse_terminates_refuted : exists stod joints data,
  forall fuel, parse_transform stod fuel joints data = OutOfFuel.
Proof.
  exists ex_stod, [txt "root"], (txt "root.tx = 1*a + 1*root.tx"). intros fuel.
  assert (E : parse_transform ex_stod fuel [txt "root"] (txt "root.tx = 1*a + 1*root.tx") =
    obind (obind (obind (obind (copy_refs fuel 0 [Entry 0 0 1] 0 0 1)
       (fun trips => Ok (PState [txt "a"] trips (repeat 0 7) [true; false; false; false; false; false; false])))
       (fun st => Ok st)) (fun st => Ok st))
       (fun st => Ok (PT (map string_of_list_ascii (ps_names st)) 7 (List.length (ps_names st))
         (filter (fun e => negb (Reqb (eval e) 0)) (ps_trip st)) (ps_off st) (ps_act st) [] [] [] []))) by reflexivity.
  rewrite E, (copy_refs_diverges 0 1 fuel 0 [Entry 0 0 1] 0 (Entry 0 0 1)) by (reflexivity || lia). reflexivity.
Qed.
Print Assumptions parse_terminates_refuted.

(** C13. The parsed transform represents the meaning of the expressions: each
    name has one column, each row is the weighted sum of its parameters plus
    weight times each referenced row. *)
Theorem parse_represents_meaning : forall stod joints data es m,
  reads_lines stod joints (get_lines [] data) es -> exprs_mean joints m0 es m ->
  exists F pt, (forall fuel, (F <= fuel)%nat -> parse_transform stod fuel joints data = Ok pt) /\ represents pt joints m es.
Proof. exact parse_meaning_lemma. Qed.
Print Assumptions parse_represents_meaning.

(** ** A concrete case *)
Definition ex_joints : list str := [txt "root"; txt "arm"].
Definition ex_data : str := txt ("root.tx = 1*a + 2" ++ nl ++ "# comment" ++ nl ++ "arm.rx = 2*root.tx + 1*b # x" ++ nl)%string.
Definition ex_exprs : list (nat * list term) :=
  [(0%nat, [TParam 1 (txt "a"); TConst 2]); (10%nat, [TParam 2 (txt "root.tx"); TParam 1 (txt "b")])].
Example ex_reads : reads_lines ex_stod ex_joints (get_lines [] ex_data) ex_exprs.
Proof.
  unfold ex_data, ex_exprs. cbn [get_lines txt list_ascii_of_string].
  eapply rl_expr; [reflexivity| |].
  { eapply rt_term; [reflexivity|]. eapply rt_term; [reflexivity|]. apply rt_nil. }
  eapply rl_skip; [reflexivity|].
  eapply rl_expr; [reflexivity| |apply rl_nil].
  eapply rt_term; [reflexivity|]. eapply rt_term; [reflexivity|]. apply rt_nil.
Qed.
Example ex_means : exists m, exprs_mean ex_joints m0 ex_exprs m /\
  m_names m = [txt "a"; txt "b"] /\ m_coef m 10 (txt "a") = 2 /\ m_coef m 10 (txt "b") = 1 /\ m_const m 0 = 2 /\ m_const m 10 = 0.
Proof.
  eexists. split.
  - unfold ex_exprs. eapply exprs_cons.
    { eapply terms_cons; [apply means_new; [intros []|intros [H|[H|[]]]; discriminate]|].
      eapply terms_cons; [apply means_const|apply terms_nil]. }
    eapply exprs_cons; [|apply exprs_nil].
    eapply terms_cons; [eapply means_ref; [intros [H|[]]; discriminate|reflexivity|lia]|].
    eapply terms_cons; [apply means_new; [intros [H|[]]; discriminate|intros [H|[H|[]]]; discriminate]|apply terms_nil].
  - cbn -[Rmult Rplus txt]. unfold add_coef, add_row.
    repeat match goal with |- context [list_eq_dec ascii_dec ?a ?b] =>
      let H := fresh in destruct (list_eq_dec ascii_dec a b) as [H|H]; [try discriminate H|try contradiction] end.
    cbn. repeat split; lra.
Qed.

(** C13. The constant of a referenced channel is not part of what is copied. *)
Theorem reference_copies_constant_refuted : exists stod joints data pt,
  parse_transform stod 10 joints data = Ok pt /\
  (* arm.rx = 1*root.tx and root.tx = 1*a + 2 *)
  data = txt ("root.tx = 1*a + 2" ++ nl ++ "arm.rx = 1*root.tx")%string /\ joints = ex_joints /\
  exists p q, pt_apply pt p = Ok q /\ nth 10 q 0 <> nth 0 q 0.
Proof.
  exists ex_stod, ex_joints, (txt ("root.tx = 1*a + 2" ++ nl ++ "arm.rx = 1*root.tx")%string).
  eexists. split; [reflexivity|]. split; [reflexivity|]. split; [reflexivity|].
  exists [0]. eexists. split; [reflexivity|].
  unfold vadd_list, mat_vec, row_dot. cbn -[Rplus Rmult Reqb].
  repeat match goal with |- context [Reqb ?a ?b] => destruct (Reqb_spec a b); [exfalso; lra|]; cbn -[Rplus Rmult Reqb] end.
  lra.
Qed.
Print Assumptions reference_copies_constant_refuted.

(** C13. Of several constants in one expression only the last one counts. *)
Theorem constants_add_up_refuted : exists stod joints data pt,
  parse_transform stod 10 joints data = Ok pt /\ data = txt "root.tx = 1 + 2" /\ nth 0 (pt_offsets pt) 0 <> 1 + 2.
Proof.
  exists ex_stod, [txt "root"], (txt "root.tx = 1 + 2"). eexists. split; [reflexivity|]. split; [reflexivity|].
  cbn. lra.
Qed.
Print Assumptions constants_add_up_refuted.

(** C13. A file is read line by line, and the text after '#' does not matter. *)
Theorem file_is_read_by_lines : forall ls, (forall l, In l ls -> ~ In newline l) -> get_lines [] (unlines ls) = ls.
Proof. exact get_lines_lemma. Qed.
Print Assumptions file_is_read_by_lines.
Theorem comments_are_ignored : forall stod fuel joints ls, (forall lc, In lc ls -> plain_line lc) ->
  parse_transform stod fuel joints (unlines (map commented ls)) =
  parse_transform stod fuel joints (unlines (map fst ls)).
Proof. exact comments_lemma. Qed.
Print Assumptions comments_are_ignored.
Example ex_commented : (forall lc, In lc [(txt "root.tx = 1*a", Some (txt " = #")); (txt "arm.rx = 2*b", None)] -> plain_line lc) /\
  exists pt, parse_transform ex_stod 10 ex_joints
    (unlines (map commented [(txt "root.tx = 1*a", Some (txt " = #")); (txt "arm.rx = 2*b", None)])) = Ok pt /\
    pt_name pt = ["a"; "b"]%string.
Proof.
  split.
  - intros lc [<-|[<-|[]]]; split; cbn; intuition discriminate.
  - eexists. split; [reflexivity|reflexivity].
Qed.
