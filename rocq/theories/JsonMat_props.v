(** C128. Matrices and parameter limits as JSON. *)

From Coq Require Import List Arith Ascii Bool String Reals Lia Lra.
From Verif Require Import Prelude Rbool Loops Str_model Lines_model Marker_model LocIO_model LimIO_model LimIO_spec ModelDef_model ModelDef_spec ModelDef_props Limits_model Json_model Json_spec Json_props.
Import ListNotations.
Local Open Scope list_scope.
Local Open Scope outcome_scope.

(** ** Matrices *)
Lemma get_nums_map c : get_nums (map JNum c) = Ok c.
Proof. induction c as [|x c IH]; [reflexivity|]. cbn [map get_nums get_num obind]. rewrite IH. reflexivity. Qed.
Lemma columns_read rows cols : List.Forall (fun c => List.length c = rows) cols -> collect (json_column rows (mat_to_json cols)) (seq 0 (List.length cols)) = Ok cols.
Proof.
  intros F. rewrite (collect_map _ (fun i => [nth i cols []])).
  - rewrite flat_one. f_equal. apply nth_ext with (d := []) (d' := []); [rewrite map_length, seq_length; reflexivity|]. intros i L. rewrite map_length, seq_length in L.
    rewrite (nth_indep _ [] (nth 0 cols [])) by (rewrite map_length, seq_length; exact L). rewrite (map_nth (fun k => nth k cols [])). rewrite seq_nth by exact L. reflexivity.
  - intros i I. apply in_seq in I. unfold json_column, mat_to_json, jelem. rewrite nth_error_map. destruct (nth_error cols i) as [c|] eqn:E; [|apply nth_error_None in E; lia].
    cbn [option_map obind get_vec]. rewrite get_nums_map. cbn [obind]. rewrite Forall_forall in F. rewrite (F c (nth_error_In _ _ E)), Nat.eqb_refl. rewrite (nth_error_nth _ _ [] E). reflexivity.
Qed.

(** C128. A matrix, or a vector, of a fixed size is read as it was written. *)
Theorem fixed_matrix_json_round_trip rows cols : cols <> [] -> List.Forall (fun c => List.length c = rows) cols -> fixed_from_json rows (List.length cols) (mat_to_json cols) = Ok cols.
Proof.
  intros N F. unfold fixed_from_json. assert (P : plain_first (mat_to_json cols) = Ok false) by (destruct cols; [congruence|reflexivity]). rewrite P.
  replace (if _ && _ then Ok false else Ok false) with (@Ok bool false) by (destruct (_ && _); reflexivity). cbn [obind].
  replace (if (List.length cols =? 1) && (jsize (mat_to_json cols) =? rows) then Ok false else Ok false) with (@Ok bool false) by (destruct (_ && _); reflexivity). cbn [obind].
  assert (S : jsize (mat_to_json cols) = List.length cols) by (cbn; apply map_length). rewrite S. destruct cols; [congruence|]. exact (columns_read rows _ F).
Qed.
Print Assumptions fixed_matrix_json_round_trip.

(** C128. A matrix of a dynamic size with at least one column is read as it was written. *)
Theorem dynamic_matrix_json_round_trip rows cols : cols <> [] -> List.Forall (fun c => List.length c = rows) cols -> dyn_from_json (mat_to_json cols) = Ok (rows, cols).
Proof.
  intros N F. destruct cols as [|c cols]; [congruence|]. pose proof (columns_read _ _ F) as C. inversion F as [|? ? E _]; subst.
  unfold dyn_from_json. unfold mat_to_json at 1 2. cbn [map jsize List.length]. rewrite !map_length. cbn [List.length] in C. fold (mat_to_json (c :: cols)).
  rewrite C. reflexivity.
Qed.
Print Assumptions dynamic_matrix_json_round_trip.

Example matrix_json_met : fixed_from_json 2 3 (mat_to_json [[1; 2]; [3; 4]; [5; 6]]%R) = Ok [[1; 2]; [3; 4]; [5; 6]]%R.
Proof. apply (fixed_matrix_json_round_trip 2 [[1; 2]; [3; 4]; [5; 6]]%R); [discriminate|repeat constructor]. Qed.

(** C128. A matrix of a dynamic size without columns loses its number of rows. *)
Theorem dynamic_matrix_json_rows_refuted : exists rows : nat, dyn_from_json (mat_to_json []) <> Ok (rows, []).
Proof. exists 3. discriminate. Qed.
Print Assumptions dynamic_matrix_json_rows_refuted.

(** C128. A column that is longer than the first is written past the end of the matrix. *)
Theorem ragged_matrix_json_refuted : exists j, dyn_from_json j = UB /\ fixed_from_json 2 1 j = UB.
Proof. exists (JArr [JArr [JNum 1; JNum 2; JNum 3]; JArr [JNum 1; JNum 2; JNum 3; JNum 4]])%R. split; reflexivity. Qed.
Print Assumptions ragged_matrix_json_refuted.

(** ** Limits *)
Lemma own_index names i : own_names names -> i < List.length names -> exists n, nth_error names i = Some n /\ index_from n names 0 = Some i.
Proof.
  intros O L. destruct (nth_error names i) as [n|] eqn:E; [|apply nth_error_None in E; lia]. exists n. split; [reflexivity|]. apply index_from_param. exists i. split; [reflexivity|]. split; [exact E|].
  intros k Lk Q. assert (k = i); [|lia]. apply (proj1 (NoDup_nth_error names) O); [apply nth_error_Some; congruence|congruence].
Qed.
Lemma to_m_back x : (x * to_m / to_m = x)%R.
Proof. unfold to_m. field. Qed.
Lemma own_param_names : own_names param_names.
Proof. unfold own_names, param_names. repeat (constructor; [cbn; intuition discriminate|]). constructor. Qed.

Section RoundTrip.
Context (joints params : list str) (invalid : nat) (OJ : own_names joints) (OP : own_names params).
Ltac run := lazy -[index_from param_names Rmult Rdiv IZR to_m fixed_from_json on_translation map].
Tactic Notation "own" constr(names) constr(i) constr(H) ident(n) ident(E) ident(I) := destruct (own_index names i) as [n [E I]]; [assumption || apply own_param_names|exact H|].
Lemma limit_round_trip l : in_range joints params l -> sized l -> exists j, limit_to_json joints params l = Ok j /\ limit_from_json joints params invalid j = Ok (without_range l).
Proof.
  destruct l as [[k lo hi|jt q lo hi|jt q lo hi|i t s o x y|a b [n1 n2] o|p o q m] w]; unfold in_range, sized, without_range; cbn [p_limit p_weight]; intros H Z; unfold limit_to_json, name_at; cbn [p_limit p_weight].
  - own params k H n E I. rewrite E. cbn [obind]. eexists. split; [reflexivity|]. run. rewrite I. reflexivity.
  - destruct H as [H K]. own joints jt H n E I. own param_names q K n' E' I'. rewrite E, E'. cbn [obind]. eexists. split; [reflexivity|]. run.
    rewrite I, I'. reflexivity.
  - destruct H as [H K]. own joints jt H n E I. own param_names q K n' E' I'. rewrite E, E'. cbn [obind]. eexists. split; [reflexivity|]. run.
    rewrite I, I'. reflexivity.
  - destruct H as [H K]. own params i H n E I. own params t K n' E' I'. rewrite E, E'. cbn [obind]. eexists. split; [reflexivity|]. run. rewrite I, I'. reflexivity.
  - destruct H as [H K]. own params a H n E I. own params b K n' E' I'. rewrite E, E'. cbn [obind]. eexists. split; [reflexivity|]. run. rewrite I, I'. reflexivity.
  - destruct H as [H K]. own joints p H n E I. own joints q K n' E' I'. rewrite E, E'. cbn [obind]. eexists. split; [reflexivity|].
    destruct Z as [Lo [Lm F]]. destruct o as [|o1 [|o2 [|o3 [|]]]]; try discriminate. destruct m as [|c1 [|c2 [|c3 [|c4 [|]]]]]; try discriminate.
    inversion F as [|? ? F1 G1]; subst. inversion G1 as [|? ? F2 G2]; subst. inversion G2 as [|? ? F3 G3]; subst. inversion G3 as [|? ? F4 G4]; subst.
    destruct c4 as [|y1 [|y2 [|y3 [|y4 [|]]]]]; try discriminate.
    set (M := mat_to_json _). assert (B : fixed_from_json 4 4 M = Ok (on_translation (fun x => (x * to_m)%R) [c1; c2; c3; [y1; y2; y3; y4]])).
    { apply (fixed_matrix_json_round_trip 4 (on_translation (fun x => (x * to_m)%R) [c1; c2; c3; [y1; y2; y3; y4]])); [discriminate|]. cbn. repeat constructor; assumption. }
    clearbody M. run. rewrite I, I'.
    cbn [map]. change (fixed_from_json 3 1 (JArr [JNum (o1 * to_m); JNum (o2 * to_m); JNum (o3 * to_m)])) with (@Ok (list (list R)) [[o1 * to_m; o2 * to_m; o3 * to_m]]%R).
    rewrite B. cbn -[to_m]. rewrite !to_m_back. reflexivity.
Qed.
End RoundTrip.

(** C128. Limits are read as they were written, but for the ranges of linear limits, which become zero. *)
Theorem limits_json_round_trip joints params invalid ls : own_names joints -> own_names params -> List.Forall (in_range joints params) ls -> List.Forall sized ls ->
  exists j, limits_to_json joints params ls = Ok j /\ limits_from_json joints params invalid j = Ok (map without_range ls).
Proof.
  intros OJ OP R Z. assert (A : exists js, collect (fun x => let* j := limit_to_json joints params x in Ok [j]) ls = Ok js /\ Forall2 (fun j l => limit_from_json joints params invalid j = Ok (without_range l)) js ls).
  { induction ls as [|l ls IH]; [exists []; split; [reflexivity|constructor]|]. inversion R; inversion Z; subst. destruct IH as [js [E F]]; [assumption|assumption|].
    destruct (limit_round_trip joints params invalid OJ OP l) as [j [J1 J2]]; [assumption|assumption|]. exists (j :: js). cbn [collect]. rewrite J1. cbn [obind]. rewrite E. split; [reflexivity|constructor; assumption]. }
  destruct A as [js [E F]]. exists (JArr js). unfold limits_to_json. rewrite E. split; [reflexivity|]. unfold limits_from_json.
  assert (G : forall its : list (str * json), Forall2 (fun j l => limit_from_json joints params invalid j = Ok (without_range l)) (map snd its) ls ->
    collect (fun e => let* l := limit_from_json joints params invalid (snd e) in Ok [l]) its = Ok (map without_range ls)).
  { clear. intros its. revert ls. induction its as [|[k v] its IH]; intros ls F; cbn in F; inversion F; subst; [reflexivity|]. cbn [collect snd]. match goal with Q : limit_from_json _ _ _ _ = _ |- _ => rewrite Q end. cbn [obind].
    match goal with Q : Forall2 _ _ _ |- _ => rewrite (IH _ Q) end. reflexivity. }
  apply G. rewrite items_arr. exact F.
Qed.
Print Assumptions limits_json_round_trip.

Definition one_joint : list str := [lit "root"].
Definition some_limits : list (plimit R (list (list R))) :=
  [PL (LMinMax 2 1 2) 3; PL (LMinMaxPassive 0 6 0 1) 1; PL (LLinear 0 1 2 3 0 0) 1; PL (LEllipsoid 0 [1; 2; 3] 0 [[1; 0; 0; 0]; [0; 1; 0; 0]; [0; 0; 1; 0]; [4; 5; 6; 1]]) 1]%R.
Example limits_json_met : own_names one_joint /\ own_names three /\ List.Forall (in_range one_joint three) some_limits /\ List.Forall sized some_limits /\ map without_range some_limits = some_limits.
Proof.
  split; [repeat constructor; intros []|]. split; [unfold own_names, three; repeat (constructor; [cbn; intuition discriminate|]); constructor|].
  split; [repeat constructor; cbn; lia|]. split; [repeat constructor|reflexivity].
Qed.

(** C128. A linear limit for a range of values becomes one for all values. *)
Theorem limits_json_range_refuted : exists l j l' v, limits_to_json one_joint three [l] = Ok j /\ limits_from_json one_joint three 9 j = Ok [l'] /\
  (exists i t s o a b, p_limit l = LLinear i t s o a b /\ is_in_range a b v = false) /\ (exists i t s o a b, p_limit l' = LLinear i t s o a b /\ is_in_range a b v = true).
Proof.
  destruct (limits_json_round_trip one_joint three 9 [PL (LLinear 0 1 2 3 1 2) 1]%R) as [j [A B]]; [apply limits_json_met|apply limits_json_met|repeat constructor|repeat constructor|].
  eexists _, j, _, 0%R. split; [exact A|]. split; [exact B|]. split; repeat eexists.
  - unfold is_in_range, Reqb, Rleb, Rltb. destruct (Req_EM_T 1 0); [lra|]. cbn. destruct (Rle_dec 1 0); [lra|]. reflexivity.
  - unfold is_in_range, Reqb. destruct (Req_EM_T 0 0); [reflexivity|lra].
Qed.
Print Assumptions limits_json_range_refuted.

(** C128. A limit for a parameter that does not exist is accepted, with an index that is not one of a parameter. *)
Theorem limits_json_unknown_parameter_refuted : exists j, forall invalid, List.length three <= invalid ->
  exists l, limits_from_json one_joint three invalid j = Ok [l] /\ ~ in_range one_joint three l.
Proof.
  exists (JArr [obj [(lit "type", JStr (lit "minmax")); (lit "parameter", JStr (lit "z")); (lit "limits", vec2 0 1)]])%R. intros invalid L. eexists. split; [lazy -[IZR]; reflexivity|].
  cbn. cbn in L. lia.
Qed.
Print Assumptions limits_json_unknown_parameter_refuted.

(** C128. A limit without the values of its type is not defined. *)
Theorem limits_json_missing_values_refuted : exists j, forall invalid, limits_from_json one_joint three invalid j = UB.
Proof. exists (JArr [obj [(lit "type", JStr (lit "minmax")); (lit "parameter", JStr (lit "a"))]])%R. intros invalid. lazy -[IZR]. reflexivity. Qed.
Print Assumptions limits_json_missing_values_refuted.

(** C128. A type that is not known is an error. *)
Theorem limits_json_unknown_type joints params invalid l m : (exists o t, nth_error l m = Some (JObj o) /\ lookup o (lit "type") = Some (JStr t) /\
  ~ In t [lit "minmax"; lit "minmax_joint"; lit "minmax_joint_passive"; lit "linear"; lit "half_plane"; lit "ellipsoid"; lit "elipsoid"]) ->
  forall r, limits_from_json joints params invalid (JArr l) <> Ok r.
Proof.
  intros [o [t [E [T N]]]] r H. unfold limits_from_json in H. assert (I : In (JObj o) (map snd (jitems (JArr l)))) by (rewrite items_arr; exact (nth_error_In _ _ E)).
  revert r H I. generalize (jitems (JArr l)). clear E. induction l0 as [|[k v] its IH]; intros r H I; [destruct I|]. cbn [collect snd] in H. cbn [map snd] in I. destruct I as [->|I].
  - unfold limit_from_json in H. unfold str_value in H. rewrite T in H. cbn [get_str obind] in H. destruct (num_value (JObj o) (lit "weight") 0); try discriminate. cbn [obind] in H.
    assert (X : forall s, In s [lit "minmax"; lit "minmax_joint"; lit "minmax_joint_passive"; lit "linear"; lit "half_plane"; lit "ellipsoid"; lit "elipsoid"] -> s_eqb t s = false).
    { intros s J. destruct (s_eqb t s) eqn:Q; [|reflexivity]. apply s_eqb_eq in Q. subst s. contradiction. }
    rewrite !X in H by (cbn; tauto). discriminate.
  - destruct (limit_from_json joints params invalid v); try discriminate. cbn [obind] in H. destruct (collect _ its) as [y| | | |] eqn:Q; try discriminate. exact (IH y eq_refl I).
Qed.
Print Assumptions limits_json_unknown_type.
