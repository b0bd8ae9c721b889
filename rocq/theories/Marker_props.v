(** C40 and C41: marker conversion and TRC files. *)

From Coq Require Import List Arith Ascii ZArith Reals Bool String Lia Lra.
From Verif Require Import Prelude Loops R3 Str_model Str_spec Str_proofs Lines_model Lines_spec Lines_proofs Lines_props
  Marker_model Marker_spec.
Import ListNotations.
Local Open Scope R_scope.
Local Notation length := List.length.

(** ** Conversion *)

(** The spellings of the units are understood, and no others. *)
Theorem unit_spelling u s : In s (unit_names u) -> to_unit s = u.
Proof. destruct u; cbn; intros H; repeat destruct H as [<-|H]; try reflexivity; contradiction. Qed.
Print Assumptions unit_spelling.

Theorem unit_spelling_other s : to_unit s = UUnknown <-> forall u, ~ In s (unit_names u).
Proof.
  split.
  - intros E u I. pose proof (unit_spelling u s I) as E'. rewrite E in E'. subst u. destruct I.
  - intros H. unfold to_unit.
    pose proof (H UM) as A; pose proof (H UDM) as B; pose proof (H UCM) as C; pose proof (H UMM) as D.
    cbn [unit_names In] in A, B, C, D.
    repeat match goal with |- context [s_eqb s ?x] => destruct (s_eqb_spec s x); [exfalso; subst s; tauto|] end.
    reflexivity.
Qed.
Print Assumptions unit_spelling_other.

(** C40. The conversion is a rotation times the centimetres of the unit. *)
Theorem marker_conversion_partial up u :
  scaled_rotation (cm_per u) (fun v => to_momentum v up u).
Proof.
  split; [|split].
  - intros [ax ay az] [bx by_ bz] s. destruct up, u; cbv [to_momentum vadd vscale vx vy vz]; f_equal; ring.
  - intros [ax ay az] [bx by_ bz]. destruct up, u; cbv [to_momentum vdot cm_per vx vy vz]; ring.
  - intros [ax ay az] [bx by_ bz]. destruct up, u; cbv [to_momentum vcross vscale cm_per vx vy vz]; f_equal; ring.
Qed.
Print Assumptions marker_conversion_partial.

(** Where the up axis goes: to Z or to minus Z. *)
Theorem marker_up_axis up :
  to_momentum (up_axis up) up UCM = match up with UpX | UpZ => V3 0 0 1 | UpY | UpYNeg => V3 0 0 (-1) end.
Proof. destruct up; cbv [to_momentum up_axis vx vy vz]; f_equal; ring. Qed.
Print Assumptions marker_up_axis.

(** So it never goes to the documented Y, and two files of one scene with different up axes come
    out upside down to each other. *)
Theorem marker_up_axis_refuted :
  (forall up u, to_momentum (up_axis up) up u <> vscale (cm_per u) (V3 0 1 0)) /\
  to_momentum (up_axis UpY) UpY UCM = vscale (-1) (to_momentum (up_axis UpZ) UpZ UCM).
Proof.
  split.
  - intros up u H. apply (f_equal vy) in H. destruct up, u; cbv [to_momentum up_axis vscale cm_per vx vy vz] in H; lra.
  - cbv [to_momentum up_axis vscale vx vy vz]. f_equal; ring.
Qed.
Print Assumptions marker_up_axis_refuted.

Example conversion_case : to_momentum (V3 1 2 3) UpY UM = V3 100 300 (- 200).
Proof. cbv [to_momentum vx vy vz]. f_equal; ring. Qed.

(** ** TRC *)

Lemma starts_with_app n b : starts_with n (n ++ b) = true.
Proof. induction n as [|c n IH]; [reflexivity|]. cbn. rewrite Ascii.eqb_refl. exact IH. Qed.
Lemma contains_app n a b : contains n (a ++ n ++ b) = true.
Proof.
  induction a as [|c a IH].
  - cbn [app]. assert (S : starts_with n (n ++ b) = true) by apply starts_with_app.
    destruct (n ++ b); cbn [contains]; rewrite S; reflexivity.
  - cbn [app contains]. rewrite IH. apply orb_true_r.
Qed.

Lemma words_tokenize l ws : words l ws -> tokenize l blanks true = Ok ws.
Proof.
  intros [(-> & ->)|(ps & S & ->)]; [reflexivity|]. destruct l as [|c l].
  - rewrite (splits_unique blanks [] ps [[]] S); [reflexivity|]. constructor. intros ? [].
  - destruct (tokenize_lemma (c :: l) blanks) as (ps' & S' & _ & E); [discriminate|].
    rewrite E. rewrite (splits_unique _ _ _ _ S S'). reflexivity.
Qed.

Section File.
Variable stod : str -> option R.
Variable stoi : str -> option Z.

Lemma row_marker_ok up names row i name : nth_error names i = Some name ->
  length row = (3 * length names + 2)%nat -> numeric stod row ->
  exists m a b c u, row_marker stod up names row i = Ok m /\
    nth_error row (3 * i + 2) = Some a /\ nth_error row (3 * i + 3) = Some b /\ nth_error row (3 * i + 4) = Some c /\
    nth_error row 4 = Some u /\ marker_of stod up (to_unit u) name a b c m.
Proof.
  intros N L Q. assert (Li : (i < length names)%nat) by (apply nth_error_Some; congruence).
  assert (G : forall k, (k < length row)%nat -> exists x, nth_error row k = Some x).
  { intros k K. destruct (nth_error row k) eqn:E; [eauto|]. apply nth_error_None in E. lia. }
  destruct (G (3 * i + 2)%nat) as (a & A); [lia|]. destruct (G (3 * i + 3)%nat) as (b & B); [lia|].
  destruct (G (3 * i + 4)%nat) as (c & C); [lia|]. destruct (G 4%nat) as (u & U); [lia|].
  assert (Qn : forall k x, nth_error row k = Some x -> (2 <= k)%nat -> x = [] \/ stod x <> None).
  { intros k x E K. apply Q. apply nth_error_In with (n := (k - 2)%nat).
    clear - E K. destruct row as [|r0 [|r1 row]]; [destruct k; discriminate| |].
    - destruct k as [|[|k]]; cbn in E; [lia|discriminate|destruct k; discriminate].
    - destruct k as [|[|k]]; [lia|lia|]. cbn in E. cbn [skipn]. replace (S (S k) - 2)%nat with k by lia. exact E. }
  unfold row_marker. unfold rd at 1. rewrite N. cbn [obind].
  replace (i * 3 + 2 + 0)%nat with (3 * i + 2)%nat by lia.
  replace (i * 3 + 2 + 1)%nat with (3 * i + 3)%nat by lia.
  replace (i * 3 + 2 + 2)%nat with (3 * i + 4)%nat by lia.
  unfold rd. rewrite A, B, C, U. cbn [obind].
  destruct (Qn _ _ A) as [->|Sa]; [lia| |].
  { cbn [List.length Nat.eqb orb]. do 5 eexists. split; [reflexivity|]. do 4 (split; [first [reflexivity|eassumption]|]).
    split; [reflexivity|]. left. split; [reflexivity|]. auto. }
  destruct (Qn _ _ B) as [->|Sb]; [lia| |].
  { rewrite orb_true_r. cbn [orb]. do 5 eexists. split; [reflexivity|]. do 4 (split; [first [reflexivity|eassumption]|]).
    split; [reflexivity|]. left. split; [reflexivity|]. auto. }
  destruct (Qn _ _ C) as [->|Sc]; [lia| |].
  { rewrite orb_true_r. do 5 eexists. split; [reflexivity|]. do 4 (split; [first [reflexivity|eassumption]|]).
    split; [reflexivity|]. left. split; [reflexivity|]. auto. }
  destruct a as [|xa a]; [| destruct b as [|xb b]; [|destruct c as [|xc c]]].
  1-3: cbn [List.length Nat.eqb orb]; do 5 eexists; split; [reflexivity|]; do 4 (split; [first [reflexivity|eassumption]|]);
    split; [reflexivity|]; left; split; [reflexivity|]; auto.
  cbn [List.length Nat.eqb orb].
  destruct (stod (xa :: a)) as [x|] eqn:Ex; [|congruence]. destruct (stod (xb :: b)) as [y|] eqn:Ey; [|congruence].
  destruct (stod (xc :: c)) as [z|] eqn:Ez; [|congruence]. cbn [or_throw obind].
  do 5 eexists. split; [reflexivity|]. do 4 (split; [first [reflexivity|eassumption]|]). split; [reflexivity|].
  right. split; [reflexivity|]. do 3 (split; [discriminate|]). exists x, y, z. auto.
Qed.

Lemma row_markers_ok up names row is :
  length row = (3 * length names + 2)%nat -> numeric stod row ->
  Forall (fun i => (i < length names)%nat) is ->
  exists f, row_markers stod up names row is = Ok f /\ length f = length is /\
    forall k i name u, nth_error is k = Some i -> nth_error names i = Some name -> nth_error row 4 = Some u ->
      exists m a b c, nth_error f k = Some m /\
      nth_error row (3 * i + 2) = Some a /\ nth_error row (3 * i + 3) = Some b /\ nth_error row (3 * i + 4) = Some c /\
      marker_of stod up (to_unit u) name a b c m.
Proof.
  intros L Q F. induction F as [|i is Hi F (f & E & Lf & G)].
  - exists []. split; [reflexivity|]. split; [reflexivity|]. intros [|k]; discriminate.
  - destruct (nth_error names i) as [name|] eqn:N; [|apply nth_error_None in N; lia].
    destruct (row_marker_ok up names row i name N L Q) as (m & a & b & c & u & Em & A & B & C & U & M).
    exists (m :: f). cbn [row_markers]. rewrite Em. cbn [obind]. rewrite E. cbn [obind]. split; [reflexivity|].
    split; [cbn; lia|]. intros [|k] j nm u' Hk Hn Hu.
    + cbn in Hk. injection Hk as <-. rewrite N in Hn. injection Hn as <-. rewrite U in Hu. injection Hu as <-.
      exists m, a, b, c. auto 6.
    + cbn in Hk. apply (G k j nm u' Hk Hn Hu).
Qed.

Lemma seq_forall n : Forall (fun i => (i < n)%nat) (seq 0 n).
Proof. apply Forall_forall. intros i H. apply in_seq in H. lia. Qed.

Lemma tokenize_row l ps n : splits [tab] l ps -> (2 <= n)%nat -> exists ts, tokenize l [tab] false = Ok ts /\
  (length ts = n <-> length ps = n) /\ (length ps = n -> ts = ps).
Proof.
  intros S N. destruct l as [|c l].
  - rewrite (splits_unique _ _ ps [[]] S) by (constructor; intros ? []).
    exists []. split; [reflexivity|]. cbn. split; [lia|lia].
  - destruct (tokenize_lemma (c :: l) [tab]) as (ps' & S' & E & _); [discriminate|].
    rewrite (splits_unique _ _ _ _ S' S) in E. exists ps. split; [exact E|]. tauto.
Qed.

Lemma rows_ok up names nm data :
  nm = Z.of_nat (length names) -> (3 * Z.of_nat (length names) + 2 < 2 ^ 64)%Z ->
  Forall (fun p => splits [tab] (fst p) (snd p)) data ->
  Forall (numeric stod) (filter (fun r => Nat.eqb (length r) (3 * length names + 2)) (map snd data)) ->
  exists fs, rows stod up names nm (map fst data) = Ok fs /\
    Forall2 (fun row f => forall u, nth_error row 4 = Some u -> frame_of stod up (to_unit u) names row f)
      (filter (fun r => Nat.eqb (length r) (3 * length names + 2)) (map snd data)) fs.
Proof.
  intros -> B F. induction F as [|[l ps] data S F IH]; intros Q.
  - exists []. split; [reflexivity|constructor].
  - cbn [map fst snd rows]. cbn [fst snd] in S.
    destruct (tokenize_row l ps (3 * length names + 2) S) as (ts & E & I & J); [lia|]. rewrite E. cbn [obind].
    replace ((Z.of_nat (length names) * 3 + 2) mod 2 ^ 64)%Z with (Z.of_nat (3 * length names + 2))
      by (rewrite Z.mod_small by lia; lia).
    cbn [map filter snd] in Q |- *. destruct (Nat.eqb_spec (length ps) (3 * length names + 2)) as [Lp|Lp].
    + rewrite (J Lp) in *. clear J I. rewrite Lp, Z.eqb_refl. cbn [negb].
      rewrite Nat2Z.id. inversion Q as [|? ? Q1 Q2]; subst.
      destruct (row_markers_ok up names ps (seq 0 (length names)) Lp Q1 (seq_forall _)) as (f & -> & Lf & G).
      cbn [obind]. destruct (IH Q2) as (fs & -> & H). cbn [obind]. exists (f :: fs). split; [reflexivity|].
      constructor; [|exact H]. intros u U. split; [rewrite Lf, seq_length; reflexivity|].
      intros i name N. apply (G i i name u); [|exact N|exact U].
      assert (Li : (i < length names)%nat) by (apply nth_error_Some; congruence). rewrite nth_error_nth' with (d := 0%nat) by (rewrite seq_length; exact Li).
      rewrite seq_nth by exact Li. reflexivity.
    + destruct (Z.eqb_spec (Z.of_nat (length ts)) (Z.of_nat (3 * length names + 2))) as [X|X].
      * exfalso. apply Lp, I. lia.
      * cbn [negb]. apply IH. exact Q.
Qed.

(** C41, what happens: the positions of a row are read in the unit that is spelled by its fifth
    field, the last coordinate of its first marker. *)
Theorem trc_loaded ls fuel up rate unit_word names good :
  lines_ok ls -> ~ ends_in_cr ls -> (length ls <= fuel)%nat -> (3 * Z.of_nat (length names) + 2 < 2 ^ 64)%Z ->
  trc_file stod stoi rate unit_word names (map fst ls) good ->
  exists fs, load_trc stod stoi fuel up (text_of ls) = Ok {| q_fps := rate; q_frames := fs |} /\
    Forall2 (fun row f => forall u, nth_error row 4 = Some u -> frame_of stod up (to_unit u) names row f) good fs.
Proof.
  intros K C F B T. inversion T as [h1 h2 h3 h4 h5 data good' (a1 & b1 & H1) (a2 & b2 & H2) H3 H4 HR HG HN EL Eg].
  subst good'. clear T. symmetry in EL.
  destruct H3 as (w0 & w1 & w2 & w3 & w5 & w6 & w7 & W3 & Er & En). destruct H4 as (v0 & v1 & W4).
  assert (P0 : plain []) by (split; intros []).
  assert (St : forall l e r, lines_ok ((l, e) :: r) -> ~ ends_in_cr ((l, e) :: r) ->
    get_line (open_text (text_of ((l, e) :: r))) = (l, open_text (text_of r)) /\ lines_ok r /\ ~ ends_in_cr r).
  { intros l e r K' C'. rewrite <- (app_nil_r (text_of (_ :: _))). rewrite (get_line_step l e r [] K' P0).
    rewrite app_nil_r. split; [|split].
    - destruct e; try reflexivity. destruct (text_of r) eqn:X; [|reflexivity].
      apply text_of_nil in X. subst r. exfalso. apply C'. exists [], l. reflexivity.
    - apply K'.
    - intros (r' & l' & ->). apply C'. exists ((l, e) :: r'), l'. reflexivity. }
  destruct ls as [|[l1 e1] [|[l2 e2] [|[l3 e3] [|[l4 e4] [|[l5 e5] r]]]]]; try discriminate EL.
  cbn [map fst] in EL. injection EL as -> -> -> -> -> EL.
  unfold load_trc.
  destruct (St _ _ _ K C) as (-> & K1 & C1). cbn [fst snd]. rewrite H1, contains_app. cbn [negb].
  destruct (St _ _ _ K1 C1) as (-> & K2 & C2). cbn [fst snd]. rewrite H2, contains_app. cbn [negb].
  destruct (St _ _ _ K2 C2) as (-> & K3 & C3). cbn [fst snd]. rewrite (words_tokenize _ _ W3).
  cbn [obind List.length Nat.eqb negb rd nth_error]. rewrite Er. cbn [or_throw obind]. rewrite En. cbn [or_throw obind].
  destruct (St _ _ _ K3 C3) as (-> & K4 & C4). cbn [fst snd]. rewrite (words_tokenize _ _ W4). cbn [obind].
  rewrite (Z.mod_small (Z.of_nat (length names))) by lia. rewrite Z.mod_small by lia.
  replace (Z.of_nat (length (v0 :: v1 :: names)) =? Z.of_nat (length names) + 2)%Z with true
    by (symmetry; apply Z.eqb_eq; cbn [List.length]; lia). cbn [negb].
  destruct (St _ _ _ K4 C4) as (-> & K5 & C5). cbn [fst snd].
  rewrite (line_loop_sees_all_partial r fuel K5 C5) by (cbn in F; lia). cbn [obind skipn]. rewrite EL.
  subst good. destruct (rows_ok up names (Z.of_nat (length names)) data eq_refl B HR HN) as (fs & -> & G).
  cbn [obind]. exists fs. split; [reflexivity|exact G].
Qed.

(** C41. Numbers are not unit names, so every position is taken to be in centimetres: right for a
    file whose header says cm or names no unit. *)
Theorem trc_units_partial ls fuel up rate unit_word names good :
  (forall s, stod s <> None -> forall u, ~ In s (unit_names u)) ->
  cm_per (to_unit unit_word) = 1 ->
  names <> [] ->
  lines_ok ls -> ~ ends_in_cr ls -> (length ls <= fuel)%nat -> (3 * Z.of_nat (length names) + 2 < 2 ^ 64)%Z ->
  trc_file stod stoi rate unit_word names (map fst ls) good ->
  exists fs, load_trc stod stoi fuel up (text_of ls) = Ok {| q_fps := rate; q_frames := fs |} /\
    Forall2 (frame_of stod up (to_unit unit_word) names) good fs.
Proof.
  intros HS HU NN K C F B T. destruct (trc_loaded _ _ up _ _ _ _ K C F B T) as (fs & E & G).
  exists fs. split; [exact E|].
  assert (Q : Forall (fun row => numeric stod row /\ length row = (3 * length names + 2)%nat) good).
  { inversion T as [? ? ? ? ? data good' ? ? ? ? ? HG HN EL Eg]. subst good'. apply Forall_forall. intros row I. split.
    - rewrite Forall_forall in HN. apply HN; exact I.
    - rewrite HG in I. apply filter_In in I. apply Nat.eqb_eq. apply I. }
  clear - HS HU NN G Q. induction G as [|row f good fs H G IH]; [constructor|].
  inversion Q as [|? ? (Q1 & Q2) Q3]; subst. constructor; [|apply IH; exact Q3].
  destruct (nth_error row 4) as [u|] eqn:U.
  2:{ apply nth_error_None in U. destruct names; [congruence|]. cbn [List.length] in Q2. lia. }
  assert (X : to_unit u = UUnknown).
  { apply unit_spelling_other. intros v I.
    assert (Iu : In u (skipn 2 row)).
    { destruct row as [|? [|? row]]; try discriminate U. cbn in U |- *. apply (nth_error_In _ 2%nat). exact U. }
    destruct (Q1 u Iu) as [->|S]; [|exact (HS u S v I)].
    destruct v; cbn in I; repeat destruct I as [I|I]; try discriminate I; exact I. }
  specialize (H u eq_refl). destruct H as (L & H). split; [exact L|].
  intros i name N. destruct (H i name N) as (m & a & b & c & Em & A & B & C & M).
  exists m, a, b, c. do 4 (split; [assumption|]). rewrite X in M.
  destruct M as (Mn & [M|(Mo & Na & Nb & Nc & x & y & z & Sx & Sy & Sz & Mp)]).
  - split; [exact Mn|left; exact M].
  - split; [exact Mn|right]. do 4 (split; [assumption|]). exists x, y, z. do 3 (split; [assumption|]).
    rewrite Mp. destruct (to_unit unit_word); cbn [cm_per] in HU; try lra; reflexivity.
Qed.
End File.
Print Assumptions trc_loaded.
Print Assumptions trc_units_partial.

(** A file with one marker at 10 units in each direction. *)
Definition one_marker (u : string) : list (str * ending) :=
  let words l := flat_map (fun w => txt w ++ [tab]) l in
  [(head1 ++ [tab] ++ txt "a.trc", CRLF); (head2, CRLF);
   (words ["30"; "30"; "1"; "1"; u; "30"; "1"; "1"]%string, CRLF);
   (words ["Frame#"; "Time"; "nose"]%string, CRLF); (txt "X1", CRLF);
   (txt "1" ++ [tab] ++ txt "0" ++ [tab] ++ txt "10" ++ [tab] ++ txt "10" ++ [tab] ++ txt "10", CRLF)].
Definition some_stod (s : str) : option R :=
  if s_eqb s (txt "30") then Some 30 else if s_eqb s (txt "10") then Some 10 else None.
Definition some_stoi (s : str) : option Z := if s_eqb s (txt "1") then Some 1%Z else None.

Lemma tokenize_words l ws : tokenize l blanks true = Ok ws -> words l ws.
Proof.
  intros E. destruct l as [|c l]; [left; split; [reflexivity|]; injection E as <-; reflexivity|right].
  destruct (tokenize_lemma (c :: l) blanks) as (ps & S & _ & E'); [discriminate|].
  exists ps. split; [exact S|]. congruence.
Qed.
Lemma tokenize_fields l ps : l <> [] -> tokenize l [tab] false = Ok ps -> splits [tab] l ps.
Proof. intros N E. destruct (tokenize_lemma l [tab] N) as (ps' & S & E' & _). congruence. Qed.

(** The hypotheses of the theorems are met by it. *)
Lemma one_marker_file u : (u = "mm" \/ u = "cm")%string ->
  lines_ok (one_marker u) /\ ~ ends_in_cr (one_marker u) /\ (length (one_marker u) <= 9)%nat /\
  trc_file some_stod some_stoi 30 (txt u) [txt "nose"] (map fst (one_marker u))
    [[txt "1"; txt "0"; txt "10"; txt "10"; txt "10"]].
Proof.
  intros U. split; [|split; [|split]].
  - destruct U; subst u; cbn; unfold plain, lf, cr; cbn; intuition discriminate.
  - intros (r & l & E). apply (f_equal (fun x => snd (last x ([], LF)))) in E. rewrite last_last in E. discriminate.
  - cbn. lia.
  - apply trc_file_intro with (data := [(txt "1" ++ [tab] ++ txt "0" ++ [tab] ++ txt "10" ++ [tab] ++ txt "10" ++ [tab] ++ txt "10",
      [txt "1"; txt "0"; txt "10"; txt "10"; txt "10"])]).
    + exists [], ([tab] ++ txt "a.trc"). reflexivity.
    + exists [], []. reflexivity.
    + exists (txt "30"), (txt "30"), (txt "1"), (txt "1"), (txt "30"), (txt "1"), (txt "1"). split; [|split; reflexivity].
      apply tokenize_words. destruct U; subst u; reflexivity.
    + exists (txt "Frame#"), (txt "Time"). apply tokenize_words. reflexivity.
    + constructor; [|constructor]. apply tokenize_fields; [discriminate|]. reflexivity.
    + reflexivity.
    + constructor; [|constructor]. intros s H. right. cbn [skipn In] in H.
      destruct H as [<-|[<-|[<-|[]]]]; discriminate.
Qed.

Example trc_case : exists fs,
  load_trc some_stod some_stoi 9 UpZ (text_of (one_marker "cm")) = Ok {| q_fps := 30; q_frames := fs |} /\
  Forall2 (frame_of some_stod UpZ UCM [txt "nose"]) [[txt "1"; txt "0"; txt "10"; txt "10"; txt "10"]] fs.
Proof.
  destruct (one_marker_file "cm") as (A & B & C & D); [right; reflexivity|].
  apply (trc_units_partial some_stod some_stoi (one_marker "cm") 9 UpZ 30 (txt "cm")); auto.
  - intros s H u I. unfold some_stod in H.
    destruct (s_eqb_spec s (txt "30")); [subst s|destruct (s_eqb_spec s (txt "10")); [subst s|congruence]];
      destruct u; cbn in I; repeat destruct I as [I|I]; try discriminate I; exact I.
  - discriminate.
  - reflexivity.
Qed.

(** With millimetres in the header it is loaded at 10 cm instead of 1 cm. *)
Theorem trc_units_refuted : exists m,
  load_trc some_stod some_stoi 9 UpZ (text_of (one_marker "mm")) = Ok {| q_fps := 30; q_frames := [[m]] |} /\
  mk_pos m = V3 10 10 10 /\
  ~ marker_of some_stod UpZ UMM (txt "nose") (txt "10") (txt "10") (txt "10") m.
Proof.
  destruct (one_marker_file "mm") as (A & B & C & D); [left; reflexivity|].
  destruct (trc_loaded some_stod some_stoi (one_marker "mm") 9 UpZ 30 (txt "mm") [txt "nose"] _ A B C eq_refl D) as (fs & E & F).
  inversion F as [|row f ? fs' H F']; subst. inversion F'; subst. clear F F'.
  specialize (H (txt "10") eq_refl). destruct H as (L & H).
  destruct (H 0%nat (txt "nose") eq_refl) as (m & a & b & c & M & Ha & Hb & Hc & Mo).
  destruct f as [|m' [|? ?]]; try discriminate L. cbn in M. injection M as ->.
  cbn in Ha, Hb, Hc. injection Ha as <-. injection Hb as <-. injection Hc as <-.
  exists m. split; [exact E|].
  assert (P : mk_pos m = V3 10 10 10).
  { destruct Mo as (_ & [(_ & [X|[X|X]])|(_ & _ & _ & _ & x & y & z & Sx & Sy & Sz & P)]); try discriminate X.
    cbn in Sx, Sy, Sz. injection Sx as <-. injection Sy as <-. injection Sz as <-. exact P. }
  split; [exact P|]. intros (_ & [(_ & [X|[X|X]])|(_ & _ & _ & _ & x & y & z & Sx & Sy & Sz & Q)]); try discriminate X.
  cbn in Sx, Sy, Sz. injection Sx as <-. injection Sy as <-. injection Sz as <-.
  rewrite P in Q. apply (f_equal vx) in Q. cbv [to_momentum vx vy vz] in Q. lra.
Qed.
Print Assumptions trc_units_refuted.
