(** C129: the parameter transform as JSON. *)

From Coq Require Import List Arith Ascii Bool String Reals Lia Lra Permutation Sorted.
From Verif Require Import Prelude Loops Str_model Lines_model Marker_model LocIO_model LimIO_model ModelDef_model ModelDef_spec ModelDef_props Json_model Json_spec Json_props JsonMat_props JsonPose_props JsonPT_model.
Import ListNotations.
Local Open Scope list_scope.
Local Open Scope outcome_scope.

(** ** Nested objects *)
Fixpoint deep (d : nat) (j : json) : Prop :=
  match d with
  | O => exists x, j = JNum x
  | S d => exists m, j = JObj m /\ m <> [] /\ sorted m /\ forall k v, In (k, v) m -> deep d v
  end.
Fixpoint leaf (j : json) (ks : list str) (x : R) : Prop :=
  match ks with
  | [] => j = JNum x
  | k :: r => exists m v, j = JObj m /\ In (k, v) m /\ leaf v r x
  end.
Lemma deep_leaf : forall d j, deep d j -> exists ks x, leaf j ks x.
Proof.
  induction d as [|d IH]; intros j H; [destruct H as [x ->]; exists [], x; reflexivity|]. destruct H as [m [-> [N [_ H]]]]. destruct m as [|[k v] m]; [congruence|].
  destruct (IH v (H k v (or_introl eq_refl))) as [ks [x L]]. exists (k :: ks), x, ((k, v) :: m), v. split; [reflexivity|]. split; [left; reflexivity|exact L].
Qed.
Lemma leaf_length : forall d j ks x, deep d j -> leaf j ks x -> List.length ks = d.
Proof.
  induction d as [|d IH]; intros j ks x H L.
  - destruct H as [y ->]. destruct ks; [reflexivity|]. destruct L as [m [v [Q _]]]. discriminate.
  - destruct H as [m [-> [_ [_ H]]]]. destruct ks as [|k ks]; [discriminate|]. destruct L as [m' [v [Q [I L]]]]. injection Q as <-. cbn. f_equal. exact (IH _ _ _ (H _ _ I) L).
Qed.
Lemma put_path_ok x : forall ks j, (j = JNull /\ ks <> [] \/ deep (List.length ks) j \/ j = JNull) ->
  exists j', put_path ks (JNum x) j = Ok j' /\ deep (List.length ks) j' /\ forall ks' x', leaf j' ks' x' <-> (ks' = ks /\ x' = x) \/ (ks' <> ks /\ leaf j ks' x').
Proof.
  induction ks as [|k r IH]; intros j H.
  { exists (JNum x). split; [reflexivity|]. split; [exists x; reflexivity|]. intros [|k' r'] x'; cbn [leaf].
    - split; [intros Q; injection Q as ->; left; split; reflexivity|]. intros [[_ ->]|[Q _]]; [reflexivity|congruence].
    - split; [intros [m [v [Q _]]]; discriminate|]. intros [[Q _]|[_ [m [v [-> _]]]]]; [discriminate|]. destruct H as [[Q _]|[[y Q]|Q]]; discriminate. }
  cbn [put_path]. assert (C : j = JNull \/ deep (S (List.length r)) j) by (destruct H as [[Q _]|[Q|Q]]; auto). clear H. destruct C as [->|[m [-> [N [S D]]]]].
  - destruct (IH JNull ltac:(auto)) as [j' [E [D L]]]. rewrite E. cbn [obind]. eexists. split; [reflexivity|]. split.
    + cbn [List.length deep]. eexists. split; [reflexivity|]. split; [discriminate|]. split; [repeat constructor|]. intros k' v [Q|[]]. injection Q as <- <-. exact D.
    + intros [|k' r'] x'; cbn [leaf]; [split; [discriminate|intros [[Q _]|[_ Q]]; discriminate]|]. split.
      * intros [m [v [Q [I J]]]]. injection Q as <-. destruct I as [Q|[]]. injection Q as <- <-. apply L in J. destruct J as [[-> ->]|[_ J]]; [left; split; reflexivity|].
        destruct r'; [discriminate|destruct J as [? [? [? _]]]; discriminate].
      * intros [[Q ->]|[_ [m [v [Q _]]]]]; [|discriminate]. injection Q as -> ->. eexists _, _. split; [reflexivity|]. split; [left; reflexivity|]. apply L. left. split; reflexivity.
  - set (c := match lookup m k with Some v => v | None => JNull end).
    assert (HC : (c = JNull \/ deep (List.length r) c) /\ forall r' x', leaf c r' x' <-> leaf (JObj m) (k :: r') x').
    { pose proof (lookup_in m k) as L. unfold c. destruct (lookup m k) as [v|].
      - split; [right; exact (D _ _ L)|]. intros r' x'. split; [intros J; exists m, v; split; [reflexivity|split; [exact L|exact J]]|].
        intros [m' [v' [Q [I J]]]]. injection Q as <-. rewrite (keys_unique m k _ _ (sorted_keys _ S) L I). exact J.
      - split; [left; reflexivity|]. intros r' x'. split; [destruct r'; [discriminate|intros [? [? [? _]]]; discriminate]|]. intros [m' [v' [Q [I J]]]]. injection Q as <-. destruct (L _ I). }
    destruct HC as [HC HL]. destruct (IH c ltac:(tauto)) as [j' [E [D' L]]]. rewrite E. cbn [obind]. destruct (obj_set_spec k j' m S) as [S' I']. eexists. split; [reflexivity|]. split.
    + cbn [List.length deep]. eexists. split; [reflexivity|]. split; [apply obj_set_nonempty|]. split; [exact S'|]. intros k' v I. apply I' in I. destruct I as [[_ ->]|[_ I]]; [exact D'|exact (D _ _ I)].
    + intros [|k' r'] x'; [cbn [leaf]; split; [discriminate|intros [[Q _]|[_ Q]]; discriminate]|]. split.
      * intros [m' [v [Q [I J]]]]. injection Q as <-. apply I' in I. destruct I as [[-> ->]|[X I]].
        -- apply L in J. destruct J as [[-> ->]|[X J]]; [left; split; reflexivity|]. right. split; [congruence|]. apply HL. exact J.
        -- right. split; [congruence|]. exists m, v. split; [reflexivity|split; assumption].
      * intros [[Q ->]|[X J]]; [injection Q as -> ->; exists (obj_set k j' m), j'; split; [reflexivity|]; split; [apply I'; left; split; reflexivity|apply L; left; split; reflexivity]|].
        destruct (list_eq_dec ascii_dec k' k) as [->|NE].
        -- exists (obj_set k j' m), j'. split; [reflexivity|]. split; [apply I'; left; split; reflexivity|]. apply L. right. split; [congruence|]. apply HL. exact J.
        -- destruct J as [m' [v [Q [I J]]]]. injection Q as <-. exists (obj_set k j' m), v. split; [reflexivity|]. split; [apply I'; right; split; assumption|exact J].
Qed.

(** ** Writing *)
Definition top (P J : json) : json :=
  match J with JNull => JObj [(lit "parameters", P)] | _ => JObj [(lit "joints", J); (lit "parameters", P)] end.
Lemma put_top P J k r v x : put_path (k :: r) v J = Ok x -> put_path (lit "joints" :: k :: r) v (top P J) = Ok (top P x) .
Proof.
  intros E. assert (X : exists m, x = JObj m).
  { cbn [put_path] in E. destruct J; try discriminate; (destruct (put_path r v _); [|discriminate..]); cbn in E; injection E as <-; eexists; reflexivity. }
  destruct X as [m ->]. change (put_path (lit "joints" :: k :: r) v (top P J)) with
    (match top P J with JNull => let* y := put_path (k :: r) v JNull in Ok (JObj [(lit "joints", y)]) | JObj m => let* y := put_path (k :: r) v (match lookup m (lit "joints") with Some y => y | None => JNull end) in Ok (JObj (obj_set (lit "joints") y m)) | _ => Throw end).
  assert (A : exists m', top P J = JObj m' /\ match lookup m' (lit "joints") with Some y => y | None => JNull end = J /\ forall y, obj_set (lit "joints") (JObj y) m' = [(lit "joints", JObj y); (lit "parameters", P)]).
  { destruct J; (eexists; split; [reflexivity|]; split; [lazy; reflexivity|intros y; lazy; reflexivity]). }
  destruct A as [m' [A [B C]]]. rewrite A, B, E. cbn [obind]. rewrite C. reflexivity.
Qed.

Definition fine (J : json) : Prop := J = JNull \/ deep 3 J.
Section Write.
Context (names : list str) (O : own_names names).
Lemma row_into_ok P jn ch row : forall es J, fine J -> NoDup (map fst es) -> (forall r c x, In (r, c, x) es -> c < List.length names) ->
  (forall c x p y, In (row, c, x) es -> nth_error names c = Some p -> ~ leaf J [jn; ch; p] y) ->
  exists J', row_into names jn ch row es (top P J) = Ok (top P J') /\ fine J' /\
    forall ks x, leaf J' ks x <-> leaf J ks x \/ exists c p, In (row, c, x) es /\ nth_error names c = Some p /\ ks = [jn; ch; p].
Proof.
  induction es as [|[[r c] x] es IH]; intros J W N B D.
  { exists J. split; [reflexivity|]. split; [exact W|]. intros ks x. split; [auto|]. intros [H|[c [p [[] _]]]]. exact H. }
  cbn [map fst] in N. inversion N as [|? ? N1 N2]; subst. cbn [row_into]. assert (B' : forall r c x, In (r, c, x) es -> c < List.length names) by (intros r' c' x' I; exact (B r' c' x' (or_intror I))).
  destruct (r =? row) eqn:Q.
  - apply Nat.eqb_eq in Q. subst r. destruct (nth_error names c) as [p|] eqn:E; [|apply nth_error_None in E; specialize (B row c x (or_introl eq_refl)); lia].
    destruct (put_path_ok x [jn; ch; p] J) as [J1 [E1 [W1 L1]]]; [destruct W as [->|W]; [right; right; reflexivity|right; left; exact W]|].
    rewrite (put_top P J jn [ch; p] (JNum x) J1 E1). cbn [obind]. destruct (IH J1) as [J' [E' [W' L']]]; [right; exact W1|exact N2|exact B'| |].
    { intros c' x' p' y I E' L. apply L1 in L. destruct L as [[Q _]|[_ L]]; [|exact (D c' x' p' y (or_intror I) E' L)]. injection Q as ->. rewrite (name_once names O _ _ _ E' E) in I.
      apply N1. change (row, c) with (fst (row, c, x')). apply in_map. exact I. }
    exists J'. split; [exact E'|]. split; [exact W'|]. intros ks y. rewrite L', L1. split.
    + intros [[[-> ->]|[_ L]]|[c' [p' [I R]]]]; [right; exists c, p; split; [left; reflexivity|split; [exact E|reflexivity]]|left; exact L|right; exists c', p'; split; [right; exact I|exact R]].
    + intros [L|[c' [p' [[I|I] [R1 R2]]]]].
      * left. right. split; [|exact L]. intros ->. exact (D c x p y (or_introl eq_refl) E L).
      * injection I as <- <-. left. left. rewrite E in R1. injection R1 as <-. split; [exact R2|reflexivity].
      * right. exists c', p'. split; [exact I|split; assumption].
  - apply Nat.eqb_neq in Q. destruct (IH J W N2 B') as [J' [E' [W' L']]]; [intros c' x' p' y I; exact (D c' x' p' y (or_intror I))|]. exists J'. split; [exact E'|]. split; [exact W'|]. intros ks y. rewrite L'. split.
    + intros [L|[c' [p' [I R]]]]; [left; exact L|right; exists c', p'; split; [right; exact I|exact R]].
    + intros [L|[c' [p' [[I|I] R]]]]; [left; exact L|congruence|right; exists c', p'; split; assumption].
Qed.

Context (es : list (nat * nat * R)) (N : NoDup (map fst es)) (B : forall r c x, In (r, c, x) es -> c < List.length names).
Lemma channels_into_ok P jn base : forall cs d J, fine J -> NoDup cs -> (forall ch p y, In ch cs -> ~ leaf J [jn; ch; p] y) ->
  exists J', channels_into names jn base d cs es (top P J) = Ok (top P J') /\ fine J' /\
    forall ks x, leaf J' ks x <-> leaf J ks x \/ exists i ch c p, nth_error cs i = Some ch /\ In (base + (d + i), c, x) es /\ nth_error names c = Some p /\ ks = [jn; ch; p].
Proof.
  induction cs as [|ch cs IH]; intros d J W U D.
  { exists J. split; [reflexivity|]. split; [exact W|]. intros ks x. split; [auto|]. intros [H|[i [ch [c [p [Q _]]]]]]; [exact H|]. destruct i; discriminate. }
  inversion U as [|? ? U1 U2]; subst. cbn [channels_into]. destruct (row_into_ok P jn ch (base + d) es J W N B) as [J1 [E1 [W1 L1]]]; [intros c x p y _ _; exact (D ch p y (or_introl eq_refl))|].
  rewrite E1. cbn [obind]. destruct (IH (S d) J1 W1 U2) as [J' [E' [W' L']]].
  { intros ch' p y I L. apply L1 in L. destruct L as [L|[c [p' [_ [_ Q]]]]]; [exact (D ch' p y (or_intror I) L)|]. injection Q as -> _. exact (U1 I). }
  exists J'. split; [exact E'|]. split; [exact W'|]. intros ks x. rewrite L', L1. split.
  - intros [[L|[c [p [I [R1 R2]]]]]|[i [ch' [c [p [Q [I R]]]]]]]; [left; exact L|right; exists 0, ch, c, p; rewrite Nat.add_0_r; auto|].
    right. exists (S i), ch', c, p. split; [exact Q|]. replace (d + S i) with (S d + i) by lia. split; assumption.
  - intros [L|[[|i] [ch' [c [p [Q [I R]]]]]]]; [left; left; exact L| |].
    + cbn in Q. injection Q as <-. rewrite Nat.add_0_r in I. left. right. exists c, p. split; assumption.
    + right. exists i, ch', c, p. split; [exact Q|]. replace (S d + i) with (d + S i) by lia. split; assumption.
Qed.
Lemma joints_into_ok P : forall joints jt J, fine J -> NoDup joints -> (forall jn r y, In jn joints -> ~ leaf J (jn :: r) y) ->
  exists J', joints_into names jt joints es (top P J) = Ok (top P J') /\ fine J' /\
    forall ks x, leaf J' ks x <-> leaf J ks x \/ exists i jn d ch c p, nth_error joints i = Some jn /\ nth_error param_names d = Some ch /\ In ((jt + i) * 7 + d, c, x) es /\ nth_error names c = Some p /\ ks = [jn; ch; p].
Proof.
  induction joints as [|jn joints IH]; intros jt J W U D.
  { exists J. split; [reflexivity|]. split; [exact W|]. intros ks x. split; [auto|]. intros [H|[i [jn [d [ch [c [p [Q _]]]]]]]]; [exact H|]. destruct i; discriminate. }
  inversion U as [|? ? U1 U2]; subst. cbn [joints_into]. destruct (channels_into_ok P jn (jt * 7) param_names 0 J W own_param_names) as [J1 [E1 [W1 L1]]]; [intros ch p y _; exact (D jn [ch; p] y (or_introl eq_refl))|].
  rewrite E1. cbn [obind]. destruct (IH (S jt) J1 W1 U2) as [J' [E' [W' L']]].
  { intros jn' r y I L. apply L1 in L. destruct L as [L|[i [ch [c [p [_ [_ [_ Q]]]]]]]]; [exact (D jn' r y (or_intror I) L)|]. injection Q as -> _. exact (U1 I). }
  exists J'. split; [exact E'|]. split; [exact W'|]. intros ks x. rewrite L', L1. split.
  - intros [[L|[d [ch [c [p [Q [I R]]]]]]]|[i [jn' [d [ch [c [p [Q [Q' [I R]]]]]]]]]]; [left; exact L| |].
    + right. exists 0, jn, d, ch, c, p. rewrite Nat.add_0_r. split; [reflexivity|]. split; [exact Q|]. split; [exact I|exact R].
    + right. exists (S i), jn', d, ch, c, p. replace (jt + S i) with (S jt + i) by lia. auto.
  - intros [L|[[|i] [jn' [d [ch [c [p [Q [Q' [I R]]]]]]]]]]; [left; left; exact L| |].
    + cbn in Q. injection Q as <-. rewrite Nat.add_0_r in I. left. right. exists d, ch, c, p. auto.
    + right. exists i, jn', d, ch, c, p. replace (S jt + i) with (jt + S i) by lia. auto.
Qed.
End Write.

(** ** Reading *)
Lemma nodup_flat {A X} (f : A -> list X) : forall l, NoDup l -> (forall a, In a l -> NoDup (f a)) -> (forall a b x, In a l -> In b l -> In x (f a) -> In x (f b) -> a = b) -> NoDup (flat_map f l).
Proof.
  induction l as [|a l IH]; intros N F D; [constructor|]. inversion N as [|? ? N1 N2]; subst. cbn [flat_map]. assert (G : NoDup (flat_map f l)).
  { apply IH; [exact N2|intros b I; apply F; right; exact I|intros b c x I J; apply D; right; assumption]. }
  assert (K : forall x, In x (f a) -> ~ In x (flat_map f l)).
  { intros x I J. apply in_flat_map in J. destruct J as [b [J1 J2]]. apply N1. rewrite (D a b x (or_introl eq_refl) (or_intror J1) I J2). exact J1. }
  specialize (F a (or_introl eq_refl)). clear - F G K. induction (f a) as [|x l' IH]; [exact G|]. inversion F; subst. cbn. constructor.
  - intros I. apply in_app_or in I. destruct I as [I|I]; [contradiction|]. exact (K x (or_introl eq_refl) I).
  - apply IH; [assumption|intros y I; apply K; right; exact I].
Qed.
Lemma index_at n l k : index_from n l 0 = Some k -> nth_error l k = Some n.
Proof. intros E. apply index_from_param in E. destruct E as [i [-> [P _]]]. exact P. Qed.
Lemma index_own l k n : own_names l -> nth_error l k = Some n -> index_from n l 0 = Some k.
Proof. intros O E. destruct (own_index l k O) as [n' [E' I]]; [apply nth_error_Some; congruence|]. congruence. Qed.

Section Read.
Context (joints names : list str).
Definition rd_entry (row : nat) (p : str * json) : list (nat * nat * R) :=
  match snd p, index_from (fst p) names 0 with JNum w, Some k => [(row, k, w)] | _, _ => [] end.
Definition rd_channel (jt : nat) (p : str * json) : list (nat * list (nat * nat * R)) :=
  match snd p, index_from (fst p) param_names 0 with JObj o, Some d => [(jt * 7 + d, flat_map (rd_entry (jt * 7 + d)) o)] | _, _ => [] end.
Definition rd_joint (p : str * json) : list (nat * list (nat * nat * R)) :=
  match snd p, index_from (fst p) joints 0 with JObj o, Some jt => flat_map (rd_channel jt) o | _, _ => [] end.

Definition known (J : json) : Prop :=
  forall jn ch p x, leaf J [jn; ch; p] x -> index_from jn joints 0 <> None /\ index_from ch param_names 0 <> None /\ index_from p names 0 <> None.
Lemma rows_read m : deep 3 (JObj m) -> known (JObj m) -> collect (joint_from joints names) m = Ok (flat_map rd_joint m).
Proof.
  intros [m' [Q [_ [_ D]]]] K. injection Q as <-. apply collect_map. intros [jn v] I. pose proof (D _ _ I) as V. destruct (deep_leaf 2 v V) as [ks [x L]]. pose proof (leaf_length 2 v ks x V L) as Len.
  destruct ks as [|ch [|p [|]]]; try discriminate. assert (L3 : leaf (JObj m) [jn; ch; p] x) by (exists m, v; auto). destruct (K _ _ _ _ L3) as [K1 _].
  destruct V as [o [-> [_ [_ D2]]]]. unfold joint_from, rd_joint. cbn [fst snd jitems]. destruct (index_from jn joints 0) as [jt|]; [|congruence]. clear L L3 x ch p Len.
  apply collect_map. intros [ch v] I2. pose proof (D2 _ _ I2) as V. destruct (deep_leaf 1 v V) as [ks [x L]]. pose proof (leaf_length 1 v ks x V L) as Len. destruct ks as [|p [|]]; try discriminate.
  assert (L3 : leaf (JObj m) [jn; ch; p] x) by (exists m, (JObj o); split; [reflexivity|]; split; [exact I|]; exists o, v; auto). destruct (K _ _ _ _ L3) as [_ [K2 _]].
  destruct V as [o2 [-> [_ [_ D3]]]]. unfold channel_from, rd_channel. cbn [fst snd jitems]. destruct (index_from ch param_names 0) as [d|]; [|congruence].
  rewrite (collect_map _ (rd_entry (jt * 7 + d))); [reflexivity|]. intros [q w] I3. destruct (D3 _ _ I3) as [y ->]. unfold entry_from, rd_entry. cbn [fst snd get_num obind].
  assert (L4 : leaf (JObj m) [jn; ch; q] y) by (exists m, (JObj o); split; [reflexivity|]; split; [exact I|]; exists o, (JObj o2); split; [reflexivity|]; split; [exact I2|]; exists o2, (JNum y); split; [reflexivity|]; split; [exact I3|reflexivity]).
  destruct (K _ _ _ _ L4) as [_ [_ K3]]. destruct (index_from q names 0) as [k|]; [reflexivity|congruence].
Qed.

(** Which entries there are. *)
Lemma rd_entry_in row p r c x : In (r, c, x) (rd_entry row p) <-> r = row /\ snd p = JNum x /\ index_from (fst p) names 0 = Some c.
Proof.
  unfold rd_entry. destruct p as [q w]. cbn [fst snd]. split.
  - destruct w; try (intros []). destruct (index_from q names 0); [|intros []]. intros [Q|[]]. injection Q as <- <- <-. auto.
  - intros [-> [-> ->]]. left. reflexivity.
Qed.
Lemma rd_channel_in jt p r e : In (r, e) (rd_channel jt p) <-> exists o d, snd p = JObj o /\ index_from (fst p) param_names 0 = Some d /\ r = jt * 7 + d /\ e = flat_map (rd_entry r) o.
Proof.
  unfold rd_channel. destruct p as [q w]. cbn [fst snd]. split.
  - destruct w as [| | | | |o]; try (intros []). destruct (index_from q param_names 0) as [d|]; [|intros []]. intros [Q|[]]. injection Q as <- <-. exists o, d. auto.
  - intros [o [d [-> [-> [-> ->]]]]]. left. reflexivity.
Qed.
Lemma rd_joint_in p r e : In (r, e) (rd_joint p) <-> exists o jt ch v, snd p = JObj o /\ index_from (fst p) joints 0 = Some jt /\ In (ch, v) o /\ In (r, e) (rd_channel jt (ch, v)).
Proof.
  unfold rd_joint. destruct p as [q w]. cbn [fst snd]. split.
  - destruct w as [| | | | |o]; try (intros []). destruct (index_from q joints 0) as [jt|]; [|intros []]. intros I. apply in_flat_map in I. destruct I as [[ch v] [I J]]. exists o, jt, ch, v. auto.
  - intros [o [jt [ch [v [-> [-> [I J]]]]]]]. apply in_flat_map. exists (ch, v). split; assumption.
Qed.
Lemma all_in m r c x : In (r, c, x) (flat_map snd (flat_map rd_joint m)) <->
  exists jn ch p jt d, leaf (JObj m) [jn; ch; p] x /\ index_from jn joints 0 = Some jt /\ index_from ch param_names 0 = Some d /\ index_from p names 0 = Some c /\ r = jt * 7 + d.
Proof.
  rewrite in_flat_map. split.
  - intros [[r' e] [I J]]. cbn [snd] in J. apply in_flat_map in I. destruct I as [[jn v] [I1 I]]. apply rd_joint_in in I. destruct I as [o [jt [ch [v2 [E1 [E2 [I2 I]]]]]]]. cbn [fst snd] in *. subst v.
    apply rd_channel_in in I. destruct I as [o2 [d [E3 [E4 [E5 ->]]]]]. cbn [fst snd] in *. subst v2. apply in_flat_map in J. destruct J as [[p w] [I3 J]]. apply rd_entry_in in J. destruct J as [-> [E6 E7]]. cbn [fst snd] in *. subst w.
    exists jn, ch, p, jt, d. split; [|auto]. exists m, (JObj o). split; [reflexivity|]. split; [exact I1|]. exists o, (JObj o2). split; [reflexivity|]. split; [exact I2|]. exists o2, (JNum x). split; [reflexivity|]. split; [exact I3|reflexivity].
  - intros [jn [ch [p [jt [d [L [E1 [E2 [E3 ->]]]]]]]]]. destruct L as [m1 [v1 [Q1 [I1 L]]]]. injection Q1 as <-. destruct L as [o [v2 [-> [I2 L]]]]. destruct L as [o2 [w [-> [I3 L]]]]. cbn in L. subst w.
    exists (jt * 7 + d, flat_map (rd_entry (jt * 7 + d)) o2). split.
    + apply in_flat_map. exists (jn, JObj o). split; [exact I1|]. apply rd_joint_in. exists o, jt, ch, (JObj o2). split; [reflexivity|]. split; [exact E1|]. split; [exact I2|]. apply rd_channel_in. exists o2, d. auto.
    + cbn [snd]. apply in_flat_map. exists (p, JNum x). split; [exact I3|]. apply rd_entry_in. auto.
Qed.
Lemma flat_flat {A X Y} (f : A -> list X) (g : X -> list Y) l : flat_map g (flat_map f l) = flat_map (fun a => flat_map g (f a)) l.
Proof. induction l as [|a l IH]; [reflexivity|]. cbn [flat_map]. rewrite flat_map_app, IH. reflexivity. Qed.
Lemma lt7 ch d : index_from ch param_names 0 = Some d -> d < 7.
Proof. intros E. apply index_at in E. change 7 with (List.length param_names). apply nth_error_Some. congruence. Qed.
Lemma all_once m : deep 3 (JObj m) -> NoDup (flat_map snd (flat_map rd_joint m)).
Proof.
  intros [m' [Q [_ [S D]]]]. injection Q as <-. rewrite flat_flat.
  assert (IN : forall p r c x, In (r, c, x) (flat_map snd (rd_joint p)) -> exists jt d, index_from (fst p) joints 0 = Some jt /\ d < 7 /\ r = jt * 7 + d).
  { intros p r c x I. apply in_flat_map in I. destruct I as [[r' e] [I J]]. apply rd_joint_in in I. destruct I as [o [jt [ch [v [_ [E [_ I]]]]]]]. apply rd_channel_in in I. destruct I as [o2 [d [_ [E2 [-> ->]]]]].
    cbn [snd] in J. apply in_flat_map in J. destruct J as [[q w] [_ J]]. apply rd_entry_in in J. destruct J as [-> _]. exists jt, d. split; [exact E|]. split; [exact (lt7 _ _ E2)|reflexivity]. }
  apply nodup_flat; [apply nodup_fst; exact (sorted_keys _ S)| |].
  - intros [jn v] I. pose proof (D _ _ I) as V. destruct V as [o [-> [_ [S2 D2]]]]. unfold rd_joint. cbn [fst snd]. destruct (index_from jn joints 0) as [jt|]; [|constructor]. rewrite flat_flat.
    apply nodup_flat; [apply nodup_fst; exact (sorted_keys _ S2)| |].
    + intros [ch v] I2. destruct (D2 _ _ I2) as [o2 [-> [_ [S3 D3]]]]. unfold rd_channel. cbn [fst snd]. destruct (index_from ch param_names 0) as [d|]; [|constructor]. cbn [flat_map snd]. rewrite app_nil_r.
      apply nodup_flat; [apply nodup_fst; exact (sorted_keys _ S3)| |].
      * intros [p w] _. unfold rd_entry. cbn. destruct w; try constructor. destruct (index_from p names 0); repeat constructor. intros [].
      * intros [p w] [p' w'] [[r c] x] A1 A2 B1 B2. apply rd_entry_in in B1, B2. cbn [fst snd] in *. destruct B1 as [_ [-> E1]], B2 as [_ [-> E2]]. apply index_at in E1, E2. congruence.
    + intros [ch v] [ch' v'] [[r c] x] A1 A2 B1 B2.
      assert (G : forall ch v, In (r, c, x) (flat_map snd (rd_channel jt (ch, v))) -> exists d, index_from ch param_names 0 = Some d /\ r = jt * 7 + d).
      { intros ch0 v0 I0. apply in_flat_map in I0. destruct I0 as [[r' e] [I0 J]]. apply rd_channel_in in I0. destruct I0 as [o2 [d [_ [E2 [-> ->]]]]]. cbn [snd] in J. apply in_flat_map in J. destruct J as [[q w] [_ J]].
        apply rd_entry_in in J. destruct J as [-> _]. exists d. auto. }
      destruct (G _ _ B1) as [d1 [E1 R1]]. destruct (G _ _ B2) as [d2 [E2 R2]]. assert (d1 = d2) by lia. subst d2. apply index_at in E1, E2. assert (ch = ch') by congruence. subst ch'.
      rewrite (keys_unique o ch _ _ (sorted_keys _ S2) A1 A2). reflexivity.
  - intros [jn v] [jn' v'] [[r c] x] A1 A2 B1 B2. destruct (IN _ _ _ _ B1) as [j1 [d1 [E1 [L1 R1]]]]. destruct (IN _ _ _ _ B2) as [j2 [d2 [E2 [L2 R2]]]]. cbn [fst] in *. assert (j1 = j2) by lia. subst j2.
    apply index_at in E1, E2. assert (jn = jn') by congruence. subst jn'. rewrite (keys_unique m jn _ _ (sorted_keys _ S) A1 A2). reflexivity.
Qed.
Lemma active_in m r : deep 3 (JObj m) -> known (JObj m) -> In r (map fst (flat_map rd_joint m)) <-> exists c x, In (r, c, x) (flat_map snd (flat_map rd_joint m)).
Proof.
  intros [m' [Q [_ [_ D]]]] K. injection Q as <-. split.
  - intros I. apply in_map_iff in I. destruct I as [[r' e] [<- I]]. cbn [fst]. apply in_flat_map in I. destruct I as [[jn v] [I1 I]]. apply rd_joint_in in I. destruct I as [o [jt [ch [v2 [E1 [E2 [I2 I]]]]]]]. cbn [fst snd] in *. subst v.
    apply rd_channel_in in I. destruct I as [o2 [d [E3 [E4 [E5 _]]]]]. cbn [fst snd] in *. subst v2. destruct (D _ _ I1) as [o' [Q [_ [_ D2]]]]. injection Q as <-. destruct (D2 _ _ I2) as [o' [Q [NE [_ D3]]]]. injection Q as <-.
    destruct o2 as [|[p w] o2]; [congruence|]. destruct (D3 p w (or_introl eq_refl)) as [x ->]. set (o2' := (p, JNum x) :: o2) in *.
    assert (L : leaf (JObj m) [jn; ch; p] x).
    { exists m, (JObj o). split; [reflexivity|]. split; [exact I1|]. exists o, (JObj o2'). split; [reflexivity|]. split; [exact I2|]. exists o2', (JNum x). split; [reflexivity|]. split; [left; reflexivity|reflexivity]. }
    destruct (K _ _ _ _ L) as [_ [_ K3]]. destruct (index_from p names 0) as [c|] eqn:E6; [|congruence]. exists c, x. apply all_in. exists jn, ch, p, jt, d. auto.
  - intros [c [x I]]. apply in_flat_map in I. destruct I as [[r' e] [I J]]. assert (r = r'); [|subst; change r' with (fst (r', e)); apply in_map; exact I].
    apply in_flat_map in I. destruct I as [[jn v] [_ I]]. apply rd_joint_in in I. destruct I as [o [jt [ch [v2 [_ [_ [_ I]]]]]]]. apply rd_channel_in in I. destruct I as [o2 [d [_ [_ [_ ->]]]]]. cbn [snd] in J. apply in_flat_map in J.
    destruct J as [[q w] [_ J]]. apply rd_entry_in in J. tauto.
Qed.
End Read.

(** C129. A transform with at least one entry is read with the same names and entries; its offsets become zero and exactly the rows with entries are active. *)
Theorem transform_json_round_trip joints t : own_names joints -> own_names (t_names t) -> t_entries t <> [] -> NoDup (map fst (t_entries t)) ->
  (forall r c x, In (r, c, x) (t_entries t) -> r < List.length joints * 7 /\ c < List.length (t_names t)) ->
  exists j t', transform_to_json joints t = Ok j /\ transform_from_json joints j = Ok t' /\ t_names t' = t_names t /\ Permutation (t_entries t) (t_entries t') /\
    t_offsets t' = repeat 0%R (List.length joints * 7) /\ List.length (t_active t') = List.length joints * 7 /\
    forall i, nth i (t_active t') false = true <-> exists c x, In (i, c, x) (t_entries t).
Proof.
  destruct t as [names es off act]. cbn [t_names t_entries]. intros OJ ON NE ND B. unfold transform_to_json. cbn [t_names t_entries put_path obind]. set (P := JArr (map JStr names)).
  assert (Bc : forall r c x, In (r, c, x) es -> c < List.length names) by (intros r c x I; exact (proj2 (B _ _ _ I))).
  destruct (joints_into_ok names ON es ND Bc P joints 0 JNull) as [J [E [W L]]]; [left; reflexivity|exact OJ|intros jn r y _ [m [v [Q _]]]; discriminate|].
  change (JObj [(lit "parameters", P)]) with (top P JNull). rewrite E. clear E.
  assert (L' : forall ks x, leaf J ks x <-> exists jt jn d ch c p, nth_error joints jt = Some jn /\ nth_error param_names d = Some ch /\ In (jt * 7 + d, c, x) es /\ nth_error names c = Some p /\ ks = [jn; ch; p]).
  { intros ks x. rewrite L. split; [|auto]. intros [Q|Q]; [|exact Q]. destruct ks; [discriminate|destruct Q as [m [v [Q _]]]; discriminate]. }
  clear L. assert (IN : forall r c x, In (r, c, x) es -> exists jt jn d ch p, nth_error joints jt = Some jn /\ nth_error param_names d = Some ch /\ nth_error names c = Some p /\ r = jt * 7 + d).
  { intros r c x I. destruct (B _ _ _ I) as [B1 B2]. pose proof (Nat.div_mod r 7 ltac:(lia)) as DM. pose proof (Nat.mod_upper_bound r 7 ltac:(lia)) as MU.
    destruct (nth_error joints (r / 7)) as [jn|] eqn:E1; [|apply nth_error_None in E1; lia]. destruct (nth_error param_names (r mod 7)) as [ch|] eqn:E2; [|apply nth_error_None in E2; change (List.length param_names) with 7 in E2; lia].
    destruct (nth_error names c) as [p|] eqn:E3; [|apply nth_error_None in E3; lia]. exists (r / 7), jn, (r mod 7), ch, p. repeat split; auto. lia. }
  destruct W as [->|W].
  { exfalso. destruct es as [|[[r c] x] es]; [congruence|]. destruct (IN r c x (or_introl eq_refl)) as [jt [jn [d [ch [p [E1 [E2 [E3 ->]]]]]]]].
    assert (Q : leaf JNull [jn; ch; p] x) by (apply L'; exists jt, jn, d, ch, c, p; repeat split; auto; left; reflexivity). destruct Q as [m [v [Q _]]]. discriminate. }
  assert (JM : exists m, J = JObj m) by (destruct W as [m [-> _]]; exists m; reflexivity). destruct JM as [m ->].
  assert (K : known joints names (JObj m)).
  { intros jn ch p x Q. apply L' in Q. destruct Q as [jt [jn' [d [ch' [c [p' [E1 [E2 [_ [E3 Q]]]]]]]]]]. injection Q as <- <- <-.
    rewrite (index_own _ _ _ OJ E1), (index_own _ _ _ own_param_names E2), (index_own _ _ _ ON E3). repeat split; discriminate. }
  assert (SAME : forall e, In e es <-> In e (flat_map snd (flat_map (rd_joint joints names) m))).
  { intros [[r c] x]. rewrite all_in. split.
    - intros I. destruct (IN _ _ _ I) as [jt [jn [d [ch [p [E1 [E2 [E3 ->]]]]]]]]. exists jn, ch, p, jt, d. split; [apply L'; exists jt, jn, d, ch, c, p; auto|].
      rewrite (index_own _ _ _ OJ E1), (index_own _ _ _ own_param_names E2), (index_own _ _ _ ON E3). auto.
    - intros [jn [ch [p [jt [d [Q [E1 [E2 [E3 ->]]]]]]]]]. apply L' in Q. destruct Q as [jt' [jn' [d' [ch' [c' [p' [F1 [F2 [I [F3 Q]]]]]]]]]]. injection Q as <- <- <-.
      rewrite (index_own _ _ _ OJ F1) in E1. rewrite (index_own _ _ _ own_param_names F2) in E2. rewrite (index_own _ _ _ ON F3) in E3. injection E1 as <-. injection E2 as <-. injection E3 as <-. exact I. }
  eexists _, _. split; [reflexivity|]. unfold transform_from_json, parse_json.
  change (find_key (top P (JObj m)) (lit "parameters")) with (Ok P). cbn [obind].
  assert (NM : collect (fun e => let* n := get_str (snd e) in Ok [n]) (jitems P) = Ok names).
  { unfold P. assert (G : forall its : list (str * json), forall ns, map snd its = map JStr ns -> collect (fun e => let* n := get_str (snd e) in Ok [n]) its = Ok ns).
    { induction its as [|[k v] its IH]; intros [|n ns] Q; try discriminate; [reflexivity|]. cbn [map snd] in Q. injection Q as -> Q. cbn [collect snd get_str obind]. rewrite (IH ns Q). reflexivity. }
    apply G. apply items_arr. }
  rewrite NM. cbn [obind]. change (find_key (top P (JObj m)) (lit "joints")) with (Ok (JObj m)). cbn [obind jitems]. rewrite (rows_read joints names m W K). cbn [obind]. split; [reflexivity|]. cbn [t_names t_entries t_offsets t_active].
  split; [reflexivity|]. split; [apply NoDup_Permutation; [apply nodup_fst; exact ND|exact (all_once joints names m W)|exact SAME]|]. split; [reflexivity|]. split; [rewrite map_length, seq_length; reflexivity|].
  intros i. set (f := fun r => existsb (Nat.eqb r) (map fst (flat_map (rd_joint joints names) m))).
  assert (F : f i = true <-> exists c x, In (i, c, x) es).
  { unfold f. rewrite existsb_exists. transitivity (In i (map fst (flat_map (rd_joint joints names) m))).
    - split; [intros [y [I Q]]; apply Nat.eqb_eq in Q; subst; exact I|intros I; exists i; split; [exact I|apply Nat.eqb_refl]].
    - rewrite (active_in joints names m i W K). split; intros [c [x I]]; exists c, x; apply SAME; exact I. }
  destruct (Nat.lt_ge_cases i (List.length joints * 7)) as [Li|Li].
  - rewrite (nth_indep _ false (f 0)) by (rewrite map_length, seq_length; exact Li). rewrite (map_nth f). rewrite seq_nth by exact Li. exact F.
  - rewrite nth_overflow by (rewrite map_length, seq_length; exact Li). split; [discriminate|]. intros [c [x I]]. destruct (B _ _ _ I). lia.
Qed.
Print Assumptions transform_json_round_trip.

Definition two_joints : list str := [lit "root"; lit "arm"].
Definition some_transform : jtransform := JT three [(0, 0, 1%R); (8, 2, 2%R); (8, 1, 3%R)] (repeat 0%R 14) (repeat true 14).
Example transform_json_met : own_names two_joints /\ own_names (t_names some_transform) /\ t_entries some_transform <> [] /\ NoDup (map fst (t_entries some_transform)) /\
  forall r c x, In (r, c, x) (t_entries some_transform) -> r < List.length two_joints * 7 /\ c < List.length (t_names some_transform).
Proof.
  split; [unfold own_names, two_joints; repeat (constructor; [cbn; intuition discriminate|]); constructor|]. split; [apply limits_json_met|]. split; [discriminate|].
  split; [cbn; repeat (constructor; [cbn; intuition discriminate|]); constructor|]. intros r c x I. cbn in I |- *. destruct I as [Q|[Q|[Q|[]]]]; injection Q as <- <- _; lia.
Qed.

(** ** Any value *)
Definition safe {X} (Q : X -> Prop) (o : outcome X) : Prop := o = Throw \/ exists x, o = Ok x /\ Q x.
Lemma collect_safe {A X} (f : A -> outcome (list X)) (Q : X -> Prop) : (forall a, safe (List.Forall Q) (f a)) -> forall l, safe (List.Forall Q) (collect f l).
Proof.
  intros H. induction l as [|a l IH]; [right; exists []; split; [reflexivity|constructor]|]. cbn [collect]. destruct (H a) as [->|[x [-> Fx]]]; [left; reflexivity|]. cbn [obind].
  destruct IH as [->|[y [-> Fy]]]; [left; reflexivity|]. right. exists (x ++ y). split; [reflexivity|]. apply Forall_app. split; assumption.
Qed.
Lemma index_lt n l k : index_from n l 0 = Some k -> k < List.length l.
Proof. intros E. apply index_at in E. apply nth_error_Some. congruence. Qed.
Lemma safe_rows joints names l : safe (List.Forall (fun re => fst re < List.length joints * 7 /\ List.Forall (fun e => fst (fst e) = fst re /\ snd (fst e) < List.length names) (snd re))) (collect (joint_from joints names) l).
Proof.
  apply collect_safe. intros [jn v]. unfold joint_from. cbn [fst snd]. destruct (index_from jn joints 0) as [jt|] eqn:E; [|left; reflexivity]. apply index_lt in E. apply collect_safe. intros [ch w].
  unfold channel_from. cbn [fst snd]. destruct (index_from ch param_names 0) as [d|] eqn:E2; [|left; reflexivity]. apply lt7 in E2.
  destruct (collect_safe (entry_from names (jt * 7 + d)) (fun e => fst (fst e) = jt * 7 + d /\ snd (fst e) < List.length names)) with (l := jitems w) as [->|[es [-> F]]].
  - intros [p x]. unfold entry_from. cbn [fst snd]. destruct (get_num x) eqn:G; [|destruct x; discriminate || (left; reflexivity)..]. cbn [obind]. destruct (index_from p names 0) as [k|] eqn:E3; [|left; reflexivity].
    right. eexists. split; [reflexivity|]. constructor; [|constructor]. cbn. split; [reflexivity|exact (index_lt _ _ _ E3)].
  - left. reflexivity.
  - right. eexists. split; [reflexivity|]. constructor; [|constructor]. cbn [fst snd]. split; [lia|exact F].
Qed.
(** C129. Whatever is read, the result is a transform whose entries are ones of joints and parameters that exist; no exception leaves the function. *)
Theorem transform_json_any joints j : exists t, transform_from_json joints j = Ok t /\ List.length (t_offsets t) = List.length joints * 7 /\ List.length (t_active t) = List.length joints * 7 /\
  forall r c x, In (r, c, x) (t_entries t) -> r < List.length joints * 7 /\ c < List.length (t_names t) /\ nth r (t_active t) false = true.
Proof.
  assert (I : exists t, Ok (identity_of joints) = Ok t /\ List.length (t_offsets t) = List.length joints * 7 /\ List.length (t_active t) = List.length joints * 7 /\
    forall r c x, In (r, c, x) (t_entries t) -> r < List.length joints * 7 /\ c < List.length (t_names t) /\ nth r (t_active t) false = true).
  { exists (identity_of joints). split; [reflexivity|]. unfold identity_of. cbn [t_offsets t_active t_entries t_names]. rewrite !repeat_length. split; [reflexivity|]. split; [reflexivity|]. intros r c x H.
    apply in_map_iff in H. destruct H as [i [Q H]]. injection Q as <- <- _. apply in_seq in H. split; [lia|]. split.
    - assert (L : forall l, List.length (flat_map (fun jn => map (fun ch => jn ++ "_"%char :: ch) param_names) l) = List.length l * 7).
      { induction l as [|a l IH]; [reflexivity|]. cbn [flat_map]. rewrite app_length, IH, map_length. reflexivity. }
      rewrite L. lia.
    - rewrite (nth_indep _ false true) by (rewrite repeat_length; lia). apply nth_repeat. }
  unfold transform_from_json, parse_json. destruct (find_key j (lit "parameters")) as [ps| | | |] eqn:E1; [|exact I|destruct j; try discriminate; cbn in E1; destruct (lookup _ _); discriminate..]. cbn [obind].
  destruct (collect_safe (fun e : str * json => let* n := get_str (snd e) in Ok [n]) (fun _ => True)) with (l := jitems ps) as [->|[names [-> _]]]; [|exact I|].
  { intros [k v]. cbn [snd]. destruct v; try (left; reflexivity). right. eexists. split; [reflexivity|]. repeat constructor. }
  cbn [obind]. destruct (find_key j (lit "joints")) as [js| | | |] eqn:E2; [|exact I|destruct j; try discriminate; cbn in E2; destruct (lookup _ _); discriminate..]. cbn [obind].
  destruct (safe_rows joints names (jitems js)) as [->|[rows [-> F]]]; [exact I|]. cbn [obind]. eexists. split; [reflexivity|]. cbn [t_offsets t_active t_entries t_names]. rewrite repeat_length, map_length, seq_length.
  split; [reflexivity|]. split; [reflexivity|]. intros r c x H. apply in_flat_map in H. destruct H as [[r' es] [H J]]. cbn [snd] in J. pose proof F as F'. rewrite Forall_forall in F'. destruct (F' _ H) as [A B]. cbn [fst snd] in *. rewrite Forall_forall in B.
  destruct (B _ J) as [C D]. cbn [fst snd] in *. subst r'. split; [exact A|]. split; [exact D|]. set (f := fun r0 => existsb (Nat.eqb r0) (map fst rows)).
  rewrite (nth_indep _ false (f 0)) by (rewrite map_length, seq_length; exact A). rewrite (map_nth f). rewrite seq_nth by exact A. unfold f. apply existsb_exists. exists r. split; [change r with (fst (r, es)); apply in_map; exact H|apply Nat.eqb_refl].
Qed.
Print Assumptions transform_json_any.
Example transform_json_any_met : transform_from_json one_joint JNull = Ok (identity_of one_joint).
Proof. reflexivity. Qed.

(** C129. A transform without entries becomes the identity, with other parameters. *)
Theorem transform_json_no_entries_refuted : exists t j t', transform_to_json one_joint t = Ok j /\ transform_from_json one_joint j = Ok t' /\ t_entries t = [] /\ t_names t' <> t_names t /\ t_entries t' <> [].
Proof.
  exists (JT three [] (repeat 0%R 7) (repeat false 7)). eexists _, _. split; [lazy -[IZR]; reflexivity|]. split; [lazy -[IZR]; reflexivity|]. split; [reflexivity|]. split; discriminate.
Qed.
Print Assumptions transform_json_no_entries_refuted.

(** C129. The offsets are not written. *)
Theorem transform_json_offsets_refuted : exists t j t', transform_to_json one_joint t = Ok j /\ transform_from_json one_joint j = Ok t' /\ t_names t' = t_names t /\ t_offsets t' <> t_offsets t.
Proof.
  exists (JT three [(0, 0, 1%R)] (repeat 1%R 7) (true :: repeat false 6)). eexists _, _. split; [lazy -[IZR]; reflexivity|]. split; [lazy -[IZR]; reflexivity|]. split; [reflexivity|].
  cbn. intros Q. injection Q as Q. lra.
Qed.
Print Assumptions transform_json_offsets_refuted.

(** C129. An unknown parameter in one entry replaces the whole transform by the identity, without an error. *)
Theorem transform_json_damaged_refuted : exists j, find_key j (lit "parameters") = Ok (JArr [JStr (lit "a")]) /\ transform_from_json one_joint j = Ok (identity_of one_joint) /\ ~ In (lit "a") (t_names (identity_of one_joint)).
Proof.
  exists (JObj [(lit "joints", JObj [(lit "root", JObj [(lit "tx", JObj [(lit "a", JNum 1); (lit "b", JNum 1)])])]); (lit "parameters", JArr [JStr (lit "a")])]).
  split; [reflexivity|]. split; [lazy -[IZR]; reflexivity|]. cbn. intuition discriminate.
Qed.
Print Assumptions transform_json_damaged_refuted.
