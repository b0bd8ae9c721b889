(** C128. Parameter sets, pose constraints, limits and matrices as JSON. *)

From Coq Require Import List Arith Ascii Bool String Reals Lia Lra Permutation Sorted.
From Verif Require Import Prelude Loops Str_model Lines_model Marker_model LocIO_model LimIO_model LimIO_spec ModelDef_model ModelDef_spec ModelDef_props Json_model Json_spec.
Import ListNotations.
Local Open Scope list_scope.
Local Open Scope outcome_scope.

(** ** Objects *)
Lemma s_ltb_irrefl a : s_ltb a a = false.
Proof. induction a as [|c a IH]; [reflexivity|]. cbn [s_ltb]. rewrite Nat.ltb_irrefl. exact IH. Qed.
Lemma s_ltb_trans : forall a b c, s_ltb a b = true -> s_ltb b c = true -> s_ltb a c = true.
Proof.
  induction a as [|x a IH]; intros [|y b] [|z c]; cbn [s_ltb]; try discriminate; auto.
  intros H K. destruct (code x <? code z) eqn:C; [reflexivity|]. apply Nat.ltb_ge in C.
  destruct (code x <? code y) eqn:A; [apply Nat.ltb_lt in A|apply Nat.ltb_ge in A; destruct (code y <? code x) eqn:D; [discriminate|apply Nat.ltb_ge in D]];
    (destruct (code y <? code z) eqn:B; [apply Nat.ltb_lt in B|apply Nat.ltb_ge in B; destruct (code z <? code y) eqn:E; [discriminate|apply Nat.ltb_ge in E]]); try lia.
  assert (G : (code z <? code x) = false) by (apply Nat.ltb_ge; lia). rewrite G. exact (IH _ _ H K).
Qed.
Lemma s_ltb_total : forall a b, a <> b -> s_ltb a b = false -> s_ltb b a = true.
Proof.
  induction a as [|x a IH]; intros [|y b] N; cbn [s_ltb]; try discriminate; try congruence; auto.
  destruct (code x <? code y) eqn:A; [discriminate|]. destruct (code y <? code x) eqn:B; [reflexivity|].
  intros H. apply IH; [|exact H]. intros ->. apply N. f_equal. apply Nat.ltb_ge in A, B. assert (E : code x = code y) by lia. unfold code in E.
  rewrite <- (ascii_nat_embedding x), <- (ascii_nat_embedding y), E. reflexivity.
Qed.
Lemma s_eqb_eq a b : s_eqb a b = true <-> a = b.
Proof. unfold s_eqb. destruct (list_eq_dec ascii_dec a b); split; congruence. Qed.

Definition key_lt {X} (p q : str * X) : Prop := s_ltb (fst p) (fst q) = true.
Definition sorted {X} (m : list (str * X)) : Prop := StronglySorted key_lt m.

Lemma sorted_keys {X} (m : list (str * X)) : sorted m -> NoDup (map fst m).
Proof.
  induction 1 as [|p m S IH F]; [constructor|]. cbn. constructor; [|exact IH]. intros I. apply in_map_iff in I. destruct I as [q [E I]]. rewrite Forall_forall in F. specialize (F q I).
  unfold key_lt in F. rewrite E, s_ltb_irrefl in F. discriminate.
Qed.
Lemma keys_unique {X} (m : list (str * X)) k a b : NoDup (map fst m) -> In (k, a) m -> In (k, b) m -> a = b.
Proof.
  induction m as [|[k' v] m IH]; [intros _ []|]. cbn. intros N. inversion N as [|? ? N1 N2]; subst. intros [E|I] [E'|I'].
  - congruence.
  - injection E as -> ->. exfalso. apply N1. change k with (fst (k, b)). apply in_map. exact I'.
  - injection E' as -> ->. exfalso. apply N1. change k with (fst (k, a)). apply in_map. exact I.
  - exact (IH N2 I I').
Qed.
Lemma obj_set_spec k v m : sorted m -> sorted (obj_set k v m) /\ forall n w, In (n, w) (obj_set k v m) <-> (n = k /\ w = v) \/ (n <> k /\ In (n, w) m).
Proof.
  induction m as [|[k' v'] m IH]; intros S; cbn [obj_set].
  { split; [repeat constructor|]. intros n w. cbn. split; [intros [E|[]]; injection E as <- <-; left; split; reflexivity|intros [[-> ->]|[_ []]]; left; reflexivity]. }
  pose proof (sorted_keys _ S) as N. inversion S as [|? ? S1 F]; subst. destruct (IH S1) as [IA IB]. rewrite Forall_forall in F.
  destruct (s_eqb k' k) eqn:E.
  - apply s_eqb_eq in E. subst k'. split; [constructor; [exact S1|rewrite Forall_forall; exact F]|]. intros n w. cbn. split.
    + intros [Q|I]; [injection Q as <- <-; left; split; reflexivity|]. right. split; [|right; exact I]. intros ->. cbn in N. inversion N as [|? ? N1 _]. apply N1. change k with (fst (k, w)). apply in_map. exact I.
    + intros [[-> ->]|[Q [I|I]]]; [left; reflexivity|injection I as <- <-; contradiction|right; exact I].
  - assert (D : k' <> k) by (intros Q; apply s_eqb_eq in Q; congruence). destruct (s_ltb k k') eqn:L.
    + assert (G : Forall (key_lt (k, v)) ((k', v') :: m)).
      { constructor; [exact L|]. rewrite Forall_forall. intros p I. unfold key_lt. exact (s_ltb_trans _ _ _ L (F p I)). }
      split; [constructor; [exact S|exact G]|]. intros n w. rewrite Forall_forall in G. split.
      * intros [Q|I]; [injection Q as <- <-; left; split; reflexivity|]. right. split; [|exact I]. intros ->. specialize (G _ I). unfold key_lt in G. cbn in G. rewrite s_ltb_irrefl in G. discriminate.
      * intros [[-> ->]|[_ I]]; [left; reflexivity|right; exact I].
    + split.
      * constructor; [exact IA|]. rewrite Forall_forall. intros [n w] I. apply IB in I. destruct I as [[-> ->]|[_ I]]; [|exact (F _ I)]. unfold key_lt. cbn. apply s_ltb_total; congruence.
      * intros n w. cbn [In]. rewrite IB. split; [intros [Q|[Q|[Q I]]]; [injection Q as <- <-; right; split; [exact D|left; reflexivity]|left; exact Q|right; split; [exact Q|right; exact I]]|].
        intros [Q|[Q [I|I]]]; [right; left; exact Q|left; exact I|right; right; split; assumption].
Qed.
Lemma lookup_in {X} (m : list (str * X)) k : match lookup m k with Some v => In (k, v) m | None => forall v, ~ In (k, v) m end.
Proof.
  unfold lookup. destruct (find _ m) as [[k' v]|] eqn:E; cbn.
  - apply find_some in E. destruct E as [I E]. cbn in E. apply s_eqb_eq in E. subst. exact I.
  - intros v I. pose proof (find_none _ _ E _ I) as H. cbn in H. assert (Q : s_eqb k k = true) by (apply s_eqb_eq; reflexivity). congruence.
Qed.

(** ** Loops *)
Lemma collect_map {A B} (f : A -> outcome (list B)) (g : A -> list B) l : (forall a, In a l -> f a = Ok (g a)) -> collect f l = Ok (flat_map g l).
Proof.
  induction l as [|a l IH]; intros H; [reflexivity|]. cbn [collect flat_map]. rewrite (H a (or_introl eq_refl)). cbn [obind]. rewrite IH by (intros b I; apply H; right; exact I). reflexivity.
Qed.
Lemma flat_one {A B} (f : A -> B) l : flat_map (fun a => [f a]) l = map f l.
Proof. induction l as [|a l IH]; [reflexivity|]. cbn. rewrite IH. reflexivity. Qed.
Lemma combine_snd {A B} (a : list A) (b : list B) : List.length a = List.length b -> map snd (combine a b) = b.
Proof. revert b; induction a as [|x a IH]; intros [|y b] E; try discriminate; [reflexivity|]. cbn. rewrite IH; [reflexivity|cbn in E; lia]. Qed.
Lemma items_arr l : map snd (jitems (JArr l)) = l.
Proof. cbn. apply combine_snd. rewrite map_length, seq_length. reflexivity. Qed.

(** ** Sets *)
Lemma set_names_ok s : forall names i, i + List.length names <= max_params -> exists l, set_names names i s = Ok l /\
  forall j, In j l <-> exists k p, j = JStr p /\ nth_error names k = Some p /\ In (i + k) s.
Proof.
  induction names as [|n names IH]; intros i L.
  { exists []. split; [reflexivity|]. intros j. split; [intros []|]. intros [k [p [_ [E _]]]]. destruct k; discriminate. }
  cbn [set_names]. cbn [List.length] in L. assert (A : (i <? max_params) = true) by (apply Nat.ltb_lt; lia). rewrite A. destruct (IH (S i)) as [l [E H]]; [lia|]. rewrite E. cbn [obind]. eexists. split; [reflexivity|].
  intros j. assert (B : existsb (Nat.eqb i) s = true <-> In i s).
  { rewrite existsb_exists. split; [intros [x [I Q]]; apply Nat.eqb_eq in Q; subst; exact I|intros I; exists i; split; [exact I|apply Nat.eqb_refl]]. }
  assert (C : In j l -> exists k p, j = JStr p /\ nth_error (n :: names) k = Some p /\ In (i + k) s).
  { intros I. apply H in I. destruct I as [k [p [Q [G I]]]]. exists (S k), p. replace (i + S k) with (S i + k) by lia. auto. }
  assert (D : (exists k p, j = JStr p /\ nth_error (n :: names) k = Some p /\ In (i + k) s) -> (j = JStr n /\ In i s) \/ In j l).
  { intros [[|k] [p [Q [G I]]]]; [left; cbn in G; injection G as ->; rewrite Nat.add_0_r in I; auto|]. right. apply H. exists k, p. replace (S i + k) with (i + S k) by lia. auto. }
  destruct (existsb (Nat.eqb i) s).
  - split; [intros [<-|I]; [exists 0, n; rewrite Nat.add_0_r; repeat split; apply B; reflexivity|exact (C I)]|]. intros X. destruct (D X) as [[-> _]|I]; [left; reflexivity|right; exact I].
  - split; [exact C|]. intros X. destruct (D X) as [[_ I]|I]; [apply B in I; discriminate|exact I].
Qed.

Definition set_value (names : list str) (s : list nat) (v : json) : Prop :=
  exists l, v = JArr l /\ forall j, In j l <-> exists k p, j = JStr p /\ nth_error names k = Some p /\ In k s.
Lemma sets_into_ok names : List.length names <= max_params -> forall sets m, sorted m -> NoDup (map fst sets) -> (forall n v, In (n, v) m -> ~ In n (map fst sets)) ->
  exists m', sets_into names sets m = Ok m' /\ sorted m' /\ (forall n v, In (n, v) m -> In (n, v) m') /\ (forall n s, In (n, s) sets -> exists v, In (n, v) m' /\ set_value names s v) /\
    (forall n v, In (n, v) m' -> In (n, v) m \/ exists s, In (n, s) sets /\ set_value names s v).
Proof.
  intros L. induction sets as [|[n s] sets IH]; intros m S N D.
  { exists m. split; [reflexivity|]. repeat split; [exact S|auto|intros n s []|auto]. }
  cbn [sets_into]. destruct (set_names_ok s names 0 L) as [l [E H]]. rewrite E. cbn [obind]. cbn in N. inversion N as [|? ? N1 N2]; subst.
  destruct (obj_set_spec n (JArr l) m S) as [S' O]. destruct (IH (obj_set n (JArr l) m)) as [m' [E' [SS [K [A B]]]]]; [exact S'|exact N2| |].
  { intros n' v I. apply O in I. destruct I as [[-> _]|[_ I]]; [exact N1|]. intros J. apply (D _ _ I). right. exact J. }
  assert (V : set_value names s (JArr l)) by (exists l; split; [reflexivity|exact H]).
  exists m'. split; [exact E'|]. split; [exact SS|]. repeat split.
  - intros n' v I. apply K. apply O. right. split; [|exact I]. intros ->. apply (D _ _ I). left. reflexivity.
  - intros n' s' [Q|I]; [injection Q as <- <-|exact (A _ _ I)]. exists (JArr l). split; [|exact V]. apply K. apply O. left. split; reflexivity.
  - intros n' v I. destruct (B _ _ I) as [J|[s' [J W]]]; [|right; exists s'; split; [right; exact J|exact W]]. apply O in J. destruct J as [[-> ->]|[_ J]]; [right; exists s; split; [left; reflexivity|exact V]|left; exact J].
Qed.

Lemma read_set names s v : List.length names <= max_params -> set_value names s v -> exists s', collect (set_bit names) (jitems v) = Ok s' /\
  forall k', In k' s' <-> exists k p, In k s /\ nth_error names k = Some p /\ is_param names p k'.
Proof.
  intros L [l [-> H]]. set (g := fun e : str * json => match snd e with JStr p => match index_from p names 0 with Some k => [k] | None => [] end | _ => [] end).
  assert (LT : forall p k, index_from p names 0 = Some k -> is_param names p k /\ k < List.length names).
  { intros p k E. apply index_from_param in E. destruct E as [i [-> P]]. cbn. split; [exact P|]. apply nth_error_Some. destruct P as [P _]. congruence. }
  exists (flat_map g (jitems (JArr l))). split.
  - apply collect_map. intros [k e] I. assert (J : In e l) by (rewrite <- (items_arr l); change e with (snd (k, e)); apply in_map; exact I).
    apply H in J. destruct J as [i [p [-> [E _]]]]. unfold set_bit, g. cbn [snd get_str obind]. destruct (index_from p names 0) as [q|] eqn:Q; [|reflexivity]. apply LT in Q.
    assert (A : (q <? max_params) = true) by (apply Nat.ltb_lt; lia). rewrite A. reflexivity.
  - intros k'. rewrite in_flat_map. split.
    + intros [[k e] [I G]]. assert (J : In e l) by (rewrite <- (items_arr l); change e with (snd (k, e)); apply in_map; exact I). apply H in J. destruct J as [i [p [-> [E J]]]]. exists i, p. split; [exact J|]. split; [exact E|].
      unfold g in G. cbn in G. destruct (index_from p names 0) as [q|] eqn:Q; [|destruct G]. destruct G as [<-|[]]. apply LT. exact Q.
    + intros [k [p [I [E P]]]]. assert (J : In (JStr p) l) by (apply H; exists k, p; auto). rewrite <- (items_arr l) in J. apply in_map_iff in J. destruct J as [[x e] [Q J]]. cbn in Q. subst e. exists (x, JStr p). split; [exact J|].
      unfold g. cbn. assert (Q : index_from p names 0 = Some k') by (apply index_from_param; exists k'; split; [reflexivity|exact P]). rewrite Q. left. reflexivity.
Qed.

Lemma collect_keyed {A X} (f : str * A -> outcome (list X)) : forall l, (forall p, In p l -> exists x, f p = Ok x) ->
  exists r, collect (fun p => let* s := f p in Ok [(fst p, s)]) l = Ok r /\ map fst r = map fst l /\ (forall n s, In (n, s) r <-> exists a, In (n, a) l /\ f (n, a) = Ok s).
Proof.
  induction l as [|[n a] l IH]; intros H.
  { exists []. split; [reflexivity|]. split; [reflexivity|]. intros n s. split; [intros []|intros [a [[] _]]]. }
  destruct IH as [r [E [K R]]]; [intros p I; apply H; right; exact I|]. destruct (H (n, a) (or_introl eq_refl)) as [x X1]. cbn [collect]. rewrite X1. cbn [obind]. rewrite E. cbn [obind app fst].
  exists ((n, x) :: r). split; [reflexivity|]. split; [cbn; rewrite K; reflexivity|]. intros n' s. cbn. rewrite R. split.
  - intros [Q|[b [I J]]]; [injection Q as <- <-; exists a; split; [left; reflexivity|exact X1]|exists b; split; [right; exact I|exact J]].
  - intros [b [[Q|I] J]]; [injection Q as <- <-; left; congruence|right; exists b; split; assumption].
Qed.

(** C128. The sets that are written are read again, under the same names; a member becomes the first parameter with its name. *)
Theorem sets_json_round_trip names sets : NoDup (map fst sets) -> List.length names <= 2 ^ 11 ->
  exists j r, sets_to_json names sets = Ok j /\ sets_from_json names j = Ok r /\ NoDup (map fst r) /\
    (forall n s, In (n, s) sets -> exists s', In (n, s') r /\ forall k', In k' s' <-> exists k p, In k s /\ nth_error names k = Some p /\ is_param names p k') /\
    (forall n, In n (map fst r) -> In n (map fst sets)).
Proof.
  intros N L. change (List.length names <= max_params) in L. destruct (sets_into_ok names L sets [] ltac:(constructor) N ltac:(intros ? ? [])) as [m [E [S [_ [A B]]]]].
  exists (JObj m). unfold sets_to_json. rewrite E. cbn [obind]. unfold sets_from_json. cbn [jitems].
  destruct (collect_keyed (fun p => collect (set_bit names) (jitems (snd p))) m) as [r [R [K H]]].
  { intros [n v] I. destruct (B _ _ I) as [[]|[s [_ V]]]. destruct (read_set names s v L V) as [s' [Q _]]. exists s'. exact Q. }
  exists r. split; [reflexivity|]. split; [exact R|]. split; [rewrite K; exact (sorted_keys _ S)|]. split.
  - intros n s I. destruct (A _ _ I) as [v [J V]]. destruct (read_set names s v L V) as [s' [Q P]]. exists s'. split; [apply H; exists v; split; assumption|exact P].
  - intros n I. rewrite K in I. apply in_map_iff in I. destruct I as [[n' v] [<- I]]. destruct (B _ _ I) as [[]|[s [J _]]]. change (fst (n', v)) with (fst (n', s)). apply in_map. exact J.
Qed.
Print Assumptions sets_json_round_trip.

(** C128. With names of their own and members that exist, the sets are the same. *)
Theorem sets_json_same names sets : NoDup (map fst sets) -> List.length names <= 2 ^ 11 -> own_names names -> (forall n s k, In (n, s) sets -> In k s -> k < List.length names) ->
  exists j r, sets_to_json names sets = Ok j /\ sets_from_json names j = Ok r /\ NoDup (map fst r) /\
    (forall n s, In (n, s) sets -> exists s', In (n, s') r /\ forall k, In k s' <-> In k s) /\ (forall n, In n (map fst r) -> In n (map fst sets)).
Proof.
  intros N L O B. destruct (sets_json_round_trip names sets N L) as [j [r [E [R [K [A C]]]]]]. exists j, r. split; [exact E|]. split; [exact R|]. split; [exact K|]. split; [|exact C].
  intros n s I. destruct (A _ _ I) as [s' [J H]]. exists s'. split; [exact J|]. intros k. rewrite H. split.
  - intros [k0 [p [I0 [P [Q _]]]]]. assert (k0 = k); [|subst; exact I0]. apply (proj1 (NoDup_nth_error names) O); [apply nth_error_Some; congruence|congruence].
  - intros I0. destruct (nth_error names k) as [p|] eqn:P; [|apply nth_error_None in P; specialize (B _ _ _ I I0); lia]. exists k, p. split; [exact I0|]. split; [exact P|]. split; [exact P|].
    intros i Li Q. assert (i = k); [|lia]. apply (proj1 (NoDup_nth_error names) O); [apply nth_error_Some; congruence|congruence].
Qed.
Print Assumptions sets_json_same.

Definition three : list str := [lit "b"; lit "a"; lit "c"].
Example sets_json_met : sets_to_json three [(lit "t", [2; 0]); (lit "s", [])] = Ok (JObj [(lit "s", JArr []); (lit "t", JArr [JStr (lit "b"); JStr (lit "c")])]) /\
  sets_from_json three (JObj [(lit "s", JArr []); (lit "t", JArr [JStr (lit "b"); JStr (lit "c")])]) = Ok [(lit "s", []); (lit "t", [0; 2])].
Proof. split; vm_compute; reflexivity. Qed.

(** C128. A member that is not the first parameter of its name becomes another one. *)
Theorem sets_json_same_names_refuted : exists names j s', sets_to_json names [(lit "t", [1])] = Ok j /\ sets_from_json names j = Ok [(lit "t", s')] /\ ~ In 1 s'.
Proof. exists [lit "a"; lit "a"], (JObj [(lit "t", JArr [JStr (lit "a")])]), [0]. split; [vm_compute; reflexivity|]. split; [vm_compute; reflexivity|]. intros [A|[]]; discriminate. Qed.
Print Assumptions sets_json_same_names_refuted.
