(** C128. Pose constraints as JSON. *)

From Coq Require Import List Arith Ascii Bool String Reals Lia Lra Permutation Sorted.
From Verif Require Import Prelude Loops Str_model Lines_model Marker_model LocIO_model LimIO_model ModelDef_model ModelDef_spec ModelDef_props Json_model Json_spec Json_props JsonMat_props.
Import ListNotations.
Local Open Scope list_scope.
Local Open Scope outcome_scope.

(** Objects of nonempty objects of numbers, and what they hold. *)
Definition nested (m : list (str * json)) : Prop :=
  sorted m /\ forall n v, In (n, v) m -> exists o, v = JObj o /\ o <> [] /\ sorted o /\ forall k w, In (k, w) o -> exists x, w = JNum x.
Definition holds (m : list (str * json)) (n k : str) (x : R) : Prop := exists o, In (n, JObj o) m /\ In (k, JNum x) o.

Lemma obj_set_nonempty k v m : obj_set k v m <> [].
Proof. destruct m as [|[k' v'] m]; cbn; [discriminate|]. destruct (s_eqb k' k); [discriminate|]. destruct (s_ltb k k'); discriminate. Qed.
Lemma put_ok m n k x : nested m -> nested (put m n k x) /\ forall n' k' x', holds (put m n k x) n' k' x' <-> (n' = n /\ k' = k /\ x' = x) \/ ((n' <> n \/ k' <> k) /\ holds m n' k' x').
Proof.
  intros [S V]. unfold put. set (o := match lookup m n with Some (JObj o) => o | _ => [] end).
  assert (O : sorted o /\ (forall k w, In (k, w) o -> exists x, w = JNum x) /\ (forall k' x', holds m n k' x' <-> In (k', JNum x') o)).
  { pose proof (lookup_in m n) as L. unfold o. destruct (lookup m n) as [v|].
    - destruct (V _ _ L) as [o' [-> [_ [S' W]]]]. split; [exact S'|]. split; [exact W|]. intros k' x'. split; [|intros I; exists o'; split; assumption].
      intros [o'' [I J]]. pose proof (keys_unique m n _ _ (sorted_keys _ S) L I) as Q. injection Q as ->. exact J.
    - split; [constructor|]. split; [intros ? ? []|]. intros k' x'. split; [|intros []]. intros [o' [I _]]. exact (L _ I). }
  destruct O as [SO [WO HO]]. destruct (obj_set_spec k (JNum x) o SO) as [S1 I1]. destruct (obj_set_spec n (JObj (obj_set k (JNum x) o)) m S) as [S2 I2]. split.
  - split; [exact S2|]. intros n' v I. apply I2 in I. destruct I as [[-> ->]|[_ I]]; [|exact (V _ _ I)]. exists (obj_set k (JNum x) o). split; [reflexivity|]. split; [apply obj_set_nonempty|]. split; [exact S1|].
    intros k' w J. apply I1 in J. destruct J as [[_ ->]|[_ J]]; [exists x; reflexivity|exact (WO _ _ J)].
  - intros n' k' x'. split.
    + intros [o' [I J]]. apply I2 in I. destruct I as [[-> Q]|[N I]]; [|right; split; [left; exact N|exists o'; split; assumption]]. injection Q as ->. apply I1 in J.
      destruct J as [[-> Q]|[N J]]; [injection Q as ->; left; repeat split|right; split; [right; exact N|apply HO; exact J]].
    + intros [[-> [-> ->]]|[N [o' [I J]]]]; [exists (obj_set k (JNum x) o); split; [apply I2; left; split; reflexivity|apply I1; left; split; reflexivity]|].
      destruct (list_eq_dec ascii_dec n' n) as [->|D]; [|exists o'; split; [apply I2; right; split; assumption|exact J]]. destruct N as [N|N]; [contradiction|].
      exists (obj_set k (JNum x) o). split; [apply I2; left; split; reflexivity|]. apply I1. right. split; [exact N|]. apply HO. exists o'. split; assumption.
Qed.

Section Poses.
Context (names : list str) (O : own_names names).
Lemma name_once i k p : nth_error names i = Some p -> nth_error names k = Some p -> i = k.
Proof. intros A B. apply (proj1 (NoDup_nth_error names) O); [apply nth_error_Some; congruence|congruence]. Qed.

Lemma pose_into_ok n : forall vs m, nested m -> NoDup (map fst vs) -> (forall k, In k (map fst vs) -> k < List.length names) -> (forall k p x, In k (map fst vs) -> nth_error names k = Some p -> ~ holds m n p x) ->
  exists m', pose_into names n vs m = Ok m' /\ nested m' /\ forall n' p x, holds m' n' p x <-> holds m n' p x \/ (n' = n /\ exists k, In (k, x) vs /\ nth_error names k = Some p).
Proof.
  induction vs as [|[k x] vs IH]; intros m W N B D.
  { exists m. split; [reflexivity|]. split; [exact W|]. intros n' p x. split; [auto|]. intros [H|[_ [k [[] _]]]]; exact H. }
  cbn [map fst] in *. inversion N as [|? ? N1 N2]; subst. cbn [pose_into]. destruct (nth_error names k) as [p|] eqn:E; [|apply nth_error_None in E; specialize (B k (or_introl eq_refl)); lia].
  destruct (put_ok m n p x W) as [W' H]. destruct (IH (put m n p x)) as [m' [Q [W'' G]]]; [exact W'|exact N2|intros i I; apply B; right; exact I| |].
  { intros i q y I J K. apply H in K. destruct K as [[_ [-> _]]|[_ K]]; [|exact (D _ _ _ (or_intror I) J K)]. apply N1. rewrite (name_once _ _ _ E J). exact I. }
  exists m'. split; [exact Q|]. split; [exact W''|]. intros n' q y. rewrite G, H. split.
  - intros [[[-> [-> ->]]|[_ K]]|[-> [i [I J]]]]; [right; split; [reflexivity|]; exists k; split; [left; reflexivity|exact E]|left; exact K|right; split; [reflexivity|]; exists i; split; [right; exact I|exact J]].
  - intros [K|[-> [i [[I|I] J]]]].
    + left. right. split; [|exact K]. destruct (list_eq_dec ascii_dec n' n) as [->|X]; [right|left; exact X]. intros ->. exact (D k p y (or_introl eq_refl) E K).
    + injection I as -> ->. left. left. split; [reflexivity|]. split; congruence.
    + right. split; [reflexivity|]. exists i. split; assumption.
Qed.
Lemma poses_into_ok : forall ps m, nested m -> NoDup (map fst ps) -> (forall n vs, In (n, vs) ps -> NoDup (map fst vs) /\ forall k, In k (map fst vs) -> k < List.length names) ->
  (forall n p x, In n (map fst ps) -> ~ holds m n p x) ->
  exists m', poses_into names ps m = Ok m' /\ nested m' /\ forall n p x, holds m' n p x <-> holds m n p x \/ exists vs k, In (n, vs) ps /\ In (k, x) vs /\ nth_error names k = Some p.
Proof.
  induction ps as [|[n vs] ps IH]; intros m W N V D.
  { exists m. split; [reflexivity|]. split; [exact W|]. intros n p x. split; [auto|]. intros [H|[vs [k [[] _]]]]; exact H. }
  cbn [map fst] in *. inversion N as [|? ? N1 N2]; subst. destruct (V n vs (or_introl eq_refl)) as [V1 V2]. cbn [poses_into].
  destruct (pose_into_ok n vs m W V1 V2) as [m1 [E [W1 H]]]; [intros k p x _ _; exact (D n p x (or_introl eq_refl))|]. rewrite E. cbn [obind].
  destruct (IH m1) as [m' [Q [W' G]]]; [exact W1|exact N2|intros n' vs' I; exact (V n' vs' (or_intror I))| |].
  { intros n' p x I K. apply H in K. destruct K as [K|[-> _]]; [exact (D _ _ _ (or_intror I) K)|exact (N1 I)]. }
  exists m'. split; [exact Q|]. split; [exact W'|]. intros n' p x. rewrite G, H. split.
  - intros [[K|[-> [k [I J]]]]|[vs' [k [I J]]]]; [left; exact K|right; exists vs, k; split; [left; reflexivity|split; assumption]|right; exists vs', k; split; [right; exact I|exact J]].
  - intros [K|[vs' [k [[I|I] J]]]]; [left; left; exact K| |right; exists vs', k; split; assumption]. injection I as <- <-. left. right. split; [reflexivity|]. exists k. exact J.
Qed.

Definition read_entry (e : str * json) : list (nat * R) :=
  match snd e with JNum x => match index_from (fst e) names 0 with Some k => [(k, x)] | None => [] end | _ => [] end.
Lemma read_entries o : (forall k w, In (k, w) o -> exists x, w = JNum x) -> collect (pose_value names) o = Ok (flat_map read_entry o).
Proof.
  intros H. apply collect_map. intros [k w] I. destruct (H _ _ I) as [x ->]. unfold pose_value, read_entry. cbn [fst snd get_num obind]. destruct (index_from k names 0); reflexivity.
Qed.
Lemma entries_in o k x : In (k, x) (flat_map read_entry o) <-> exists p, In (p, JNum x) o /\ is_param names p k.
Proof.
  rewrite in_flat_map. split.
  - intros [[p w] [I J]]. unfold read_entry in J. cbn in J. destruct w; try destruct J. destruct (index_from p names 0) as [i|] eqn:E; [|destruct J]. destruct J as [Q|[]]. injection Q as -> ->.
    exists p. split; [exact I|]. apply index_from_param in E. destruct E as [j [-> P]]. exact P.
  - intros [p [I P]]. exists (p, JNum x). split; [exact I|]. unfold read_entry. cbn. assert (E : index_from p names 0 = Some k) by (apply index_from_param; exists k; split; [reflexivity|exact P]). rewrite E. left. reflexivity.
Qed.
Lemma entries_once o : NoDup (map fst o) -> NoDup (map fst (flat_map read_entry o)).
Proof.
  induction o as [|[p w] o IH]; intros N; [constructor|]. cbn [map fst] in N. inversion N as [|? ? N1 N2]; subst. cbn [flat_map]. unfold read_entry at 1. cbn. destruct w; try exact (IH N2).
  destruct (index_from p names 0) as [i|] eqn:E; [|exact (IH N2)]. cbn. constructor; [|exact (IH N2)]. intros I. apply in_map_iff in I. destruct I as [[j y] [Q I]]. cbn in Q. subst j.
  apply entries_in in I. destruct I as [q [I [P _]]]. apply index_from_param in E. destruct E as [j [-> [E _]]]. cbn in P. rewrite E in P. injection P as ->. apply N1. change q with (fst (q, JNum y)). apply in_map. exact I.
Qed.
End Poses.

Lemma nodup_fst {A B} (l : list (A * B)) : NoDup (map fst l) -> NoDup l.
Proof. exact (NoDup_map_inv fst l). Qed.

(** C128. Pose constraints that constrain something are read again under the same names, with the same values in another order. *)
Theorem poses_json_round_trip names ps : own_names names -> NoDup (map fst ps) ->
  (forall n vs, In (n, vs) ps -> NoDup (map fst vs) /\ forall k, In k (map fst vs) -> k < List.length names) ->
  exists j r, poses_to_json names ps = Ok j /\ poses_from_json names j = Ok r /\ NoDup (map fst r) /\
    (forall n vs, In (n, vs) ps -> vs <> [] -> exists vs', In (n, vs') r /\ Permutation vs vs') /\ (forall n vs', In (n, vs') r -> exists vs, In (n, vs) ps /\ vs <> []).
Proof.
  intros O N V. destruct (poses_into_ok names O ps []) as [m [E [[S W] H]]]; [split; [constructor|intros ? ? []]|exact N|exact V|intros n p x _ [o [[] _]]|].
  assert (H' : forall n p x, holds m n p x <-> exists vs k, In (n, vs) ps /\ In (k, x) vs /\ nth_error names k = Some p).
  { intros n p x. rewrite H. split; [intros [[o [[] _]]|K]; exact K|auto]. }
  exists (JObj m). unfold poses_to_json. rewrite E. cbn [obind]. unfold poses_from_json. cbn [jitems].
  destruct (collect_keyed (fun p => collect (pose_value names) (jitems (snd p))) m) as [r [R [K G]]].
  { intros [n v] I. destruct (W _ _ I) as [o [-> [_ [_ F]]]]. eexists. cbn [snd jitems]. apply read_entries. exact F. }
  exists r. split; [reflexivity|]. split; [exact R|]. split; [rewrite K; exact (sorted_keys _ S)|]. split.
  - intros n vs I NE. destruct vs as [|[k x] vs]; [congruence|]. destruct (V _ _ I) as [V1 V2]. set (all := (k, x) :: vs) in *.
    assert (HN : forall i, In i (map fst all) -> exists p, nth_error names i = Some p).
    { intros i J. destruct (nth_error names i) as [p|] eqn:Q; [exists p; reflexivity|]. apply nth_error_None in Q. specialize (V2 _ J). lia. }
    destruct (HN k (or_introl eq_refl)) as [p P]. assert (A : holds m n p x) by (apply H'; exists all, k; split; [exact I|split; [left; reflexivity|exact P]]).
    destruct A as [o [J _]]. destruct (W _ _ J) as [o' [Q [_ [S' F]]]]. injection Q as <-. exists (flat_map (read_entry names) o). split; [apply G; exists (JObj o); split; [exact J|apply read_entries; exact F]|].
    apply NoDup_Permutation; [apply nodup_fst; exact V1|apply nodup_fst; apply entries_once; exact (sorted_keys _ S')|]. intros [i y]. rewrite entries_in. split.
    + intros L. destruct (HN i) as [q Q]; [change i with (fst (i, y)); apply in_map; exact L|]. assert (A : holds m n q y) by (apply H'; exists all, i; auto). destruct A as [o' [J' L']].
      pose proof (keys_unique m n _ _ (sorted_keys _ S) J J') as X. injection X as <-. exists q. split; [exact L'|]. split; [exact Q|]. intros a La B. rewrite (name_once names O _ _ _ B Q) in La. lia.
    + intros [q [L [Q _]]]. assert (A : holds m n q y) by (exists o; split; assumption). apply H' in A. destruct A as [vs' [i' [I' [L' Q']]]]. rewrite (name_once names O _ _ _ Q Q').
      rewrite (keys_unique ps n _ _ N I I'). exact L'.
  - intros n vs' I. apply G in I. destruct I as [v [I _]]. destruct (W _ _ I) as [o [-> [NE [_ F]]]]. destruct o as [|[p w] o]; [congruence|]. destruct (F p w (or_introl eq_refl)) as [x ->].
    assert (A : holds m n p x) by (eexists; split; [exact I|left; reflexivity]). apply H' in A. destruct A as [vs [k [A [B _]]]]. exists vs. split; [exact A|]. intros ->. destruct B.
Qed.
Print Assumptions poses_json_round_trip.

Example poses_json_met : own_names three /\ NoDup (map fst [(lit "q", [(0, 1%R); (1, 2%R)]); (lit "p", [(2, 3%R)])]) /\
  poses_to_json three [(lit "q", [(0, 1%R); (1, 2%R)]); (lit "p", [(2, 3%R)])] = Ok (JObj [(lit "p", JObj [(lit "c", JNum 3)]); (lit "q", JObj [(lit "a", JNum 2); (lit "b", JNum 1)])]) /\
  poses_from_json three (JObj [(lit "p", JObj [(lit "c", JNum 3)]); (lit "q", JObj [(lit "a", JNum 2); (lit "b", JNum 1)])]) = Ok [(lit "p", [(2, 3%R)]); (lit "q", [(1, 2%R); (0, 1%R)])].
Proof. split; [apply limits_json_met|]. split; [repeat constructor; cbn; intuition discriminate|]. split; lazy -[IZR]; reflexivity. Qed.

(** C128. A pose constraint without values is not written. *)
Theorem poses_json_empty_refuted : exists names ps n j, In n (map fst ps) /\ poses_to_json names ps = Ok j /\ poses_from_json names j = Ok [].
Proof. exists three, [(lit "q", [])], (lit "q"), (JObj []). split; [left; reflexivity|]. split; reflexivity. Qed.
Print Assumptions poses_json_empty_refuted.

(** C128. The order of the values of a pose constraint is not kept. *)
Theorem poses_json_order_refuted : exists names ps j r, poses_to_json names ps = Ok j /\ poses_from_json names j = Ok r /\ own_names names /\ r <> ps /\ List.length ps = 1.
Proof.
  exists three, [(lit "q", [(0, 1%R); (1, 2%R)])], (JObj [(lit "q", JObj [(lit "a", JNum 2); (lit "b", JNum 1)])]), [(lit "q", [(1, 2%R); (0, 1%R)])].
  split; [lazy -[IZR]; reflexivity|]. split; [lazy -[IZR]; reflexivity|]. split; [apply limits_json_met|]. split; [discriminate|reflexivity].
Qed.
Print Assumptions poses_json_order_refuted.
