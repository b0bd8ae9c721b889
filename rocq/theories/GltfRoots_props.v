(** C131: the roots of the skeletons of a glTF file. *)

From Coq Require Import List Arith Bool Lia.
From Verif Require Import Prelude GltfRoots_model GltfRoots_spec.
Import ListNotations.
Local Open Scope outcome_scope.
Local Open Scope list_scope.

Section Parents.
Context (parents : list (option nat)).
Notation above := (above parents).
Notation climb := (climb parents).

Lemma above_trans d e n : above d e -> above e n -> above d n.
Proof. intros A B. induction B as [|n p E B IH]; [exact A|exact (above_parent parents d n p E IH)]. Qed.
Lemma climb_same : forall f g n l m, climb f n = Ok l -> climb g n = Ok m -> l = m.
Proof.
  induction f as [|f IH]; intros g n l m H G; [discriminate|]. destruct g as [|g]; [discriminate|]. cbn in H, G. destruct (nth_error parents n) as [[p|]|]; try discriminate; [|congruence].
  destruct (climb f p) as [a| | | |] eqn:A; try discriminate. destruct (climb g p) as [b| | | |] eqn:B; try discriminate. cbn in H, G. rewrite (IH g p a b A B) in H. congruence.
Qed.
Lemma climb_above : forall f n l, climb f n = Ok l -> forall d, In d l <-> above d n.
Proof.
  induction f as [|f IH]; intros n l H d; [discriminate|]. cbn in H. destruct (nth_error parents n) as [[p|]|] eqn:E; try discriminate.
  - destruct (climb f p) as [a| | | |] eqn:A; try discriminate. cbn in H. injection H as <-. specialize (IH p a A d). cbn. split.
    + intros [<-|I]; [apply above_self|apply (above_parent parents d n p E); apply IH; exact I].
    + intros B. inversion B as [|? q E' B']; subst; [left; reflexivity|]. rewrite E in E'. injection E' as <-. right. apply IH. exact B'.
  - injection H as <-. cbn. split; [intros [<-|[]]; apply above_self|]. intros B. inversion B as [|? q E' B']; subst; [left; reflexivity|congruence].
Qed.
Lemma climb_suffix : forall f n l a d b, climb f n = Ok l -> l = a ++ d :: b -> exists g, climb g d = Ok (d :: b).
Proof.
  induction f as [|f IH]; intros n l a d b H E; [discriminate|]. destruct a as [|x a].
  - cbn in E. assert (n = d). { cbn in H. destruct (nth_error parents n) as [[p|]|]; try discriminate; [destruct (climb f p); try discriminate; cbn in H|]; congruence. } subst. exists (S f). exact H.
  - cbn in H. destruct (nth_error parents n) as [[p|]|]; try discriminate; [|injection H as <-; cbn in E; injection E as _ E; destruct a; discriminate].
    destruct (climb f p) as [m| | | |] eqn:A; try discriminate. cbn in H. injection H as <-. cbn in E. injection E as _ E. exact (IH p m a d b A E).
Qed.
Fixpoint lcp (a b : list nat) : list nat := match a, b with x :: a, y :: b => if x =? y then x :: lcp a b else [] | _, _ => [] end.
Lemma lcp_prefix a : forall b, exists a' b', a = lcp a b ++ a' /\ b = lcp a b ++ b'.
Proof.
  induction a as [|x a IH]; intros [|y b]; cbn; try (eexists; eexists; split; reflexivity). destruct (x =? y) eqn:Q; [|eexists; eexists; split; reflexivity]. apply Nat.eqb_eq in Q. subst y. destruct (IH b) as [a' [b' [A B]]]. exists a', b'. cbn. split; congruence.
Qed.
Lemma lcp_most d : forall x a b, In d x -> In d (lcp (x ++ a) (x ++ b)).
Proof. induction x as [|y x IH]; intros a b I; [destruct I|]. cbn. rewrite Nat.eqb_refl. destruct I as [<-|I]; [left; reflexivity|right; exact (IH a b I)]. Qed.
Lemma last_common_lcp a : forall b acc, last_common a b acc = last (map Some (lcp a b)) acc.
Proof.
  induction a as [|x a IH]; intros [|y b] acc; cbn; try reflexivity. destruct (x =? y); [|reflexivity]. rewrite IH. cbn [map]. destruct (lcp a b) as [|z l]; [reflexivity|]. cbn [map].
  assert (G : forall (l : list (option nat)) d d' z, last (z :: l) d = last (z :: l) d') by (induction l0 as [|w l0 IHl]; intros d d' z0; [reflexivity|exact (IHl d d' w)]). change (last (Some x :: Some z :: map Some l) acc) with (last (Some z :: map Some l) acc). apply G.
Qed.
Lemma last_snoc {X} (l : list X) x d : last (l ++ [x]) d = x.
Proof. induction l as [|y l IH]; [reflexivity|]. cbn. rewrite IH. destruct l; reflexivity. Qed.

Lemma closest_spec f n m o : closest parents f n m = Ok o ->
  match o with
  | Some c => above c n /\ above c m /\ forall d, above d n -> above d m -> above d c
  | None => unrelated parents n m
  end.
Proof.
  unfold closest, ancestors. destruct (climb f n) as [a| | | |] eqn:A; try discriminate. cbn [obind]. destruct (climb f m) as [b| | | |] eqn:B; try discriminate. cbn [obind]. intros H. injection H as <-. rewrite last_common_lcp.
  assert (IN : forall d, above d n -> above d m -> In d (lcp (rev a) (rev b))).
  { intros d N M. apply (climb_above f n a A) in N. apply (climb_above f m b B) in M. apply in_split in N, M. destruct N as [a1 [a2 EA]]. destruct M as [b1 [b2 EB]].
    destruct (climb_suffix f n a a1 d a2 A EA) as [g G]. destruct (climb_suffix f m b b1 d b2 B EB) as [g' G']. pose proof (climb_same _ _ _ _ _ G G') as Q. injection Q as <-.
    rewrite EA, EB, !rev_app_distr. cbn [rev]. apply lcp_most. apply in_or_app. right. left. reflexivity. }
  destruct (lcp_prefix (rev a) (rev b)) as [a' [b' [PA PB]]]. remember (lcp (rev a) (rev b)) as L eqn:EL. clear EL. destruct L as [|z l _] using rev_ind; [cbn; intros d N M; exact (IN d N M)|]. rewrite map_app. cbn [map]. rewrite last_snoc.
  assert (Q : a = rev a' ++ z :: rev l) by (rewrite <- (rev_involutive a), PA, !rev_app_distr; reflexivity).
  assert (Q' : b = rev b' ++ z :: rev l) by (rewrite <- (rev_involutive b), PB, !rev_app_distr; reflexivity).
  split; [apply (climb_above f n a A); rewrite Q; apply in_or_app; right; left; reflexivity|]. split; [apply (climb_above f m b B); rewrite Q'; apply in_or_app; right; left; reflexivity|].
  intros d N M. specialize (IN d N M). destruct (climb_suffix f n a (rev a') z (rev l) A Q) as [g G]. apply (climb_above g z _ G). apply in_app_or in IN. destruct IN as [I|[<-|[]]]; [right; rewrite <- in_rev; exact I|left; reflexivity].
Qed.

Lemma merge_spec f j : forall roots o, merge parents f j roots = Ok o ->
  match o with
  | Some roots' => exists a r b c, roots = a ++ r :: b /\ roots' = a ++ c :: b /\ above c j /\ above c r /\ forall d, above d j -> above d r -> above d c
  | None => Forall (unrelated parents j) roots
  end.
Proof.
  induction roots as [|r roots IH]; intros o H; cbn in H; [injection H as <-; constructor|]. destruct (closest parents f j r) as [c| | | |] eqn:C; try discriminate. cbn [obind] in H. apply closest_spec in C. destruct c as [c|].
  - injection H as <-. exists [], r, roots, c. repeat split; try reflexivity; apply C.
  - destruct (merge parents f j roots) as [o'| | | |]; try discriminate. cbn [obind] in H. injection H as <-. specialize (IH o' eq_refl). destruct o' as [l|]; cbn [option_map].
    + destruct IH as [a [r' [b [c [-> [-> R]]]]]]. exists (r :: a), r', b, c. repeat split; try reflexivity; apply R.
    + constructor; assumption.
Qed.

Definition good (js roots : list nat) : Prop :=
  (forall j, In j js -> exists r, In r roots /\ above r j) /\ ForallOrdPairs (unrelated parents) roots /\
  (forall r, In r roots -> (exists j, In j js /\ above r j) /\ forall d, (forall j, In j js -> above r j -> above d j) -> above d r).
Lemma pairs_change c r b : forall a, ForallOrdPairs (unrelated parents) (a ++ r :: b) -> above c r -> ForallOrdPairs (unrelated parents) (a ++ c :: b).
Proof.
  induction a as [|x a IH]; intros P A; cbn in *; inversion P as [|? ? F P']; subst; constructor.
  - eapply Forall_impl; [|exact F]. intros s U d D1 D2. exact (U d (above_trans d c r D1 A) D2).
  - exact P'.
  - apply Forall_app in F. destruct F as [F1 F2]. inversion F2 as [|? ? U F3]; subst. apply Forall_app. split; [exact F1|]. constructor; [|exact F3]. intros d D1 D2. exact (U d D1 (above_trans d c r D2 A)).
  - exact (IH P' A).
Qed.
Lemma pairs_snoc j : forall l, ForallOrdPairs (unrelated parents) l -> Forall (unrelated parents j) l -> ForallOrdPairs (unrelated parents) (l ++ [j]).
Proof.
  induction l as [|x l IH]; intros P F; cbn; [repeat constructor|]. inversion P as [|? ? F' P']; subst. inversion F as [|? ? U F2]; subst. constructor; [|exact (IH P' F2)]. apply Forall_app. split; [exact F'|]. constructor; [|constructor]. intros d A B. exact (U d B A).
Qed.
Lemma good_step f js roots j o : good js roots -> merge parents f j roots = Ok o -> good (js ++ [j]) (match o with Some l => l | None => roots ++ [j] end).
Proof.
  intros [C [P K]] H. apply merge_spec in H. destruct o as [l|].
  - destruct H as [a [r [b [c [-> [-> [A1 [A2 A3]]]]]]]]. split; [|split; [exact (pairs_change c r b a P A2)|]].
    + intros k I. apply in_app_or in I. destruct I as [I|[<-|[]]]; [|exists c; split; [apply in_or_app; right; left; reflexivity|exact A1]].
      destruct (C k I) as [s [S1 S2]]. apply in_app_or in S1. destruct S1 as [S1|[<-|S1]]; [exists s; split; [apply in_or_app; left; exact S1|exact S2]|exists c; split; [apply in_or_app; right; left; reflexivity|exact (above_trans c r k A2 S2)]|exists s; split; [apply in_or_app; right; right; exact S1|exact S2]].
    + intros s I. assert (D : s = c \/ In s (a ++ r :: b)). { apply in_app_or in I. destruct I as [I|[I|I]]; [right; apply in_or_app; left; exact I|left; symmetry; exact I|right; apply in_or_app; right; right; exact I]. }
      destruct D as [->|D].
      * split; [exists j; split; [apply in_or_app; right; left; reflexivity|exact A1]|]. intros d Q. apply A3; [apply Q; [apply in_or_app; right; left; reflexivity|exact A1]|].
        apply (proj2 (K r (in_elt r a b))). intros k I' R. apply Q; [apply in_or_app; left; exact I'|exact (above_trans c r k A2 R)].
      * destruct (K s D) as [[k [K1 K2]] K3]. split; [exists k; split; [apply in_or_app; left; exact K1|exact K2]|]. intros d Q. apply K3. intros k' I' R. apply Q; [apply in_or_app; left; exact I'|exact R].
  - split; [|split; [exact (pairs_snoc j roots P H)|]].
    + intros k I. apply in_app_or in I. destruct I as [I|[<-|[]]]; [destruct (C k I) as [s [S1 S2]]; exists s; split; [apply in_or_app; left; exact S1|exact S2]|exists j; split; [apply in_or_app; right; left; reflexivity|apply above_self]].
    + intros s I. apply in_app_or in I. destruct I as [I|[<-|[]]].
      * destruct (K s I) as [[k [K1 K2]] K3]. split; [exists k; split; [apply in_or_app; left; exact K1|exact K2]|]. intros d Q. apply K3. intros k' I' R. apply Q; [apply in_or_app; left; exact I'|exact R].
      * split; [exists j; split; [apply in_or_app; right; left; reflexivity|apply above_self]|]. intros d Q. apply Q; [apply in_or_app; right; left; reflexivity|apply above_self].
Qed.
Lemma among_true l p : among l p = true <-> exists n, p = Some n /\ In n l.
Proof.
  destruct p as [p|]; cbn; [|split; [discriminate|intros [n [Q _]]; discriminate]]. rewrite existsb_exists. split; [intros [x [I Q]]; apply Nat.eqb_eq in Q; subst x; exists p; auto|intros [n [Q I]]; injection Q as <-; exists p; split; [exact I|apply Nat.eqb_refl]].
Qed.
Lemma loop_good f joints : forall todo js roots roots', good js roots -> (forall j, In j js -> In j joints) -> (forall j, In j todo -> In j joints) -> skin_roots_loop parents f joints todo roots = Ok roots' ->
  exists js', good js' roots' /\ (forall j, In j js' -> In j joints) /\ (forall j, In j js -> In j js') /\ forall j, In j todo -> In j js' \/ exists p, nth_error parents j = Some (Some p) /\ In p joints.
Proof.
  induction todo as [|j todo IH]; intros js roots roots' G S T H; cbn [skin_roots_loop] in H; [injection H as <-; exists js; split; [exact G|]; split; [exact S|]; split; [auto|intros j []]|].
  destruct (nth_error parents j) as [p|] eqn:E; [|discriminate]. destruct (among joints p) eqn:A.
  - destruct (IH js roots roots' G S (fun k I => T k (or_intror I)) H) as [js' [G' [S' [M N]]]]. exists js'. split; [exact G'|]. split; [exact S'|]. split; [exact M|]. intros k [<-|I]; [|exact (N k I)].
    right. apply among_true in A. destruct A as [n [-> I]]. exists n. split; [exact E|exact I].
  - destruct (merge parents f j roots) as [o| | | |] eqn:M; try discriminate. cbn [obind] in H. pose proof (good_step f js roots j o G M) as G1.
    destruct (IH (js ++ [j]) _ roots' G1) with (3 := H) as [js' [G' [S' [M' N]]]].
    + intros k I. apply in_app_or in I. destruct I as [I|[<-|[]]]; [exact (S k I)|apply T; left; reflexivity].
    + intros k I. apply T. right. exact I.
    + exists js'. split; [exact G'|]. split; [exact S'|]. split; [intros k I; apply M'; apply in_or_app; left; exact I|]. intros k [<-|I]; [left; apply M'; apply in_or_app; right; left; reflexivity|exact (N k I)].
Qed.

Lemma climb_ends rank : forest parents rank -> forall f n, n < length parents -> rank n < f -> exists l, climb f n = Ok l.
Proof.
  intros F. induction f as [|f IH]; intros n L R; [lia|]. cbn. destruct (nth_error parents n) as [[p|]|] eqn:E; [|eexists; reflexivity|apply nth_error_None in E; lia].
  destruct (F n p E) as [F1 F2]. destruct (IH p F1 ltac:(lia)) as [l ->]. eexists. reflexivity.
Qed.
End Parents.

(** C131. The closest common ancestor of two nodes: an ancestor of both, below all others that are; none exactly if there is none. *)
Theorem common_ancestor parents rank fuel n m : forest parents rank -> n < length parents -> m < length parents -> rank n < fuel -> rank m < fuel ->
  (exists c, closest parents fuel n m = Ok (Some c) /\ above parents c n /\ above parents c m /\ forall d, above parents d n -> above parents d m -> above parents d c) \/
  (closest parents fuel n m = Ok None /\ unrelated parents n m).
Proof.
  intros F N M RN RM. destruct (climb_ends parents rank F fuel n N RN) as [a A]. destruct (climb_ends parents rank F fuel m M RM) as [b B].
  assert (E : exists o, closest parents fuel n m = Ok o) by (unfold closest, ancestors; rewrite A, B; eexists; reflexivity). destruct E as [o E]. pose proof (closest_spec parents fuel n m o E) as C.
  destruct o as [c|]; [left; exists c; split; [exact E|exact C]|right; split; [exact E|exact C]].
Qed.
Print Assumptions common_ancestor.

(** C131. The roots of one skin: every joint of the skin is below one, no two are in the same tree, and each is the closest common ancestor of the joints below it. *)
Theorem skin_roots_cover parents rank fuel joints roots : forest parents rank -> skin_roots parents fuel joints = Ok roots ->
  (forall j, In j joints -> exists r, In r roots /\ above parents r j) /\
  ForallOrdPairs (unrelated parents) roots /\
  (forall r, In r roots -> (exists j, In j joints /\ above parents r j) /\ forall d, (forall j, In j joints -> above parents r j -> above parents d j) -> above parents d r).
Proof.
  intros F H. unfold skin_roots in H. assert (G0 : good parents [] []) by (split; [intros j []|split; [constructor|intros r []]]).
  destruct (loop_good parents fuel joints joints [] [] roots G0 (fun j I => match I with end) (fun j I => I) H) as [js [[C [P K]] [S [_ N]]]]. split; [|split; [exact P|]].
  - assert (W : forall w j, rank j < w -> In j joints -> exists r, In r roots /\ above parents r j).
    { induction w as [|w IH]; intros j L I; [lia|]. destruct (N j I) as [J|[p [E J]]]; [exact (C j J)|]. destruct (F j p E) as [_ D]. destruct (IH p ltac:(lia) J) as [r [R A]]. exists r. split; [exact R|exact (above_parent parents r j p E A)]. }
    intros j I. exact (W (1 + rank j) j ltac:(lia) I).
  - intros r R. destruct (K r R) as [[j [J1 J2]] J3]. split; [exists j; split; [exact (S j J1)|exact J2]|]. intros d Q. apply J3. intros k I. exact (Q k (S k I)).
Qed.
Print Assumptions skin_roots_cover.

Lemma above_range parents rank d n : forest parents rank -> above parents d n -> n < length parents -> d < length parents.
Proof. intros F A. induction A as [|n p E A IH]; intros L; [exact L|]. apply IH. exact (proj1 (F n p E)). Qed.
Lemma above_rank parents rank d n : forest parents rank -> above parents d n -> d = n \/ rank d < rank n.
Proof. intros F A. induction A as [|n p E A IH]; [left; reflexivity|]. right. destruct (F n p E) as [_ D]. destruct IH as [->|IH]; lia. Qed.

(** C131. The roots of a skin are found for every forest, within as many steps as it is deep. *)
Theorem skin_roots_end parents rank fuel joints : forest parents rank -> (forall n, n < length parents -> rank n < fuel) -> Forall (fun j => j < length parents) joints ->
  exists roots, skin_roots parents fuel joints = Ok roots /\ Forall (fun r => r < length parents) roots.
Proof.
  intros F B J. unfold skin_roots. assert (M : forall j roots, j < length parents -> Forall (fun r => r < length parents) roots -> exists o, merge parents fuel j roots = Ok o /\ match o with Some l => Forall (fun r => r < length parents) l | None => True end).
  { intros j roots L R. induction R as [|r roots L' R IH]; cbn; [exists None; auto|]. destruct (common_ancestor parents rank fuel j r F L L' (B j L) (B r L')) as [[c [-> [A _]]]|[-> _]]; cbn [obind].
    - eexists. split; [reflexivity|]. constructor; [exact (above_range parents rank c j F A L)|exact R].
    - destruct IH as [o [-> O]]. cbn [obind]. eexists. split; [reflexivity|]. destruct o; cbn; [constructor; assumption|exact Logic.I]. }
  assert (G : forall todo roots, Forall (fun j => j < length parents) todo -> Forall (fun r => r < length parents) roots -> exists roots', skin_roots_loop parents fuel joints todo roots = Ok roots' /\ Forall (fun r => r < length parents) roots').
  { intros todo roots T. revert roots. induction T as [|j todo L T IH]; intros roots R; cbn; [exists roots; auto|]. destruct (nth_error parents j) as [p|] eqn:E; [|apply nth_error_None in E; lia]. destruct (among joints p); [exact (IH roots R)|].
    destruct (M j roots L R) as [o [-> O]]. cbn [obind]. apply IH. destruct o as [l|]; [exact O|]. apply Forall_app. split; [exact R|]. constructor; [exact L|constructor]. }
  exact (G joints [] J (Forall_nil _)).
Qed.
Print Assumptions skin_roots_end.

Lemma independent_spec anc self : forall others i b, independent anc self i others = Ok b ->
  if b then forall k r', i + k <> self -> nth_error others k = Some [r'] -> ~ In r' anc else exists k r', i + k <> self /\ nth_error others k = Some [r'] /\ In r' anc.
Proof.
  induction others as [|rs others IH]; intros i b H; cbn [independent] in H; [injection H as <-; intros k r' _ E; destruct k; discriminate|]. destruct rs as [|r more]; [discriminate|].
  assert (REC : independent anc self (S i) others = Ok b -> (i = self \/ more <> [] \/ ~ In r anc) -> if b then forall k r', i + k <> self -> nth_error ((r :: more) :: others) k = Some [r'] -> ~ In r' anc else exists k r', i + k <> self /\ nth_error ((r :: more) :: others) k = Some [r'] /\ In r' anc).
  { intros H' W. specialize (IH (S i) b H'). destruct b.
    - intros [|k] r' N E; [|apply (IH k r'); [lia|exact E]]. cbn in E. injection E as -> ->. destruct W as [W|[W|W]]; [lia|congruence|exact W].
    - destruct IH as [k [r' [N [E I]]]]. exists (S k), r'. split; [lia|]. split; [exact E|exact I]. }
  destruct ((i =? self) || (1 <? List.length (r :: more))) eqn:C.
  - apply (REC H). apply orb_true_iff in C. destruct C as [C|C]; [left; apply Nat.eqb_eq; exact C|right; left; intros ->; discriminate].
  - apply orb_false_iff in C. destruct C as [C1 C2]. apply Nat.eqb_neq in C1. destruct (existsb (Nat.eqb r) anc) eqn:X.
    + injection H as <-. apply existsb_exists in X. destruct X as [x [I Q]]. apply Nat.eqb_eq in Q. subst x. exists 0, r. split; [lia|]. split; [|exact I]. cbn. destruct more; [reflexivity|discriminate].
    + apply (REC H). right. right. intros I. assert (Y : existsb (Nat.eqb r) anc = true) by (apply existsb_exists; exists r; split; [exact I|apply Nat.eqb_refl]). congruence.
Qed.
(** Skin [i] is kept: it has several roots, or its root is not below the root of another skin. *)
Definition kept parents (all : list (list nat)) (i : nat) (rs : list nat) : Prop :=
  1 < length rs \/ exists r, rs = [r] /\ forall k r', k <> i -> nth_error all k = Some [r'] -> ~ above parents r' r.
Lemma merge_skins_spec parents f all : forall todo i res, merge_skins parents f all todo i = Ok res ->
  (forall rs, In rs res <-> exists k, nth_error todo k = Some rs /\ kept parents all (i + k) rs) /\
  (forall k rs, nth_error todo k = Some rs -> kept parents all (i + k) rs \/ exists r k' r', rs = [r] /\ k' <> i + k /\ nth_error all k' = Some [r'] /\ above parents r' r).
Proof.
  induction todo as [|rs todo IH]; intros i res H; cbn [merge_skins] in H.
  { injection H as <-. split; [|intros k rs E; destruct k; discriminate]. intros rs. split; [intros []|intros [k [E _]]; destruct k; discriminate]. }
  destruct rs as [|r more]; [discriminate|].
  assert (X : exists l (b : bool), merge_skins parents f all todo (S i) = Ok l /\ res = (if b then [r :: more] else []) ++ l /\
    if b then kept parents all i (r :: more) else ~ kept parents all i (r :: more) /\ exists k' r', more = [] /\ k' <> i /\ nth_error all k' = Some [r'] /\ above parents r' r).
  { destruct more as [|r2 more].
    - destruct (ancestors parents f r) as [anc| | | |] eqn:A; try discriminate. cbn [obind] in H. destruct (independent anc i 0 all) as [b| | | |] eqn:D; try discriminate. cbn [obind] in H.
      destruct (merge_skins parents f all todo (S i)) as [l| | | |]; try discriminate. cbn [obind] in H. injection H as <-. exists l, b. split; [reflexivity|]. split; [reflexivity|].
      assert (AN : forall d, In d anc <-> above parents d r). { unfold ancestors in A. destruct (climb parents f r) as [c| | | |] eqn:CL; try discriminate. cbn in A. injection A as <-. intros d. rewrite <- in_rev. exact (climb_above parents f r c CL d). }
      apply independent_spec in D. destruct b.
      + right. exists r. split; [reflexivity|]. intros k r' N E Q. apply AN in Q. exact (D k r' N E Q).
      + destruct D as [k [r' [N [E I]]]]. apply AN in I. split; [intros [Q|[r0 [Q W]]]; [cbn in Q; lia|]; injection Q as <-; exact (W k r' N E I)|]. exists k, r'. repeat split; auto.
    - destruct (merge_skins parents f all todo (S i)) as [l| | | |]; try discriminate. cbn [obind] in H. injection H as <-. exists l, true. split; [reflexivity|]. split; [reflexivity|]. left. cbn. lia. }
  destruct X as [l [b [L [-> K]]]]. destruct (IH (S i) l L) as [I1 I2]. split.
  - intros rs. rewrite in_app_iff, I1. split.
    + intros [I|[k [E Q]]]; [|exists (S k); split; [exact E|]; replace (i + S k) with (S i + k) by lia; exact Q]. destruct b; [|destruct I]. destruct I as [<-|[]]. exists 0. split; [reflexivity|]. rewrite Nat.add_0_r. exact K.
    + intros [[|k] [E Q]]; [|right; exists k; split; [exact E|]; replace (S i + k) with (i + S k) by lia; exact Q]. cbn in E. injection E as <-. rewrite Nat.add_0_r in Q. left. destruct b; [left; reflexivity|]. destruct K as [K _]. contradiction.
  - intros [|k] rs E; [|replace (i + S k) with (S i + k) by lia; exact (I2 k rs E)]. cbn in E. injection E as <-. rewrite Nat.add_0_r. destruct b; [left; exact K|right]. destruct K as [_ [k' [r' [-> R]]]]. exists r, k', r'. split; [reflexivity|exact R].
Qed.
Lemma all_skin_roots_nth parents f : forall skins all, all_skin_roots parents f skins = Ok all -> forall i s, nth_error skins i = Some s -> exists rs, nth_error all i = Some rs /\ skin_roots parents f s = Ok rs.
Proof.
  induction skins as [|s0 skins IH]; intros all H i s E; [destruct i; discriminate|]. cbn in H. destruct (skin_roots parents f s0) as [r| | | |] eqn:R; try discriminate. cbn in H. destruct (all_skin_roots parents f skins) as [l| | | |]; try discriminate. cbn in H. injection H as <-.
  destruct i as [|i]; [injection E as <-; exists r; auto|]. exact (IH l eq_refl i s E).
Qed.

(** C131. Which skeletons a file has: the roots of every skin that has several, and the root of every other skin unless the root of another skin is above it or the same. *)
Theorem skeletons_kept parents fuel skins all res : all_skin_roots parents fuel skins = Ok all -> skeleton_roots parents fuel skins = Ok res ->
  forall rs, In rs res <-> exists i, nth_error all i = Some rs /\ (1 < length rs \/ exists r, rs = [r] /\ forall k r', k <> i -> nth_error all k = Some [r'] -> ~ above parents r' r).
Proof. unfold skeleton_roots. intros ->. cbn [obind]. intros H. exact (proj1 (merge_skins_spec parents fuel all all 0 res H)). Qed.
Print Assumptions skeletons_kept.

(** C131. Every joint of every skin is below a root of a skeleton, provided that no two skins have the same root. *)
Theorem skeletons_cover_partial parents rank fuel skins all res : forest parents rank -> all_skin_roots parents fuel skins = Ok all -> skeleton_roots parents fuel skins = Ok res ->
  (forall i k r, nth_error all i = Some [r] -> nth_error all k = Some [r] -> i = k) ->
  forall s j, In s skins -> In j s -> exists rs r, In rs res /\ In r rs /\ above parents r j.
Proof.
  intros F A H U s j S J. unfold skeleton_roots in H. rewrite A in H. cbn [obind] in H. destruct (merge_skins_spec parents fuel all all 0 res H) as [M1 M2].
  apply In_nth_error in S. destruct S as [i S]. destruct (all_skin_roots_nth parents fuel skins all A i s S) as [rs [E R]]. destruct (skin_roots_cover parents rank fuel s rs F R) as [C _]. destruct (C j J) as [r [I B]].
  destruct (M2 i rs E) as [K|[r0 [k [r' [-> _]]]]]; [exists rs, r; split; [apply M1; exists i; split; [exact E|exact K]|split; assumption]|]. destruct I as [<-|[]].
  assert (W : forall w r0 i, rank r0 < w -> nth_error all i = Some [r0] -> exists q, In [q] res /\ above parents q r0).
  { clear -F U M1 M2. induction w as [|w IH]; intros r0 i L E; [lia|]. destruct (M2 i [r0] E) as [K|[x [k [r' [Q [N [E' B]]]]]]]; [exists r0; split; [apply M1; exists i; split; [exact E|exact K]|apply above_self]|]. injection Q as <-.
    destruct (above_rank parents rank r' r0 F B) as [->|D]; [exfalso; apply N; exact (U k i r0 E' E)|]. destruct (IH r' k ltac:(lia) E') as [q [Q1 Q2]]. exists q. split; [exact Q1|exact (above_trans parents q r' r0 Q2 B)]. }
  destruct (W (1 + rank r0) r0 i ltac:(lia) E) as [q [Q1 Q2]]. exists [q], q. split; [exact Q1|]. split; [left; reflexivity|exact (above_trans parents q r0 j Q2 B)].
Qed.
Print Assumptions skeletons_cover_partial.

(** Two trees: 0 with 1 (that has 2 and 3) and 4; 5 is alone. *)
Definition some_parents : list (option nat) := [None; Some 0; Some 1; Some 1; Some 0; None].
Example forest_met : forest some_parents (fun n => n) /\ forall n, n < length some_parents -> n < 6.
Proof.
  split; [|intros n L; exact L]. intros n p E. destruct n as [|[|[|[|[|[|n]]]]]]; cbn in E; try discriminate; try (injection E as <-; cbn; lia). destruct n; discriminate.
Qed.
Example roots_met : closest some_parents 6 2 3 = Ok (Some 1) /\ closest some_parents 6 3 4 = Ok (Some 0) /\ closest some_parents 6 3 5 = Ok None /\ skin_roots some_parents 6 [3; 2; 5] = Ok [1; 5] /\
  all_skin_roots some_parents 6 [[2; 3]; [3; 4]] = Ok [[1]; [0]] /\ skeleton_roots some_parents 6 [[2; 3]; [3; 4]] = Ok [[0]].
Proof. vm_compute. repeat split. Qed.
Example distinct_met : forall i k r, nth_error [[1]; [0]] i = Some [r] -> nth_error [[1]; [0]] k = Some [r] -> i = k.
Proof. intros [|[|[|i]]] [|[|[|k]]] r; cbn; intros A B; try discriminate; try reflexivity; congruence. Qed.

(** C131. Two skins with the same root remove each other: there is no skeleton left, and the file is refused. *)
Theorem skeletons_same_root_refuted : exists parents rank skins, forest parents rank /\ Forall (fun s => s = [1; 2; 3]) skins /\ skins <> [] /\ skeleton_roots parents 6 skins = Ok [].
Proof.
  exists some_parents, (fun n => n), [[1; 2; 3]; [1; 2; 3]]. split; [exact (proj1 forest_met)|]. split; [repeat constructor|]. split; [discriminate|vm_compute; reflexivity].
Qed.
Print Assumptions skeletons_same_root_refuted.

(** C131. Two skins with the same several roots give two skeletons instead of one, and the file is refused. *)
Theorem skeletons_several_roots_refuted : exists parents rank skin roots, forest parents rank /\ skeleton_roots parents 6 [skin] = Ok [roots] /\ skeleton_roots parents 6 [skin; skin] = Ok [roots; roots].
Proof. exists some_parents, (fun n => n), [1; 2; 5], [1; 5]. split; [exact (proj1 forest_met)|]. vm_compute. split; reflexivity. Qed.
Print Assumptions skeletons_several_roots_refuted.
