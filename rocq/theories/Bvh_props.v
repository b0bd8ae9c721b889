(** C51-C54, C79, C80: building, querying, refitting and checking a bounding volume hierarchy. *)

From Coq Require Import List Arith NArith ZArith QArith Bool Lia Lqa Permutation.
From Verif Require Import Prelude Loops Box_model Box_spec Box_proofs Box_props Bvh_model Bvh_spec
  Bvh_build_proofs Bvh_walk_proofs Bvh_refit_proofs.
Import ListNotations.
Local Open Scope outcome_scope.
Local Open Scope nat_scope.

(** The 32-bit counters of the tree can count the nodes. *)
Definition countable (prims : list box) : Prop := small (2 * length prims).

(** ** C51: building *)

Lemma build_cases cap prims : 1 <= cap -> prims <> [] -> countable prims ->
  (exists tr seg, Permutation prims seg /\ over tight cap 0 seg tr /\
     build cap prims = Ok {| t_flat := flatten tr; t_prims := seg |}) \/
  (128 < length prims /\ build cap prims = UB).
Proof.
  intros C N S. unfold build. destruct prims as [|b0 prims0] eqn:E; [congruence|]. rewrite <- E in *. clear N.
  assert (L : 1 <= length prims) by (rewrite E; cbn; lia). clear E b0 prims0.
  destruct (build_entry cap C (length prims) [] prims [] [] kRootParent [] eq_refl L)
    as [(tr & seg & P & O & H)|(D & k & K & H)].
  - left. reflexivity.
  - exact S.
  - left. exists tr, seg. split; [exact P|]. split; [exact O|].
    pose proof (size_over _ _ _ _ _ O) as Z. pose proof (Permutation_length P) as PL.
    cbn [app length Nat.add] in H. rewrite !app_nil_r in H.
    unfold at_entry in H. replace (2 * length prims) with (size tr + (2 * length prims - size tr)) by lia. rewrite H.
    destruct (2 * length prims - size tr); reflexivity.
  - right. cbn [length Nat.add] in D. split; [exact D|].
    cbn [app length Nat.add] in H. rewrite !app_nil_r in H. unfold at_entry in H.
    replace (2 * length prims) with (k + (2 * length prims - k)) by lia. rewrite H. reflexivity.
Qed.

(** C51, up to the size of the build stack (C53): the build terminates; when it does not overrun its
    stack - it cannot for at most 128 boxes - its primitives are a permutation of the input and its
    nodes store a hierarchy over them whose boxes are the smallest. *)
Theorem build_hierarchy_partial cap prims : 1 <= cap -> prims <> [] -> countable prims ->
  (exists t tr, build cap prims = Ok t /\ Permutation prims (t_prims t) /\ hierarchy tight cap t tr) \/
  (128 < length prims /\ build cap prims = UB).
Proof.
  intros C N S. destruct (build_cases cap prims C N S) as [(tr & seg & P & O & E)|R]; [left|right; exact R].
  eexists _, tr. split; [exact E|]. cbn [t_prims]. split; [exact P|]. split; [reflexivity|exact O].
Qed.
Print Assumptions build_hierarchy_partial.

(** What a hierarchy is worth: each position of the list is in exactly one leaf. *)
Fixpoint leaf_positions (tr : tree) : list nat :=
  match tr with Leaf _ s n => seq s n | Node _ _ _ l r => leaf_positions l ++ leaf_positions r end.
Theorem leaves_partition cap t tr good : hierarchy good cap t tr ->
  leaf_positions tr = seq 0 (length (t_prims t)) /\ length (t_flat t) < 2 * length (t_prims t).
Proof.
  intros (Ef & O). split.
  - clear Ef. revert O. generalize (t_prims t). generalize 0. intros st seg0 O.
    induction O as [start seg b L1 L2 G|start s1 s2 b l r O1 I1 O2 I2 C G]; cbn [leaf_positions]; [reflexivity|].
    rewrite I1, I2, app_length, seq_app. reflexivity.
  - rewrite Ef, flatten_length. pose proof (size_over _ _ _ _ _ O). lia.
Qed.
Print Assumptions leaves_partition.

Lemma build_inv cap prims t : 1 <= cap -> prims <> [] -> countable prims -> build cap prims = Ok t ->
  exists tr, Permutation prims (t_prims t) /\ hierarchy tight cap t tr.
Proof.
  intros C N S E. destruct (build_cases cap prims C N S) as [(tr & seg & P & O & E')|(_ & E')]; [|congruence].
  rewrite E in E'. apply (f_equal (fun o => match o with Ok x => x | _ => t end)) in E'. subst t.
  exists tr. split; [exact P|]. split; [reflexivity|exact O].
Qed.

Definition pt (x : Z) (id : nat) : box := {| lo := Q3 (inject_Z x) 0 0; hi := Q3 (inject_Z x + 1) 1 1; bid := id |}.
Definition row (xs : list Z) : list box := map (fun p => pt (fst p) (snd p)) (combine xs (seq 0 (length xs))).

Lemma row_proper xs b : In b (row xs) -> proper b.
Proof. intros I. unfold row in I. apply in_map_iff in I. destruct I as (p & <- & _). intros []; cbn [pt lo hi at3 qx qy qz]; lra. Qed.

Definition five : list box := row [7; 0; 3; 9; 2]%Z.
Example build_five : five <> [] /\ countable five /\ exists t, build 2 five = Ok t /\ map bid (t_prims t) = [1; 2; 4; 3; 0] /\
  map n_right (t_flat t) = [4; 2; 0; 0; 0]%N.
Proof.
  split; [discriminate|]. split; [unfold countable, small; vm_compute; reflexivity|].
  eexists. split; [vm_compute; reflexivity|]. split; reflexivity.
Qed.

(** ** C53: the stacks *)

Definition pile : list box := row (map (fun k => 2 ^ Z.of_nat k)%Z (seq 0 130)).
(** 130 boxes at growing distances: the build writes past its stack of 128 entries. *)
Theorem build_stack_refuted : exists prims, countable prims /\ (forall b, In b prims -> proper b) /\ build 1 prims = UB.
Proof.
  exists pile. split; [unfold countable, small; vm_compute; reflexivity|]. split.
  - intros b. apply row_proper.
  - vm_compute. reflexivity.
Qed.
Print Assumptions build_stack_refuted.

Definition ditch : list box := row (map (fun k => - 2 ^ Z.of_nat k)%Z (seq 0 70)).
(** 70 boxes: the build succeeds, and a query for all of them writes past the stack of 64. *)
Theorem query_stack_refuted : exists prims t q, countable prims /\ (forall b, In b prims -> proper b) /\ proper q /\
  build 1 prims = Ok t /\ query t q = UB /\ query_buffer t q 100 = UB.
Proof.
  exists ditch. eexists.
  exists {| lo := Q3 (inject_Z (- 2 ^ 80)) 0 0; hi := Q3 0 1 1; bid := 0 |}.
  split; [unfold countable, small; vm_compute; reflexivity|]. split.
  - intros b. apply row_proper.
  - split; [intros []; vm_compute; discriminate|]. split; [vm_compute; reflexivity|]. split; vm_compute; reflexivity.
Qed.
Print Assumptions query_stack_refuted.

(** A leaf with two boxes is written to a buffer with room for one. *)
Theorem query_buffer_refuted : exists t q, build 2 (row [0; 1]%Z) = Ok t /\ proper q /\ query_buffer t q 1 = UB.
Proof.
  eexists. exists {| lo := Q3 0 0 0; hi := Q3 5 1 1; bid := 0 |}.
  split; [vm_compute; reflexivity|]. split; [intros []; cbn; lra|]. vm_compute. reflexivity.
Qed.
Print Assumptions query_buffer_refuted.

(** ** Queries *)

(** The primitives of the leaves that the traversal reaches, in its order. *)
Fixpoint hit_list (prims : list box) (test : box -> bool) (tr : tree) : list box :=
  match tr with
  | Leaf _ s n => firstn n (skipn s prims)
  | Node _ _ _ l r => (if test (t_box r) then hit_list prims test r else []) ++ (if test (t_box l) then hit_list prims test l else [])
  end.

Lemma visit_fold {A} t test (leaf : list box -> A -> outcome A) (g : list box -> A -> A) tr :
  (forall ps a, leaf ps a = Ok (g ps a)) -> (forall a, g [] a = a) -> (forall p q a, g (p ++ q) a = g q (g p a)) ->
  forall a, visit t test leaf always tr a = Ok (g (hit_list (t_prims t) test tr) a).
Proof.
  intros Hl H0 Ha. induction tr as [b s n|b s n l IHl r IHr]; intros a; cbn [visit hit_list always negb]; [apply Hl|].
  rewrite Ha. destruct (test (t_box r)).
  - rewrite IHr. cbn [obind]. destruct (test (t_box l)); [apply IHl|]. rewrite H0. reflexivity.
  - cbn [obind]. rewrite H0. destruct (test (t_box l)); [apply IHl|]. rewrite H0. reflexivity.
Qed.

(** Those that it skips are below a node whose box fails the test. *)
Lemma hit_split good cap test start seg tr : over good cap start seg tr -> forall pre post, length pre = start ->
  exists others, Permutation seg (hit_list (pre ++ seg ++ post) test tr ++ others) /\
    forall b, In b others -> exists bb s, test bb = false /\ good bb s /\ 1 <= length s /\ In b s /\ forall c, In c s -> In c seg.
Proof.
  induction 1 as [start seg b L1 L2 G|start s1 s2 b l r O1 I1 O2 I2 C G]; intros pre post Lp.
  - exists []. cbn [hit_list]. rewrite <- Lp, segment_of, app_nil_r. split; [reflexivity|]. intros b' [].
  - cbn [hit_list].
    assert (good_l : good (t_box l) s1) by (destruct O1; assumption).
    assert (good_r : good (t_box r) s2) by (destruct O2; assumption).
    assert (R : exists o, Permutation s2 ((if test (t_box r) then hit_list (pre ++ (s1 ++ s2) ++ post) test r else []) ++ o) /\
      forall b, In b o -> exists bb s, test bb = false /\ good bb s /\ 1 <= length s /\ In b s /\ forall c, In c s -> In c s2).
    { destruct (test (t_box r)) eqn:T.
      - destruct (I2 (pre ++ s1) post) as (o & P & H); [rewrite app_length; lia|]. exists o. rewrite <- !app_assoc in *. auto.
      - exists s2. split; [reflexivity|]. intros c I. exists (t_box r), s2. repeat split; auto. eapply over_nonempty; eauto. }
    assert (L : exists o, Permutation s1 ((if test (t_box l) then hit_list (pre ++ (s1 ++ s2) ++ post) test l else []) ++ o) /\
      forall b, In b o -> exists bb s, test bb = false /\ good bb s /\ 1 <= length s /\ In b s /\ forall c, In c s -> In c s1).
    { destruct (test (t_box l)) eqn:T.
      - destruct (I1 pre (s2 ++ post) Lp) as (o & P & H). exists o. rewrite <- !app_assoc in *. auto.
      - exists s1. split; [reflexivity|]. intros c I. exists (t_box l), s1. repeat split; auto. eapply over_nonempty; eauto. }
    destruct R as (o2 & P2 & H2). destruct L as (o1 & P1 & H1).
    set (h2 := if test (t_box r) then _ else _) in *. set (h1 := if test (t_box l) then _ else _) in *. clearbody h1 h2.
    exists (o2 ++ o1). split.
    + rewrite P1, P2. apply Permutation_trans with ((h2 ++ o2) ++ (h1 ++ o1)); [apply Permutation_app_comm|].
      rewrite <- !app_assoc. apply Permutation_app_head. rewrite !app_assoc. apply Permutation_app_tail. apply Permutation_app_comm.
    + intros c I. apply in_app_or in I. destruct I as [I|I].
      * destruct (H2 c I) as (bb & s & A & B & N & D & E). exists bb, s. repeat split; auto. intros e J. apply in_or_app. auto.
      * destruct (H1 c I) as (bb & s & A & B & N & D & E). exists bb, s. repeat split; auto. intros e J. apply in_or_app. auto.
Qed.

Lemma hit_split_all good cap test t tr : hierarchy good cap t tr ->
  exists others, Permutation (t_prims t) (hit_list (t_prims t) test tr ++ others) /\
    forall b, In b others -> exists bb s, test bb = false /\ good bb s /\ 1 <= length s /\ In b s /\ forall c, In c s -> In c (t_prims t).
Proof.
  intros (Ef & O). destruct (hit_split good cap test 0 _ tr O [] [] eq_refl) as (o & P & H).
  cbn [app] in P. rewrite app_nil_r in P. exists o. auto.
Qed.

Lemma nonempty_tree good cap t tr : hierarchy good cap t tr -> (length (t_flat t) =? 0) = false.
Proof. intros (E & _). rewrite E. destruct tr; reflexivity. Qed.

Lemma query_hits good cap t tr q : hierarchy good cap t tr ->
  query t q = Ok (map bid (hit_list (t_prims t) (fun b => box_intersects b q) tr)) \/
  (63 < height tr /\ 64 < length (t_prims t) /\ query t q = UB).
Proof.
  intros H. unfold query. rewrite (nonempty_tree _ _ _ _ H).
  destruct (walk_all t (fun b => box_intersects b q) (fun ps hits => Ok (hits ++ map bid ps)) always
    good cap tr [] (length (t_flat t)) H) as [W|(D & W)]; [lia| |].
  - left. rewrite W. rewrite (visit_fold t _ _ (fun ps hits => hits ++ map bid ps)); [reflexivity|reflexivity| |].
    + intros a. apply app_nil_r.
    + intros x y a. rewrite map_app, app_assoc. reflexivity.
  - right. split; [exact D|]. split; [|exact W]. pose proof (height_over _ _ _ _ _ (proj2 H)). lia.
Qed.

Lemma skipped_disjoint good q bb s b : (forall b s, good b s -> covers b s) -> box_intersects bb q = false -> good bb s -> In b s -> ~ meet b q.
Proof.
  intros Cov T G I M. assert (X : meet bb q) by (eapply meet_inside; [exact M|apply (Cov _ _ G); exact I]).
  apply box_intersects_iff in X. congruence.
Qed.

(** C52, up to the size of the traversal stack (C53): on every hierarchy, built or refitted, a query
    that returns has found every box that meets the query box, each once. It can only overrun its
    stack on a tree of height above 63, so not for 64 boxes or less. *)
Theorem query_complete_partial good cap t tr q : hierarchy good cap t tr -> (forall b s, good b s -> covers b s) ->
  (exists hits, query t q = Ok hits /\ selects (fun b => meet b q) (t_prims t) hits) \/
  (63 < height tr /\ 64 < length (t_prims t) /\ query t q = UB).
Proof.
  intros H Cov. destruct (query_hits good cap t tr q H) as [E|R]; [left|right; exact R].
  eexists. split; [exact E|]. destruct (hit_split_all good cap (fun b => box_intersects b q) t tr H) as (o & P & Ho).
  exists (hit_list (t_prims t) (fun b => box_intersects b q) tr), o. split; [exact P|]. split; [reflexivity|].
  intros b I. destruct (Ho b I) as (bb & s & T & G & _ & J & _). eapply skipped_disjoint; eauto.
Qed.
Print Assumptions query_complete_partial.

(** From the boxes given to build. *)
Theorem built_query_partial cap prims t q hits : 1 <= cap -> prims <> [] -> countable prims ->
  build cap prims = Ok t -> query t q = Ok hits -> selects (fun b => meet b q) prims hits.
Proof.
  intros C N S E Eq. destruct (build_inv cap prims t C N S E) as (tr & P & H).
  destruct (query_complete_partial tight cap t tr q H) as [(h & E' & Sel)|(_ & _ & E')]; [intros b s T; apply T| |congruence].
  assert (h = hits) by congruence. subst h. destruct Sel as (c & o & Pm & A & B). exists c, o.
  split; [rewrite P; exact Pm|auto].
Qed.
Print Assumptions built_query_partial.

Example query_five : exists t, build 2 five = Ok t /\
  query t {| lo := Q3 (5#2) 0 0; hi := Q3 8 1 1; bid := 0 |} = Ok [3; 0; 2; 4] /\
  query t {| lo := Q3 5 0 0; hi := Q3 6 1 1; bid := 0 |} = Ok [].
Proof. eexists. split; [vm_compute; reflexivity|]. split; vm_compute; reflexivity. Qed.

Lemma tight_single b c : tight b [c] -> forall d, (at3 (lo b) d == at3 (lo c) d /\ at3 (hi b) d == at3 (hi c) d)%Q.
Proof.
  intros (C & T) d. destruct (T d) as ((x & [<-|[]] & Ex) & (y & [<-|[]] & Ey)). split; symmetry; assumption.
Qed.
Lemma meet_same b c q : (forall d, at3 (lo b) d == at3 (lo c) d /\ at3 (hi b) d == at3 (hi c) d)%Q -> meet b q -> meet c q.
Proof. intros H M d. specialize (H d). specialize (M d). lra. Qed.

Lemma hits_sound q start seg tr : over tight 1 start seg tr -> forall pre post, length pre = start ->
  (length seg = 1 -> box_intersects (t_box tr) q = true) ->
  forall b, In b (hit_list (pre ++ seg ++ post) (fun b => box_intersects b q) tr) -> meet b q.
Proof.
  induction 1 as [start seg b L1 L2 G|start s1 s2 b l r O1 I1 O2 I2 C G]; intros pre post Lp T c I.
  - cbn [hit_list] in I. rewrite <- Lp, segment_of in I. cbn [t_box] in T. specialize (T ltac:(lia)). apply box_intersects_iff in T.
    destruct seg as [|x [|y seg]]; [destruct I| |cbn in L2; lia]. destruct I as [<-|[]].
    eapply meet_same; [|exact T]. apply tight_single. exact G.
  - cbn [hit_list] in I. apply in_app_or in I. destruct I as [I|I].
    + destruct (box_intersects (t_box r) q) eqn:Tr; [|destruct I].
      apply (I2 (pre ++ s1) post); [rewrite app_length; lia|intros _; reflexivity|]. rewrite <- !app_assoc in *. exact I.
    + destruct (box_intersects (t_box l) q) eqn:Tl; [|destruct I].
      apply (I1 pre (s2 ++ post)); [exact Lp|intros _; reflexivity|]. rewrite <- !app_assoc in *. exact I.
Qed.

(** With one box per leaf and two boxes or more, nothing else is returned. *)
Theorem query_exact_partial t tr q hits : hierarchy tight 1 t tr -> 2 <= length (t_prims t) ->
  query t q = Ok hits -> selects_exactly (fun b => meet b q) (t_prims t) hits.
Proof.
  intros H N E. destruct (query_hits tight 1 t tr q H) as [E'|(_ & _ & E')]; [|congruence].
  destruct (hit_split_all tight 1 (fun b => box_intersects b q) t tr H) as (o & P & Ho).
  exists (hit_list (t_prims t) (fun b => box_intersects b q) tr), o. split; [exact P|]. split; [congruence|]. split.
  - intros b I. destruct (Ho b I) as (bb & s & T & G & _ & J & _). eapply (skipped_disjoint tight); [intros ? ? X; apply X|exact T|exact G|exact J].
  - intros b I. destruct H as (_ & O). apply (hits_sound q _ _ _ O [] []); [reflexivity|lia|].
    cbn [app]. rewrite app_nil_r. exact I.
Qed.
Print Assumptions query_exact_partial.

(** A tree of one box returns it whatever the query. *)
Theorem query_single_refuted : exists t q, build 1 (row [0]%Z) = Ok t /\ query t q = Ok [0] /\
  forall b, In b (t_prims t) -> ~ meet b q.
Proof.
  eexists. exists {| lo := Q3 5 5 5; hi := Q3 6 6 6; bid := 0 |}. split; [vm_compute; reflexivity|].
  split; [vm_compute; reflexivity|]. intros b [<-|[]] M. specialize (M DX). cbn in M. lra.
Qed.
Print Assumptions query_single_refuted.

(** ** C53: the buffer *)

Lemma visit_buffer t q size tr start seg good : over good 1 start seg tr -> forall pre post, t_prims t = pre ++ seg ++ post -> length pre = start ->
  forall acc, length acc <= size ->
  visit t (fun b => box_intersects b q) (fun ps hits => ofold (write_hit size) ps hits) (fun hits => length hits <? size) tr acc =
  Ok (firstn size (acc ++ map bid (hit_list (t_prims t) (fun b => box_intersects b q) tr))).
Proof.
  induction 1 as [start seg b L1 L2 G|start s1 s2 b l r O1 I1 O2 I2 C G]; intros pre post EP Lp acc La; cbn [visit hit_list].
  - rewrite EP, <- Lp, segment_of. destruct (Nat.ltb_spec (length acc) size) as [D|D]; cbn [negb].
    + destruct seg as [|x [|y seg]]; [cbn in L1; lia| |cbn in L2; lia]. cbn [ofold map]. unfold write_hit.
      destruct (Nat.ltb_spec (length acc) size); [|lia]. cbn [obind]. rewrite firstn_all2; [reflexivity|]. rewrite app_length. cbn. lia.
    + rewrite firstn_app. replace (size - length acc) with 0 by lia. cbn [firstn]. rewrite app_nil_r, firstn_all2; [reflexivity|lia].
  - destruct (Nat.ltb_spec (length acc) size) as [D|D]; cbn [negb].
    + rewrite map_app.
      assert (R : (if box_intersects (t_box r) q then visit t (fun b => box_intersects b q) (fun ps hits => ofold (write_hit size) ps hits)
           (fun hits => length hits <? size) r acc else Ok acc) =
         Ok (firstn size (acc ++ map bid (if box_intersects (t_box r) q then hit_list (t_prims t) (fun b => box_intersects b q) r else [])))).
      { destruct (box_intersects (t_box r) q).
        - apply (I2 (pre ++ s1) post); [rewrite EP, <- !app_assoc; reflexivity|rewrite app_length; lia|exact La].
        - cbn [map]. rewrite app_nil_r, firstn_all2; [reflexivity|lia]. }
      rewrite R. cbn [obind]. set (hr := map bid (if box_intersects (t_box r) q then _ else _)). clearbody hr.
      assert (F : forall x, firstn size (firstn size (acc ++ hr) ++ x) = firstn size (acc ++ hr ++ x)).
      { intros x. rewrite (app_assoc acc). destruct (Nat.le_ge_cases (length (acc ++ hr)) size) as [Q|Q].
        - rewrite (firstn_all2 (acc ++ hr)) by exact Q. reflexivity.
        - generalize dependent (acc ++ hr). intros w Q. rewrite (firstn_app size w), (firstn_app size (firstn size w)).
          rewrite firstn_firstn, firstn_length, Nat.min_id.
          replace (size - Nat.min size (length w)) with 0 by lia. replace (size - length w) with 0 by lia. reflexivity. }
      destruct (box_intersects (t_box l) q).
      * rewrite (I1 pre (s2 ++ post)); [|rewrite EP, <- !app_assoc; reflexivity|exact Lp|rewrite firstn_length; lia].
        rewrite F. reflexivity.
      * cbn [map]. rewrite app_nil_r. reflexivity.
    + rewrite firstn_app. replace (size - length acc) with 0 by lia. cbn [firstn]. rewrite app_nil_r, firstn_all2; [reflexivity|lia].
Qed.

(** C53, the part that holds: at most 64 boxes fit the stacks; with one box per leaf the buffer holds
    the first answers of the query, as many as fit. *)
Theorem stacks_partial cap prims q : 1 <= cap -> prims <> [] -> length prims <= 64 ->
  exists t hits, build cap prims = Ok t /\ query t q = Ok hits /\
    forall size, cap = 1 -> query_buffer t q size = Ok (firstn size hits).
Proof.
  intros C N L.
  assert (S : countable prims) by (unfold countable, small; lia).
  destruct (build_hierarchy_partial cap prims C N S) as [(t & tr & E & P & H)|(D & _)]; [|lia].
  pose proof (Permutation_length P) as PL.
  destruct (query_hits tight cap t tr q H) as [E'|(_ & D & _)]; [|lia].
  eexists t, _. split; [exact E|]. split; [exact E'|]. intros size ->.
  unfold query_buffer. rewrite (nonempty_tree _ _ _ _ H).
  pose proof (height_over _ _ _ _ _ (proj2 H)) as Hh.
  destruct (walk_all t (fun b => box_intersects b q) (fun ps hits => ofold (write_hit size) ps hits) (fun hits => length hits <? size)
    tight 1 tr [] (length (t_flat t)) H) as [W|(D & W)]; [lia| |lia].
  rewrite W. rewrite (visit_buffer t q size tr 0 (t_prims t) tight (proj2 H) [] []); [reflexivity| |reflexivity|cbn; lia].
  cbn [app]. rewrite app_nil_r. reflexivity.
Qed.
Print Assumptions stacks_partial.

Example stacks_case : five <> [] /\ length five <= 64 /\ exists t, build 1 five = Ok t /\
  query t {| lo := Q3 (5#2) 0 0; hi := Q3 8 1 1; bid := 0 |} = Ok [0; 2; 4] /\
  query_buffer t {| lo := Q3 (5#2) 0 0; hi := Q3 8 1 1; bid := 0 |} 2 = Ok [0; 2].
Proof.
  split; [discriminate|]. split; [cbn; lia|]. eexists. split; [vm_compute; reflexivity|]. split; vm_compute; reflexivity.
Qed.

(** ** C54: refit *)

(** C54, the part that holds. After a change of the primitives, which keeps their number, refit gives
    a hierarchy of nested boxes that contain what is below them, so that queries are complete again;
    the boxes are the smallest if every primitive still contains the one it replaced. *)
Theorem refit_partial cap t tr prims : hierarchy tight cap t tr -> length prims = length (t_prims t) ->
  exists t' tr', refit t prims = Ok t' /\ t_prims t' = prims /\ hierarchy covers cap t' tr' /\ nested prims tr' /\
    (forall q hits, query t' q = Ok hits -> selects (fun b => meet b q) prims hits) /\
    (Forall2 inside (t_prims t) prims -> hierarchy tight cap t' tr').
Proof.
  intros H L. pose proof H as (Ef & O). unfold refit. rewrite (nonempty_tree _ _ _ _ H).
  assert (HS : forall tr, height tr < size tr) by (induction tr0; cbn [height size]; lia).
  destruct (refit_node_ok cap 0 (t_prims t) tr tight O prims [] prims [] (t_flat t) [] [] 0 (length (t_flat t)))
    as (tr' & E & Sz & V & Ne & T).
  - cbn [app]. rewrite app_nil_r. reflexivity.
  - exact L.
  - reflexivity.
  - cbn [app]. rewrite app_nil_r. exact Ef.
  - reflexivity.
  - rewrite Ef, flatten_length. apply HS.
  - rewrite E. cbn [obind app] in *. rewrite app_nil_r in *.
    eexists _, tr'. split; [reflexivity|]. cbn [t_prims]. split; [reflexivity|].
    assert (Hc : hierarchy covers cap {| t_flat := flatten tr'; t_prims := prims |} tr').
    { split; [reflexivity|]. cbn [t_prims]. apply (nested_over _ _ _ _ _ V [] []); [reflexivity|]. cbn [app]. rewrite app_nil_r. exact Ne. }
    split; [exact Hc|]. split; [exact Ne|]. split.
    + intros q hits Eq. destruct (query_complete_partial covers cap _ tr' q Hc) as [(h & E' & Sel)|(_ & _ & E')]; [auto| |congruence].
      assert (h = hits) by congruence. subst h. exact Sel.
    + intros G. split; [reflexivity|]. cbn [t_prims]. apply T; [auto|exact G].
Qed.
Print Assumptions refit_partial.

(** Node boxes are not shrunk: after the boxes moved, the root still spans the old places too. *)
Theorem refit_tight_refuted : exists t t', build 1 (row [0; 4]%Z) = Ok t /\ refit t (row [100; 104]%Z) = Ok t' /\
  forall tr, ~ hierarchy tight 1 t' tr.
Proof.
  do 2 eexists. split; [vm_compute; reflexivity|]. split; [vm_compute; reflexivity|].
  intros tr (Ef & O). cbn [t_flat t_prims] in *.
  assert (T0 : forall st seg, over tight 1 st seg tr -> tight (t_box tr) seg) by (intros st seg X; destruct X; assumption).
  pose proof (T0 _ _ O) as T. clear T0.
  assert (B : t_box tr = {| lo := Q3 0 0 0; hi := Q3 105 1 1; bid := 0 |}).
  { destruct tr; cbn [flatten t_box] in Ef |- *; injection Ef; intros; subst; reflexivity. }
  rewrite B in T. destruct (proj2 T DX) as ((x & I & E) & _). cbn in I. destruct I as [<-|[<-|[]]]; cbn in E; lra.
Qed.
Print Assumptions refit_tight_refuted.

Example refit_case : exists t t', build 1 five = Ok t /\ refit t (row [1; 2; 3; 4; 5]%Z) = Ok t' /\
  length (row [1; 2; 3; 4; 5]%Z) = length (t_prims t) /\
  query t' {| lo := Q3 (5#2) 0 0; hi := Q3 (7#2) 1 1; bid := 0 |} = Ok [2; 1].
Proof.
  do 2 eexists. split; [vm_compute; reflexivity|]. split; [vm_compute; reflexivity|]. split; vm_compute; reflexivity.
Qed.

(** ** C79: checkBoundingBoxes *)

(** It tells whether the boxes are nested, and so whether they contain what is below them; it
    answers true for every tree just built. *)
Theorem check_exact cap t tr : hierarchy any_box cap t tr ->
  exists v, check t = Ok v /\ (v = true <-> nested (t_prims t) tr) /\ (v = true -> hierarchy covers cap t tr).
Proof.
  intros H. pose proof H as (Ef & O). unfold check. rewrite (nonempty_tree _ _ _ _ H).
  assert (HS : forall tr, height tr < size tr) by (induction tr0; cbn [height size]; lia).
  destruct (check_node_exact cap 0 (t_prims t) tr O t [] [] 0 (length (t_flat t))) as (v & E & V).
  - cbn [app]. rewrite app_nil_r. reflexivity.
  - reflexivity.
  - exists [], []. cbn [app]. rewrite app_nil_r. auto.
  - rewrite Ef, flatten_length. apply HS.
  - exists v. split; [exact E|]. split; [exact V|]. intros T. apply V in T. split; [exact Ef|].
    apply (nested_over _ _ _ _ _ O [] []); [reflexivity|]. cbn [app]. rewrite app_nil_r. exact T.
Qed.
Print Assumptions check_exact.

Theorem check_built cap prims t : 1 <= cap -> countable prims -> build cap prims = Ok t -> check t = Ok true.
Proof.
  intros C S E. destruct prims as [|b0 prims0] eqn:Ep.
  - cbn in E. apply (f_equal (fun o => match o with Ok x => x | _ => t end)) in E. subst t. reflexivity.
  - destruct (build_inv cap (b0 :: prims0) t C ltac:(discriminate) S E) as (tr & P & (Ef & O)).
    destruct (check_exact cap t tr) as (v & Ev & V & _).
    { split; [exact Ef|]. eapply over_impl; [exact O|]. intros; exact I. }
    rewrite Ev. f_equal. apply V. replace (t_prims t) with ([] ++ t_prims t ++ []) by (cbn; apply app_nil_r).
    apply (tight_nested cap 0); [exact O|reflexivity].
Qed.
Print Assumptions check_built.

Example check_case : exists t, build 2 five = Ok t /\ check t = Ok true /\
  check {| t_flat := t_flat t; t_prims := row [1; 2; 3; 4; 50]%Z |} = Ok false.
Proof. eexists. split; [vm_compute; reflexivity|]. split; vm_compute; reflexivity. Qed.

(** ** C80: rays *)

Definition boxes_proper (prims : list box) : Prop := forall b, In b prims -> proper b.

Lemma cover_proper bb s : 1 <= length s -> (forall c, In c s -> proper c) -> covers bb s -> proper bb.
Proof.
  intros L P C d. destruct s as [|c s]; [cbn in L; lia|].
  specialize (P c (or_introl eq_refl) d). specialize (C c (or_introl eq_refl) d). lra.
Qed.
Lemma in_inside p b bb : in_box p b -> inside b bb -> in_box p bb.
Proof. intros H I d. specialize (H d). specialize (I d). lra. Qed.

Lemma skipped_ray good o v t bb s b : (forall b s, good b s -> covers b s) -> boxes_proper (t_prims t) -> no_zero v ->
  ray_intersects bb o v = false -> good bb s -> 1 <= length s -> (forall c, In c s -> In c (t_prims t)) -> In b s -> ~ ray_meets o v b.
Proof.
  intros Cov Pr Z T G L Sub I (u & U & H).
  assert (X : ray_intersects bb o v = true); [|congruence].
  apply ray_test_exact; [|exact Z|exists u; split; [exact U|]].
  - eapply cover_proper; [exact L| |apply Cov; exact G]. intros c J. apply Pr, Sub, J.
  - eapply in_inside; [exact H|]. apply (Cov _ _ G). exact I.
Qed.
Lemma skipped_ray_until big good o v t bb s b : (forall b s, good b s -> covers b s) -> boxes_proper (t_prims t) -> no_zero v ->
  ray_intersects_branchless big bb o (inverse3 v) = false -> good bb s -> 1 <= length s -> (forall c, In c s -> In c (t_prims t)) -> In b s ->
  ~ ray_meets_until big o v b.
Proof.
  intros Cov Pr Z T G L Sub I (u & U & U2 & H).
  assert (X : ray_intersects_branchless big bb o (inverse3 v) = true); [|congruence].
  apply branchless_test_exact; [|exact Z|exists u; split; [exact U|split; [exact U2|]]].
  - eapply cover_proper; [exact L| |apply Cov; exact G]. intros c J. apply Pr, Sub, J.
  - eapply in_inside; [exact H|]. apply (Cov _ _ G). exact I.
Qed.

Lemma filter_split {A} (f : A -> bool) l : Permutation l (filter f l ++ filter (fun x => negb (f x)) l).
Proof.
  induction l as [|x l IH]; [reflexivity|]. cbn [filter]. destruct (f x); cbn [negb app].
  - apply perm_skip, IH.
  - apply Permutation_cons_app, IH.
Qed.

(** The ray query returns exactly the boxes that the ray meets, each once; again up to the stack,
    and for non-empty trees. *)
Theorem ray_query_partial good cap t tr o v : hierarchy good cap t tr -> (forall b s, good b s -> covers b s) ->
  boxes_proper (t_prims t) -> no_zero v ->
  (exists hits, query_ray t o v = Ok hits /\ selects_exactly (ray_meets o v) (t_prims t) hits) \/
  (63 < height tr /\ query_ray t o v = UB).
Proof.
  intros H Cov Pr Z. unfold query_ray.
  destruct (walk_all t (fun b => ray_intersects b o v)
    (fun ps hits => Ok (hits ++ map bid (filter (fun b => ray_intersects b o v) ps))) always
    good cap tr [] (S (length (t_flat t))) H) as [W|(D & W)]; [lia| |right; auto].
  left. rewrite W. rewrite (visit_fold t _ _ (fun ps hits => hits ++ map bid (filter (fun b => ray_intersects b o v) ps))).
  - eexists. split; [reflexivity|]. cbn [app].
    destruct (hit_split_all good cap (fun b => ray_intersects b o v) t tr H) as (oth & P & Ho).
    set (h := hit_list (t_prims t) (fun b => ray_intersects b o v) tr) in *.
    assert (Hh : forall b, In b h -> In b (t_prims t)).
    { intros b I. eapply Permutation_in; [apply Permutation_sym; exact P|]. apply in_or_app; auto. }
    exists (filter (fun b => ray_intersects b o v) h), (filter (fun b => negb (ray_intersects b o v)) h ++ oth).
    split; [|split; [reflexivity|split]].
    + rewrite P. rewrite app_assoc. apply Permutation_app_tail. apply filter_split.
    + intros b I. apply in_app_or in I. destruct I as [I|I].
      * apply filter_In in I. destruct I as (I & T). intros M. apply ray_test_exact in M; [|apply Pr, Hh, I|exact Z].
        rewrite M in T. discriminate.
      * destruct (Ho b I) as (bb & s & T & G & L & J & Sub). eapply skipped_ray; eauto.
    + intros b I. apply filter_In in I. destruct I as (I & T). apply ray_test_exact in T; [exact T|apply Pr, Hh, I|exact Z].
  - reflexivity.
  - intros a. apply app_nil_r.
  - intros x y a. rewrite filter_app, map_app, app_assoc. reflexivity.
Qed.
Print Assumptions ray_query_partial.

(** The closest-hit query hands every box that the ray meets to the callback, once. *)
Theorem ray_closest_partial {A} good cap big t tr o v (func : nat -> A -> A) init :
  hierarchy good cap t tr -> (forall b s, good b s -> covers b s) -> boxes_proper (t_prims t) -> no_zero v ->
  (exists ids, ray_closest_hit big t o v func init = Ok (fold_left (fun a i => func i a) ids init) /\
     selects (ray_meets_until big o v) (t_prims t) ids) \/
  (63 < height tr /\ ray_closest_hit big t o v func init = UB).
Proof.
  intros H Cov Pr Z. unfold ray_closest_hit.
  destruct (walk_all t (fun b => ray_intersects_branchless big b o (inverse3 v))
    (fun ps a => Ok (fold_left (fun a b => func (bid b) a) ps a)) always
    good cap tr init (S (length (t_flat t))) H) as [W|(D & W)]; [lia| |right; auto].
  left. rewrite W. rewrite (visit_fold t _ _ (fun ps a => fold_left (fun a b => func (bid b) a) ps a)).
  - destruct (hit_split_all good cap (fun b => ray_intersects_branchless big b o (inverse3 v)) t tr H) as (oth & P & Ho).
    exists (map bid (hit_list (t_prims t) (fun b => ray_intersects_branchless big b o (inverse3 v)) tr)). split.
    + f_equal. generalize (hit_list (t_prims t) (fun b => ray_intersects_branchless big b o (inverse3 v)) tr). intros l.
      clear. revert init. induction l as [|b l IH]; intros init; [reflexivity|]. cbn. apply IH.
    + eexists _, oth. split; [exact P|]. split; [reflexivity|].
      intros b I. destruct (Ho b I) as (bb & s & T & G & L & J & Sub). eapply skipped_ray_until; eauto.
  - reflexivity.
  - reflexivity.
  - intros x y a. apply fold_left_app.
Qed.
Print Assumptions ray_closest_partial.

(** The any-hit query answers true exactly when some primitive accepts the ray, provided that
    primitives only accept rays that meet their box. *)
Lemma visit_any t test (func : nat -> bool) tr :
  visit t test (fun ps _ => Ok (existsb (fun b => func (bid b)) ps)) negb tr false =
  Ok (existsb (fun b => func (bid b)) (hit_list (t_prims t) test tr)).
Proof.
  induction tr as [b s n|b s n l IHl r IHr]; cbn [visit hit_list negb]; [reflexivity|].
  rewrite existsb_app. destruct (test (t_box r)).
  - rewrite IHr. cbn [obind]. destruct (existsb _ (hit_list (t_prims t) test r)) eqn:E; cbn [orb].
    + destruct (test (t_box l)); [|reflexivity]. rewrite visit_stop; reflexivity.
    + destruct (test (t_box l)); [exact IHl|reflexivity].
  - cbn [obind existsb orb]. destruct (test (t_box l)); [exact IHl|reflexivity].
Qed.

Theorem ray_any_partial good cap big t tr o v (func : nat -> bool) :
  hierarchy good cap t tr -> (forall b s, good b s -> covers b s) -> boxes_proper (t_prims t) -> no_zero v ->
  (forall b, In b (t_prims t) -> func (bid b) = true -> ray_meets_until big o v b) ->
  (exists answer, ray_any_hit big t o v func = Ok answer /\
     (answer = true <-> exists b, In b (t_prims t) /\ func (bid b) = true)) \/
  (63 < height tr /\ ray_any_hit big t o v func = UB).
Proof.
  intros H Cov Pr Z Acc. unfold ray_any_hit.
  destruct (walk_all t (fun b => ray_intersects_branchless big b o (inverse3 v))
    (fun ps _ => Ok (existsb (fun b => func (bid b)) ps)) negb
    good cap tr false (S (length (t_flat t))) H) as [W|(D & W)]; [lia| |right; auto].
  left. rewrite W, visit_any. eexists. split; [reflexivity|].
  destruct (hit_split_all good cap (fun b => ray_intersects_branchless big b o (inverse3 v)) t tr H) as (oth & P & Ho).
  rewrite existsb_exists. split.
  - intros (b & I & F). exists b. split; [|exact F]. eapply Permutation_in; [apply Permutation_sym; exact P|]. apply in_or_app; auto.
  - intros (b & I & F). exists b. split; [|exact F]. pose proof (Permutation_in _ P I) as J. apply in_app_or in J.
    destruct J as [J|J]; [exact J|]. exfalso.
    destruct (Ho b J) as (bb & s & T & G & L & K & Sub). eapply skipped_ray_until; eauto.
Qed.
Print Assumptions ray_any_partial.

(** On the empty tree the ray queries read a node that is not there. *)
Theorem ray_empty_refuted : forall o v, query_ray {| t_flat := []; t_prims := [] |} o v = UB /\
  (forall big func, ray_any_hit big {| t_flat := []; t_prims := [] |} o v func = UB).
Proof. intros o v. split; reflexivity. Qed.
Print Assumptions ray_empty_refuted.

Example ray_case_five : exists t, build 2 five = Ok t /\ boxes_proper (t_prims t) /\ no_zero (Q3 1 1 1) /\
  query_ray t (Q3 0 0 0) (Q3 1 1 1) = Ok [1] /\ query_ray t (Q3 (5#2) 0 0) (Q3 1 1 1) = Ok [2; 4] /\
  ray_any_hit 1000 t (Q3 (5#2) 0 0) (Q3 1 1 1) (fun i => i =? 2) = Ok true.
Proof.
  eexists. split; [vm_compute; reflexivity|]. split.
  { intros b I. cbn in I. repeat (destruct I as [<-|I]; [intros []; cbn; lra|]). destruct I. }
  split; [intros []; cbn; lra|]. repeat split; vm_compute; reflexivity.
Qed.
