(** C130: every loaded node is in the map. *)

From Coq Require Import List Arith ZArith Ascii Bool String Lia Permutation.
From Verif Require Import Prelude Loops Str_model Lines_model Marker_model LocIO_model GltfTree_model GltfTree_spec GltfTree_props.
Import ListNotations.
Local Open Scope list_scope.
Local Open Scope outcome_scope.

Section Doc.
Context (nodes : list gnode) (u : bool).
Definition covered (st : gstate) : Prop := List.length (g_map st) = List.length nodes /\ forall k n p, In (n, p) (items k st) -> (0 <= n)%Z /\ exists i, nth_error (g_map st) (Z.to_nat n) = Some (Some i).
Lemma visit_covered n node q st r : covered st -> takes_part nodes n node -> visit (kind_of u node) n q st = Ok r -> covered (fst r).
Proof.
  intros [L C] [R [E _]] V. assert (LN : Z.to_nat n < List.length nodes) by (apply nth_error_Some; congruence).
  assert (G : forall st2 j, g_map st2 = upd (g_map st) (Z.to_nat n) (Some j) -> (forall k m p, In (m, p) (items k st2) -> In (m, p) (items k st) \/ m = n) -> covered st2).
  { intros st2 j M I. split; [rewrite M, upd_length; exact L|]. intros k m p X. rewrite M, upd_nth. destruct (I k m p X) as [Y| ->].
    - destruct (C k m p Y) as [A [i B]]. split; [exact A|]. rewrite B. destruct (Z.to_nat m =? Z.to_nat n); eexists; reflexivity.
    - split; [exact R|]. rewrite Nat.eqb_refl. destruct (nth_error (g_map st) (Z.to_nat n)) eqn:Q; [eexists; reflexivity|]. apply nth_error_None in Q. lia. }
  destruct (kind_of u node); cbn [visit] in V.
  - destruct q as [i|]; [|discriminate]. injection V as <-. cbn [fst]. eapply G; [reflexivity|]. intros [] m p X; cbn in *; auto. apply in_app_or in X. destruct X as [X|[X|[]]]; [left; exact X|right; congruence].
  - destruct q as [i|]; [|discriminate]. injection V as <-. cbn [fst]. eapply G; [reflexivity|]. intros [] m p X; cbn in *; auto. apply in_app_or in X. destruct X as [X|[X|[]]]; [left; exact X|right; congruence].
  - injection V as <-. cbn [fst]. eapply G; [reflexivity|]. intros [] m p X; cbn in *; auto. apply in_app_or in X. destruct X as [X|[X|[]]]; [left; exact X|right; congruence].
  - injection V as <-. split; assumption.
Qed.
Lemma load_covered : forall fuel n q st st', covered st -> load_node nodes u fuel n q st = Ok st' -> covered st'.
Proof.
  induction fuel as [|fuel IH]; intros n q st st' C H; [discriminate|]. cbn [load_node] in H. destruct ((n <? 0) || (Z.of_nat (List.length nodes) <? n))%Z eqn:R; [discriminate|].
  destruct (nth_error nodes (Z.to_nat n)) as [node|] eqn:E; [|discriminate]. destruct (hierarchy_node node) eqn:HN; cbn [negb] in H; [|injection H as <-; exact C].
  destruct (visit (kind_of u node) n q st) as [r| | | |] eqn:V; try discriminate. cbn [obind] in H. pose proof (visit_covered n node q st r C (takes_of nodes n node R E HN) V) as C1. clear V.
  revert C1 H. generalize (fst r). induction (g_children node) as [|c cs IHc]; intros st1 C1 H; cbn [each_child] in H; [injection H as <-; exact C1|].
  destruct (load_node nodes u fuel c (snd r) st1) as [st2| | | |] eqn:E2; try discriminate. cbn [obind] in H. exact (IHc st2 (IH _ _ _ _ C1 E2) H).
Qed.
Lemma roots_covered fuel : forall roots st st', covered st -> load_roots nodes u fuel roots st = Ok st' -> covered st'.
Proof.
  induction roots as [|r roots IH]; intros st st' C H; cbn [load_roots] in H; [injection H as <-; exact C|]. destruct (load_node nodes u fuel r None st) as [st1| | | |] eqn:E; try discriminate. cbn [obind] in H. pose proof (load_covered _ _ _ _ _ C E) as C1.
  destruct (g_joints st1); [exact (IH _ _ C1 H)|injection H as <-; exact C1].
Qed.
End Doc.

(** C130. Every joint can be found through the map: its node leads to a joint that was made from the node, and in a tree to this one. *)
Theorem hierarchy_map_all nodes u fuel roots st n p node : load_hierarchy nodes u fuel roots = Ok st -> In (n, p) (g_joints st) -> takes_part nodes n node -> is_joint u node ->
  exists i q, nth_error (g_map st) (Z.to_nat n) = Some (Some i) /\ nth_error (g_joints st) i = Some (n, q) /\ (NoDup (map fst (g_joints st)) -> q = p).
Proof.
  intros H I T J. pose proof H as H0. unfold load_hierarchy in H. destruct (load_roots nodes u fuel roots _) as [s| | | |] eqn:E; try discriminate. cbn [obind] in H. injection H as <-. cbn [g_joints g_map] in *.
  assert (C0 : covered nodes (GS [] [] [] (repeat None (List.length nodes)))) by (split; [apply repeat_length|intros [] m r []]). destruct (roots_covered nodes u fuel roots _ s C0 E) as [_ C]. destruct (C KJoint n p I) as [_ [i X]].
  destruct (hierarchy_map nodes u fuel roots _ n node i H0 T J X) as [q Q]. exists i, q. split; [exact X|]. split; [exact Q|]. intros ND. cbn [g_joints] in Q. apply In_nth_error in I. destruct I as [k K].
  assert (i = k).
  { rewrite NoDup_nth_error in ND. apply ND; [rewrite map_length; apply nth_error_Some; congruence|]. rewrite (map_nth_error fst i _ Q), (map_nth_error fst k _ K). reflexivity. }
  subst k. rewrite Q in K. congruence.
Qed.
Print Assumptions hierarchy_map_all.
Example map_all_met : exists st, load_hierarchy some_nodes true 3 [0%Z] = Ok st /\ In (1%Z, Some 0) (g_joints st) /\ takes_part some_nodes 1%Z (plain "skeleton_joint" [2%Z]) /\ is_joint true (plain "skeleton_joint" [2%Z]) /\ NoDup (map fst (g_joints st)).
Proof.
  eexists. split; [vm_compute; reflexivity|]. split; [right; left; reflexivity|]. split; [repeat split; lia|]. split; [left; reflexivity|]. repeat constructor; cbn; intuition discriminate.
Qed.
