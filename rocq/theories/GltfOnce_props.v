(** C130: no node of a tree is loaded twice. *)

From Coq Require Import List Arith ZArith Ascii Bool String Lia Permutation.
From Verif Require Import Prelude Loops Str_model Lines_model Marker_model LocIO_model GltfTree_model GltfTree_spec GltfTree_props.
Import ListNotations.
Local Open Scope list_scope.
Local Open Scope outcome_scope.

Section Doc.
Context (nodes : list gnode) (u : bool) (rank : Z -> nat).
Notation takes := (takes_part nodes).
Context (D : decreasing nodes rank) (ND : forall n node, takes n node -> NoDup (g_children node))
  (UP : forall n n' node node' c, takes n node -> takes n' node' -> In c (g_children node) -> In c (g_children node') -> n = n').

Inductive reach (n : Z) : Z -> Prop :=
| reach_here : reach n n
| reach_step : forall k node m, reach n k -> takes k node -> In m (g_children node) -> reach n m.
Lemma reach_left n node c m : takes n node -> In c (g_children node) -> reach c m -> reach n m.
Proof. intros T I R. induction R as [|k nd m R IH T' I']; [exact (reach_step n n node c (reach_here n) T I)|exact (reach_step n k nd m IH T' I')]. Qed.
Lemma reach_rank n m : reach n m -> rank m <= rank n.
Proof. intros R. induction R as [|k nd m R IH T I]; [lia|]. specialize (D k nd m T I). lia. Qed.
Lemma reach_meet c c' m : reach c m -> reach c' m -> reach c c' \/ reach c' c.
Proof.
  intros R. induction R as [|k nd m R IH T I]; intros R'; [right; exact R'|]. inversion R' as [Q|k' nd' m' R2 T2 I2 Q]; subst; [left; exact (reach_step c k nd m R T I)|].
  rewrite (UP k k' nd nd' m T T2 I I2) in *. exact (IH R2).
Qed.
Lemma reach_sibling n node c c' : takes n node -> In c (g_children node) -> In c' (g_children node) -> reach c c' -> c = c'.
Proof.
  intros T I I' R. inversion R as [Q|k nd m R2 T2 I2 Q]; subst; [reflexivity|]. rewrite (UP k n nd node c' T2 T I2 I') in R2. apply reach_rank in R2. specialize (D n node c T I). lia.
Qed.

Definition once (st st' : gstate) (w : Z -> Prop) : Prop := forall k, exists l, items k st' = items k st ++ l /\ NoDup (map fst l) /\ forall m, In m (map fst l) -> w m.
Lemma NoDup_app {X} (a b : list X) : NoDup a -> NoDup b -> (forall x, In x a -> ~ In x b) -> NoDup (a ++ b).
Proof.
  intros A B F. induction A as [|x a N A IH]; [exact B|]. cbn. constructor; [|apply IH; intros y Y; apply F; right; exact Y]. intros I. apply in_app_or in I. destruct I as [I|I]; [exact (N I)|exact (F x (or_introl eq_refl) I)].
Qed.
Lemma each_child_once n node f : takes n node -> (forall c st st', f c st = Ok st' -> once st st' (reach c)) ->
  forall cs st st', NoDup cs -> (forall c, In c cs -> In c (g_children node)) -> each_child f cs st = Ok st' -> once st st' (fun m => exists c, In c cs /\ reach c m).
Proof.
  intros T F. induction cs as [|c cs IH]; intros st st' N S H; cbn [each_child] in H.
  { injection H as <-. intros k. exists []. rewrite app_nil_r. split; [reflexivity|]. split; [constructor|intros m []]. }
  destruct (f c st) as [st1| | | |] eqn:E; try discriminate. cbn [obind] in H. inversion N as [|? ? NI N']; subst. pose proof (F c st st1 E) as A1. pose proof (IH st1 st' N' (fun c' I => S c' (or_intror I)) H) as A2.
  intros k. destruct (A1 k) as [x [X1 [X2 X3]]]. destruct (A2 k) as [y [Y1 [Y2 Y3]]]. exists (x ++ y). split; [rewrite Y1, X1, app_assoc; reflexivity|]. rewrite map_app. split.
  - apply NoDup_app; [exact X2|exact Y2|]. intros m I1 I2. pose proof (X3 m I1) as R1. destruct (Y3 m I2) as [c' [I' R2]].
    assert (Q : c = c').
    { destruct (reach_meet c c' m R1 R2) as [R|R]; [exact (reach_sibling n node c c' T (S c (or_introl eq_refl)) (S c' (or_intror I')) R)|symmetry; exact (reach_sibling n node c' c T (S c' (or_intror I')) (S c (or_introl eq_refl)) R)]. }
    subst c'. exact (NI I').
  - intros m I. apply in_app_or in I. destruct I as [I|I]; [exists c; split; [left; reflexivity|exact (X3 m I)]|]. destruct (Y3 m I) as [c' [I' R]]. exists c'. split; [right; exact I'|exact R].
Qed.
Lemma load_once : forall fuel n q st st', load_node nodes u fuel n q st = Ok st' -> once st st' (reach n).
Proof.
  induction fuel as [|fuel IH]; intros n q st st' H; [discriminate|]. cbn [load_node] in H. destruct ((n <? 0) || (Z.of_nat (List.length nodes) <? n))%Z eqn:R; [discriminate|].
  destruct (nth_error nodes (Z.to_nat n)) as [node|] eqn:E; [|discriminate]. destruct (hierarchy_node node) eqn:HN; cbn [negb] in H.
  2: { injection H as <-. intros k. exists []. rewrite app_nil_r. split; [reflexivity|]. split; [constructor|intros m []]. }
  pose proof (takes_of nodes n node R E HN) as T. destruct (visit (kind_of u node) n q st) as [[st1 q1]| | | |] eqn:V; try discriminate. cbn [obind fst snd] in H.
  assert (I1 : forall k, exists x, items k st1 = items k st ++ x /\ (x = [] \/ x = [(n, q)])).
  { intros k. destruct (kind_of u node); cbn [visit] in V.
    - destruct q as [i|]; [|discriminate]. injection V as <- <-. destruct k; cbn; eexists; (split; [try reflexivity; rewrite app_nil_r; reflexivity|]); auto.
    - destruct q as [i|]; [|discriminate]. injection V as <- <-. destruct k; cbn; eexists; (split; [try reflexivity; rewrite app_nil_r; reflexivity|]); auto.
    - injection V as <- <-. destruct k; cbn; eexists; (split; [try reflexivity; rewrite app_nil_r; reflexivity|]); auto.
    - injection V as <- <-. exists []. rewrite app_nil_r. auto. }
  pose proof (each_child_once n node (fun c st => load_node nodes u fuel c q1 st) T (fun c s s' H' => IH c q1 s s' H') (g_children node) st1 st' (ND n node T) (fun c I => I) H) as A.
  intros k. destruct (I1 k) as [x [X1 X2]]. destruct (A k) as [y [Y1 [Y2 Y3]]]. exists (x ++ y). split; [rewrite Y1, X1, app_assoc; reflexivity|]. rewrite map_app. split.
  - apply NoDup_app; [destruct X2 as [->| ->]; repeat constructor; intros []|exact Y2|]. intros m I1' I2. destruct X2 as [->| ->]; [destruct I1'|]. destruct I1' as [<-|[]]. cbn [fst] in I2. destruct (Y3 n I2) as [c [I' R']]. apply reach_rank in R'. specialize (D n node c T I'). lia.
  - intros m I. apply in_app_or in I. destruct I as [I|I]; [destruct X2 as [->| ->]; [destruct I|]; destruct I as [<-|[]]; apply reach_here|]. destruct (Y3 m I) as [c [I' R']]. exact (reach_left n node c m T I' R').
Qed.
Lemma roots_once fuel : forall roots st st', g_joints st = [] -> g_capsules st = [] -> g_locators st = [] -> load_roots nodes u fuel roots st = Ok st' -> forall k, NoDup (map fst (items k st')).
Proof.
  induction roots as [|r roots IH]; intros st st' J C L H k; cbn [load_roots] in H.
  { injection H as <-. destruct k; cbn; rewrite ?J, ?C, ?L; constructor. }
  destruct (load_node nodes u fuel r None st) as [st1| | | |] eqn:E; try discriminate. cbn [obind] in H.
  assert (O0 : ordered st) by (split; [rewrite J; intros i m k0 X; destruct i; discriminate|rewrite C, L; intros m p [[]|[]]]).
  destruct (load_ordered nodes u fuel r None st st1 O0 ltac:(discriminate) E) as [O1 _]. destruct (g_joints st1) as [|j js] eqn:EJ.
  - assert (N : g_capsules st1 = [] /\ g_locators st1 = []).
    { destruct O1 as [_ O1]. rewrite EJ in O1. split.
      - destruct (g_capsules st1) as [|[m p] l]; [reflexivity|]. destruct (O1 m p (or_introl (or_introl eq_refl))) as [k0 [_ X]]. cbn in X. lia.
      - destruct (g_locators st1) as [|[m p] l]; [reflexivity|]. destruct (O1 m p (or_intror (or_introl eq_refl))) as [k0 [_ X]]. cbn in X. lia. }
    destruct N as [N1 N2]. exact (IH st1 st' EJ N1 N2 H k).
  - injection H as <-. destruct (load_once fuel r None st st1 E k) as [l [X [Y _]]]. rewrite X. destruct k; cbn [items]; rewrite ?J, ?C, ?L; exact Y.
Qed.
End Doc.

(** C130. In a file whose nodes are trees no node is loaded twice. *)
Theorem hierarchy_once nodes u fuel roots st : trees nodes -> load_hierarchy nodes u fuel roots = Ok st ->
  NoDup (map fst (g_joints st)) /\ NoDup (map fst (g_capsules st)) /\ NoDup (map fst (g_locators st)).
Proof.
  intros [[rank D] [ND UP]]. unfold load_hierarchy. intros H. destruct (load_roots nodes u fuel roots _) as [s| | | |] eqn:E; try discriminate. cbn [obind] in H. injection H as <-. cbn [g_joints g_capsules g_locators].
  pose proof (roots_once nodes u rank D ND UP fuel roots (GS [] [] [] (repeat None (List.length nodes))) s eq_refl eq_refl eq_refl E) as G. split; [exact (G KJoint)|].
  split; [apply (Permutation_NoDup (Permutation_map fst (by_parent_perm (g_capsules s)))); exact (G KCapsule)|apply (Permutation_NoDup (Permutation_map fst (by_parent_perm (g_locators s)))); exact (G KLocator)].
Qed.
Print Assumptions hierarchy_once.
Example trees_met : trees some_nodes.
Proof.
  assert (G : forall n node, takes_part some_nodes n node -> (n = 0 /\ node = plain "skeleton_joint" [1; 3] \/ n = 1 /\ node = plain "skeleton_joint" [2] \/ n = 2 /\ node = plain "locator" [] \/ n = 3 /\ node = plain "locator" [])%Z).
  { intros n node [R [E [S _]]]. destruct (Z.to_nat n) as [|[|[|[|[|k]]]]] eqn:Q; cbn in E; try (injection E as <-); [left; split; [lia|reflexivity]|right; left; split; [lia|reflexivity]|right; right; left; split; [lia|reflexivity]|right; right; right; split; [lia|reflexivity]|discriminate|].
    destruct k; discriminate. }
  split; [exists some_rank; exact (proj1 decreasing_met)|]. split.
  - intros n node T. destruct (G n node T) as [[-> ->]|[[-> ->]|[[-> ->]|[-> ->]]]]; cbn; repeat constructor; cbn; intuition discriminate.
  - intros n n' node node' c T T' I I'. destruct (G n node T) as [[-> ->]|[[-> ->]|[[-> ->]|[-> ->]]]]; destruct (G n' node' T') as [[-> ->]|[[-> ->]|[[-> ->]|[-> ->]]]]; cbn in I, I'; intuition (subst; congruence || discriminate).
Qed.

(** C130. A node that is a child of two others is loaded twice. *)
Theorem hierarchy_twice_refuted : exists nodes roots rank st n, decreasing nodes rank /\ load_hierarchy nodes true 9 roots = Ok st /\ map fst (g_joints st) = [0; 1; n; 2; n]%Z.
Proof.
  exists [plain "skeleton_joint" [1; 2]; plain "skeleton_joint" [3]; plain "skeleton_joint" [3]; plain "skeleton_joint" []]%Z, [0%Z], (fun n => 3 - Z.to_nat n). eexists. exists 3%Z. split; [|split; [vm_compute; reflexivity|reflexivity]].
  intros n node c [R [E _]] I. destruct (Z.to_nat n) as [|[|[|[|k]]]] eqn:Q; cbn in E; try (injection E as <-); cbn in I; try (destruct k; discriminate); repeat (destruct I as [<-|I]; [vm_compute; lia|]); destruct I.
Qed.
Print Assumptions hierarchy_twice_refuted.
