(** C133: the skin weights of a glTF file. *)

From Coq Require Import List Arith Bool Lia ZArith String.
From Verif Require Import Prelude GltfSkin_model GltfTree_model GltfTree_spec GltfTree_props.
Import ListNotations.
Local Open Scope outcome_scope.
Local Open Scope list_scope.

(** A set of influences that is complete for [n] vertices. *)
Definition complete {W} (n : nat) (b : list (list nat) * list (list W)) : Prop :=
  List.length (fst b) = n /\ List.length (snd b) = n /\ Forall (fun l => List.length l = 4) (fst b) /\ Forall (fun l => List.length l = 4) (snd b).
(** Influence [d] of vertex [v] in a set: joint [k] of the skin with weight [w]. *)
Definition given {W} (b : list (list nat) * list (list W)) (v d k : nat) (w : W) : Prop :=
  exists ks ws, nth_error (fst b) v = Some ks /\ nth_error (snd b) v = Some ws /\ nth_error ks d = Some k /\ nth_error ws d = Some w.

Section Skin.
Context {W : Type} (zero : W) (skin : list nat) (node_map : list (option nat)).
(** What becomes of it: the joint that was made from the node, or nothing. *)
Definition becomes (k : nat) (w : W) (e : nat * W) : Prop :=
  exists node, nth_error skin k = Some node /\ ((exists j, nth_error node_map node = Some (Some j) /\ e = (j, w)) \/ (nth_error node_map node = Some None /\ e = (0, zero))).

Lemma influence_becomes k w e : influence skin node_map k w (0, zero) = Ok e -> becomes k w e.
Proof.
  unfold influence, becomes. destruct (nth_error skin k) as [node|]; [|discriminate]. intros H. exists node. split; [reflexivity|]. destruct (nth_error node_map node) as [[j|]|]; try discriminate; injection H as <-; [left; exists j; auto|right; auto].
Qed.
Lemma influences_spec : forall ks ws old x, influences skin node_map ks ws old = Ok x -> List.length ks = List.length ws -> List.length ks = List.length old -> (forall o, In o old -> o = (0, zero)) ->
  List.length x = List.length ks /\ forall d k w, nth_error ks d = Some k -> nth_error ws d = Some w -> exists e, nth_error x d = Some e /\ becomes k w e.
Proof.
  induction ks as [|k ks IH]; intros [|w ws] [|o old] x H L1 L2 Z; try discriminate; cbn [influences] in H; [injection H as <-; split; [reflexivity|intros [|d] k w E; discriminate]|].
  rewrite (Z o (or_introl eq_refl)) in H. destruct (influence skin node_map k w (0, zero)) as [e| | | |] eqn:E; try discriminate. cbn [obind] in H. destruct (influences skin node_map ks ws old) as [r| | | |] eqn:R; try discriminate. cbn [obind] in H. injection H as <-.
  destruct (IH ws old r R) as [A B]; [cbn in L1; lia|cbn in L2; lia|intros q Q; apply Z; right; exact Q|]. split; [cbn; lia|]. intros [|d] k' w' K X; [|exact (B d k' w' K X)]. cbn in K, X. injection K as <-. injection X as <-. exists e. split; [reflexivity|exact (influence_becomes k w e E)].
Qed.
Lemma nth_skipn {X} : forall k (l : list X) c, nth_error (skipn k l) c = nth_error l (k + c).
Proof. induction k as [|k IH]; intros [|x l] c; cbn; auto. destruct c; reflexivity. Qed.
Lemma nth_firstn {X} : forall k (l : list X) c, c < k -> nth_error (firstn k l) c = nth_error l c.
Proof. induction k as [|k IH]; intros [|x l] [|c] L; cbn; auto; try lia. apply IH. lia. Qed.
Definition clear_from (i : nat) (row : list (nat * W)) : Prop := List.length row = 8 /\ forall c, i * 4 <= c -> c < 8 -> nth_error row c = Some (0, zero).
Lemma fill_row_spec i ks ws row r : i < 2 -> List.length ks = 4 -> List.length ws = 4 -> clear_from i row -> fill_row skin node_map i ks ws row = Ok r ->
  clear_from (S i) r /\ (forall c, c < i * 4 -> nth_error r c = nth_error row c) /\ forall d k w, nth_error ks d = Some k -> nth_error ws d = Some w -> exists e, nth_error r (i * 4 + d) = Some e /\ becomes k w e.
Proof.
  intros I K L [R Z] H. unfold fill_row in H. destruct (influences skin node_map ks ws _) as [x| | | |] eqn:E; try discriminate. cbn [obind] in H. injection H as <-.
  assert (LO : List.length (firstn 4 (skipn (i * 4) row)) = 4) by (rewrite firstn_length, skipn_length; lia).
  destruct (influences_spec ks ws _ x E) as [A B]; [lia|lia| |].
  { intros o O. apply In_nth_error in O. destruct O as [c O]. assert (C : c < 4) by (rewrite <- LO; apply nth_error_Some; congruence). rewrite nth_firstn, nth_skipn, Z in O by lia. congruence. }
  assert (LF : List.length (firstn (i * 4) row) = i * 4) by (rewrite firstn_length; lia). split; [split|split].
  - rewrite !app_length, LF, skipn_length. lia.
  - intros c C1 C2. rewrite nth_error_app2, nth_error_app2 by lia. rewrite nth_skipn. replace (i * 4 + 4 + (c - List.length (firstn (i * 4) row) - List.length x)) with c by lia. apply Z; lia.
  - intros c C. rewrite nth_error_app1 by lia. apply nth_firstn. exact C.
  - intros d k w Q1 Q2. destruct (B d k w Q1 Q2) as [e [Q3 Q4]]. exists e. split; [|exact Q4]. rewrite nth_error_app2 by lia. replace (i * 4 + d - List.length (firstn (i * 4) row)) with d by lia. rewrite nth_error_app1; [exact Q3|]. apply nth_error_Some. congruence.
Qed.
Lemma fill_rows_spec i : i < 2 -> forall js ws rows r, List.length js = List.length ws -> List.length js = List.length rows -> Forall (fun l => List.length l = 4) js -> Forall (fun l => List.length l = 4) ws -> Forall (clear_from i) rows -> fill_rows skin node_map i js ws rows = Ok r ->
  List.length r = List.length rows /\ Forall (clear_from (S i)) r /\ forall v row', nth_error r v = Some row' -> exists row, nth_error rows v = Some row /\ (forall c, c < i * 4 -> nth_error row' c = nth_error row c) /\ forall d k w, given (js, ws) v d k w -> exists e, nth_error row' (i * 4 + d) = Some e /\ becomes k w e.
Proof.
  intros I. induction js as [|k js IH]; intros [|w ws] [|row rows] r L1 L2 F1 F2 F3 H; try discriminate; cbn [fill_rows] in H; [injection H as <-; split; [reflexivity|]; split; [constructor|intros [|v] row' E; discriminate]|].
  inversion F1 as [|? ? A1 A2]; subst. inversion F2 as [|? ? B1 B2]; subst. inversion F3 as [|? ? C1 C2]; subst. destruct (fill_row skin node_map i k w row) as [x| | | |] eqn:X; try discriminate. cbn [obind] in H. destruct (fill_rows skin node_map i js ws rows) as [y| | | |] eqn:Y; try discriminate. cbn [obind] in H. injection H as <-.
  destruct (fill_row_spec i k w row x I A1 B1 C1 X) as [D1 [D2 D3]]. destruct (IH ws rows y) as [E1 [E2 E3]]; try assumption; [cbn in L1; lia|cbn in L2; lia|]. split; [cbn; lia|]. split; [constructor; assumption|].
  intros [|v] row' Q; [|exact (E3 v row' Q)]. cbn in Q. injection Q as <-. exists row. split; [reflexivity|]. split; [exact D2|]. intros d k' w' [ks [wl [G1 [G2 [G3 G4]]]]]. cbn in G1, G2. injection G1 as <-. injection G2 as <-. exact (D3 d k' w' G3 G4).
Qed.
Lemma batches_spec n : 0 < n -> forall bs i rows r, i + List.length bs <= 2 -> Forall (complete n) bs -> List.length rows = n -> Forall (clear_from i) rows -> batches skin node_map i n bs rows = Ok r ->
  List.length r = n /\ Forall (clear_from (i + List.length bs)) r /\ forall v row', nth_error r v = Some row' -> exists row, nth_error rows v = Some row /\ (forall c, c < i * 4 -> nth_error row' c = nth_error row c) /\
    forall t b d k w, nth_error bs t = Some b -> given b v d k w -> exists e, nth_error row' ((i + t) * 4 + d) = Some e /\ becomes k w e.
Proof.
  intros N. induction bs as [|[js ws] bs IH]; intros i rows r LB F LR CL H; cbn [batches] in H.
  { injection H as <-. cbn [List.length]. rewrite Nat.add_0_r. split; [exact LR|]. split; [exact CL|]. intros v row' E. exists row'. split; [exact E|]. split; [reflexivity|]. intros [|t] b d k w Q; discriminate. }
  inversion F as [|? ? F1 F2]; subst. destruct F1 as [K1 [K2 [K3 K4]]]. cbn [fst snd] in *. cbn [List.length] in LB.
  replace ((List.length js =? 0) || (List.length ws =? 0) || negb (List.length js =? List.length ws) || negb (List.length js =? List.length rows)) with false in H.
  2: { rewrite K1, K2, Nat.eqb_refl. cbn. replace (List.length rows =? 0) with false by (symmetry; apply Nat.eqb_neq; lia). reflexivity. }
  destruct (fill_rows skin node_map i js ws rows) as [rows1| | | |] eqn:E; try discriminate. cbn [obind] in H. destruct (fill_rows_spec i ltac:(lia) js ws rows rows1 ltac:(lia) ltac:(lia) K3 K4 CL E) as [A1 [A2 A3]].
  destruct (IH (S i) rows1 r ltac:(lia) F2 ltac:(lia) A2 H) as [B1 [B2 B3]]. split; [exact B1|]. split; [cbn [List.length]; replace (i + S (List.length bs)) with (S i + List.length bs) by lia; exact B2|].
  intros v row' Q. destruct (B3 v row' Q) as [row1 [Q1 [Q2 Q3]]]. destruct (A3 v row1 Q1) as [row [P1 [P2 P3]]]. exists row. split; [exact P1|]. split; [intros c C; rewrite Q2 by lia; apply P2; exact C|].
  intros [|t] b d k w T G; [|replace (i + S t) with (S i + t) by lia; exact (Q3 t b d k w T G)]. cbn in T. injection T as <-. destruct (P3 d k w G) as [e [X Y]]. exists e. split; [|exact Y]. rewrite Nat.add_0_r. rewrite Q2; [exact X|].
  destruct G as [ks [wl [G1 [_ [G3 _]]]]]. cbn in G1. apply nth_error_In in G1. rewrite Forall_forall in K3. specialize (K3 ks G1). assert (d < List.length ks) by (apply nth_error_Some; congruence). lia.
Qed.
End Skin.

(** C133. With one or two complete sets of influences every vertex gets them all: the joint that was made from the node of the skin, with the given weight, and zeros for the rest. *)
Theorem skin_loaded {W} (zero : W) skin node_map n bs rows rows' : List.length bs <= 2 -> Forall (complete n) bs -> add_skin zero skin node_map n bs rows = Ok rows' ->
  exists new, rows' = rows ++ new /\ List.length new = n /\ forall v row, nth_error new v = Some row -> List.length row = 8 /\
    (forall i b d k w, nth_error bs i = Some b -> given b v d k w -> exists e node, nth_error row (i * 4 + d) = Some e /\ nth_error skin k = Some node /\
      ((exists j, nth_error node_map node = Some (Some j) /\ e = (j, w)) \/ (nth_error node_map node = Some None /\ e = (0, zero)))) /\
    (forall c, List.length bs * 4 <= c -> c < 8 -> nth_error row c = Some (0, zero)).
Proof.
  intros L F H. unfold add_skin in H. rewrite firstn_all2 in H by lia. destruct (batches skin node_map 0 n bs _) as [new| | | |] eqn:E; try discriminate. cbn [obind] in H. injection H as <-. exists new. split; [reflexivity|]. destruct n as [|n].
  - assert (Q : new = []). { cbn [repeat] in E. destruct bs as [|[js ws] bs]; cbn [batches] in E; [congruence|]. inversion F as [|? ? [F1 _] _]; subst. cbn [fst] in F1. rewrite F1 in E. cbn in E. congruence. }
    subst new. split; [reflexivity|]. intros [|v] row X; discriminate.
  - assert (C0 : Forall (clear_from zero 0) (repeat (repeat (0, zero) 8) (S n))).
    { apply Forall_forall. intros r I. apply repeat_spec in I. subst r. split; [reflexivity|]. intros c _ C. do 8 (destruct c as [|c]; [reflexivity|]). lia. }
    destruct (batches_spec zero skin node_map (S n) ltac:(lia) bs 0 _ new L F (repeat_length _ _) C0 E) as [A [B D]]. split; [exact A|]. intros v row X. rewrite Forall_forall in B. destruct (B row (nth_error_In _ _ X)) as [B1 B2]. split; [exact B1|]. split; [|exact B2].
    destruct (D v row X) as [_ [_ [_ G]]]. intros i b d k w T Y. destruct (G i b d k w T Y) as [e [Z [node P]]]. exists e, node. split; [exact Z|exact P].
Qed.
Print Assumptions skin_loaded.

(** C133. Whatever the influences are, there is one row per vertex, so that the check of loadSkinnedMesh holds. *)
Theorem skin_sizes {W} (zero : W) skin node_map n bs rows rows' : add_skin zero skin node_map n bs rows = Ok rows' -> List.length rows' = List.length rows + n.
Proof.
  unfold add_skin. destruct (batches skin node_map 0 n (firstn 2 bs) _) as [new| | | |] eqn:E; try discriminate. cbn [obind]. intros H. injection H as <-. rewrite app_length. f_equal.
  assert (FR : forall i js (ws : list (list W)) rs r, List.length js = List.length ws -> List.length js = List.length rs -> fill_rows skin node_map i js ws rs = Ok r -> List.length r = List.length rs).
  { intros i. induction js as [|k js IH]; intros [|w ws] [|x rs] r L1 L2 H; try discriminate; cbn [fill_rows] in H; [injection H as <-; reflexivity|]. destruct (fill_row skin node_map i k w x); try discriminate. cbn [obind] in H. destruct (fill_rows skin node_map i js ws rs) as [y| | | |] eqn:Y; try discriminate. cbn [obind] in H. injection H as <-. cbn. f_equal. apply (IH ws rs y); [cbn in L1; lia|cbn in L2; lia|exact Y]. }
  assert (G : forall (bs0 : list (list (list nat) * list (list W))) i rs r, List.length rs = n -> batches skin node_map i n bs0 rs = Ok r -> List.length r = n).
  { clear E. induction bs0 as [|[js ws] bs0 IH]; intros i rs r L H; cbn [batches] in H; [congruence|]. destruct ((List.length js =? 0) || (List.length ws =? 0) || negb (List.length js =? List.length ws) || negb (List.length js =? n)) eqn:Q; [congruence|].
    apply orb_false_iff in Q. destruct Q as [Q Q4]. apply orb_false_iff in Q. destruct Q as [_ Q3]. apply negb_false_iff, Nat.eqb_eq in Q3, Q4. destruct (fill_rows skin node_map i js ws rs) as [y| | | |] eqn:Y; try discriminate. cbn [obind] in H. apply (IH (S i) y r); [|exact H]. rewrite (FR i js ws rs y Q3 (eq_trans Q4 (eq_sym L)) Y). exact L. }
  exact (G _ 0 _ new (repeat_length _ _) E).
Qed.
Print Assumptions skin_sizes.

(** C133. With the map of the hierarchy (C130), an influence by a node that is a joint is one by the joint that was made from it. *)
Theorem skin_joint nodes u fuel roots st {W} (zero : W) skin k w e n node : load_hierarchy nodes u fuel roots = Ok st -> nth_error skin k = Some (Z.to_nat n) -> takes_part nodes n node -> is_joint u node ->
  influence skin (g_map st) k w (0, zero) = Ok e -> e = (0, zero) \/ exists j p, e = (j, w) /\ nth_error (g_joints st) j = Some (n, p).
Proof.
  intros H S T J E. unfold influence in E. rewrite S in E. destruct (nth_error (g_map st) (Z.to_nat n)) as [[j|]|] eqn:M; try discriminate; injection E as <-; [right|left; reflexivity].
  destruct (hierarchy_map nodes u fuel roots st n node j H T J M) as [p P]. exists j, p. split; [reflexivity|exact P].
Qed.
Print Assumptions skin_joint.

(** Two vertices with five and four influences; node 5 is no joint. *)
Definition some_sets : list (list (list nat) * list (list nat)) := [([[0; 1; 2; 0]; [1; 1; 1; 2]], [[10; 20; 30; 40]; [50; 60; 70; 80]]); ([[1; 0; 0; 0]; [0; 0; 0; 0]], [[5; 0; 0; 0]; [0; 0; 0; 0]])].
Example skin_met : Forall (complete 2) some_sets /\ add_skin 0 [3; 4; 5] [None; None; None; Some 7; Some 8; None] 2 some_sets [] =
  Ok [[(7, 10); (8, 20); (0, 0); (7, 40); (8, 5); (7, 0); (7, 0); (7, 0)]; [(8, 50); (8, 60); (8, 70); (0, 0); (7, 0); (7, 0); (7, 0); (7, 0)]].
Proof. split; [repeat constructor|reflexivity]. Qed.

(** C133. The same map holds locators: an influence by the node of a locator becomes one by an unrelated joint. *)
Theorem skin_locator_refuted : exists nodes roots st skin node p, load_hierarchy nodes true 3 roots = Ok st /\ takes_part nodes 2%Z node /\ is_locator node /\ nth_error skin 0 = Some 2 /\ In (2%Z, Some p) (g_locators st) /\
  influence skin (g_map st) 0 1 (0, 0) = Ok (0, 1) /\ p <> 0.
Proof.
  exists some_nodes, [0%Z]. eexists. exists [2], (plain "locator" []), 1. split; [vm_compute; reflexivity|]. split; [repeat split; lia|]. split; [reflexivity|]. split; [reflexivity|]. split; [right; left; reflexivity|]. split; [reflexivity|discriminate].
Qed.
Print Assumptions skin_locator_refuted.

(** C133. Influences that do not fit the mesh are dropped without an error. *)
Theorem skin_dropped_refuted : exists (bs : list (list (list nat) * list (list nat))), add_skin 0 [0] [Some 3] 2 bs [] = Ok (repeat (repeat (0, 0) 8) 2) /\ exists b, In b bs /\ given b 0 0 0 1.
Proof. exists [([[0; 0; 0; 0]], [[1; 0; 0; 0]])]. split; [reflexivity|]. eexists. split; [left; reflexivity|]. exists [0; 0; 0; 0], [1; 0; 0; 0]. repeat split. Qed.
Print Assumptions skin_dropped_refuted.
(** C133. The nodes of a skin are not checked. *)
Theorem skin_node_refuted : exists (bs : list (list (list nat) * list (list nat))), Forall (complete 1) bs /\ add_skin 0 [7] [Some 3] 1 bs [] = UB.
Proof. exists [([[0; 0; 0; 0]], [[1; 0; 0; 0]])]. split; [repeat constructor|reflexivity]. Qed.
Print Assumptions skin_node_refuted.
