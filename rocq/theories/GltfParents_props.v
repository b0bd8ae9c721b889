(** C131: the map of parents of a glTF file. *)

From Coq Require Import List Arith Bool Lia.
From Verif Require Import Prelude GltfParents_model GltfRoots_model GltfRoots_spec GltfRoots_props.
Import ListNotations.
Local Open Scope outcome_scope.
Local Open Scope list_scope.

(** [c] is a child of node [p]. *)
Definition child (kids : list (list nat)) (p c : nat) : Prop := exists cs, nth_error kids p = Some cs /\ In c cs.
(** The nodes of the scene. *)
Inductive in_scene (kids : list (list nat)) (roots : list nat) : nat -> Prop :=
| scene_root : forall n, In n roots -> in_scene kids roots n
| scene_child : forall p c, in_scene kids roots p -> child kids p c -> in_scene kids roots c.

Lemma assign_nth m : forall i p m', assign m i p = Ok m' -> length m' = length m /\ i < length m /\ forall k, nth_error m' k = if k =? i then Some (Some p) else nth_error m k.
Proof.
  induction m as [|x m IH]; intros i p m' H; [discriminate|]. destruct i as [|i]; cbn in H; [injection H as <-; cbn; repeat split; [lia|]; intros [|k]; reflexivity|].
  destruct (assign m i p) as [r| | | |] eqn:E; try discriminate. cbn in H. injection H as <-. destruct (IH i p r E) as [A [B C]]. cbn. split; [lia|]. split; [lia|]. intros [|k]; [reflexivity|apply C].
Qed.
Lemma assign_all_nth p : forall cs m m', assign_all cs p m = Ok m' -> length m' = length m /\ (forall k, In k cs -> nth_error m' k = Some (Some p)) /\ forall k, ~ In k cs -> nth_error m' k = nth_error m k.
Proof.
  induction cs as [|c cs IH]; intros m m' H; cbn in H; [injection H as <-; repeat split; auto; intros k []|]. destruct (assign m c p) as [m1| | | |] eqn:E; try discriminate. cbn in H. apply assign_nth in E. destruct E as [A [B C]].
  destruct (IH m1 m' H) as [A' [B' C']]. split; [lia|]. split.
  - intros k [<-|I]; [|exact (B' k I)]. destruct (in_dec Nat.eq_dec c cs) as [I|I]; [exact (B' c I)|]. rewrite (C' c I), C, Nat.eqb_refl. reflexivity.
  - intros k N. rewrite C' by (intros I; apply N; right; exact I). rewrite C. destruct (k =? c) eqn:Q; [|reflexivity]. apply Nat.eqb_eq in Q. exfalso. apply N. left. congruence.
Qed.

Section Nodes.
Context (kids : list (list nat)) (roots : list nat).
Definition state_ok (fin todo : list nat) (m : list (option nat)) : Prop :=
  length m = length kids /\ (forall r, In r roots -> In r (fin ++ todo)) /\ (forall p c, In p fin -> child kids p c -> In c (fin ++ todo) /\ exists q, nth_error m c = Some (Some q)) /\
  (forall n, In n todo -> in_scene kids roots n) /\ (forall c p, nth_error m c = Some (Some p) -> in_scene kids roots p /\ child kids p c).
Lemma round_ok : forall stack next m fin r, state_ok fin (stack ++ next) m -> round kids stack next m = Ok r -> exists fin', state_ok fin' (fst r) (snd r).
Proof.
  induction stack as [|n stack IH]; intros next m fin r S H; cbn [round] in H; [injection H as <-; exists fin; exact S|]. destruct (nth_error kids n) as [cs|] eqn:E; [|discriminate].
  destruct (assign_all cs n m) as [m1| | | |] eqn:A; try discriminate. cbn [obind] in H. apply (IH _ _ (n :: fin) _) in H; [exact H|]. apply assign_all_nth in A. destruct A as [A1 [A2 A3]]. destruct S as [S1 [S2 [S3 [S4 S5]]]].
  assert (MV : forall x, In x (fin ++ (n :: stack) ++ next) -> In x ((n :: fin) ++ stack ++ next ++ cs)).
  { intros x. cbn. rewrite !in_app_iff. cbn. rewrite !in_app_iff. tauto. }
  split; [lia|]. split; [intros x I; apply MV; exact (S2 x I)|]. split; [|split].
  - intros p c I C. destruct (in_dec Nat.eq_dec c cs) as [K|K].
    + split; [cbn; rewrite !in_app_iff; tauto|exists n; exact (A2 c K)].
    + destruct I as [<-|I]; [destruct C as [cs' [E' I']]; rewrite E in E'; injection E' as <-; contradiction|]. destruct (S3 p c I C) as [X [q Q]]. split; [apply MV; exact X|exists q; rewrite (A3 c K); exact Q].
  - intros x I. apply in_app_or in I. destruct I as [I|I]; [apply S4; right; apply in_or_app; left; exact I|]. apply in_app_or in I. destruct I as [I|I]; [apply S4; right; apply in_or_app; right; exact I|].
    apply (scene_child kids roots n x); [apply S4; left; reflexivity|exists cs; split; assumption].
  - intros c p Q. destruct (in_dec Nat.eq_dec c cs) as [K|K]; [|rewrite (A3 c K) in Q; exact (S5 c p Q)]. rewrite (A2 c K) in Q. injection Q as <-. split; [apply S4; left; reflexivity|exists cs; split; assumption].
Qed.
Lemma rounds_ok : forall fuel stack m fin m', state_ok fin stack m -> rounds kids fuel stack m = Ok m' -> exists fin', state_ok fin' [] m'.
Proof.
  induction fuel as [|fuel IH]; intros stack m fin m' S H; destruct stack as [|n stack]; cbn [rounds] in H; try (injection H as <-; exists fin; exact S); [discriminate|].
  destruct (round kids (n :: stack) [] m) as [r| | | |] eqn:E; try discriminate. cbn [obind] in H. destruct (round_ok (n :: stack) [] m fin r) as [fin' S']; [rewrite app_nil_r; exact S|exact E|]. exact (IH _ _ fin' m' S' H).
Qed.
End Nodes.

(** C131. The map of parents gives for a node a node of the scene that has it as a child, and it does so for all children of nodes of the scene. *)
Theorem parents_of_scene kids fuel roots m : parent_map kids fuel roots = Ok m ->
  length m = length kids /\
  (forall c p, nth_error m c = Some (Some p) -> in_scene kids roots p /\ child kids p c) /\
  (forall p c, in_scene kids roots p -> child kids p c -> exists q, nth_error m c = Some (Some q)).
Proof.
  unfold parent_map. intros H. assert (S : state_ok kids roots [] roots (repeat None (length kids))).
  { split; [apply repeat_length|]. split; [auto|]. split; [intros p c []|]. split; [intros n I; apply scene_root; exact I|]. intros c p E. apply nth_error_In, repeat_spec in E. discriminate. }
  destruct (rounds_ok kids roots fuel roots _ [] m S H) as [fin [S1 [S2 [S3 [_ S5]]]]]. split; [exact S1|]. split; [exact S5|].
  assert (G : forall n, in_scene kids roots n -> In n fin). { intros n I. induction I as [n I|p c I IH C]; [specialize (S2 n I); rewrite app_nil_r in S2; exact S2|]. destruct (S3 p c IH C) as [X _]. rewrite app_nil_r in X. exact X. }
  intros p c I C. exact (proj2 (S3 p c (G p I) C)).
Qed.
Print Assumptions parents_of_scene.

(** C131. If the nodes are trees the map is the one of their parents, and a forest. *)
Theorem parents_are_forest kids rank fuel roots m : (forall p c, child kids p c -> rank p < rank c) -> (forall p q c, child kids p c -> child kids q c -> p = q) -> parent_map kids fuel roots = Ok m ->
  forest m rank /\ forall p c, nth_error m c = Some (Some p) <-> in_scene kids roots p /\ child kids p c.
Proof.
  intros D U H. destruct (parents_of_scene kids fuel roots m H) as [L [A B]]. split.
  - intros n p E. destruct (A n p E) as [_ C]. split; [|exact (D p n C)]. destruct C as [cs [Q _]]. rewrite L. apply nth_error_Some. congruence.
  - intros p c. split; [apply A|]. intros [I C]. destruct (B p c I C) as [q E]. rewrite (U p q c C (proj2 (A c q E))). exact E.
Qed.
Print Assumptions parents_are_forest.

Lemma assign_all_ok p : forall cs m, Forall (fun c => c < length m) cs -> exists m', assign_all cs p m = Ok m' /\ length m' = length m.
Proof.
  assert (O : forall m i, i < length m -> exists m', assign m i p = Ok m' /\ length m' = length m).
  { induction m as [|x m IH]; intros i L; cbn in L; [lia|]. destruct i as [|i]; [eexists; split; reflexivity|]. destruct (IH i ltac:(lia)) as [m' [E Q]]. exists (x :: m'). cbn. rewrite E. cbn. split; [reflexivity|lia]. }
  induction cs as [|c cs IH]; intros m F; [exists m; split; reflexivity|]. inversion F as [|? ? F1 F2]; subst. destruct (O m c F1) as [m1 [E Q]]. cbn. rewrite E. cbn. destruct (IH m1) as [m2 [E2 Q2]]; [rewrite Q; exact F2|]. exists m2. split; [exact E2|lia].
Qed.
(** C131. It is found in as many rounds as the scene is deep, if all children are nodes. *)
Theorem parents_end kids rank fuel roots : (forall p c, child kids p c -> rank p < rank c /\ c < length kids) -> Forall (fun r => r < length kids) roots -> (forall n, n < length kids -> rank n < fuel) -> exists m, parent_map kids fuel roots = Ok m.
Proof.
  intros D R B. unfold parent_map. assert (RD : forall stack next m, length m = length kids -> Forall (fun r => r < length kids) stack -> exists r, round kids stack next m = Ok r /\ length (snd r) = length kids /\ forall x, In x (fst r) -> In x next \/ exists n, In n stack /\ child kids n x).
  { induction stack as [|n stack IH]; intros next m L F; cbn [round]; [eexists; split; [reflexivity|]; split; [exact L|auto]|]. inversion F as [|? ? F1 F2]; subst. destruct (nth_error kids n) as [cs|] eqn:E; [|apply nth_error_None in E; lia].
    destruct (assign_all_ok n cs m) as [m1 [-> Q]]. { apply Forall_forall. intros c I. rewrite L. apply (D n c). exists cs. split; assumption. }
    cbn [obind]. destruct (IH (next ++ cs) m1 ltac:(lia) F2) as [r [H [L' X]]]. exists r. split; [exact H|]. split; [exact L'|]. intros x I. destruct (X x I) as [Y|[k [K1 K2]]]; [|right; exists k; split; [right; exact K1|exact K2]].
    apply in_app_or in Y. destruct Y as [Y|Y]; [left; exact Y|right; exists n; split; [left; reflexivity|exists cs; split; assumption]]. }
  assert (G : forall f stack m, length m = length kids -> Forall (fun r => r < length kids) stack -> Forall (fun r => fuel <= rank r + f) stack -> exists m', rounds kids f stack m = Ok m').
  { induction f as [|f IH]; intros stack m L F K; destruct stack as [|n stack]; cbn [rounds]; try (eexists; reflexivity); inversion F as [|? ? F1 F2]; subst; inversion K as [|? ? K1 K2]; subst; [specialize (B n F1); lia|].
    destruct (RD (n :: stack) [] m L F) as [r [-> [L' X]]]. cbn [obind]. apply IH; [exact L'| |]; apply Forall_forall; intros x I; destruct (X x I) as [[]|[k [I' C]]]; destruct (D k x C) as [D1 D2]; [exact D2|].
    rewrite Forall_forall in K. specialize (K k I'). lia. }
  apply G; [apply repeat_length|exact R|]. apply Forall_forall. intros r _. lia.
Qed.
Print Assumptions parents_end.

Definition some_kids : list (list nat) := [[1; 4]; [2; 3]; []; []; []; []].
Example parents_met : parent_map some_kids 6 [0; 5] = Ok some_parents /\ (forall p c, child some_kids p c -> p < c /\ c < length some_kids) /\ (forall p q c, child some_kids p c -> child some_kids q c -> p = q).
Proof.
  assert (G : forall p c, child some_kids p c -> p = 0 /\ (c = 1 \/ c = 4) \/ p = 1 /\ (c = 2 \/ c = 3)).
  { intros p c [cs [E I]]. destruct p as [|[|[|[|[|[|p]]]]]]; cbn in E; try (injection E as <-; cbn in I; lia || tauto). destruct p; discriminate. }
  split; [vm_compute; reflexivity|]. split; [intros p c C; apply G in C; cbn; lia|intros p q c C C'; apply G in C, C'; lia].
Qed.

(** C131. A scene with a cycle is followed without end. *)
Theorem parents_cycle_refuted : exists kids roots, Forall (fun r => r < length kids) roots /\ forall fuel, parent_map kids fuel roots = OutOfFuel.
Proof.
  exists [[0]], [0]. split; [repeat constructor|]. unfold parent_map. cbn [length repeat]. assert (G : forall fuel x, rounds [[0]] fuel [0] [x] = OutOfFuel) by (induction fuel as [|fuel IH]; intros x; [reflexivity|cbn; apply IH]). intros fuel. apply G.
Qed.
Print Assumptions parents_cycle_refuted.
(** C131. A child that is no node is written out of bounds. *)
Theorem parents_bounds_refuted : exists kids roots, Forall (fun r => r < length kids) roots /\ parent_map kids 9 roots = UB.
Proof. exists [[1]], [0]. split; [repeat constructor|vm_compute; reflexivity]. Qed.
Print Assumptions parents_bounds_refuted.
