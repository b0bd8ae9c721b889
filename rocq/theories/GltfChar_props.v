(** C134: a character from a glTF file fits together. *)

From Coq Require Import List Arith ZArith Ascii Bool String Lia.
From Verif Require Import Prelude LocIO_model GltfTree_model GltfTree_spec GltfTree_props GltfChar_model.
Import ListNotations.
Local Open Scope outcome_scope.
Local Open Scope list_scope.

Definition has_joint (ch : gchar) (p : option nat) : Prop := exists k, p = Some k /\ k < List.length (gc_joints ch).
(** A node with a mesh but without a skin, and no node with both. *)
Definition only_plain_meshes (nodes : list gnode) : Prop := (exists n, In n nodes /\ g_mesh n = true /\ g_skin n = false) /\ forall n, In n nodes -> g_mesh n = true -> g_skin n = false.

Lemma existsb_mesh (f : gnode -> bool) l : existsb f l = true <-> exists n, In n l /\ f n = true.
Proof. apply existsb_exists. Qed.
(** C134. Parents of joints come before them, and every locator is on a joint. If there is a mesh with a skin, or no mesh, among the nodes that are not in the hierarchy, the same holds for capsules and nothing of the hierarchy is changed. *)
Theorem character_fits_partial nodes u fuel roots ch : populate nodes u fuel roots = Ok ch ->
  (forall i k, nth_error (gc_joints ch) i = Some (Some k) -> k < i) /\ (forall p, In p (gc_locators ch) -> has_joint ch p) /\
  exists st, load_hierarchy nodes u fuel roots = Ok st /\
    (~ only_plain_meshes (remaining nodes (g_map st)) -> ch = GC (map snd (g_joints st)) (map snd (g_capsules st)) (map snd (g_locators st)) /\ forall p, In p (gc_capsules ch) -> has_joint ch p) /\
    (only_plain_meshes (remaining nodes (g_map st)) -> gc_joints ch = [None] /\ List.length (gc_locators ch) = List.length (g_locators st)).
Proof.
  unfold populate. destruct (load_hierarchy nodes u fuel roots) as [st| | | |] eqn:E; try discriminate. cbn [obind]. intros H. destruct (hierarchy_ordered nodes u fuel roots st E) as [O1 O2].
  set (rest := remaining nodes (g_map st)) in *. set (full := GC (map snd (g_joints st)) (map snd (g_capsules st)) (map snd (g_locators st))) in *.
  assert (J : forall i k, nth_error (gc_joints full) i = Some (Some k) -> k < i).
  { cbn. intros i k X. rewrite nth_error_map in X. destruct (nth_error (g_joints st) i) as [[m p]|] eqn:Q; [|discriminate]. cbn in X. injection X as ->. exact (O1 i m k Q). }
  assert (L : forall p, In p (gc_locators full) \/ In p (gc_capsules full) -> has_joint full p).
  { cbn. intros p [X|X]; apply in_map_iff in X; destruct X as [[m q] [<- I]]; destruct (O2 m q) as [k [-> K]]; auto; exists k; cbn; rewrite map_length; auto. }
  assert (K1 : existsb skinned_mesh rest = true -> ~ only_plain_meshes rest).
  { intros X [_ Y]. apply existsb_mesh in X. destruct X as [n [I X]]. unfold skinned_mesh in X. apply andb_true_iff in X. destruct X as [X1 X2]. rewrite (Y n I X1) in X2. discriminate. }
  assert (K2 : existsb plain_mesh rest = false -> ~ only_plain_meshes rest).
  { intros X [[n [I [Y1 Y2]]] _]. assert (Z : existsb plain_mesh rest = true) by (apply existsb_mesh; exists n; split; [exact I|]; unfold plain_mesh; rewrite Y1, Y2; reflexivity). congruence. }
  assert (K3 : existsb skinned_mesh rest = false -> existsb plain_mesh rest = true -> only_plain_meshes rest).
  { intros X Y. split.
    - apply existsb_mesh in Y. destruct Y as [n [I Y]]. unfold plain_mesh in Y. apply andb_true_iff in Y. destruct Y as [Y1 Y2]. apply negb_true_iff in Y2. exists n. auto.
    - intros n I M. destruct (g_skin n) eqn:S; [|reflexivity]. assert (Z : existsb skinned_mesh rest = true) by (apply existsb_mesh; exists n; split; [exact I|]; unfold skinned_mesh; rewrite M, S; reflexivity). congruence. }
  destruct (existsb skinned_mesh rest) eqn:S; [|destruct (existsb plain_mesh rest) eqn:P]; injection H as <-.
  - split; [exact J|]. split; [auto|]. exists st. split; [reflexivity|]. split; [intros _; split; [reflexivity|auto]|intros Q; destruct (K1 eq_refl Q)].
  - split; [intros [|[|i]] k Q; discriminate|]. split; [cbn; intros p I; apply in_map_iff in I; destruct I as [x [<- _]]; exists 0; cbn; auto|]. exists st. split; [reflexivity|]. split; [intros Q; destruct (Q (K3 eq_refl eq_refl))|intros _]. cbn. rewrite !map_length. auto.
  - split; [exact J|]. split; [auto|]. exists st. split; [reflexivity|]. split; [intros _; split; [reflexivity|auto]|intros Q; destruct (K2 eq_refl Q)].
Qed.
Print Assumptions character_fits_partial.

(** Two joints with a capsule on the second one; a mesh with or without skin. *)
Definition with_mesh (skin : bool) : list gnode := [plain "skeleton_joint" [1%Z]; plain "skeleton_joint" [2%Z]; plain "collision_capsule" []; GNode skin false true [] []].
Example character_met : populate (with_mesh true) true 4 [0%Z] = Ok (GC [None; Some 0] [Some 1] []).
Proof. vm_compute. reflexivity. Qed.

(** C134. A mesh without skin replaces the skeleton, and the capsules keep joints that are gone. *)
Theorem character_capsules_refuted : exists nodes roots ch p, populate nodes true 4 roots = Ok ch /\ In p (gc_capsules ch) /\ ~ has_joint ch p.
Proof.
  exists (with_mesh false), [0%Z]. eexists. exists (Some 1). split; [vm_compute; reflexivity|]. split; [left; reflexivity|]. intros [k [Q L]]. injection Q as <-. cbn in L. lia.
Qed.
Print Assumptions character_capsules_refuted.
(** C134. The joints of a file with such a mesh are lost. *)
Theorem character_joints_refuted : exists nodes roots st ch, load_hierarchy nodes true 4 roots = Ok st /\ populate nodes true 4 roots = Ok ch /\ List.length (g_joints st) = 2 /\ List.length (gc_joints ch) = 1.
Proof. exists (with_mesh false), [0%Z]. eexists. eexists. split; [vm_compute; reflexivity|]. split; [vm_compute; reflexivity|]. split; reflexivity. Qed.
Print Assumptions character_joints_refuted.
