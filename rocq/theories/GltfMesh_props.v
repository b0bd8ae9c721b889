(** C132: the mesh of a glTF file. *)

From Coq Require Import List Arith Bool Lia.
From Verif Require Import Prelude GltfMesh_model.
Import ListNotations.
Local Open Scope outcome_scope.
Local Open Scope list_scope.

(** ** Specification *)

(** The corners of faces: what a mesh looks like. *)
Definition corners {X} (l : list X) (faces : list (nat * nat * nat)) : list (option X * option X * option X) := map (fun f => (nth_error l (fst (fst f)), nth_error l (snd (fst f)), nth_error l (snd f))) faces.
Definition valid_faces (n : nat) (faces : list (nat * nat * nat)) : Prop := Forall (fun f => fst (fst f) < n /\ snd (fst f) < n /\ snd f < n) faces.
(** [n] values, [x] if there are none. *)
Definition or_else {X} (x : X) (n : nat) (l : list X) : list X := match l with [] => repeat x n | _ => l end.
(** The faces that a list of indices stands for: the k-th one has the indices 3k, 3k+1 and 3k+2. *)
Definition faces_of (idx : list nat) : list (nat * nat * nat) := map (fun k => (nth (3 * k) idx 0, nth (3 * k + 1) idx 0, nth (3 * k + 2) idx 0)) (seq 0 (length idx / 3)).
(** The primitives that are loaded. *)
Definition loaded {V N C T} (p : @primitive V N C T) : bool := pr_triangles p && negb (length (pr_pos p) =? 0).

Section Mesh.
Context {V N C T K : Type} (nn : N) (nc : C) (one : K).
Notation prim := (@primitive V N C T).
Notation mesh := (@gmesh V N C T K).

Lemma corners_more {X} (a b : list X) fs : valid_faces (length a) fs -> corners (a ++ b) fs = corners a fs.
Proof. intros F. unfold corners. apply map_ext_in. intros f I. unfold valid_faces in F. rewrite Forall_forall in F. destruct (F f I) as [A [B D]]. rewrite !nth_error_app1 by assumption. reflexivity. Qed.
Lemma corners_shift {X} (a b : list X) fs : corners (a ++ b) (map (shift (length a)) fs) = corners b fs.
Proof. unfold corners. rewrite map_map. apply map_ext. intros [[x y] z]. cbn. rewrite !nth_error_app2 by lia. rewrite !Nat.add_sub. reflexivity. Qed.
Lemma valid_more n k fs : valid_faces n fs -> valid_faces (n + k) fs.
Proof. apply Forall_impl. lia. Qed.
Lemma valid_shift n k fs : valid_faces k fs -> valid_faces (n + k) (map (shift n) fs).
Proof. intros F. apply Forall_map. eapply Forall_impl; [|exact F]. intros [[x y] z]. cbn. lia. Qed.
Lemma triples_faces : forall k l, length l <= k -> triples l = faces_of l.
Proof.
  induction k as [|k IH]; intros l L; [destruct l; [reflexivity|cbn in L; lia]|]. destruct l as [|a [|b [|c l]]]; try reflexivity. cbn [triples]. rewrite (IH l) by (cbn in L; lia). unfold faces_of.
  replace (length (a :: b :: c :: l) / 3) with (S (length l / 3)) by (cbn [length]; replace (S (S (S (length l)))) with (length l + 1 * 3) by lia; rewrite Nat.div_add by lia; lia).
  cbn [seq map]. f_equal. rewrite <- seq_shift, map_map. apply map_ext. intros i. replace (3 * S i) with (S (S (S (3 * i)))) by lia. replace (S (S (S (3 * i))) + 1) with (S (S (S (3 * i + 1)))) by lia. replace (S (S (S (3 * i))) + 2) with (S (S (S (3 * i + 2)))) by lia. reflexivity.
Qed.
Lemma valid_triples n : forall k l, length l <= k -> Forall (fun i => i < n) l -> valid_faces n (triples l).
Proof.
  induction k as [|k IH]; intros l L F; [destruct l; [constructor|cbn in L; lia]|]. destruct l as [|a [|b [|c l]]]; cbn; try constructor; inversion F as [|? ? A F1]; subst; inversion F1 as [|? ? B F2]; subst; inversion F2 as [|? ? D F3]; subst.
  - cbn. auto.
  - apply IH; [cbn in L; lia|exact F3].
Qed.
Lemma resize_fits {X} (a l : list X) n k x : length a = n -> length l = 0 \/ length l = k -> resize (a ++ l) (n + k) x = a ++ or_else x k l.
Proof.
  intros A [L|L]; unfold resize; rewrite app_length.
  - destruct l; [|discriminate]. rewrite app_nil_r. cbn [or_else length]. rewrite firstn_all2 by lia. f_equal. f_equal. lia.
  - rewrite firstn_all2 by (rewrite app_length; lia). replace (n + k - (length a + length l)) with 0 by lia. cbn [repeat]. rewrite app_nil_r. destruct l as [|y l]; [cbn in L; subst k; reflexivity|reflexivity].
Qed.
Lemma fits_or {X Y} (l : list X) (p : list Y) : fits l p = true -> length l = 0 \/ length l = length p.
Proof. unfold fits. rewrite orb_true_iff, !Nat.eqb_eq. auto. Qed.
Definition sized (m : mesh) : Prop := length (gm_normals m) = length (gm_vertices m) /\ length (gm_colors m) = length (gm_vertices m) /\ gm_confidence m = repeat one (length (gm_vertices m)) /\ gm_tex_faces m = match gm_tex m with [] => [] | _ => gm_faces m end.
Lemma or_else_length {X} (x : X) n l : length l = 0 \/ length l = n -> length (or_else x n l) = n.
Proof. intros [L|L]; destruct l; cbn in L |- *; try discriminate; try apply repeat_length; exact L. Qed.

Lemma add_mesh_spec p m r : sized m -> add_mesh nn nc one p m = Ok r -> sized (fst r) /\
  gm_vertices (fst r) = gm_vertices m ++ (if loaded p then pr_pos p else []) /\
  gm_normals (fst r) = gm_normals m ++ (if loaded p then or_else nn (length (pr_pos p)) (pr_nml p) else []) /\
  gm_colors (fst r) = gm_colors m ++ (if loaded p then or_else nc (length (pr_pos p)) (pr_col p) else []) /\
  gm_tex (fst r) = gm_tex m ++ (if loaded p then pr_tex p else []) /\
  gm_faces (fst r) = gm_faces m ++ (if loaded p then map (shift (length (gm_vertices m))) (triples (pr_idx p)) else []) /\
  (loaded p = true -> length (pr_tex p) = 0 \/ length (pr_tex p) = length (pr_pos p)) /\ snd r = (if loaded p then length (pr_pos p) else 0).
Proof.
  intros [S1 [S2 [S3 S4]]] H. unfold add_mesh in H. unfold loaded. destruct (pr_triangles p); cbn [negb andb] in *; [|injection H as <-; cbn; rewrite !app_nil_r; repeat split; auto; discriminate].
  destruct (negb (length (pr_idx p) mod 3 =? 0)); [discriminate|]. destruct (pr_idx p) as [|i0 idx] eqn:EI; [discriminate|]. rewrite <- EI in *. destruct (pr_pos p) as [|v0 pos] eqn:EP; [injection H as <-; cbn; rewrite !app_nil_r; repeat split; auto; discriminate|].
  rewrite <- EP in *. destruct (fits (pr_nml p) (pr_pos p)) eqn:F1; cbn [negb] in H; [|discriminate]. destruct (fits (pr_col p) (pr_pos p)) eqn:F2; cbn [negb] in H; [|discriminate]. destruct (fits (pr_tex p) (pr_pos p)) eqn:F3; cbn [negb] in H; [|discriminate].
  apply fits_or in F1, F2, F3. injection H as <-. cbn [fst snd gm_vertices gm_normals gm_colors gm_tex gm_faces gm_tex_faces gm_confidence]. assert (NZ : (length (pr_pos p) =? 0) = false) by (rewrite EP; reflexivity). rewrite NZ. cbn [negb].
  assert (E1 : resize (gm_normals m ++ pr_nml p) (length (gm_vertices m ++ pr_pos p)) nn = gm_normals m ++ or_else nn (length (pr_pos p)) (pr_nml p)) by (rewrite app_length; apply resize_fits; assumption).
  assert (E2 : resize (gm_colors m ++ pr_col p) (length (gm_vertices m ++ pr_pos p)) nc = gm_colors m ++ or_else nc (length (pr_pos p)) (pr_col p)) by (rewrite app_length; apply resize_fits; assumption).
  split; [|repeat split; auto].
  unfold sized. cbn [gm_vertices gm_normals gm_colors gm_tex gm_faces gm_tex_faces gm_confidence]. rewrite E1, E2, !app_length, S1, S2, (or_else_length nn _ _ F1), (or_else_length nc _ _ F2). split; [reflexivity|]. split; [reflexivity|]. split.
  - unfold resize. rewrite S3, repeat_length, firstn_all2 by (rewrite repeat_length; lia). rewrite <- repeat_app. f_equal. lia.
  - destruct (gm_tex m ++ pr_tex p) as [|t l] eqn:ET; [|reflexivity]. apply app_eq_nil in ET. destruct ET as [ET _]. rewrite ET in S4. exact S4.
Qed.
Definition kept_of {X} (f : prim -> list X) (ps : list prim) : list X := flat_map f (filter loaded ps).
Lemma kept_cons {X} (f : prim -> list X) p ps : kept_of f (p :: ps) = (if loaded p then f p else []) ++ kept_of f ps.
Proof. unfold kept_of. cbn. destruct (loaded p); reflexivity. Qed.
Lemma add_meshes_spec : forall ps m m', sized m -> add_meshes nn nc one ps m = Ok m' -> sized m' /\
  gm_vertices m' = gm_vertices m ++ kept_of pr_pos ps /\ gm_normals m' = gm_normals m ++ kept_of (fun p => or_else nn (length (pr_pos p)) (pr_nml p)) ps /\
  gm_colors m' = gm_colors m ++ kept_of (fun p => or_else nc (length (pr_pos p)) (pr_col p)) ps /\ gm_tex m' = gm_tex m ++ kept_of pr_tex ps /\
  (valid_faces (length (gm_vertices m)) (gm_faces m) -> (forall p, In p ps -> loaded p = true -> Forall (fun i => i < length (pr_pos p)) (pr_idx p)) ->
    valid_faces (length (gm_vertices m')) (gm_faces m') /\ corners (gm_vertices m') (gm_faces m') = corners (gm_vertices m) (gm_faces m) ++ kept_of (fun p => corners (pr_pos p) (triples (pr_idx p))) ps /\
    (length (gm_tex m) = length (gm_vertices m) -> (forall p, In p ps -> loaded p = true -> pr_tex p <> []) -> length (gm_tex m') = length (gm_vertices m') /\ corners (gm_tex m') (gm_faces m') = corners (gm_tex m) (gm_faces m) ++ kept_of (fun p => corners (pr_tex p) (triples (pr_idx p))) ps)).
Proof.
  induction ps as [|p ps IH]; intros m m' S H; cbn [add_meshes] in H.
  { injection H as <-. unfold kept_of. cbn. rewrite !app_nil_r. split; [exact S|]. repeat split; auto. }
  destruct (add_mesh nn nc one p m) as [r| | | |] eqn:E; try discriminate. cbn [obind] in H. destruct (add_mesh_spec p m r S E) as [S1 [A1 [A2 [A3 [A4 [A5 [A6 _]]]]]]]. destruct (IH (fst r) m' S1 H) as [S2 [B1 [B2 [B3 [B4 B5]]]]]. split; [exact S2|].
  rewrite !kept_cons. split; [rewrite B1, A1, app_assoc; reflexivity|]. split; [rewrite B2, A2, app_assoc; reflexivity|]. split; [rewrite B3, A3, app_assoc; reflexivity|]. split; [rewrite B4, A4, app_assoc; reflexivity|].
  intros VF VI. assert (V1 : valid_faces (length (gm_vertices (fst r))) (gm_faces (fst r))).
  { rewrite A1, A5, app_length. apply Forall_app. split; [apply valid_more; exact VF|]. destruct (loaded p) eqn:LP; [|constructor]. apply valid_shift. apply (valid_triples _ (length (pr_idx p))); [lia|]. apply VI; [left; reflexivity|exact LP]. }
  destruct (B5 V1 (fun q I => VI q (or_intror I))) as [C1 [C2 C3]]. split; [exact C1|]. split.
  - rewrite C2, app_assoc. f_equal. rewrite A1, A5. unfold corners at 1. rewrite map_app. f_equal; [exact (corners_more _ _ _ VF)|]. destruct (loaded p); [|reflexivity]. exact (corners_shift (gm_vertices m) (pr_pos p) (triples (pr_idx p))).
  - intros LT TX. assert (L1 : length (gm_tex (fst r)) = length (gm_vertices (fst r))).
    { rewrite A1, A4, !app_length, LT. f_equal. destruct (loaded p) eqn:LP; [|reflexivity]. destruct (A6 eq_refl) as [Z|Z]; [|exact Z]. exfalso. apply (TX p (or_introl eq_refl) LP). destruct (pr_tex p); [reflexivity|discriminate]. }
    destruct (C3 L1 (fun q I => TX q (or_intror I))) as [D1 D2]. split; [exact D1|]. rewrite D2, app_assoc. f_equal. rewrite A4, A5. unfold corners at 1. rewrite map_app. f_equal.
    + rewrite <- LT in VF. exact (corners_more _ _ _ VF).
    + destruct (loaded p); [|reflexivity]. rewrite <- LT. exact (corners_shift (gm_tex m) (pr_tex p) (triples (pr_idx p))).
Qed.
End Mesh.

(** C132. The mesh has the vertices of all primitives of triangles one after the other, with their normals and colours or the default ones, and full confidence. *)
Theorem mesh_vertices {V N C T K} (nn : N) (nc : C) (one : K) (ps : list (@primitive V N C T)) m : load_mesh nn nc one ps = Ok m ->
  gm_vertices m = flat_map pr_pos (filter loaded ps) /\
  gm_normals m = flat_map (fun p => or_else nn (length (pr_pos p)) (pr_nml p)) (filter loaded ps) /\
  gm_colors m = flat_map (fun p => or_else nc (length (pr_pos p)) (pr_col p)) (filter loaded ps) /\
  length (gm_normals m) = length (gm_vertices m) /\ length (gm_colors m) = length (gm_vertices m) /\ gm_confidence m = repeat one (length (gm_vertices m)).
Proof.
  intros H. unfold load_mesh in H. apply add_meshes_spec in H; [|repeat split]. destruct H as [[S1 [S2 [S3 _]]] [A [B [D _]]]]. repeat split; assumption.
Qed.
Print Assumptions mesh_vertices.

(** C132. If the indices of every primitive are ones of its vertices, every face has three vertices of the mesh, and the faces look like those of the primitives. *)
Theorem mesh_faces {V N C T K} (nn : N) (nc : C) (one : K) (ps : list (@primitive V N C T)) m : load_mesh nn nc one ps = Ok m ->
  (forall p, In p ps -> loaded p = true -> Forall (fun i => i < length (pr_pos p)) (pr_idx p)) ->
  valid_faces (length (gm_vertices m)) (gm_faces m) /\
  corners (gm_vertices m) (gm_faces m) = flat_map (fun p => corners (pr_pos p) (faces_of (pr_idx p))) (filter loaded ps).
Proof.
  intros H I. unfold load_mesh in H. apply add_meshes_spec in H; [|repeat split]. destruct H as [_ [_ [_ [_ [_ G]]]]]. destruct (G (Forall_nil _) I) as [A [B _]]. split; [exact A|]. rewrite B. cbn [app]. unfold kept_of. cbn. apply flat_map_ext. intros p. rewrite (triples_faces (length (pr_idx p))) by lia. reflexivity.
Qed.
Print Assumptions mesh_faces.

(** C132. If all primitives have texture coordinates, every corner of a face has the ones of the primitive. *)
Theorem mesh_texture_partial {V N C T K} (nn : N) (nc : C) (one : K) (ps : list (@primitive V N C T)) m : load_mesh nn nc one ps = Ok m ->
  (forall p, In p ps -> loaded p = true -> Forall (fun i => i < length (pr_pos p)) (pr_idx p)) -> (forall p, In p ps -> loaded p = true -> pr_tex p <> []) ->
  length (gm_tex m) = length (gm_vertices m) /\ gm_tex_faces m = (match gm_tex m with [] => [] | _ => gm_faces m end) /\
  corners (gm_tex m) (gm_faces m) = flat_map (fun p => corners (pr_tex p) (faces_of (pr_idx p))) (filter loaded ps).
Proof.
  intros H I X. unfold load_mesh in H. apply add_meshes_spec in H; [|repeat split]. destruct H as [[_ [_ [_ S]]] [_ [_ [_ [_ G]]]]]. destruct (G (Forall_nil _) I) as [_ [_ L]]. destruct (L eq_refl X) as [A B]. split; [exact A|]. split; [exact S|]. rewrite B. unfold kept_of. cbn. apply flat_map_ext. intros p. rewrite (triples_faces (length (pr_idx p))) by lia. reflexivity.
Qed.
Print Assumptions mesh_texture_partial.

(** Two triangles, the second one with two faces, and points that are no triangles. Vertices and texture coordinates are numbers. *)
Definition tri (k : nat) (idx : list nat) (tex : list nat) : @primitive nat nat nat nat := Prim true idx [k; k + 1; k + 2] [] [7; 8; 9] tex.
Definition some_prims : list (@primitive nat nat nat nat) := [tri 10 [0; 1; 2] [1; 2; 3]; Prim false [0] [5] [] [] []; tri 20 [0; 1; 2; 2; 1; 0] [4; 5; 6]].
Example mesh_met : load_mesh 0 0 1 some_prims = Ok (GM [10; 11; 12; 20; 21; 22] [(0, 1, 2); (3, 4, 5); (5, 4, 3)] [0; 0; 0; 0; 0; 0] [7; 8; 9; 7; 8; 9] [1; 2; 3; 4; 5; 6] [(0, 1, 2); (3, 4, 5); (5, 4, 3)] [1; 1; 1; 1; 1; 1]) /\
  (forall p, In p some_prims -> loaded p = true -> Forall (fun i => i < length (pr_pos p)) (pr_idx p)) /\ (forall p, In p some_prims -> loaded p = true -> pr_tex p <> []).
Proof.
  split; [reflexivity|]. split; intros p [<-|[<-|[<-|[]]]] L; try discriminate; cbn; repeat constructor.
Qed.

(** C132. If only a later primitive has texture coordinates, the faces use coordinates that do not exist, and others are those of another vertex. *)
Theorem mesh_texture_refuted : exists (ps : list (@primitive nat nat nat nat)) m, load_mesh 0 0 1 ps = Ok m /\ (forall p, In p ps -> loaded p = true /\ Forall (fun i => i < length (pr_pos p)) (pr_idx p)) /\
  corners (gm_tex m) (gm_tex_faces m) = [(Some 4, Some 5, Some 6); (None, None, None)] /\ corners (gm_vertices m) (gm_faces m) = [(Some 10, Some 11, Some 12); (Some 20, Some 21, Some 22)] /\ pr_tex (nth 1 ps (tri 0 [] [])) = [4; 5; 6].
Proof.
  exists [tri 10 [0; 1; 2] []; tri 20 [0; 1; 2] [4; 5; 6]]. eexists. split; [reflexivity|]. split; [intros p [<-|[<-|[]]]; split; repeat constructor|]. repeat split.
Qed.
Print Assumptions mesh_texture_refuted.

(** C132. Indices are not checked: a face can have a vertex of another primitive or one that does not exist. *)
Theorem mesh_indices_refuted : exists (ps : list (@primitive nat nat nat nat)) m, load_mesh 0 0 1 ps = Ok m /\ corners (gm_vertices m) (gm_faces m) = [(Some 20, Some 21, Some 22); (Some 20, None, None)].
Proof. exists [tri 10 [3; 4; 5] []; tri 20 [0; 3; 9] []]. eexists. split; reflexivity. Qed.
Print Assumptions mesh_indices_refuted.

(** C132. Indices that cannot be read, as those of one byte, leave an empty list whose first element is taken. *)
Theorem mesh_no_indices_refuted : exists ps : list (@primitive nat nat nat nat), load_mesh 0 0 1 ps = UB.
Proof. exists [tri 10 [] []]. reflexivity. Qed.
Print Assumptions mesh_no_indices_refuted.
