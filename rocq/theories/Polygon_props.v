(** C39: packed polygons. *)

From Coq Require Import List Arith NArith ZArith Lia Bool.
From Verif Require Import Prelude Loops Polygon_model Polygon_spec.
Import ListNotations.
Local Open Scope outcome_scope.

(** ** Validation *)

Lemma offsets_from_length faces : forall s, length (offsets_from s faces) = S (length faces).
Proof. induction faces as [|f r IH]; intros s; cbn; auto. Qed.
Lemma offsets_from_head s faces : exists r, offsets_from s faces = s :: r.
Proof. destruct faces; cbn; eauto. Qed.
Lemma offsets_from_last faces : forall s, last (offsets_from s faces) 0%N = (s + N.of_nat (length (concat faces)))%N.
Proof.
  induction faces as [|f r IH]; intros s; [cbn; lia|]. cbn [offsets_from concat].
  specialize (IH (s + N.of_nat (length f))%N). destruct (offsets_from_head (s + N.of_nat (length f)) r) as [l E].
  rewrite E in *. change (last (s :: (s + N.of_nat (length f))%N :: l) 0%N) with (last ((s + N.of_nat (length f))%N :: l) 0%N).
  rewrite IH, app_length. lia.
Qed.

Lemma face_problem_packed n faces : forall s, (s + N.of_nat (length (concat faces)) <= n)%N ->
  Forall (fun f => 3 <= length f) faces -> face_problem n (offsets_from s faces) = None.
Proof.
  induction faces as [|f r IH]; intros s H F; [reflexivity|]. inversion F as [|? ? F1 F2]; subst.
  cbn [concat] in H. rewrite app_length in H. cbn [offsets_from].
  destruct (offsets_from_head (s + N.of_nat (length f)) r) as [l E]. specialize (IH (s + N.of_nat (length f))%N).
  rewrite E in *. cbn [face_problem].
  rewrite (proj2 (N.leb_gt _ _)), (proj2 (N.ltb_ge _ _)), (proj2 (N.ltb_ge _ _)) by lia. apply IH; [lia|assumption].
Qed.

Lemma skipn_add {A} a b (l : list A) : skipn a (skipn b l) = skipn (b + a) l.
Proof. revert l. induction b as [|b IH]; intros [|x l]; cbn; auto. apply skipn_nil. Qed.

Lemma face_problem_none (indices : list N) l : forall s, (s <= N.of_nat (length indices))%N ->
  face_problem (N.of_nat (length indices)) (s :: l) = None -> last (s :: l) 0%N = N.of_nat (length indices) ->
  exists faces, s :: l = offsets_from s faces /\ skipn (N.to_nat s) indices = concat faces /\
    Forall (fun f => 3 <= length f) faces.
Proof.
  induction l as [|e l IH]; intros s Hs FP La.
  - exists []. cbn in La. split; [reflexivity|]. split; [|constructor]. cbn [concat]. apply skipn_all2. lia.
  - cbn [face_problem] in FP. destruct (N.leb_spec e s) as [|H1]; [discriminate|].
    destruct (N.ltb_spec (N.of_nat (length indices)) e) as [|H2]; [discriminate|].
    destruct (N.ltb_spec (e - s) 3) as [|H3]; [discriminate|].
    destruct (IH e H2 FP La) as (faces & E1 & E2 & F).
    exists (firstn (N.to_nat (e - s)) (skipn (N.to_nat s) indices) :: faces).
    assert (length (firstn (N.to_nat (e - s)) (skipn (N.to_nat s) indices)) = N.to_nat (e - s)) as Lf.
    { rewrite firstn_length, skipn_length. lia. }
    split; [|split].
    + cbn [offsets_from]. rewrite Lf, N2Nat.id. replace (s + (e - s))%N with e by lia. rewrite E1. reflexivity.
    + cbn [concat]. rewrite <- E2. rewrite <- (firstn_skipn (N.to_nat (e - s)) (skipn (N.to_nat s) indices)) at 1.
      f_equal. rewrite skipn_add. f_equal. lia.
    + constructor; [rewrite Lf; lia|exact F].
Qed.

(** ** Triangulation *)

Lemma fan_loop indices start p0 l : forall j r,
  nth_error indices (N.to_nat start) = Some p0 ->
  (forall k, k < length l -> nth_error indices (N.to_nat start + j + k) = nth_error l k) ->
  ofold (fun j r =>
    let* a := span_at indices (start + 0) in
    let* b := span_at indices (start + N.of_nat j) in
    let* c := span_at indices (start + N.of_nat j + 1) in
    Ok (r ++ [(to_int a, to_int b, to_int c)])) (seq j (length l - 1)) r = Ok (r ++ map signed (fan_from p0 l)).
Proof.
  match goal with |- forall j r, _ -> _ -> ofold ?f _ _ = _ => set (st := f) end.
  induction l as [|x l IH]; intros j r E0 E; [cbn; rewrite app_nil_r; reflexivity|].
  destruct l as [|y l].
  - cbn. rewrite app_nil_r. reflexivity.
  - replace (length (x :: y :: l) - 1) with (S (length (y :: l) - 1)) by (cbn [length]; lia).
    cbn [seq ofold].
    assert (st j r = Ok (r ++ [(to_int p0, to_int x, to_int y)])) as ->.
    { unfold st, span_at.
      replace (N.to_nat (start + 0)) with (N.to_nat start) by lia. rewrite E0. cbn [obind].
      replace (N.to_nat (start + N.of_nat j)) with (N.to_nat start + j + 0) by lia. rewrite (E 0) by (cbn [length]; lia).
      cbn [nth_error obind].
      replace (N.to_nat (start + N.of_nat j + 1)) with (N.to_nat start + j + 1) by lia. rewrite (E 1) by (cbn [length]; lia).
      reflexivity. }
    cbn [obind]. rewrite (IH (S j)).
    + rewrite <- app_assoc. reflexivity.
    + exact E0.
    + intros k Hk. specialize (E (S k)).
      replace (N.to_nat start + S j + k) with (N.to_nat start + j + S k) by lia. rewrite E by (cbn [length] in *; lia). reflexivity.
Qed.

Lemma face_fan_ok pre f post r : 3 <= length f ->
  face_fan (pre ++ f ++ post) (N.of_nat (length pre)) (N.of_nat (length f)) r = Ok (r ++ map signed (fan f)).
Proof.
  intros H. destruct f as [|p0 l]; [cbn in H; lia|]. unfold face_fan.
  replace (N.to_nat (N.of_nat (length (p0 :: l))) - 2) with (length l - 1) by (cbn [length]; lia).
  apply fan_loop.
  - rewrite Nat2N.id, nth_error_app2, Nat.sub_diag by lia. reflexivity.
  - intros k Hk. rewrite Nat2N.id, nth_error_app2 by lia. replace (length pre + 1 + k - length pre) with (S k) by lia.
    cbn [app nth_error]. rewrite nth_error_app1 by exact Hk. reflexivity.
Qed.

Lemma span_at_nat l i : span_at l (N.of_nat i) = match nth_error l i with Some x => Ok x | None => CheckFail end.
Proof. unfold span_at. rewrite Nat2N.id. reflexivity. Qed.

Lemma triangulate_loop faces : forall pre opre r,
  Forall (fun f => 3 <= length f) faces ->
  (N.of_nat (length pre + length (concat faces)) < 2 ^ 32)%N ->
  ofold (fun f r =>
        let* s := span_at (opre ++ offsets_from (N.of_nat (length pre)) faces) (N.of_nat f) in
        let* e := span_at (opre ++ offsets_from (N.of_nat (length pre)) faces) (N.of_nat f + 1) in
        let nv := ((e + 2 ^ 32 - s) mod 2 ^ 32)%N in
        if (nv <? 3)%N then Throw else face_fan (pre ++ concat faces) s nv r)
    (seq (length opre) (length faces)) r = Ok (r ++ map signed (flat_map fan faces)).
Proof.
  induction faces as [|f fs IH]; intros pre opre r F B; [cbn; rewrite app_nil_r; reflexivity|].
  inversion F as [|? ? F1 F2]; subst. cbn [concat] in *. rewrite app_length in B. cbn [length seq ofold].
  replace (N.of_nat (length opre) + 1)%N with (N.of_nat (S (length opre))) by lia.
  rewrite !span_at_nat. cbn [offsets_from].
  destruct (offsets_from_head (N.of_nat (length pre) + N.of_nat (length f)) fs) as [l El]. rewrite El.
  set (o := N.of_nat (length pre) :: _ :: l).
  assert (nth_error (opre ++ o) (length opre) = Some (N.of_nat (length pre))) as ->.
  { rewrite nth_error_app2, Nat.sub_diag by lia. reflexivity. }
  assert (nth_error (opre ++ o) (S (length opre)) = Some (N.of_nat (length pre) + N.of_nat (length f))%N) as ->.
  { rewrite nth_error_app2 by lia. replace (S (length opre) - length opre) with 1 by lia. reflexivity. }
  cbn [obind]. unfold o. clear o.
  cbv zeta.
  assert ((N.of_nat (length pre) + N.of_nat (length f) + 2 ^ 32 - N.of_nat (length pre)) mod 2 ^ 32 = N.of_nat (length f))%N as ->.
  { replace (N.of_nat (length pre) + N.of_nat (length f) + 2 ^ 32 - N.of_nat (length pre))%N with (N.of_nat (length f) + 1 * 2 ^ 32)%N by lia.
    rewrite N.mod_add by lia. apply N.mod_small. lia. }
  rewrite (proj2 (N.ltb_ge _ _)) by lia. rewrite face_fan_ok by exact F1. cbn [obind].
  specialize (IH (pre ++ f) (opre ++ [N.of_nat (length pre)]) (r ++ map signed (fan f)) F2).
  rewrite !app_length in IH. cbn [length] in IH. rewrite Nat.add_1_r in IH.
  replace (N.of_nat (length pre + length f)) with (N.of_nat (length pre) + N.of_nat (length f))%N in IH by lia.
  rewrite El in IH. rewrite <- !app_assoc in IH. cbn [app] in IH.
  rewrite IH by lia. cbn [flat_map]. rewrite map_app. reflexivity.
Qed.

Lemma triangulate_packed faces indices offsets : packs faces indices offsets ->
  Forall (fun f => 3 <= length f) faces -> (N.of_nat (length indices) < 2 ^ 32)%N ->
  triangulate indices offsets = Ok (map signed (flat_map fan faces)).
Proof.
  intros [-> ->] F B. unfold triangulate. destruct (concat faces) as [|i0 ir] eqn:EC.
  - destruct faces as [|f fs]; [reflexivity|]. inversion F as [|? ? F1 F2]; subst.
    cbn [concat] in EC. apply (f_equal (@length N)) in EC. rewrite app_length in EC. cbn [length] in EC. lia.
  - destruct (offsets_from_head 0 faces) as [l El]. rewrite El, <- El, <- EC.
    rewrite offsets_from_length. replace (S (length faces) - 1) with (length faces) by lia.
    rewrite <- EC in B. exact (triangulate_loop faces [] [] [] F B).
Qed.

Lemma fan_from_length p0 l : length (fan_from p0 l) = length l - 1.
Proof.
  induction l as [|a l IH]; [reflexivity|]. destruct l as [|b l]; [reflexivity|].
  change (fan_from p0 (a :: b :: l)) with ((p0, a, b) :: fan_from p0 (b :: l)). cbn [length] in *. lia.
Qed.
Lemma fan_length f : length (fan f) = length f - 2.
Proof. destruct f as [|p l]; [reflexivity|]. cbn [fan length]. rewrite fan_from_length. lia. Qed.
Lemma fan_from_in p0 l : forall a b c, In (a, b, c) (fan_from p0 l) -> a = p0 /\ In b l /\ In c l.
Proof.
  induction l as [|x l IH]; intros a b c H; [contradiction|]. destruct l as [|y l]; [contradiction|].
  change (fan_from p0 (x :: y :: l)) with ((p0, x, y) :: fan_from p0 (y :: l)) in H. destruct H as [H|H].
  - injection H as <- <- <-. cbn; auto.
  - destruct (IH a b c H) as (? & ? & ?). cbn in *; auto.
Qed.
Lemma fan_in f a b c : In (a, b, c) (fan f) -> In a f /\ In b f /\ In c f.
Proof.
  destruct f as [|p l]; [contradiction|]. cbn [fan]. intros H. destruct (fan_from_in _ _ _ _ _ H) as (-> & ? & ?). cbn; auto.
Qed.

(** ** Theorems *)

(** errorMessage accepts exactly packed polygons of at least three corners with vertices in range
    and a texture list of the right size. *)
Theorem error_message_empty_iff indices offsets texture nv :
  error_message indices offsets texture nv = None <->
  (texture = [] \/ length texture = length indices) /\
  (forall i, In i indices -> (i < nv)%N) /\
  exists faces, packs faces indices offsets /\ Forall (fun f => 3 <= length f) faces.
Proof.
  unfold error_message. destruct offsets as [|o l].
  { split; [discriminate|]. intros (_ & _ & faces & [_ E] & _). destruct (offsets_from_head 0 faces) as [r Er]. congruence. }
  destruct (N.eqb_spec o 0) as [->|Ho]; cbn [negb].
  2:{ split; [discriminate|]. intros (_ & _ & faces & [_ E] & _). destruct (offsets_from_head 0 faces) as [r Er]. congruence. }
  destruct (Nat.eqb_spec (length texture) 0) as [T0|T0]; cbn [negb andb];
  [|destruct (Nat.eqb_spec (length texture) (length indices)) as [T1|T1]; cbn [negb]].
  3:{ split; [discriminate|]. intros ([->|T] & _); [cbn in T0; lia|contradiction]. }
  1: assert (texture = [] \/ length texture = length indices) as HT by (left; destruct texture; [reflexivity|discriminate]).
  2: assert (texture = [] \/ length texture = length indices) as HT by (right; exact T1).
  all: destruct (face_problem (N.of_nat (length indices)) (0%N :: l)) as [p|] eqn:FP;
    [split; [discriminate|]; intros (_ & _ & faces & [E1 E2] & F); rewrite E2, E1, face_problem_packed in FP by (lia || exact F); discriminate|];
    destruct (existsb (fun i => nv <=? i)%N indices) eqn:EX;
    [split; [discriminate|]; intros (_ & V & _); apply existsb_exists in EX; destruct EX as (i & Hi & Le);
      apply N.leb_le in Le; specialize (V i Hi); lia|];
    destruct (N.eqb_spec (last (0%N :: l) 0%N) (N.of_nat (length indices))) as [La|La]; cbn [negb];
    [split; [|reflexivity]; intros _; split; [exact HT|]; split;
      [intros i Hi; apply N.lt_nge; intros Le; apply N.leb_le in Le; rewrite <- not_true_iff_false in EX; apply EX;
        apply existsb_exists; exists i; auto
      |destruct (face_problem_none indices l 0%N ltac:(lia) FP La) as (faces & E1 & E2 & F); exists faces; split;
        [split; [exact E2|exact E1]|exact F]]
    |split; [discriminate|]; intros (_ & _ & faces & [E1 E2] & F); exfalso; apply La; rewrite E2, E1, offsets_from_last; lia].
Qed.
Print Assumptions error_message_empty_iff.

(** C39. Data that errorMessage accepts is triangulated into the fans of its polygons: a polygon
    with n corners gives n - 2 triangles, in order, and every corner of a triangle is a corner of
    its polygon. Offsets are 32-bit; with at most 2^31 vertices all indices are in range. *)
Theorem accepted_polygons_triangulate_partial indices offsets texture nv :
  (forall o, In o offsets -> (o < 2 ^ 32)%N) -> (nv <= 2 ^ 31)%N ->
  error_message indices offsets texture nv = None ->
  exists faces, packs faces indices offsets /\
    triangulate indices offsets = Ok (map signed (flat_map fan faces)) /\
    (forall f, In f faces -> 3 <= length f /\ length (fan f) = length f - 2 /\
      forall a b c, In (a, b, c) (fan f) -> In a f /\ In b f /\ In c f) /\
    (forall a b c, In (a, b, c) (map signed (flat_map fan faces)) ->
      (0 <= a < Z.of_N nv /\ 0 <= b < Z.of_N nv /\ 0 <= c < Z.of_N nv)%Z).
Proof.
  intros Ho Hn H. apply error_message_empty_iff in H. destruct H as (_ & V & faces & P & F). exists faces.
  split; [exact P|]. split; [|split].
  - apply triangulate_packed; [exact P|exact F|]. destruct P as [E1 E2].
    assert (last offsets 0%N = N.of_nat (length indices)) as La by (rewrite E2, E1, offsets_from_last; lia).
    rewrite <- La. apply Ho. destruct (offsets_from_head 0 faces) as [r Er]. rewrite E2, Er.
    destruct (exists_last (l := 0%N :: r)) as (l' & x & E); [discriminate|]. rewrite E, last_last. apply in_or_app. cbn. auto.
  - intros f Hf. rewrite Forall_forall in F. split; [apply F; exact Hf|]. split; [apply fan_length|apply fan_in].
  - intros a b c Hi. apply in_map_iff in Hi. destruct Hi as (((x & y) & z) & E & Hi). apply in_flat_map in Hi.
    destruct Hi as (f & Hf & Hx). apply fan_in in Hx. destruct P as [E1 _].
    assert (forall i, In i f -> (i < nv)%N) as VF.
    { intros i Hfi. apply V. rewrite E1. apply in_concat. eauto. }
    destruct Hx as (X1 & X2 & X3). apply VF in X1, X2, X3. cbn [signed] in E. injection E as <- <- <-.
    unfold to_int. rewrite !(proj2 (N.ltb_lt _ _)) by lia. lia.
Qed.
Print Assumptions accepted_polygons_triangulate_partial.

(** The texture corners are triangulated with the same offsets, into triangles that match. *)
Theorem accepted_textures_triangulate indices offsets texture nv :
  (forall o, In o offsets -> (o < 2 ^ 32)%N) ->
  error_message indices offsets texture nv = None -> texture <> [] ->
  exists faces tfaces, packs faces indices offsets /\ packs tfaces texture offsets /\
    map (@length N) tfaces = map (@length N) faces /\
    triangulate texture offsets = Ok (map signed (flat_map fan tfaces)) /\
    length (flat_map fan tfaces) = length (flat_map fan faces).
Proof.
  intros Ho H Ne. apply error_message_empty_iff in H. destruct H as (T & _ & faces & P & F).
  destruct T as [->|T]; [congruence|].
  assert (forall faces (l : list N), length l = length (concat faces) ->
    exists tf, concat tf = l /\ map (@length N) tf = map (@length N) faces /\ forall s, offsets_from s tf = offsets_from s faces) as K.
  { clear. induction faces as [|f fs IH]; intros l L; cbn [concat] in L.
    - exists []. destruct l; [auto|discriminate].
    - rewrite app_length in L. destruct (IH (skipn (length f) l)) as (tf & E1 & E2 & E3); [rewrite skipn_length; lia|].
      exists (firstn (length f) l :: tf). assert (length (firstn (length f) l) = length f) as Lf by (rewrite firstn_length; lia).
      split; [cbn [concat]; rewrite E1; apply firstn_skipn|]. split; [cbn [map]; rewrite Lf, E2; reflexivity|].
      intros s. cbn [offsets_from]. rewrite Lf, E3. reflexivity. }
  destruct P as [E1 E2]. destruct (K faces texture) as (tf & T1 & T2 & T3); [rewrite T, E1; reflexivity|].
  exists faces, tf. assert (packs tf texture offsets) as P2 by (split; [auto|rewrite E2; auto]).
  split; [split; auto|]. split; [exact P2|]. split; [exact T2|]. split.
  - apply triangulate_packed; [exact P2| |].
    + rewrite Forall_forall in *. intros f Hf. destruct (In_nth _ _ [] Hf) as (k & Hk & Ek).
      assert (length tf = length faces) as LL by (rewrite <- (map_length (@length N) tf), T2; apply map_length).
      assert (length f = length (nth k faces [])) as ->.
      { rewrite <- Ek. rewrite <- (map_nth (@length N) tf), <- (map_nth (@length N) faces), T2. reflexivity. }
      apply F. apply nth_In. lia.
    + rewrite T. assert (last offsets 0%N = N.of_nat (length indices)) as La by (rewrite E2, E1, offsets_from_last; lia).
      rewrite <- La. apply Ho. destruct (offsets_from_head 0 faces) as [r Er]. rewrite E2, Er.
      destruct (exists_last (l := 0%N :: r)) as (l' & x & E); [discriminate|]. rewrite E, last_last. apply in_or_app. cbn. auto.
  - clear -T2. revert faces T2. induction tf as [|g tf IH]; intros [|f fs] T2; try discriminate T2; [reflexivity|].
    injection T2 as L T2. cbn [flat_map]. rewrite !app_length, !fan_length, L, (IH fs T2). reflexivity.
Qed.
Print Assumptions accepted_textures_triangulate.

(** With more than 2^31 vertices the claim fails: indices are stored as signed 32-bit numbers. *)
Theorem accepted_polygons_triangulate_refuted :
  exists indices offsets nv r, (forall i, In i (indices ++ offsets) -> (i < 2 ^ 32)%N) /\
    error_message indices offsets [] nv = None /\ triangulate indices offsets = Ok r /\
    exists a b c, In (a, b, c) r /\ (a < 0)%Z.
Proof.
  exists [2 ^ 31; 0; 1]%N, [0; 3]%N, (2 ^ 31 + 1)%N. eexists. split; [|split; [reflexivity|split; [reflexivity|]]].
  - intros i Hi. cbn in Hi. intuition subst; reflexivity.
  - do 3 eexists. split; [left; reflexivity|reflexivity].
Qed.
Print Assumptions accepted_polygons_triangulate_refuted.

(** A quad and a triangle. *)
Example polygon_case :
  error_message [0; 1; 2; 3; 2; 1; 4]%N [0; 4; 7]%N [9; 9; 9; 9; 8; 8; 8]%N 5 = None /\
  packs [[0; 1; 2; 3]; [2; 1; 4]]%N [0; 1; 2; 3; 2; 1; 4]%N [0; 4; 7]%N /\
  flat_map fan [[0; 1; 2; 3]; [2; 1; 4]]%N = [(0, 1, 2); (0, 2, 3); (2, 1, 4)]%N.
Proof. repeat split. Qed.
