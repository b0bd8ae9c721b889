(** C121: the error of vertices against their targets. *)

From Coq Require Import Reals List Arith ZArith Bool Lia Lra Permutation Sorting.Sorted String.
From Coquelicot Require Import Coquelicot.
From Verif Require Import Prelude Loops LinAlg Rbool R3 Transform_model Transform_proofs Skeleton_spec FK_model FK_spec FK_proofs FK_deriv_proofs
  ParamTransform_model ParamTransform_spec ParamTransform_proofs Limits_model Limits_spec Limits_proofs Loss_model Constraint_model Constraint_spec Constraint_eval_proofs Constraint_proofs
  Constraint_deriv_proofs Constraint_props SimdFn_proofs Normals_spec Skin_model Skin_spec Skin_props Blend_model Blend_spec Blend_props CharUtil_model CharState_model CharState_props
  VErr_model VErr_spec VErr_iter_proofs VErr_proofs VErr_deriv_proofs.
Import ListNotations.
Local Open Scope nat_scope.
Local Open Scope outcome_scope.
Local Open Scope R_scope.

(** C121: getError is the weighted sum of the squared distances of the skinned vertices to their targets, or to planes through them, whatever the order in which
    the vertices are skinned. *)
Theorem vertex_error_is_objective E order p params sts : vfn_wf E -> pt_wf (vf_pt E) -> parents_first (sk_parents (vf_sk E)) ->
  Permutation order (seq 0 (List.length (vf_neutral E))) -> List.length p = pt_cols (vf_pt E) -> fk (vf_sk E) params = Ok sts ->
  exists vs, Forall2 (fun c v => vertex_is E p sts (vc_vertex c) (fst v) /\ normal_is E p sts (vc_vertex c) (snd v)) (vf_constraints E) vs /\
    vf_error order E p sts = Ok (objective E vs).
Proof.
  intros W WP V P Lp F. apply (error_ok E W WP order p sts P Lp). destruct (fk_inv _ _ _ V F) as [_ [FL _]]. exact FL.
Qed.
Print Assumptions vertex_error_is_objective.

Definition paths E p i := fun t => match state_of (vf_sk E) (vf_pt E) (set_nth p i t) with Ok s => s | _ => [] end.
Lemma paths_ok E p i : vfn_wf E -> drives_active E i -> pt_wf (vf_pt E) -> parents_first (sk_parents (vf_sk E)) -> List.length p = pt_cols (vf_pt E) ->
  forall t, state_of (vf_sk E) (vf_pt E) (set_nth p i t) = Ok (paths E p i t).
Proof.
  intros W DA WP V Lp t. destruct (state_path _ p i (dummy_wf E W i DA) V WP Lp) as [S HS]. unfold paths. specialize (HS t). cbn [cf_sk cf_pt] in HS. rewrite HS. reflexivity.
Qed.

(** C121: getGradient returns the error and adds its derivative, through joints, blend shapes and face expressions, for every parameter whose joint parameters are
    active. Partial: constraints on positions and on planes with the target's normal; not those with the normal of the mesh. *)
Theorem vertex_gradient_is_derivative_partial E order sort p sts g i : vfn_wf E -> pt_wf (vf_pt E) -> parents_first (sk_parents (vf_sk E)) -> unit_prerotations (vf_sk E) ->
  vf_type E = VPosition \/ vf_type E = VPlane /\ vf_face E = None ->
  Permutation order (seq 0 (List.length (vf_neutral E))) -> sorts sort ->
  List.length p = pt_cols (vf_pt E) -> List.length g = pt_cols (vf_pt E) -> state_of (vf_sk E) (vf_pt E) p = Ok sts ->
  (i < pt_cols (vf_pt E))%nat -> drives_active E i ->
  exists F g',
    (forall t, exists st, state_of (vf_sk E) (vf_pt E) (set_nth p i t) = Ok st /\ vf_error order E (set_nth p i t) st = Ok (F t)) /\
    vf_gradient sort order E p sts g = Ok (F (nth i p 0), g') /\ List.length g' = List.length g /\
    is_derive F (nth i p 0) (nth i g' 0 - nth i g 0).
Proof.
  intros W WP V U TY P ST Lp Lg H0 Hi DA. pose proof (paths_ok E p i W DA WP V Lp) as HS.
  assert (E0 : paths E p i (nth i p 0) = sts). { specialize (HS (nth i p 0)). rewrite set_nth_self in HS by lia. congruence. }
  destruct (gradient_at E W WP V p i Lp Hi DA (paths E p i) HS TY sort ST order P g Lg) as (g' & Eg & Lg' & Dg). rewrite E0 in Eg.
  exists (along E p i (paths E p i)), g'. split; [|split; [exact Eg|split; [exact Lg'|]]].
  - intros t. exists (paths E p i t). split; [apply HS|]. apply (error_at E W WP V p i Lp (paths E p i) HS TY order P).
  - rewrite Dg. apply (along_derive E W WP V U p i Lp Hi (paths E p i) HS TY).
Qed.
Print Assumptions vertex_gradient_is_derivative_partial.

(** C121: getJacobian: the error is the sum of the squared residuals and 2 J^T r its derivative. Partial: as above; with blend shape parameters there must be a
    blend shape. *)
Theorem vertex_jacobian_is_derivative_partial E order sort p sts n i : vfn_wf E -> pt_wf (vf_pt E) -> parents_first (sk_parents (vf_sk E)) -> unit_prerotations (vf_sk E) ->
  vf_type E = VPosition \/ vf_type E = VPlane /\ vf_face E = None /\ (vf_blend E = None -> forall z, In z (pt_blend (vf_pt E)) -> (z < 0)%Z) ->
  Permutation order (seq 0 (List.length (vf_neutral E))) -> sorts sort -> (forall c, In c (vf_constraints E) -> 0 <= vc_weight c * vf_weight E) ->
  List.length p = pt_cols (vf_pt E) -> (pt_cols (vf_pt E) <= n)%nat -> state_of (vf_sk E) (vf_pt E) p = Ok sts ->
  (i < pt_cols (vf_pt E))%nat -> drives_active E i ->
  exists F rows,
    (forall t, exists st, state_of (vf_sk E) (vf_pt E) (set_nth p i t) = Ok st /\ vf_error order E (set_nth p i t) st = Ok (F t)) /\
    vf_jacobian sort order E n p sts = Ok (F (nth i p 0), rows) /\
    List.length rows = vf_jacobian_size E /\ (forall row, In row rows -> List.length (fst row) = n) /\
    rsum (map (fun row => snd row * snd row) rows) = F (nth i p 0) /\
    is_derive F (nth i p 0) (2 * jt_r rows i).
Proof.
  intros W WP V U TY0 P ST Hw Lp Hn H0 Hi DA. pose proof (paths_ok E p i W DA WP V Lp) as HS.
  assert (TY : vf_type E = VPosition \/ vf_type E = VPlane /\ vf_face E = None) by tauto.
  assert (NB : vf_type E = VPlane -> vf_blend E = None -> forallb (fun z => z <? 0)%Z (pt_blend (vf_pt E)) = true).
  { intros T B. apply forallb_forall. intros z Hz. apply Z.ltb_lt. destruct TY0 as [T'|(_ & _ & H)]; [congruence|]. apply (H B z Hz). }
  assert (E0 : paths E p i (nth i p 0) = sts). { specialize (HS (nth i p 0)). rewrite set_nth_self in HS by lia. congruence. }
  destruct (jacobian_at E W WP V p i Lp Hi DA (paths E p i) HS TY NB sort ST order P n Hn Hw) as (rows & Ej & A1 & A2 & A3 & A4 & _). rewrite E0 in Ej.
  exists (along E p i (paths E p i)), rows. split; [|split; [exact Ej|split; [exact A2|split; [exact A1|split; [exact A4|]]]]].
  - intros t. exists (paths E p i t). split; [apply HS|]. apply (error_at E W WP V p i Lp (paths E p i) HS TY order P).
  - rewrite A3. apply (along_derive E W WP V U p i Lp Hi (paths E p i) HS TY).
Qed.
Print Assumptions vertex_jacobian_is_derivative_partial.

Lemma set_nth_twice (p : list R) i t u : set_nth (set_nth p i t) i u = set_nth p i u.
Proof. revert i. induction p as [|x p IH]; intros [|i]; cbn; try reflexivity. f_equal. apply IH. Qed.

(** C121: for positions, every entry of the Jacobian is the derivative of the residual of its row. *)
Theorem vertex_jacobian_rows E order sort p n i : vfn_wf E -> pt_wf (vf_pt E) -> parents_first (sk_parents (vf_sk E)) -> unit_prerotations (vf_sk E) ->
  vf_type E = VPosition ->
  Permutation order (seq 0 (List.length (vf_neutral E))) -> sorts sort -> (forall c, In c (vf_constraints E) -> 0 <= vc_weight c * vf_weight E) ->
  List.length p = pt_cols (vf_pt E) -> (pt_cols (vf_pt E) <= n)%nat -> (i < pt_cols (vf_pt E))%nat -> drives_active E i ->
  exists rows : R -> list (list R * R),
    (forall t, exists st e, state_of (vf_sk E) (vf_pt E) (set_nth p i t) = Ok st /\ vf_jacobian sort order E n (set_nth p i t) st = Ok (e, rows t)) /\
    forall k, is_derive (fun t => nth k (map snd (rows t)) 0) (nth i p 0) (nth k (map (fun row => nth i (fst row) 0) (rows (nth i p 0))) 0).
Proof.
  intros W WP V U T P ST Hw Lp Hn Hi DA. pose proof (paths_ok E p i W DA WP V Lp) as HS.
  assert (TY : vf_type E = VPosition \/ vf_type E = VPlane /\ vf_face E = None) by tauto.
  assert (NB : vf_type E = VPlane -> vf_blend E = None -> forallb (fun z => z <? 0)%Z (pt_blend (vf_pt E)) = true) by congruence.
  exists (fun t => match vf_jacobian sort order E n (set_nth p i t) (paths E p i t) with Ok x => snd x | _ => [] end).
  assert (A : forall t, exists e rows, vf_jacobian sort order E n (set_nth p i t) (paths E p i t) = Ok (e, rows) /\
    map snd rows = flat_map (fun c => resid E c (position_at E p i (paths E p i) t (vc_vertex c))) (vf_constraints E)).
  { intros t. set (p' := set_nth p i t). assert (L' : List.length p' = pt_cols (vf_pt E)) by (unfold p'; rewrite set_nth_length; exact Lp).
    assert (HS' : forall u, state_of (vf_sk E) (vf_pt E) (set_nth p' i u) = Ok (paths E p i u)) by (intros u; unfold p'; rewrite set_nth_twice; apply HS).
    assert (N' : nth i p' 0 = t) by (unfold p'; rewrite set_nth_nth by lia; rewrite Nat.eqb_refl; reflexivity).
    destruct (jacobian_at E W WP V p' i L' Hi DA (paths E p i) HS' TY NB sort ST order P n Hn Hw) as (rows & Ej & _ & _ & _ & _ & A5).
    rewrite N' in Ej, A5. eexists _, rows. split; [exact Ej|]. rewrite (proj1 (A5 T)). apply flat_map_ext. intros c. f_equal.
    unfold position_at, p'. rewrite set_nth_twice. reflexivity. }
  split.
  - intros t. destruct (A t) as (e & rows & Ej & _). exists (paths E p i t), e. split; [apply HS|]. rewrite Ej. reflexivity.
  - intros k. destruct (jacobian_at E W WP V p i Lp Hi DA (paths E p i) HS TY NB sort ST order P n Hn Hw) as (rows & Ej & _ & _ & _ & _ & A5).
    rewrite (set_nth_self p i) by lia. rewrite Ej. cbn [snd]. rewrite (proj2 (A5 T)).
    eapply d_ext; [|apply (resid_derive E W WP V U p i Lp Hi (paths E p i) HS)]. intros t. cbv beta. destruct (A t) as (e & rows' & -> & Es). cbn [snd]. rewrite Es. reflexivity.
Qed.
Print Assumptions vertex_jacobian_rows.

(** ** The bones that are visited *)

(** C121: every joint is visited at most once, the deeper ones first, when the influences are of different joints. *)
Theorem bones_visited_once sk fuel bones vis : parents_first (sk_parents sk) ->
  StronglySorted (fun a b => (bn_joint b < bn_joint a)%nat) bones -> it_run fuel sk bones = Ok vis ->
  StronglySorted (fun a b => (fst (fst b) < fst (fst a))%nat) vis.
Proof. intros V F E. exact (proj1 (it_run_falling sk V fuel bones vis F E)). Qed.
Print Assumptions bones_visited_once.


(** ** Concrete cases *)


Definition exv_bind : affine := Aff mid vzero.
Definition exv_E (pt : ptransform) (active : list bool) (row : list influence) (ty : vtype) : vfn :=
  VF exc_sk pt 1 active [exv_bind] [row] [(vzero, ez)] [] None None ty [VC 0 1 ex ez].

Lemma exv_posed pt active row ty p x out : ssd_normal_row (skin_transforms (world_affines [exc_state x]) [exv_bind]) row vzero ez (vzero, vzero) = Ok out ->
  vf_meshes [0%nat] (exv_E pt active row ty) p [exc_state x] = Ok ([(vzero, ez)], [(fst out, normalized (snd out))]).
Proof.
  intros H. unfold vf_meshes, vf_rest, exv_E. cbn [vf_blend vf_face vf_neutral vf_inv vf_skin obind map fst snd combine]. unfold apply_ssd_mesh, world_affines.
  cbn [map List.length Nat.leb Nat.eqb negb].
  unfold for_vertices. cbn [ofold rd nth_error obind fst snd]. unfold world_affines in H. cbn [map] in H. rewrite H. cbn [obind]. reflexivity.
Qed.
Lemma exv_transform x v : vadd (atrans (aff_mul (tf_affine (js_world (exc_state x))) exv_bind)) (mvec (alin (aff_mul (tf_affine (js_world (exc_state x))) exv_bind)) v) = vadd (V3 x 0 0) v.
Proof. destruct v. unfold aff_mul, tf_affine, tf_linear, exv_bind, exc_state. cbn [js_world rot trans scl alin atrans]. vec_unfold. cbn. f_equal; ring. Qed.
Lemma exv_one w x : w <> 0 -> exists m, ssd_normal_row (skin_transforms (world_affines [exc_state x]) [exv_bind]) [(0%nat, w)] vzero ez (vzero, vzero) = Ok (V3 (w * x) 0 0, m).
Proof.
  intros Hw. cbn [ssd_normal_row]. destruct (Reqb_spec w 0) as [C|_]; [contradiction|]. unfold skin_transforms, world_affines. cbn [map combine rd nth_error obind fst snd].
  rewrite exv_transform. eexists. apply (f_equal (@Ok (vec3 * vec3))). apply (f_equal2 pair); [|reflexivity]. unfold vzero. vec_unfold. cbn. f_equal; ring.
Qed.
Lemma exv_error pt active row p x v m : ssd_normal_row (skin_transforms (world_affines [exc_state x]) [exv_bind]) row vzero ez (vzero, vzero) = Ok (v, m) ->
  vf_error [0%nat] (exv_E pt active row VPosition) p [exc_state x] = Ok (/ 10000 * vnorm2 (vsub v ex)).
Proof.
  intros H. unfold vf_error. rewrite (exv_posed _ _ _ _ _ _ _ H). cbn [obind snd fst exv_E vf_type vf_constraints vf_err_sum]. unfold vf_err1, kPosWeight.
  cbn [vc_vertex rd nth_error obind fst snd vc_pos vc_weight vf_weight exv_E]. apply (f_equal (@Ok R)). ring.
Qed.
Lemma sorts_nil sort : sorts sort -> sort [] = [].
Proof. intros H. specialize (H []). apply Permutation_sym, Permutation_nil in H. exact H. Qed.
Lemma sorts_one sort b : sorts sort -> sort [b] = [b].
Proof. intros H. specialize (H [b]). apply Permutation_sym, Permutation_length_1_inv in H. exact H. Qed.
Lemma exv_dofs pt active ty sort w : sorts sort -> 0 < w -> (forall j : nat, (j < 7)%nat -> nth_error active j = Some (j =? 0)%nat) -> vertex_dofs sort (exv_E pt active [(0%nat, w)] ty) [exc_state 0] [(vzero, ez)] (VC 0 1 ex ez) =
  Ok [(0%nat, (w, get_translation_derivative (exc_state 0) 0))].
Proof.
  intros ST Hw A. unfold vertex_dofs, exv_E. cbn [vf_skin vc_vertex rd nth_error obind fst it_bones vf_inv]. destruct (Rltb_spec 0 w) as [_|C]; [|contradiction]. cbn [rd nth_error obind].
  rewrite sorts_one by exact ST. unfold it_fuel. cbn [map bn_joint list_sum fold_right Nat.add it_run rd nth_error vf_sk exc_sk obind jparent bn_weight bn_point it_dofs vf_active].
  unfold vec_dofs. cbn [Nat.mul]. unfold active_dofs. cbn [Nat.add]. unfold rd. rewrite !A by lia. cbn [Nat.eqb obind app map fst snd]. reflexivity.
Qed.

(** Finding: a negative skin weight moves the vertex, but the gradient skips it (lines 156-158 and 297-299 test for positive weights, skinning for zero). *)
Theorem vertex_gradient_negative_weight_refuted : exists E p sts F d,
  pt_wf (vf_pt E) /\ parents_first (sk_parents (vf_sk E)) /\ unit_prerotations (vf_sk E) /\ drives_active E 0 /\ vf_type E = VPosition /\
  List.length p = pt_cols (vf_pt E) /\ state_of (vf_sk E) (vf_pt E) p = Ok sts /\
  (forall t, exists st, state_of (vf_sk E) (vf_pt E) (set_nth p 0 t) = Ok st /\ vf_error [0%nat] E (set_nth p 0 t) st = Ok (F t)) /\
  is_derive F (nth 0 p 0) d /\ d <> 0 /\
  forall sort g, sorts sort -> vf_gradient sort [0%nat] E p sts g = Ok (F (nth 0 p 0), g).
Proof.
  exists (exv_E exc_pt (repeat true 7) [(0%nat, -1)] VPosition), [0; 0], [exc_state 0], (fun t => / 10000 * ((t + 1) * (t + 1))), (2 / 10000).
  split; [exact exc_pt_wf|]. split; [apply exc_sk_ok|]. split; [apply exc_sk_ok|]. split.
  { intros e He _. cbn in He. destruct He as [<-|[<-|[]]]; reflexivity. }
  split; [reflexivity|]. split; [reflexivity|]. split; [apply (exc_state_of 0 [])|].
  assert (N1 : forall t, vnorm2 (vsub (V3 (-1 * t) 0 0) ex) = (t + 1) * (t + 1)) by (intros t; unfold vnorm2, ex; vec_unfold; cbn; ring).
  split; [|split; [|split; [lra|]]].
  - intros t. exists [exc_state t]. split; [apply (exc_state_of t [])|]. destruct (exv_one (-1) t ltac:(lra)) as [m Hm]. rewrite (exv_error _ _ _ _ _ _ _ Hm), N1. reflexivity.
  - cbn [nth]. auto_derive; [exact I|]. lra.
  - intros sort g ST. destruct (exv_one (-1) 0 ltac:(lra)) as [m Hm]. unfold vf_gradient. rewrite (exv_posed _ _ _ _ _ _ _ Hm). cbn [obind exv_E vf_constraints vf_grad_loop]. unfold vf_grad1.
    cbn [snd rd nth_error vc_vertex obind fst vf_type exv_E]. unfold vertex_dofs. cbn [exv_E vf_inv vf_skin vc_vertex rd nth_error obind fst it_bones].
    destruct (Rltb_spec 0 (-1)) as [C|_]; [lra|]. cbn [obind]. rewrite (sorts_nil _ ST). cbn [it_fuel it_run obind it_dofs]. unfold blend_dofs, face_dofs. cbn [vf_blend vf_face exv_E obind].
    cbn [map app to_model flat_map snd add_all obind fst vf_weight exv_E nth vc_weight vc_pos]. rewrite N1. unfold kPosWeight. apply (f_equal (@Ok (R * list R))). apply (f_equal2 pair); [cbn [fst snd]; ring|reflexivity].
Qed.
Print Assumptions vertex_gradient_negative_weight_refuted.

(** Finding: skinning stops at the first weight zero, the gradient does not: an influence behind a zero does not move the vertex but gets a gradient. *)
Theorem vertex_gradient_after_zero_refuted : exists E p sts e,
  pt_wf (vf_pt E) /\ parents_first (sk_parents (vf_sk E)) /\ unit_prerotations (vf_sk E) /\ vf_type E = VPosition /\
  (forall row, In row (vf_skin E) -> row_ok (List.length (vf_inv E)) row /\ forall j w, In (j, w) row -> 0 <= w) /\
  List.length p = pt_cols (vf_pt E) /\ state_of (vf_sk E) (vf_pt E) p = Ok sts /\
  (forall t, exists st, state_of (vf_sk E) (vf_pt E) (set_nth p 0 t) = Ok st /\ vf_error [0%nat] E (set_nth p 0 t) st = Ok e) /\
  forall sort, sorts sort -> exists g', vf_gradient sort [0%nat] E p sts [0; 0] = Ok (e, g') /\ nth 0 g' 0 <> 0.
Proof.
  set (act := map (fun j => (j =? 0)%nat) (seq 0 7)).
  exists (exv_E exc_pt act [(0%nat, 0); (0%nat, 1)] VPosition), [0; 0], [exc_state 0], (/ 10000).
  split; [exact exc_pt_wf|]. split; [apply exc_sk_ok|]. split; [apply exc_sk_ok|]. split; [reflexivity|].
  split. { intros row [<-|[]]. split; [intros j w [X|[X|[]]] _; injection X as <- _; cbn; lia|intros j w [X|[X|[]]]; injection X as _ <-; lra]. }
  split; [reflexivity|]. split; [apply (exc_state_of 0 [])|].
  assert (P : forall x, ssd_normal_row (skin_transforms (world_affines [exc_state x]) [exv_bind]) [(0%nat, 0); (0%nat, 1)] vzero ez (vzero, vzero) = Ok (vzero, vzero)).
  { intros x. cbn [ssd_normal_row]. destruct (Reqb_spec 0 0) as [_|C]; [reflexivity|contradiction]. }
  assert (N1 : vnorm2 (vsub vzero ex) = 1) by (unfold vnorm2, ex, vzero; vec_unfold; cbn; ring).
  split.
  - intros t. exists [exc_state t]. split; [apply (exc_state_of t [])|]. rewrite (exv_error _ _ _ _ _ _ _ (P t)), N1. apply (f_equal (@Ok R)). ring.
  - intros sort ST. unfold vf_gradient. rewrite (exv_posed _ _ _ _ _ _ _ (P 0)). cbn [obind exv_E vf_constraints vf_grad_loop]. unfold vf_grad1.
    cbn [snd rd nth_error vc_vertex obind fst vf_type exv_E].
    replace (vertex_dofs sort _ _ _ _) with (vertex_dofs sort (exv_E exc_pt act [(0%nat, 1)] VPosition) [exc_state 0] [(vzero, ez)] (VC 0 1 ex ez)).
    2:{ unfold vertex_dofs. cbn [exv_E vf_skin vc_vertex rd nth_error obind fst it_bones]. destruct (Rltb_spec 0 0) as [C|_]; [lra|]. reflexivity. }
    rewrite exv_dofs; [|exact ST|lra|]. 2:{ intros [|[|[|[|[|[|[|j]]]]]]] Hj; try reflexivity; lia. }
    cbn [obind]. unfold blend_dofs, face_dofs. cbn [exv_E vf_blend vf_face obind map app to_model flat_map fst snd]. unfold row_incs.
    cbn [vf_pt exv_E exc_pt pt_entries filter erow Nat.eqb map ecol eval app add_all obind]. unfold add_at.
    cbn [rd nth_error nth vc_weight vc_pos vf_weight exv_E obind wr List.length Nat.ltb Nat.leb upd fst snd]. eexists. split; [rewrite N1; unfold kPosWeight; apply (f_equal (@Ok (R * list R))); apply (f_equal2 pair); [cbn [fst snd]; ring|reflexivity]|].
    cbn [nth upd]. replace (vdot (vsub vzero ex) (get_translation_derivative (exc_state 0) 0)) with (-1); [unfold kPosWeight; lra|].
    unfold get_translation_derivative, exc_state, ex, vzero. cbn. vec_unfold. cbn. ring.
Qed.
Print Assumptions vertex_gradient_after_zero_refuted.

Definition exv_pt2 : ptransform := PT ["x"; "y"]%string 7 2 [Entry 0 0 1; Entry 0 1 1] (repeat 0 7) (repeat true 7) [] [] [] [].
(** Finding: a disabled parameter gets a gradient if it drives a joint parameter that an enabled one drives (lines 243-256 do not look at the enabled parameters). *)
Theorem vertex_gradient_disabled_refuted : exists E p sts enabled,
  pt_wf (vf_pt E) /\ parents_first (sk_parents (vf_sk E)) /\ vfn_wf E /\ vf_type E = VPosition /\
  List.length p = pt_cols (vf_pt E) /\
  vf_active E = compute_active (vf_pt E) enabled /\ enabled 1%nat = false /\ (1 < pt_cols (vf_pt E))%nat /\
  List.length sts = List.length (vf_sk E) /\
  forall sort, sorts sort -> exists e g', vf_gradient sort [0%nat] E p sts [0; 0] = Ok (e, g') /\ nth 1 g' 0 <> 0.
Proof.
  set (en := fun i => (i =? 0)%nat).
  exists (exv_E exv_pt2 (compute_active exv_pt2 en) [(0%nat, 1)] VPosition), [0; 0], [exc_state 0], en.
  assert (A : compute_active exv_pt2 en = map (fun j => (j =? 0)%nat) (seq 0 7)) by reflexivity.
  split. { constructor; try reflexivity; try (intros; contradiction); [cbn [exv_E vf_pt exv_pt2 pt_cols]; unfold kMaxModelParams; lia|intros e [<-|[<-|[]]]; cbn; lia]. }
  split; [apply exc_sk_ok|]. split.
  { constructor; try reflexivity; try discriminate; try (cbn; lia).
    - intros row [<-|[]]. split; [intros j w [X|[]] _; injection X as <- _; cbn; lia|]. split.
      + intros i [|[|k]] x y H1 H2 H3; try lia; discriminate.
      + intros j w [X|[]]; injection X as _ <-; lra.
    - intros c [<-|[]]. cbn. lia. }
  split; [reflexivity|]. split; [reflexivity|]. split; [reflexivity|]. split; [reflexivity|]. split; [cbn; lia|]. split; [reflexivity|].
  intros sort ST. destruct (exv_one 1 0 ltac:(lra)) as [m Hm]. unfold vf_gradient. rewrite (exv_posed _ _ _ _ _ _ _ Hm). cbn [obind exv_E vf_constraints vf_grad_loop]. unfold vf_grad1.
  cbn [snd rd nth_error vc_vertex obind fst vf_type exv_E]. fold (exv_E exv_pt2 (compute_active exv_pt2 en) [(0%nat, 1)] VPosition).
  rewrite exv_dofs; [|exact ST|lra|]. 2:{ intros [|[|[|[|[|[|[|j]]]]]]] Hj; try reflexivity; lia. }
  cbn [obind]. unfold blend_dofs, face_dofs. cbn [exv_E vf_blend vf_face obind map app to_model flat_map fst snd]. unfold row_incs.
  cbn [vf_pt exv_E exv_pt2 pt_entries filter erow Nat.eqb map ecol eval app add_all obind]. unfold add_at.
  cbn [rd nth_error nth vc_weight vc_pos vf_weight exv_E obind wr List.length Nat.ltb Nat.leb upd fst snd]. eexists _, _. split; [reflexivity|].
  cbn [nth upd]. replace (vdot (vsub (V3 (1 * 0) 0 0) ex) (get_translation_derivative (exc_state 0) 0)) with (-1); [unfold kPosWeight; lra|].
  unfold get_translation_derivative, exc_state, ex. cbn. vec_unfold. cbn. ring.
Qed.
Print Assumptions vertex_gradient_disabled_refuted.

Definition exv_pt3 : ptransform := PT ["x"; "rz"]%string 7 2 [Entry 0 0 1; Entry 5 1 2] (repeat 0 7) (repeat true 7) [] [] [1%Z] [].
Lemma exv_pt3_wf : pt_wf exv_pt3.
Proof.
  constructor; try reflexivity; try (intros; contradiction).
  - cbn [exv_pt3 pt_cols]. unfold kMaxModelParams. lia.
  - intros e [<-|[<-|[]]]; cbn; lia.
  - intros z [<-|[]]. cbn. lia.
Qed.
Lemma exv_wf pt active ty : pt_rows pt = 7%nat -> List.length active = 7%nat -> vfn_wf (exv_E pt active [(0%nat, 1)] ty).
Proof.
  intros H1 H2. constructor; [exact H1| | | | | | | ]; try reflexivity; try discriminate; try (cbn; lia).
  - intros row [<-|[]]. split; [intros j w [X|[]] _; injection X as <- _; cbn; lia|]. split.
    + intros i [|[|k]] x y A B C; try lia; discriminate.
    + intros j w [X|[]]; injection X as _ <-; lra.
  - intros c [<-|[]]. cbn. lia.
Qed.
(** Finding: with planes, getJacobian reads the blend shape of a character that has none as soon as there is a blend shape parameter (line 711); getError and
    getGradient of the same object work. *)
Theorem vertex_jacobian_without_blend_shape_refuted : exists E p sts,
  vfn_wf E /\ pt_wf (vf_pt E) /\ parents_first (sk_parents (vf_sk E)) /\ vf_type E = VPlane /\ vf_blend E = None /\ List.length p = pt_cols (vf_pt E) /\
  List.length sts = List.length (vf_sk E) /\
  forall sort, sorts sort -> (exists e, vf_error [0%nat] E p sts = Ok e) /\ (exists e g, vf_gradient sort [0%nat] E p sts [0; 0] = Ok (e, g)) /\
    vf_jacobian sort [0%nat] E 2 p sts = UB.
Proof.
  set (act := map (fun j => (j =? 0)%nat) (seq 0 7)).
  exists (exv_E exv_pt3 act [(0%nat, 1)] VPlane), [0; 0], [exc_state 0].
  split; [apply exv_wf; reflexivity|]. split; [exact exv_pt3_wf|]. split; [apply exc_sk_ok|]. split; [reflexivity|]. split; [reflexivity|]. split; [reflexivity|].
  split; [reflexivity|]. intros sort ST. destruct (exv_one 1 0 ltac:(lra)) as [m Hm]. pose proof (exv_posed exv_pt3 act _ VPlane [0; 0] _ _ Hm) as M.
  assert (D : vertex_dofs sort (exv_E exv_pt3 act [(0%nat, 1)] VPlane) [exc_state 0] [(vzero, ez)] (VC 0 1 ex ez) = Ok [(0%nat, (1, get_translation_derivative (exc_state 0) 0))]).
  { apply exv_dofs; [exact ST|lra|]. intros [|[|[|[|[|[|[|j]]]]]]] Hj; try reflexivity; lia. }
  split; [|split].
  - unfold vf_error. rewrite M. cbn [obind snd exv_E vf_type vf_constraints vf_err_sum]. unfold vf_err1. cbn [vc_vertex rd nth_error obind]. eexists. reflexivity.
  - unfold vf_gradient. rewrite M. cbn [obind exv_E vf_constraints vf_grad_loop]. unfold vf_grad1. cbn [snd rd nth_error vc_vertex obind fst vf_type exv_E].
    fold (exv_E exv_pt3 act [(0%nat, 1)] VPlane). rewrite D. cbn [obind normal_values]. cbn [Nat.div Nat.divmod fst rd nth_error obind]. unfold blend_dofs. cbn [exv_E vf_blend obind].
    eexists _, _. reflexivity.
  - unfold vf_jacobian. rewrite M. cbn [obind exv_E vf_constraints vf_jac_loop]. unfold vf_jac1. cbn [snd rd nth_error vc_vertex obind fst vf_type exv_E].
    fold (exv_E exv_pt3 act [(0%nat, 1)] VPlane). rewrite D. cbn [obind normal_values]. cbn [Nat.div Nat.divmod fst rd nth_error obind]. cbn [exv_E vf_blend vf_pt exv_pt3 pt_blend forallb andb].
    reflexivity.
Qed.
Print Assumptions vertex_jacobian_without_blend_shape_refuted.

(** The hypotheses of the theorems are met: a joint that slides and turns, a third parameter for a blend shape, two vertices. *)
Definition exw_pt : ptransform := PT ["x"; "rz"; "b"]%string 7 3 [Entry 0 0 1; Entry 5 1 2] (repeat 0 7) (repeat true 7) [] [] [2%Z] [(-1)%Z].
Definition exw_mat (v : R) : bmat := BM 6 1 (fun r _ => INR r * v).
Definition exw_E (ty : vtype) (cs : list vconstr) : vfn :=
  VF exc_sk exw_pt 2 (repeat true 7) [exv_bind] [[(0%nat, / 2); (0%nat, / 2)]; [(0%nat, 1); (0%nat, 0)]] [(ex, ez); (ey, ez)] [(0%Z, 1%Z, 1%Z)]
    (Some (BS (exw_mat 3) [ex; ey] None false)) (match ty with VPosition => Some (exw_mat 1) | _ => None end) ty cs.
Definition exw_cs : list vconstr := [VC 0 1 (V3 2 0 0) ez; VC 1 3 (V3 0 2 1) ey].
Example exw_wf ty : vfn_wf (exw_E ty exw_cs) /\ pt_wf (vf_pt (exw_E ty exw_cs)) /\ (forall i, drives_active (exw_E ty exw_cs) i) /\
  (forall c, In c (vf_constraints (exw_E ty exw_cs)) -> 0 <= vc_weight c * vf_weight (exw_E ty exw_cs)).
Proof.
  split; [|split; [|split]].
  - constructor; try reflexivity; try (cbn; lia).
    + intros row [<-|[<-|[]]]; (split; [|split]).
      * intros j w [X|[X|[]]] _; injection X as <- _; cbn; lia.
      * intros i [|[|[|k]]] x y A B C; try lia; try discriminate. assert (i = 0)%nat as -> by lia. cbn in B, C. injection B as <-. cbn. lra.
      * intros j w [X|[X|[]]]; injection X as _ <-; lra.
      * intros j w [X|[X|[]]] _; injection X as <- _; cbn; lia.
      * intros i [|[|[|k]]] x y A B C; try lia; try discriminate. cbn in C. injection C as <-. reflexivity.
      * intros j w [X|[X|[]]]; injection X as _ <-; lra.
    + intros c [<-|[<-|[]]]; cbn; lia.
    + intros b X. injection X as <-. split; [discriminate|]. split; [reflexivity|]. split; reflexivity.
    + intros V X. destruct ty; try discriminate X. injection X as <-. split; [discriminate|]. split; reflexivity.
  - constructor; try reflexivity; try (intros; contradiction).
    + cbn [exw_E vf_pt exw_pt pt_cols]. unfold kMaxModelParams. lia.
    + intros e [<-|[<-|[]]]; cbn; lia.
    + intros z [<-|[]]. cbn. lia.
    + intros z [<-|[]]. cbn. lia.
  - intros i e [<-|[<-|[]]] _; reflexivity.
  - intros c [<-|[<-|[]]]; cbn; lra.
Qed.
Example exw_sorts : sorts (fun l => l). Proof. intros l. apply Permutation_refl. Qed.
Example exw_state ty : exists sts, state_of (vf_sk (exw_E ty exw_cs)) (vf_pt (exw_E ty exw_cs)) [1; 2; 3] = Ok sts.
Proof. eexists. cbn [exw_E vf_sk vf_pt]. unfold state_of, pt_apply. cbn. reflexivity. Qed.
(** A branching skeleton: the visits of influences of joints 2 and 1, whose parent is 0, merge at 0. *)
Example exw_bones : it_run 9 [Joint None vzero qid; Joint (Some 0%nat) vzero qid; Joint (Some 0%nat) vzero qid] [Bone 2 1 ex; Bone 1 3 ey] =
  Ok [(2%nat, 1, vscale (/ 1) ex); (1%nat, 3, vscale (/ 3) ey); (0%nat, 3 + 1, vscale (/ (3 + 1)) (vadd ey ex))].
Proof. reflexivity. Qed.
