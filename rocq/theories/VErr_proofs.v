(** The meshes, the error and its derivatives. *)

From Coq Require Import Reals List Arith ZArith Bool Lia Lra Permutation.
From Coquelicot Require Import Coquelicot.
From Verif Require Import Prelude Loops LinAlg Rbool R3 Transform_model Transform_proofs Skeleton_spec FK_model FK_spec FK_proofs FK_deriv_proofs
  ParamTransform_model ParamTransform_spec ParamTransform_proofs Limits_model Limits_spec Limits_proofs Loss_model Constraint_model Constraint_spec Constraint_eval_proofs Constraint_proofs
  Constraint_deriv_proofs SimdFn_proofs Normals_spec Skin_model Skin_spec Skin_props Blend_model Blend_spec Blend_props CharUtil_model CharState_model CharState_props
  VErr_model VErr_spec VErr_iter_proofs.
Import ListNotations.
Local Open Scope nat_scope.
Local Open Scope outcome_scope.
Local Open Scope R_scope.

Notation vs_ := FK_spec.vsum.
Lemma skin_vsum l : Skin_spec.vsum l = vs_ l. Proof. induction l; cbn; [reflexivity|]. rewrite <- IHl. reflexivity. Qed.

(** ** The rest mesh *)

Lemma set_nth_len (p : list R) i t : length (set_nth p i t) = length p. Proof. apply set_nth_length. Qed.

Lemma weights_ok (params : list Z) (p : list R) : (forall z, In z params -> (z < Z.of_nat (length p))%Z) ->
  extract_weights (basis_params params) p = Ok (map (shape_weight p) params).
Proof.
  intros H. destruct (extract_weights_correct (basis_params params) p) as (w & E & L & N).
  { intros k Hk. apply in_map_iff in Hk as (z & Ez & Hz). destruct (Z.ltb_spec z 0); [discriminate|]. injection Ez as <-. specialize (H z Hz). lia. }
  rewrite E. f_equal. unfold basis_params in *. rewrite map_length in L. apply nth_error_ext_len; [rewrite map_length; exact L|]. intros i Hi. rewrite N, !nth_error_map.
  destruct (nth_error params i) as [z|] eqn:Ez; [|reflexivity]. cbn [option_map]. unfold shape_weight. destruct (Z.ltb_spec z 0); [reflexivity|].
  apply nth_error_nth'. specialize (H z (nth_error_In _ _ Ez)). lia.
Qed.

Section Mesh.
Context (E : vfn) (W : vfn_wf E) (WP : pt_wf (vf_pt E)).
Let n := length (vf_neutral E).

Lemma base_len : forall i, (i < n)%nat -> exists b, base_at E i = Some b.
Proof.
  intros i Hi. unfold base_at. destruct (vf_blend E) as [b|] eqn:Eb.
  - destruct (vw_blend E W b Eb) as (_ & L & _). apply nth_error_lt. unfold n in Hi. lia.
  - destruct (nth_error_lt (vf_neutral E) i Hi) as [x ->]. eexists. reflexivity.
Qed.

Lemma vf_rest_ok p : length p = pt_cols (vf_pt E) -> exists rest, vf_rest E p = Ok rest /\ length rest = n /\
  forall i, (i < n)%nat -> exists r m, nth_error rest i = Some (r, m) /\ rest_is E p i r /\ rest_normal_is E p i m.
Proof.
  intros Lp. unfold vf_rest.
  assert (S1 : exists vs, (match vf_blend E with
             | Some b => let* w := extract_weights (basis_params (pt_blend (vf_pt E))) p in compute_shape b w
             | None => Ok (map fst (vf_neutral E))
             end) = Ok vs /\ length vs = n /\ forall i, (i < n)%nat -> exists b, base_at E i = Some b /\ nth_error vs i = Some (vadd b (blend_moves E p i))).
  { unfold base_at, blend_moves. destruct (vf_blend E) as [b|] eqn:Eb.
    - destruct (vw_blend E W b Eb) as (N0 & L & (R1 & R2)). rewrite weights_ok by (rewrite Lp; apply (wf_blend _ WP)). cbn [obind].
      destruct (compute_shape_correct b (map (shape_weight p) (pt_blend (vf_pt E))) N0) as (out & Eo & Lo & Bo); [lia|rewrite map_length; exact R2|].
      exists out. split; [exact Eo|]. split; [unfold n; lia|]. intros i Hi. destruct (nth_error_lt (bs_base b) i) as [x Ex]; [unfold n in Hi; lia|].
      exists x. split; [exact Ex|]. apply Bo, Ex.
    - eexists. split; [reflexivity|]. split; [apply map_length|]. intros i Hi. destruct (nth_error_lt (vf_neutral E) i Hi) as [x Ex].
      exists (fst x). rewrite nth_error_map, Ex. cbn [option_map]. rewrite vadd_0_r. auto. }
  destruct S1 as (vs1 & -> & L1 & B1). cbn [obind].
  assert (S2 : exists vs, (match vf_face E with
             | Some V => let* w := extract_weights (basis_params (pt_face (vf_pt E))) p in apply_deltas V w vs1
             | None => Ok vs1
             end) = Ok vs /\ length vs = n /\ forall i, (i < n)%nat -> exists r, nth_error vs i = Some r /\ rest_is E p i r).
  { unfold rest_is, face_moves. destruct (vf_face E) as [V|] eqn:Ev.
    - destruct (vw_face E W V Ev) as (N0 & (R1 & R2)). rewrite weights_ok by (rewrite Lp; apply (wf_face _ WP)). cbn [obind].
      assert (N1 : vs1 <> []) by (intros ->; cbn in L1; unfold n in L1; destruct (vf_neutral E); [contradiction|discriminate]).
      destruct (apply_deltas_correct V (map (shape_weight p) (pt_face (vf_pt E))) vs1 N1) as (out & Eo & Lo & Bo); [unfold n in L1; lia|rewrite map_length; exact R2|].
      exists out. split; [exact Eo|]. split; [lia|]. intros i Hi. destruct (B1 i Hi) as (b & Eb & E1). eexists. split; [apply Bo, E1|]. exists b. split; [exact Eb|reflexivity].
    - exists vs1. split; [reflexivity|]. split; [exact L1|]. intros i Hi. destruct (B1 i Hi) as (b & Eb & E1). eexists. split; [exact E1|]. exists b.
      split; [exact Eb|]. rewrite vadd_0_r. reflexivity. }
  destruct S2 as (vs2 & -> & L2 & B2). cbn [obind].
  assert (S3 : exists ns, (match vf_blend E, vf_face E with
             | None, None => Ok (map snd (vf_neutral E))
             | _, _ => normals_of vs2 (vf_faces E)
             end) = Ok ns /\ length ns = n /\ forall i m, nth_error ns i = Some m -> rest_normal_is E p i m).
  { destruct (normals_of_ok vs2 (vf_faces E)) as (ns & En & Ln & Nn).
    assert (A : exists ns, normals_of vs2 (vf_faces E) = Ok ns /\ length ns = n /\ forall i m, nth_error ns i = Some m ->
      exists rest, length rest = length (vf_neutral E) /\ (forall k r, nth_error rest k = Some r -> rest_is E p k r) /\
        direction (Normals_spec.vsum (around (map real rest) (vf_faces E) i)) m).
    { exists ns. split; [exact En|]. split; [lia|]. intros i m Hm. exists vs2. split; [exact L2|]. split; [|apply Nn, Hm].
      intros k r Hk. destruct (B2 k) as (r' & Er & Ir); [rewrite <- L2; apply (nth_error_len _ _ _ Hk)|]. rewrite Hk in Er. injection Er as <-. exact Ir. }
    unfold rest_normal_is, has_shapes. destruct (vf_blend E), (vf_face E); [exact A|exact A|exact A|].
    eexists. split; [reflexivity|]. split; [apply map_length|]. intros i m Hm. rewrite nth_error_map in Hm. exact Hm. }
  destruct S3 as (ns & -> & L3 & B3). cbn [obind]. eexists. split; [reflexivity|]. split; [rewrite combine_length; lia|].
  intros i Hi. destruct (B2 i Hi) as (r & Er & Ir). destruct (nth_error_lt ns i) as [m Em]; [lia|]. exists r, m. split; [|split; [exact Ir|exact (B3 i m Em)]].
  rewrite (nth_error_nth' _ (vzero, vzero)) by (rewrite combine_length; lia). rewrite combine_nth by lia.
  rewrite (nth_error_nth _ _ _ Er), (nth_error_nth _ _ _ Em). reflexivity.
Qed.

Lemma vf_meshes_ok order p sts : Permutation order (seq 0 n) -> length p = pt_cols (vf_pt E) -> length sts = length (vf_sk E) ->
  exists rest posed, vf_meshes order E p sts = Ok (rest, posed) /\ length rest = n /\ length posed = n /\
    forall i row, nth_error (vf_skin E) i = Some row -> exists r m v m', nth_error rest i = Some (r, m) /\ nth_error posed i = Some (v, m') /\
      rest_is E p i r /\ skinned (world_affines sts) (vf_inv E) row r v /\ normal_is E p sts i m'.
Proof.
  intros P Lp Ls. unfold vf_meshes. destruct (vf_rest_ok p Lp) as (rest & -> & Lr & Br). cbn [obind].
  pose proof (vw_skin E W) as LS.
  destruct (ssd_mesh_partial order (vf_inv E) (vf_skin E) rest (world_affines sts) rest) as (posed & Ep & Lq & Bq).
  - rewrite LS. exact P.
  - unfold world_affines. rewrite map_length, Ls. apply (vw_inv E W).
  - unfold n in Lr. lia.
  - reflexivity.
  - intros row Hr. destruct (vw_row E W row Hr) as (A & B & _). auto.
  - rewrite Ep. cbn [obind]. exists rest, posed. split; [reflexivity|]. split; [exact Lr|]. split; [lia|]. intros i row Hrow.
    assert (Hi : (i < n)%nat) by (unfold n; rewrite <- LS; apply (nth_error_len _ _ _ Hrow)).
    destruct (Br i Hi) as (r & m & Er & Ir & Nr). destruct (Bq i row r m Hrow Er) as (v & m' & d & Ev & S1 & S2 & Dm).
    exists r, m, v, m'. split; [exact Er|]. split; [exact Ev|]. split; [exact Ir|]. split; [exact S1|]. exists m, row, d. auto.
Qed.

(** ** The error *)

Lemma facing_side s c : target_side s c = facing s (vc_nml c).
Proof. unfold target_side, facing. destruct (Rltb_spec (vdot s (vc_nml c)) 0), (Rlt_dec (vdot s (vc_nml c)) 0); try reflexivity; contradiction. Qed.
Lemma err1_ok ty posed c v m : nth_error posed (vc_vertex c) = Some (v, m) ->
  vf_err1 ty posed c = Ok (/ 10000 * vc_weight c * distance2 ty c v m).
Proof.
  intros Hv. unfold vf_err1. rewrite (rd_some _ _ _ Hv). cbn [obind fst snd]. destruct ty; apply (f_equal (@Ok R)); unfold distance2, square, kPosWeight, kPlaneWeight.
  - ring.
  - unfold used_normal, target_side. cbn [normal_weights fst snd].
    replace (vdot (vadd (vscale 0 m) (vscale 1 (if Rltb (vdot m (vc_nml c)) 0 then vscale (-1) (vc_nml c) else vc_nml c))) (vsub v (vc_pos c)))
      with ((if Rltb (vdot m (vc_nml c)) 0 then -1 else 1) * vdot (vc_nml c) (vsub v (vc_pos c))) by (destruct (Rltb _ _); vec_unfold; ring).
    destruct (Rltb _ _); ring.
  - unfold used_normal. cbn [normal_weights fst snd]. generalize (target_side m c). intros t.
    replace (vdot (vadd (vscale 1 m) (vscale 0 t)) (vsub v (vc_pos c))) with (vdot m (vsub v (vc_pos c))) by (vec_unfold; ring). ring.
  - unfold used_normal. cbn [normal_weights fst snd]. rewrite facing_side. generalize (facing m (vc_nml c)). intros t.
    replace (vadd (vscale (/ 2) m) (vscale (/ 2) t)) with (vscale (/ 2) (vadd m t)) by (vec_unfold; f_equal; ring). ring.
Qed.
Lemma err_sum_ok ty posed cs : (forall c, In c cs -> (vc_vertex c < length posed)%nat) -> forall vs,
  Forall2 (fun c v => nth_error posed (vc_vertex c) = Some v) cs vs ->
  vf_err_sum ty posed cs = Ok (rsum (map (fun x => / 10000 * vc_weight (fst x) * distance2 ty (fst x) (fst (snd x)) (snd (snd x))) (combine cs vs))).
Proof.
  intros _ vs F. induction F as [|c [v m] cs vs Hv F IH]; [reflexivity|]. cbn [vf_err_sum combine map rsum fst snd].
  rewrite (err1_ok ty posed c v m Hv), IH. reflexivity.
Qed.
Lemma error_ok order p sts : Permutation order (seq 0 n) -> length p = pt_cols (vf_pt E) -> length sts = length (vf_sk E) ->
  exists vs, Forall2 (fun c v => vertex_is E p sts (vc_vertex c) (fst v) /\ normal_is E p sts (vc_vertex c) (snd v)) (vf_constraints E) vs /\
    vf_error order E p sts = Ok (objective E vs).
Proof.
  intros P Lp Ls. destruct (vf_meshes_ok order p sts P Lp Ls) as (rest & posed & Em & _ & L2 & B).
  assert (A : exists vs, Forall2 (fun c v => nth_error posed (vc_vertex c) = Some v) (vf_constraints E) vs /\
    Forall2 (fun c v => vertex_is E p sts (vc_vertex c) (fst v) /\ normal_is E p sts (vc_vertex c) (snd v)) (vf_constraints E) vs).
  { pose proof (vw_constraints E W) as H. induction (vf_constraints E) as [|c cs IH]; [exists []; split; constructor|].
    destruct IH as (vs & F1 & F2); [intros; apply H; right; assumption|].
    destruct (nth_error_lt (vf_skin E) (vc_vertex c)) as [row Er]; [rewrite (vw_skin E W); apply H; left; reflexivity|].
    destruct (B _ row Er) as (r & m & v & m' & _ & Ev & Ir & Sk & Nm). exists ((v, m') :: vs). split; constructor; try assumption.
    split; [exists r, row; auto|exact Nm]. }
  destruct A as (vs & F1 & F2). exists vs. split; [exact F2|]. unfold vf_error. rewrite Em. cbn [obind snd].
  rewrite (err_sum_ok _ _ _ ltac:(intros c Hc; rewrite L2; apply (vw_constraints E W c Hc)) vs F1). cbn [obind]. apply (f_equal (@Ok R)). unfold objective. ring.
Qed.
End Mesh.
