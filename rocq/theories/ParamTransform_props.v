(** Properties of parameter transforms (C08, C09, C10, C11, C62, C63). *)

From Coq Require Import Bool Reals List Arith ZArith String Lia Lra.
From Verif Require Import Prelude LinAlg ParamTransform_model ParamTransform_spec
  ParamTransform_proofs ParamTransform_map_proofs.
Import ListNotations.
Local Open Scope R_scope.
Local Open Scope string_scope.

(** A concrete transform: two joints, three parameters, an offset, a parameter
    set, a pose constraint and one limit of each parameter kind. *)
Definition ex_pt : ptransform :=
  PT ["root_tx"; "bend"; "scale_all"] 14 3
     [Entry 0 0 1; Entry 3 1 (1/2); Entry 6 2 1; Entry 10 1 2; Entry 13 2 1]
     (repeat 0 3 ++ [5] ++ repeat 0 10) (repeat true 14)
     [("arm", fun i => Nat.eqb i 1)] [("rest", [(1%nat, 3); (2%nat, 4)])] [] [].
Definition ex_limits : list plimit :=
  [PLimit (LMinMax 1 0 1) 1; PLimit (LLinear 0 2 1 0 0 1) 2; PLimit (LHalfPlane 1 2 0 1 0) 1].
Definition ex_S : pset := fun i => negb (Nat.eqb i 0).

Example ex_pt_wf : pt_wf ex_pt.
Proof.
  constructor; try reflexivity.
  - cbn [ex_pt pt_cols]. unfold kMaxModelParams. lia.
  - intros e H. cbn in H. repeat (destruct H as [<-|H]; [cbn; lia|]). contradiction.
  - intros nm l i v [H|[]] H2. injection H as <- <-. cbn in H2.
    repeat (destruct H2 as [H2|H2]; [injection H2 as <- <-; cbn; lia|]). contradiction.
  - intros z [].
  - intros z [].
Qed.
Example ex_limits_wf : limits_wf (pt_cols ex_pt) ex_limits.
Proof.
  intros l i H H2. cbn in H. repeat (destruct H as [<-|H]; [cbn in H2; repeat (destruct H2 as [<-|H2]; [cbn; lia|]); contradiction|]).
  contradiction.
Qed.
Example ex_kept : kept (pt_cols ex_pt) ex_S = [1; 2]%nat.
Proof. reflexivity. Qed.
Example ex_limit_drop : map (limit_kept ex_S) ex_limits = [true; false; true].
Proof. reflexivity. Qed.

(** C08: apply is the affine map: dense matrix times vector plus offsets. *)
Theorem apply_is_affine :
  forall pt p, pt_wf pt -> List.length p = pt_cols pt ->
  exists q, pt_apply pt p = Ok q /\ List.length q = pt_rows pt /\
    forall r, (r < pt_rows pt)%nat ->
      nth r q 0 = sumn (pt_cols pt) (fun c => coeff pt r c * nth c p 0) + nth r (pt_offsets pt) 0.
Proof. exact apply_affine_lemma. Qed.
Print Assumptions apply_is_affine.

(** C08: a vector of the wrong size is rejected. *)
Theorem apply_rejects_wrong_size :
  forall pt p, List.length p <> pt_cols pt -> pt_apply pt p = CheckFail.
Proof. exact apply_rejects_lemma. Qed.
Print Assumptions apply_rejects_wrong_size.

(** C08: the CharacterParameters overload without offsets omits the offsets of
    the transform: the two results differ by exactly these, and agree when the
    caller passes the transform's own offsets. *)
Theorem apply_overloads_differ_by_offsets :
  forall pt p, pt_wf pt -> List.length p = pt_cols pt ->
  exists q q0, pt_apply pt p = Ok q /\ pt_apply_char pt p [] = Ok q0 /\
    List.length q0 = pt_rows pt /\
    (forall r, (r < pt_rows pt)%nat -> nth r q 0 = nth r q0 0 + nth r (pt_offsets pt) 0) /\
    (0 < pt_rows pt -> pt_apply_char pt p (pt_offsets pt) = Ok q)%nat.
Proof. exact apply_char_lemma. Qed.
Print Assumptions apply_overloads_differ_by_offsets.

(** C08 refuted: the overloads do not agree in general. *)
Theorem apply_overloads_agree_refuted :
  exists pt p q q0, pt_wf pt /\ List.length p = pt_cols pt /\
    pt_apply pt p = Ok q /\ pt_apply_char pt p [] = Ok q0 /\ nth 3 q 0 <> nth 3 q0 0.
Proof.
  destruct (apply_char_lemma ex_pt [0; 0; 0] ex_pt_wf eq_refl) as [q [q0 [E1 [E2 [L [H _]]]]]].
  exists ex_pt, [0; 0; 0], q, q0. split; [exact ex_pt_wf|]. split; [reflexivity|].
  split; [exact E1|]. split; [exact E2|].
  rewrite (H 3%nat) by (cbn; lia). cbn. lra.
Qed.
Print Assumptions apply_overloads_agree_refuted.

(** C09: subsetting succeeds on every consistent transform; the kept parameters
    keep names and order; the reduced transform applied to the kept values
    equals the original applied to the vector with zeros at dropped parameters;
    a joint parameter is active exactly when a stored entry of a kept parameter
    drives it. *)
Theorem subset_commutes_with_zero_padding :
  forall pt limits S, pt_wf pt -> limits_wf (pt_cols pt) limits ->
  exists pt' lims', subset_transform pt limits S = Ok (pt', lims') /\
    pt_name pt' = map (fun i => nth i (pt_name pt) EmptyString) (kept (pt_cols pt) S) /\
    pt_cols pt' = List.length (kept (pt_cols pt) S) /\
    (forall p, List.length p = pt_cols pt ->
       (forall i, (i < pt_cols pt)%nat -> S i = false -> nth i p 0 = 0) ->
       pt_apply pt' (map (fun i => nth i p 0) (kept (pt_cols pt) S)) = pt_apply pt p) /\
    (forall r, nth r (pt_active pt') false = true <->
       exists e, In e (pt_entries pt) /\ erow e = r /\ S (ecol e) = true).
Proof. exact subset_apply_lemma. Qed.
Print Assumptions subset_commutes_with_zero_padding.

(** C10: parameter sets, pose constraints and limits of the result refer to the
    same parameters; limits are dropped exactly when they mention a dropped
    parameter; the result is again consistent (no dangling index). *)
Theorem subset_keeps_references_consistent :
  forall pt limits S pt' lims', pt_wf pt -> limits_wf (pt_cols pt) limits ->
  subset_transform pt limits S = Ok (pt', lims') ->
  let ren := same_param (pt_cols pt) S in
  (Forall2 (fun a b => fst b = fst a /\ forall k, snd b k = true <-> exists i, ren i k /\ snd a i = true)
     (pt_sets pt) (pt_sets pt')) /\
  (Forall2 (fun a b => fst b = fst a /\
       Forall2 (fun x y => ren (fst x) (fst y) /\ snd y = snd x)
         (filter (fun iv => S (fst iv)) (snd a)) (snd b)) (pt_pose pt) (pt_pose pt')) /\
  (Forall2 (fun l l' => limit_renamed ren (ldata l) (ldata l') /\ lweight l' = lweight l)
     (filter (limit_kept S) limits) lims') /\
  pt_wf pt' /\ limits_wf (pt_cols pt') lims'.
Proof. exact subset_consistent_lemma. Qed.
Print Assumptions subset_keeps_references_consistent.

(** C10: the renaming used above preserves names and relates only kept
    parameters. *)
Theorem subset_renaming_keeps_names :
  forall pt S i k pt' lims lims', pt_wf pt -> limits_wf (pt_cols pt) lims ->
  subset_transform pt lims S = Ok (pt', lims') -> same_param (pt_cols pt) S i k ->
  nth_error (pt_name pt') k = nth_error (pt_name pt) i /\ (i < pt_cols pt)%nat /\ S i = true.
Proof. exact same_param_names. Qed.
Print Assumptions subset_renaming_keeps_names.

(** C10: a limit is dropped exactly when one of its parameters is. *)
Theorem subset_drops_limit_iff_parameter_dropped :
  forall S l, limit_kept S l = false <-> exists i, In i (limit_params (ldata l)) /\ S i = false.
Proof. exact limit_dropped_lemma. Qed.
Print Assumptions subset_drops_limit_iff_parameter_dropped.

(** C11: mapping joints along an injective map. *)
Example ex_jmap_ok : jmap_injective [Some 2%nat; None; Some 0%nat] /\
  (forall a j, nth_error [Some 2%nat; None; Some 0%nat] a = Some (Some j) -> (j < 4)%nat).
Proof.
  split.
  - intros [|[|[|a]]] [|[|[|b]]] j H1 H2; cbn in *; congruence || (destruct a; discriminate) || (destruct b; discriminate).
  - intros [|[|[|a]]] j H; cbn in H; try discriminate; try (injection H as <-; lia). destruct a; discriminate.
Qed.
Theorem map_joints_moves_joint_parameters :
  forall pt nT jmap,
  pt_wf pt -> pt_rows pt = (7 * List.length jmap)%nat -> jmap_injective jmap ->
  (forall a j, nth_error jmap a = Some (Some j) -> (j < nT)%nat) ->
  exists pt', map_transform_joints pt nT jmap = Ok pt' /\
    pt_name pt' = pt_name pt /\ pt_cols pt' = pt_cols pt /\ pt_sets pt' = pt_sets pt /\
    pt_pose pt' = pt_pose pt /\
    forall p, List.length p = pt_cols pt ->
      exists q q', pt_apply pt p = Ok q /\ pt_apply pt' p = Ok q' /\ List.length q' = (7 * nT)%nat /\
      (forall a j d, nth_error jmap a = Some (Some j) -> (d < 7)%nat ->
         nth (7 * j + d) q' 0 = nth (7 * a + d) q 0) /\
      (forall j d, (j < nT)%nat -> (d < 7)%nat -> (forall a, nth_error jmap a <> Some (Some j)) ->
         nth (7 * j + d) q' 0 = 0).
Proof. exact map_joints_lemma. Qed.
Print Assumptions map_joints_moves_joint_parameters.

(** C11 refuted part: the blend-shape parameter indices are lost, even for the
    identity map. *)
Theorem map_joints_keeps_blend_shapes_refuted :
  exists pt pt', pt_wf pt /\ map_transform_joints pt 1 [Some 0%nat] = Ok pt' /\
    pt_name pt' = pt_name pt /\ pt_blend pt = [1%Z] /\ pt_blend pt' = [].
Proof.
  exists (PT ["a"; "blend_0"] 7 2 [Entry 0 0 1] (repeat 0 7) (repeat true 7) [] [] [1%Z] []).
  eexists. split.
  - constructor; try reflexivity.
    + cbn [pt_cols]. unfold kMaxModelParams. lia.
    + intros e [<-|[]]. cbn. lia.
    + intros nm l i v [].
    + intros z [<-|[]]. cbn. lia.
    + intros z [].
  - split; [reflexivity|]. repeat split.
Qed.
Print Assumptions map_joints_keeps_blend_shapes_refuted.

(** C62: adding blend shapes replaces the ones there were: doing it again with
    another count gives the same as doing it once with that count; in
    particular the operation is idempotent. *)
Theorem add_blend_shapes_last_call_wins :
  forall fresh pt lims n m ptn limsn,
  pt_wf pt -> limits_wf (pt_cols pt) lims ->
  (pt_cols pt + n <= kMaxModelParams)%nat ->
  add_blend_shapes fresh pt lims n = Ok (ptn, limsn) ->
  exists ptm limsm ptm', add_blend_shapes fresh pt lims m = Ok (ptm, limsm) /\
    add_blend_shapes fresh ptn limsn m = Ok (ptm', limsm) /\ pt_agree ptm' ptm.
Proof. exact add_blend_last_wins. Qed.
Print Assumptions add_blend_shapes_last_call_wins.

Example ex_add_blend : exists r, add_blend_shapes (fun _ => "b") ex_pt ex_limits 2 = Ok r /\
  pt_blend (fst r) = [3; 4]%Z /\ pt_cols (fst r) = 5%nat.
Proof. eexists. split; [reflexivity|]. split; reflexivity. Qed.

(** C63 refuted: numSkeletonParameters is not the number of parameters that are
    neither blend shape nor face parameters once a subset dropped some: here it
    is negative. *)
Theorem num_skeleton_parameters_after_subset_refuted :
  exists pt pt' lims' S, pt_wf pt /\ num_skeleton_parameters pt = 1%Z /\
    subset_transform pt [] S = Ok (pt', lims') /\
    pt_cols pt' = 1%nat /\ pt_name pt' = ["a"] /\ num_skeleton_parameters pt' = (-1)%Z.
Proof.
  exists (PT ["a"; "blend_0"; "blend_1"] 7 3 [Entry 0 0 1] (repeat 0 7) (repeat true 7) [] [] [1; 2]%Z []).
  eexists; eexists. exists (fun i => Nat.eqb i 0). split.
  - constructor; try reflexivity.
    + cbn [pt_cols]. unfold kMaxModelParams. lia.
    + intros e [<-|[]]. cbn. lia.
    + intros nm l i v [].
    + intros z [<-|[<-|[]]]; cbn; lia.
    + intros z [].
  - repeat split.
Qed.
Print Assumptions num_skeleton_parameters_after_subset_refuted.
