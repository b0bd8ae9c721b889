(** Properties C90 (blended and skinned shapes) and C91 (fitting blend weights). *)

From Coq Require Import Reals List Arith Lia Lra Psatz Permutation.
From Verif Require Import Prelude Loops Rbool R3 LinAlg Transform_model Skin_spec Skin_model Skin_props Blend_spec Blend_model Blend_proofs.
Import ListNotations.
Local Open Scope R_scope.

(** ** Shapes *)

Lemma compute_deltas_ok V w : (length w <= bm_cols V)%nat ->
  compute_deltas V w = Ok (fun r => sumn (length w) (fun k => bm_at V r k * nth k w 0)).
Proof. intros H. unfold compute_deltas. rewrite (proj2 (Nat.leb_le _ _) H). reflexivity. Qed.

Lemma compute_shape_ok s w : bs_base s <> [] -> bm_rows (bs_vectors s) = (3 * length (bs_base s))%nat -> (length w <= bm_cols (bs_vectors s))%nat ->
  compute_shape s w = Ok (unflat (length (bs_base s)) (fun r => flat (bs_base s) r + sumn (length w) (fun k => bm_at (bs_vectors s) r k * nth k w 0))).
Proof.
  intros N H L. unfold compute_shape. rewrite (proj2 (Nat.eqb_eq (length (bs_base s) * 3) (bm_rows (bs_vectors s)))) by lia. cbn [negb].
  rewrite (compute_deltas_ok _ _ L). cbn [obind]. destruct (bs_base s); [contradiction|]. reflexivity.
Qed.

(** C90: the shape is the base shape with each vertex moved by the weighted shape vectors; shapes without
    a weight have weight zero. *)
Theorem compute_shape_correct s w : bs_base s <> [] -> bm_rows (bs_vectors s) = (3 * length (bs_base s))%nat ->
  (length w <= bm_cols (bs_vectors s))%nat ->
  exists out, compute_shape s w = Ok out /\ blended (bs_base s) (bm_at (bs_vectors s)) w out.
Proof. intros N H L. eexists. split; [apply compute_shape_ok; assumption|]. apply blended_unflat. Qed.
Print Assumptions compute_shape_correct.

(** C90: more weights than shapes are refused. *)
Theorem compute_shape_too_many s w : bs_base s <> [] -> (bm_cols (bs_vectors s) < length w)%nat -> compute_shape s w = CheckFail.
Proof.
  intros N H. unfold compute_shape. destruct (negb _); [reflexivity|]. destruct (bs_base s); [contradiction|].
  unfold compute_deltas. rewrite (proj2 (Nat.leb_gt _ _) H). reflexivity.
Qed.
Print Assumptions compute_shape_too_many.

(** C90: applyDeltas moves the given vertices in the same way. *)
Theorem apply_deltas_correct V w result : result <> [] -> bm_rows V = (3 * length result)%nat -> (length w <= bm_cols V)%nat ->
  exists out, apply_deltas V w result = Ok out /\ blended result (bm_at V) w out.
Proof.
  intros N H L. unfold apply_deltas. rewrite (compute_deltas_ok _ _ L). cbn [obind].
  eexists. split; [|apply blended_unflat]. destruct result; [contradiction|].
  rewrite (proj2 (Nat.eqb_eq _ _)) by lia. reflexivity.
Qed.
Print Assumptions apply_deltas_correct.

(** C90: setShapeVector sets one shape and leaves the others and the base shape alone. *)
Theorem set_vector_correct s i shape : shape <> [] -> bm_rows (bs_vectors s) = (3 * length shape)%nat -> (i < bm_cols (bs_vectors s))%nat ->
  exists s', bs_set_vector s i shape = Ok s' /\ bs_base s' = bs_base s /\ bm_cols (bs_vectors s') = bm_cols (bs_vectors s) /\
    bm_rows (bs_vectors s') = bm_rows (bs_vectors s) /\
    (forall v p, nth_error shape v = Some p -> shape_at (bm_at (bs_vectors s')) i v = p) /\
    (forall k v, k <> i -> shape_at (bm_at (bs_vectors s')) k v = shape_at (bm_at (bs_vectors s)) k v).
Proof.
  intros N H L. unfold bs_set_vector, base_set_vector.
  rewrite (proj2 (Nat.eqb_eq (bm_rows (bs_vectors s) / 3) (length shape))).
  2:{ rewrite H. replace (3 * length shape)%nat with (length shape * 3)%nat by lia. apply Nat.div_mul. lia. }
  rewrite (proj2 (Nat.eqb_eq _ _)) by lia. rewrite (proj2 (Nat.ltb_lt _ _) L). cbn [negb].
  destruct shape as [|p0 shape']; [contradiction|]. cbn [obind]. eexists. split; [reflexivity|]. cbn [bs_base bs_vectors bm_cols bm_rows bm_at].
  set (shape := p0 :: shape'). split; [reflexivity|]. split; [reflexivity|]. split; [reflexivity|]. split.
  - intros v p Hp. unfold shape_at. rewrite Nat.eqb_refl, flat_x, flat_y, flat_z, (nth_error_nth _ _ _ Hp). destruct p; reflexivity.
  - intros k v Nk. unfold shape_at. rewrite (proj2 (Nat.eqb_neq k i) Nk). reflexivity.
Qed.
Print Assumptions set_vector_correct.

(** C90: each basis gets the model parameter named for it, and zero if none is. *)
Theorem extract_weights_correct params model : (forall k, In (Some k) params -> (k < length model)%nat) ->
  exists w, extract_weights params model = Ok w /\ length w = length params /\
    forall i, nth_error w i = match nth_error params i with Some (Some k) => nth_error model k | Some None => Some 0 | None => None end.
Proof.
  intros H. unfold extract_weights.
  destruct (ofold_seq_inv (fun i result => obind (rd params i) (fun p => match p with None => Ok result | Some k => obind (rd model k) (fun x => wr result i x) end))
    (fun m w => length w = length params /\ forall i, (i < length params)%nat ->
      nth_error w i = if (i <? m)%nat then match nth_error params i with Some (Some k) => nth_error model k | _ => Some 0 end else Some 0)
    (length params) (repeat 0 (length params))) as (w & E & Lw & N).
  - split; [apply repeat_length|]. intros i Hi. cbn. apply nth_error_repeat. exact Hi.
  - intros m w Hm (Lw & N). destruct (nth_error_lt params m Hm) as [p Ep]. rewrite (rd_some _ _ _ Ep). cbn [obind]. destruct p as [k|].
    + assert (Hk : (k < length model)%nat) by (apply H, (nth_error_In _ m), Ep). destruct (nth_error_lt model k Hk) as [x Ex].
      rewrite (rd_some _ _ _ Ex). cbn [obind]. destruct (wr_ok w m x) as (w' & E' & L' & Nm & No); [lia|].
      exists w'. split; [exact E'|]. split; [lia|]. intros i Hi. destruct (Nat.eq_dec i m) as [->|D].
      * rewrite (proj2 (Nat.ltb_lt m (S m))) by lia. rewrite Nm, Ep, Ex. reflexivity.
      * rewrite (No i D), (N i Hi). destruct (Nat.ltb_spec i m), (Nat.ltb_spec i (S m)); try lia; reflexivity.
    + exists w. split; [reflexivity|]. split; [exact Lw|]. intros i Hi. rewrite (N i Hi).
      destruct (Nat.ltb_spec i m), (Nat.ltb_spec i (S m)); try lia; try reflexivity. replace i with m by lia. rewrite Ep. reflexivity.
  - exists w. split; [exact E|]. split; [exact Lw|]. intros i. destruct (Nat.lt_ge_cases i (length params)) as [Hi|Hi].
    + rewrite (N i Hi), (proj2 (Nat.ltb_lt _ _) Hi). destruct (nth_error_lt params i Hi) as [p ->]. reflexivity.
    + rewrite (proj2 (nth_error_None w i)), (proj2 (nth_error_None params i)) by lia. reflexivity.
Qed.
Print Assumptions extract_weights_correct.

(** ** Skinning *)

Lemma rest_ok s w i b : bm_rows (bs_vectors s) = (3 * length (bs_base s))%nat -> nth_error (bs_base s) i = Some b ->
  rest_position (Some s) w i = Ok (vadd b (moved (bm_at (bs_vectors s)) w i)).
Proof.
  intros H E. unfold rest_position. rewrite (rd_some _ _ _ E). cbn [obind]. apply nth_error_len in E.
  rewrite (proj2 (Nat.leb_le _ _)) by lia. cbn [negb]. rewrite moved_comp. reflexivity.
Qed.

(** C90: skinWithBlendShapes is skinning of the blended shape. *)
Theorem skin_blend_agrees order inv skin mesh s worlds w : Permutation order (seq 0 (length skin)) ->
  bs_base s <> [] -> bm_rows (bs_vectors s) = (3 * length (bs_base s))%nat -> (length w <= bm_cols (bs_vectors s))%nat ->
  length (bs_base s) = length mesh -> length skin = length mesh -> length worlds = length inv ->
  (forall row, In row skin -> row_ok (length inv) row) ->
  exists rest out, compute_shape s w = Ok rest /\ apply_ssd order inv skin rest worlds = Ok out /\
    skin_with_blend order inv skin mesh (Some s) worlds w = Ok out.
Proof.
  intros P N H L Lb Ls Lw Rok. destruct (compute_shape_correct s w N H L) as (rest & Er & Lr & Br).
  destruct (ssd_before_zero order inv skin rest worlds P) as (out & Eo & _); [lia|lia|exact Rok|].
  exists rest, out. split; [exact Er|]. split; [exact Eo|].
  unfold apply_ssd in Eo. unfold skin_with_blend. rewrite (proj2 (Nat.eqb_eq _ _) Lw) in *. rewrite (proj2 (Nat.eqb_eq _ _) Ls).
  rewrite (proj2 (Nat.leb_le _ _) L). cbn [negb] in *. destruct (negb (length skin =? length rest)); [discriminate|].
  rewrite Lr, Lb in Eo. rewrite <- Eo. unfold for_vertices.
  assert (In_ok : forall i, In i order -> (i < length skin)%nat) by (intros i Hi; apply (Permutation_in _ P), in_seq in Hi; lia).
  clear Eo P. revert In_ok. generalize (repeat vzero (length mesh)). induction order as [|i order IH]; intros result Io; [reflexivity|].
  cbn [ofold]. assert (Hi : (i < length skin)%nat) by (apply Io; left; reflexivity).
  destruct (nth_error_lt skin i Hi) as [row Erow]. rewrite (rd_some _ _ _ Erow). cbn [obind].
  assert (Es : nth_error (seq 0 (length mesh)) i = Some i).
  { rewrite nth_error_nth' with (d := 0%nat) by (rewrite seq_length; lia). rewrite seq_nth by lia. reflexivity. }
  rewrite (rd_some _ _ _ Es). cbn [obind].
  destruct (nth_error_lt (bs_base s) i) as [b Eb]; [lia|]. rewrite (rest_ok s w i b H Eb), (rd_some _ _ _ (Br i b Eb)). cbn [obind].
  destruct (ssd_row _ _ _ _) as [v| | | |]; try reflexivity. cbn [obind]. destruct (wr result i v) as [r'| | | |]; try reflexivity. cbn [obind].
  apply IH. intros j Hj. apply Io. right. exact Hj.
Qed.
Print Assumptions skin_blend_agrees.

(** C90: in rows whose zero weights come last, every vertex is the weighted sum over all influences of the
    blended rest position (see C44 for other rows). *)
Theorem skin_blend_partial order inv skin mesh s worlds w : Permutation order (seq 0 (length skin)) ->
  bs_base s <> [] -> bm_rows (bs_vectors s) = (3 * length (bs_base s))%nat -> (length w <= bm_cols (bs_vectors s))%nat ->
  length (bs_base s) = length mesh -> length skin = length mesh -> length worlds = length inv ->
  (forall row, In row skin -> row_ok (length inv) row) -> (forall row, In row skin -> zeros_last row) ->
  exists out, skin_with_blend order inv skin mesh (Some s) worlds w = Ok out /\ length out = length mesh /\
    forall i row b v, nth_error skin i = Some row -> nth_error (bs_base s) i = Some b -> nth_error out i = Some v ->
      skinned worlds inv row (vadd b (moved (bm_at (bs_vectors s)) w i)) v.
Proof.
  intros P N H L Lb Ls Lw Rok Rz. destruct (skin_blend_agrees order inv skin mesh s worlds w) as (rest & out & Er & Eo & E); try assumption.
  destruct (compute_shape_correct s w N H L) as (rest' & Er' & Lr & Br). rewrite Er in Er'. injection Er' as <-.
  destruct (ssd_partial order inv skin rest worlds P) as (out' & Eo' & Lo & No); [lia|lia|intros row Hr; split; [apply Rok|apply Rz]; exact Hr|].
  rewrite Eo in Eo'. injection Eo' as <-. exists out. split; [exact E|]. split; [lia|].
  intros i row b v Hr Hb Hv. destruct (No i row _ Hr (Br i b Hb)) as (v' & Ev & Sv). rewrite Hv in Ev. injection Ev as <-. exact Sv.
Qed.
Print Assumptions skin_blend_partial.

(** C90: a character without a blend shape is not skinned safely, although the code means to allow it:
    a null pointer is dereferenced. *)
Theorem skin_blend_refuted inv mesh worlds w row : length worlds = length inv -> mesh <> [] ->
  skin_with_blend (seq 0 (length mesh)) inv (repeat row (length mesh)) mesh None worlds w = UB.
Proof.
  intros Lw N. unfold skin_with_blend. rewrite (proj2 (Nat.eqb_eq _ _) Lw), repeat_length, Nat.eqb_refl. cbn [negb].
  destruct mesh as [|p mesh]; [contradiction|]. cbn [length seq]. unfold for_vertices. cbn [ofold].
  rewrite (rd_some _ _ row) by reflexivity. rewrite (rd_some _ _ 0%nat) by reflexivity. reflexivity.
Qed.
Print Assumptions skin_blend_refuted.

(** ** Fitting *)

Definition cached (s : bshape) : Prop := bs_valid s = true -> bs_fact s = Some (bs_vectors s).

Lemma estimate_unweighted_ok svd ldlt s verts reg ws : cached s -> bs_base s <> [] ->
  bm_rows (bs_vectors s) = (3 * length (bs_base s))%nat -> length verts = length (bs_base s) -> length ws <> length verts ->
  estimate svd ldlt s verts reg ws =
  Ok (BS (bs_vectors s) (bs_base s) (Some (bs_vectors s)) true,
      map (svd (bm_rows (bs_vectors s)) (bm_cols (bs_vectors s)) (bm_at (bs_vectors s)) (fun r => flat verts r - flat (bs_base s) r))
        (seq 0 (bm_cols (bs_vectors s)))).
Proof.
  intros C N H Lv Lw. unfold estimate. rewrite (proj2 (Nat.eqb_eq _ _)) by lia. rewrite (proj2 (Nat.eqb_eq _ _) Lv). cbn [negb].
  rewrite (proj2 (Nat.eqb_neq _ _) Lw). cbn [negb]. destruct s as [V base F v]. unfold cached in C. cbn [bs_valid bs_fact bs_vectors bs_base] in *.
  destruct base; [contradiction|]. destruct v.
  - rewrite (C eq_refl). cbn [bs_fact]. rewrite Nat.eqb_refl. reflexivity.
  - cbn [bs_fact]. rewrite Nat.eqb_refl. reflexivity.
Qed.

Lemma map_seq_length {A} (f : nat -> A) n : length (map f (seq 0 n)) = n.
Proof. rewrite map_length, seq_length. reflexivity. Qed.
Lemma map_seq_nth (f : nat -> R) n k : (k < n)%nat -> nth k (map f (seq 0 n)) 0 = f k.
Proof.
  intros H. rewrite nth_indep with (d' := f 0%nat) by (rewrite map_seq_length; exact H). rewrite map_nth, seq_nth by exact H. reflexivity.
Qed.

Lemma compute_shape_inv s w out : compute_shape s w = Ok out ->
  bm_rows (bs_vectors s) = (3 * length (bs_base s))%nat /\ blended (bs_base s) (bm_at (bs_vectors s)) w out.
Proof.
  unfold compute_shape. destruct (negb _) eqn:E1; [discriminate|]. apply Bool.negb_false_iff, Nat.eqb_eq in E1.
  destruct (bs_base s) eqn:E2; [discriminate|]. rewrite <- E2 in *. unfold compute_deltas. destruct (negb _) eqn:E3; [discriminate|].
  cbn [obind]. intros E. injection E as <-. split; [lia|]. apply blended_unflat.
Qed.

Lemma least_fit svd s verts : least_squares_solver svd -> bs_base s <> [] -> bm_rows (bs_vectors s) = (3 * length (bs_base s))%nat ->
  length verts = length (bs_base s) ->
  let c := map (svd (bm_rows (bs_vectors s)) (bm_cols (bs_vectors s)) (bm_at (bs_vectors s)) (fun r => flat verts r - flat (bs_base s) r))
             (seq 0 (bm_cols (bs_vectors s))) in
  exists out, compute_shape s c = Ok out /\
    forall c' out', length c' = bm_cols (bs_vectors s) -> compute_shape s c' = Ok out' -> distance2 out verts <= distance2 out' verts.
Proof.
  intros Sv N H Lv c. assert (Lc : length c = bm_cols (bs_vectors s)) by apply map_seq_length.
  destruct (compute_shape_correct s c N H) as (out & Eo & Bo); [lia|]. exists out. split; [exact Eo|].
  intros c' out' Lc' Eo'. apply compute_shape_inv in Eo'. destruct Eo' as [_ Bo'].
  rewrite (distance2_flat _ _ _ _ _ Bo Lv), (distance2_flat _ _ _ _ _ Bo' Lv), Lc, Lc', <- H.
  specialize (Sv (bm_rows (bs_vectors s)) (bm_cols (bs_vectors s)) (bm_at (bs_vectors s)) (fun r => flat verts r - flat (bs_base s) r) (fun k => nth k c' 0)).
  cbv zeta in Sv. refine (Rle_trans _ _ _ _ Sv). apply Req_le. apply sumn_ext. intros r _.
  assert (Q : sumn (bm_cols (bs_vectors s)) (fun k => bm_at (bs_vectors s) r k * nth k c 0) =
          sumn (bm_cols (bs_vectors s)) (fun k => bm_at (bs_vectors s) r k *
            svd (bm_rows (bs_vectors s)) (bm_cols (bs_vectors s)) (bm_at (bs_vectors s)) (fun r => flat verts r - flat (bs_base s) r) k)).
  { apply sumn_ext. intros k Hk. unfold c. rewrite map_seq_nth by exact Hk. reflexivity. }
  rewrite Q. reflexivity.
Qed.

(** No setShapeVectors after an unweighted fit. *)
Definition vectors_first (ops : list bs_op) : Prop :=
  forall before verts reg ws after V, ops = before ++ Estimate verts reg ws :: after -> length ws <> length verts -> ~ In (SetVectors V) after.

Lemma estimate_state svd ldlt s verts reg ws s' c : estimate svd ldlt s verts reg ws = Ok (s', c) ->
  (length ws = length verts /\ s' = s) \/
  (length ws <> length verts /\ s' = if bs_valid s then s else BS (bs_vectors s) (bs_base s) (Some (bs_vectors s)) true).
Proof.
  unfold estimate. destruct (negb _); [discriminate|]. destruct (negb (length verts =? _)%nat); [discriminate|].
  destruct (bs_base s) eqn:Eb; [discriminate|]. rewrite <- Eb. destruct (negb (length ws =? length verts)%nat) eqn:E.
  - apply Bool.negb_true_iff, Nat.eqb_neq in E. intros H. right. split; [exact E|]. destruct (bs_fact _); [|discriminate].
    destruct (negb _); [discriminate|]. injection H as <- _. reflexivity.
  - apply Bool.negb_false_iff, Nat.eqb_eq in E. intros H. left. split; [exact E|]. injection H as <- _. reflexivity.
Qed.

Lemma run_cached svd ldlt : forall ops s s', vectors_first ops -> (bs_valid s = true -> forall V, ~ In (SetVectors V) ops) -> cached s ->
  bs_run svd ldlt ops s = Ok s' -> cached s'.
Proof.
  induction ops as [|op ops IH]; intros s s' VF NV C E; [injection E as <-; exact C|].
  unfold bs_run in E. cbn [ofold] in E. destruct (bs_do svd ldlt op s) as [s1| | | |] eqn:E1; try discriminate. cbn [obind] in E.
  assert (VF' : vectors_first ops).
  { intros b v r w a V Eq. apply (VF (op :: b) v r w a V). rewrite Eq. reflexivity. }
  apply (IH s1 s' VF'); [| |exact E]; destruct op as [base|i shape|V|verts reg ws]; cbn [bs_do] in E1.
  - injection E1 as <-. cbn. intros Hv V I. apply (NV Hv V). right. exact I.
  - unfold bs_set_vector in E1. destruct (base_set_vector _ _ _); try discriminate. injection E1 as <-. discriminate.
  - injection E1 as <-. cbn. intros Hv. destruct (NV Hv V). left. reflexivity.
  - destruct (estimate svd ldlt s verts reg ws) as [[s2 c]| | | |] eqn:Ee; try discriminate. injection E1 as <-.
    apply estimate_state in Ee. destruct Ee as [[_ ->]|[Lw ->]].
    + intros Hv V I. apply (NV Hv V). right. exact I.
    + intros _ V. apply (VF [] verts reg ws ops V eq_refl Lw).
  - injection E1 as <-. exact C.
  - unfold bs_set_vector in E1. destruct (base_set_vector _ _ _); try discriminate. injection E1 as <-. discriminate.
  - injection E1 as <-. intros Hv. destruct (NV Hv V). left. reflexivity.
  - destruct (estimate svd ldlt s verts reg ws) as [[s2 c]| | | |] eqn:Ee; try discriminate. injection E1 as <-.
    apply estimate_state in Ee. destruct Ee as [[_ ->]|[Lw ->]]; [exact C|]. destruct (bs_valid s) eqn:Hv; [exact C|]. intros _. reflexivity.
Qed.

(** C91: without weights, whatever calls came before, the coefficients give the shape nearest to the
    vertices - if setShapeVectors was not called after an earlier fit. *)
Theorem estimate_least_partial svd ldlt base n ops s verts reg ws : least_squares_solver svd ->
  bs_run svd ldlt ops (bs_new base n) = Ok s -> vectors_first ops ->
  bs_base s <> [] -> bm_rows (bs_vectors s) = (3 * length (bs_base s))%nat -> length verts = length (bs_base s) -> length ws <> length verts ->
  exists s' c out, estimate svd ldlt s verts reg ws = Ok (s', c) /\ length c = bm_cols (bs_vectors s) /\ compute_shape s c = Ok out /\
    bs_base s' = bs_base s /\ bs_vectors s' = bs_vectors s /\
    forall c' out', length c' = bm_cols (bs_vectors s) -> compute_shape s c' = Ok out' -> distance2 out verts <= distance2 out' verts.
Proof.
  intros Sv E VF N H Lv Lw. assert (C : cached s) by (apply (run_cached svd ldlt ops (bs_new base n) s VF); [discriminate|discriminate|exact E]).
  destruct (least_fit svd s verts Sv N H Lv) as (out & Eo & Min).
  eexists _, _, out. split; [apply estimate_unweighted_ok; assumption|]. split; [apply map_seq_length|]. split; [exact Eo|]. split; [reflexivity|].
  split; [reflexivity|exact Min].
Qed.
Print Assumptions estimate_least_partial.

(** C91: fitting a blended shape gives back its weights if no other weights give the same shape. *)
Theorem estimate_recovers_partial svd ldlt base n ops s reg ws w verts : least_squares_solver svd ->
  bs_run svd ldlt ops (bs_new base n) = Ok s -> vectors_first ops ->
  length w = bm_cols (bs_vectors s) -> compute_shape s w = Ok verts ->
  (forall w', length w' = length w -> compute_shape s w' = Ok verts -> w' = w) -> length ws <> length verts ->
  exists s', estimate svd ldlt s verts reg ws = Ok (s', w).
Proof.
  intros Sv E VF Lw Ev U Lws. pose proof (compute_shape_inv _ _ _ Ev) as (H & Lv & Bv).
  assert (N : bs_base s <> []).
  { intros Eb. unfold compute_shape in Ev. rewrite Eb in Ev. destruct (negb _); discriminate. }
  destruct (estimate_least_partial svd ldlt base n ops s verts reg ws Sv E VF N H Lv Lws) as (s' & c & out & Ee & Lc & Eo & _ & _ & Min).
  exists s'. specialize (Min w verts Lw Ev). rewrite distance2_same in Min.
  assert (out = verts).
  { apply distance2_zero; [|apply Rle_antisym; [exact Min|apply distance2_nonneg]]. apply compute_shape_inv in Eo. destruct Eo as (_ & Lo & _). lia. }
  subst out. rewrite (U c) in Ee; [exact Ee|lia|exact Eo].
Qed.
Print Assumptions estimate_recovers_partial.

(** C91: with a weight for each vertex, the coefficients minimise the weighted distance plus the
    regularization, whatever calls came before. *)
Theorem estimate_weighted svd ldlt s verts reg ws : definite_solver ldlt ->
  bs_base s <> [] -> bm_rows (bs_vectors s) = (3 * length (bs_base s))%nat -> length verts = length (bs_base s) -> length ws = length verts ->
  reg <> 0 \/
    ((forall x, In x ws -> x <> 0) /\
     forall c c' out, length c = bm_cols (bs_vectors s) -> length c' = bm_cols (bs_vectors s) ->
       compute_shape s c = Ok out -> compute_shape s c' = Ok out -> c = c') ->
  exists c out, estimate svd ldlt s verts reg ws = Ok (s, c) /\ length c = bm_cols (bs_vectors s) /\ compute_shape s c = Ok out /\
    forall c' out', length c' = bm_cols (bs_vectors s) -> compute_shape s c' = Ok out' ->
      weighted_distance2 ws out verts + reg * reg * norm2 c <= weighted_distance2 ws out' verts + reg * reg * norm2 c'.
Proof.
  intros Ds N H Lv Lw Pos. unfold estimate. rewrite (proj2 (Nat.eqb_eq (length (bs_base s) * 3) _)) by lia. rewrite (proj2 (Nat.eqb_eq _ _) Lv).
  rewrite (proj2 (Nat.eqb_eq _ _) Lw). cbn [negb].
  set (V := bs_vectors s) in *. set (A := wls_matrix V reg ws). set (b := wls_rhs V (bs_base s) verts ws).
  set (m := (bm_rows V + bm_cols V)%nat). set (M := fun i j => sumn m (fun r => A r i * A r j)). set (y := fun i => sumn m (fun r => A r i * b r)).
  set (x := ldlt (bm_cols V) M y). set (c := map x (seq 0 (bm_cols V))). set (n := bm_cols V) in *.
  assert (Lc : length c = n) by apply map_seq_length.
  destruct (compute_shape_correct s c N H) as (out & Eo & Bo); [fold V n; lia|].
  exists c, out. split; [destruct (bs_base s); [contradiction|reflexivity]|]. split; [exact Lc|]. split; [exact Eo|].
  (* the objective is the squared length of A c - b *)
  assert (Obj : forall c1 out1, length c1 = n -> blended (bs_base s) (bm_at V) c1 out1 ->
    weighted_distance2 ws out1 verts + reg * reg * norm2 c1 =
    sumn m (fun r => (sumn n (fun k => A r k * nth k c1 0) - b r) * (sumn n (fun k => A r k * nth k c1 0) - b r))).
  { intros c1 out1 L1 B1. rewrite (weighted_flat _ _ _ _ _ _ B1 Lv) by lia. rewrite norm2_sum, L1. unfold m. rewrite sumn_split. f_equal.
    - rewrite <- H. apply sumn_ext. intros r Hr. unfold A, b, wls_matrix, wls_rhs. rewrite (proj2 (Nat.ltb_lt _ _) Hr). reflexivity.
    - rewrite <- sumn_scal. apply sumn_ext. intros i Hi. unfold A, b, wls_matrix, wls_rhs.
      rewrite (proj2 (Nat.ltb_ge (bm_rows V + i) (bm_rows V))) by lia. replace (bm_rows V + i - bm_rows V)%nat with i by lia.
      rewrite (sumn_single n i); [rewrite Nat.eqb_refl; ring|exact Hi|]. intros k Hk D. rewrite (proj2 (Nat.eqb_neq i k)) by auto. ring. }
  (* the matrix is definite *)
  assert (Q : forall z, sumn n (fun i => sumn n (fun j => z i * M i j * z j)) = sumn m (fun r => sumn n (fun k => A r k * z k) * sumn n (fun k => A r k * z k))).
  { intros z. rewrite (sumn_ext m _ (fun r => sumn n (fun i => sumn n (fun j => z i * (A r i * A r j) * z j)))).
    2:{ intros r _. rewrite <- sumn_scal_r. apply sumn_ext. intros i _. rewrite <- sumn_scal. apply sumn_ext. intros j _. ring. }
    rewrite (sumn_swap m n). apply sumn_ext. intros i _. rewrite (sumn_swap m n). apply sumn_ext. intros j _. unfold M.
    rewrite <- sumn_scal, <- sumn_scal_r. apply sumn_ext. intros r _. ring. }
  assert (Eq : forall i, (i < n)%nat -> sumn n (fun j => M i j * x j) = y i).
  { apply Ds.
    - intros i j _ _. unfold M. apply sumn_ext. intros r _. ring.
    - intros z (i & Hi & Nz). rewrite Q.
      assert (P : 0 <= sumn m (fun r => sumn n (fun k => A r k * z k) * sumn n (fun k => A r k * z k))) by (apply sumn_nonneg; intros; apply Rle_0_sqr).
      destruct P as [P|P]; [exact P|]. exfalso. symmetry in P. pose proof (sumn_sq_zero m _ P) as Zr. cbv beta in Zr. clear P.
      destruct Pos as [Nr|[Nw Ind]].
      + specialize (Zr (bm_rows V + i)%nat). unfold A, wls_matrix in Zr. rewrite (proj2 (Nat.ltb_ge (bm_rows V + i) (bm_rows V))) in Zr by lia.
        replace (bm_rows V + i - bm_rows V)%nat with i in Zr by lia. rewrite (sumn_single n i) in Zr.
        * rewrite Nat.eqb_refl in Zr. apply Nz. assert (reg * z i = 0) by (apply Zr; unfold m; fold n; lia). apply Rmult_integral in H0. tauto.
        * exact Hi.
        * intros k Hk D. rewrite (proj2 (Nat.eqb_neq i k)) by auto. ring.
      + assert (Zd : forall r, (r < bm_rows V)%nat -> sumn n (fun k => bm_at V r k * z k) = 0).
        { intros r Hr. specialize (Zr r). unfold A, wls_matrix in Zr. rewrite (proj2 (Nat.ltb_lt _ _) Hr) in Zr.
          assert (Hq : (r / 3 < length ws)%nat) by (rewrite Lw, Lv; apply Nat.div_lt_upper_bound; lia).
          assert (Nq : nth (r / 3) ws 0 <> 0) by (apply Nw, nth_In, Hq).
          rewrite (sumn_ext n _ (fun k => nth (r / 3) ws 0 * (bm_at V r k * z k))) in Zr by (intros; ring). rewrite sumn_scal in Zr.
          assert (Zq : nth (r / 3) ws 0 * sumn n (fun k => bm_at V r k * z k) = 0) by (apply Zr; unfold m; lia).
          apply Rmult_integral in Zq. tauto. }
        set (c1 := map z (seq 0 n)). set (c2 := map (fun _ => 0) (seq 0 n)).
        assert (L1 : length c1 = n) by apply map_seq_length. assert (L2 : length c2 = n) by apply map_seq_length.
        destruct (compute_shape_correct s c1 N H) as (o1 & E1 & B1); [fold V n; lia|].
        destruct (compute_shape_correct s c2 N H) as (o2 & E2 & B2); [fold V n; lia|].
        assert (o1 = o2).
        { apply (blended_fun (bs_base s) (bm_at V) c1); [exact B1|]. split; [apply B2|]. intros v p Hp. rewrite (proj2 B2 v p Hp).
          fold V. do 2 f_equal. rewrite !moved_comp, L1, L2. assert (Hv : (v < length (bs_base s))%nat) by (apply nth_error_len in Hp; exact Hp).
          assert (G : forall r, (r < bm_rows V)%nat -> sumn n (fun k => bm_at V r k * nth k c2 0) = sumn n (fun k => bm_at V r k * nth k c1 0)).
          { intros r Hr. rewrite (sumn_ext n (fun k => bm_at V r k * nth k c1 0) (fun k => bm_at V r k * z k)).
            - rewrite (Zd r Hr). apply sumn_zero. intros k Hk. unfold c2. rewrite map_seq_nth by exact Hk. ring.
            - intros k Hk. unfold c1. rewrite map_seq_nth by exact Hk. reflexivity. }
          rewrite !G by lia. reflexivity. }
        subst o2. specialize (Ind c1 c2 o1 L1 L2 E1 E2). apply Nz. rewrite <- (map_seq_nth z n i Hi). fold c1. rewrite Ind. unfold c2.
        rewrite map_seq_nth by exact Hi. reflexivity. }
  intros c' out' Lc' Eo'. apply compute_shape_inv in Eo'. destruct Eo' as [_ Bo'].
  rewrite (Obj c out Lc Bo), (Obj c' out' Lc' Bo').
  assert (Orth : forall j, (j < n)%nat -> sumn m (fun r => A r j * (b r - sumn n (fun k => A r k * nth k c 0))) = 0).
  { intros j Hj. rewrite (sumn_ext m _ (fun r => A r j * b r - sumn n (fun k => A r j * A r k * x k))).
    2:{ intros r _. rewrite (sumn_ext n (fun k => A r k * nth k c 0) (fun k => A r k * x k)).
        - rewrite Rmult_minus_distr_l, <- sumn_scal. f_equal. apply sumn_ext. intros. ring.
        - intros k Hk. unfold c. rewrite map_seq_nth by exact Hk. reflexivity. }
    rewrite sumn_minus, (sumn_swap m n). rewrite (sumn_ext n _ (fun k => M j k * x k)).
    - rewrite (Eq j Hj). unfold y. ring.
    - intros k _. unfold M. rewrite <- sumn_scal_r. reflexivity. }
  rewrite (orth_least m n A b (fun k => nth k c 0) Orth (fun k => nth k c' 0)).
  match goal with |- ?a <= ?a + ?t => assert (0 <= t); [|lra] end. apply sumn_nonneg. intros. apply Rle_0_sqr.
Qed.
Print Assumptions estimate_weighted.

(** ** Where the full claims fail *)

(** One vertex at the origin and one shape moving it by [a] along x. *)
Definition one_shape (a : R) : bmat := BM 3 1 (fun r _ => match r with O => a | _ => 0 end).
Definition on_x (a : R) : list vec3 := [V3 a 0 0].

Lemma one_shape_fit svd a t : least_squares_solver svd -> a <> 0 ->
  svd 3%nat 1%nat (bm_at (one_shape a)) (fun r => flat (on_x t) r - flat (on_x 0) r) 0%nat = t / a.
Proof.
  intros Sv Na. pose proof (Sv 3%nat 1%nat (bm_at (one_shape a)) (fun r => flat (on_x t) r - flat (on_x 0) r) (fun _ => t / a)) as M.
  cbv zeta in M. set (xs := svd _ _ _ _) in *. clearbody xs. revert M. unfold sumn. cbn. set (x := xs 0%nat). clearbody x.
  intros M. set (q := a * x - t). assert (Q : q * q <= 0).
  { unfold q. eapply Rle_trans; [|eapply Rle_trans; [exact M|]]; apply Req_le; [ring|]. field. exact Na. }
  assert (q = 0) by nra. unfold q in H. apply (Rmult_eq_reg_l a); [|exact Na]. field_simplify; lra.
Qed.

Lemma one_shape_compute a c : compute_shape (BS (one_shape a) (on_x 0) None false) [c] = Ok (on_x (a * c)).
Proof. unfold compute_shape, compute_deltas. cbn. unfold unflat, sumn, on_x. cbn. do 2 f_equal. apply vec_ext; cbn; ring. Qed.
Lemma compute_shape_fields s t w : bs_vectors s = bs_vectors t -> bs_base s = bs_base t -> compute_shape s w = compute_shape t w.
Proof. intros E1 E2. unfold compute_shape. rewrite E1, E2. reflexivity. Qed.

(** C91: after setShapeVectors the fit is made with the old shape vectors: with shape 2 and a vertex
    at 2 it finds 2 instead of 1, at distance 2 instead of 0. *)
Theorem estimate_stale_refuted svd ldlt : least_squares_solver svd ->
  exists s s' out, bs_run svd ldlt [SetVector 0 (on_x 1); Estimate (on_x 1) 1 []; SetVectors (one_shape 2)] (bs_new (on_x 0) 1) = Ok s /\
    estimate svd ldlt s (on_x 2) 1 [] = Ok (s', [2]) /\ compute_shape s [2] = Ok out /\
    distance2 out (on_x 2) = 4 /\ exists out', compute_shape s [1] = Ok out' /\ distance2 out' (on_x 2) = 0.
Proof.
  intros Sv. pose (V1 := BM 3 1 (fun r k => if (k =? 0)%nat then flat (on_x 1) r else 0)).
  exists (BS (one_shape 2) (on_x 0) (Some V1) true). eexists _, (on_x 4).
  split; [reflexivity|]. split.
  { unfold estimate. cbn [bs_vectors bs_base bs_valid bs_fact one_shape bm_rows length on_x Nat.mul Nat.add Nat.eqb negb V1 bm_cols bm_at seq map].
    do 3 f_equal. set (g := fun r => flat [V3 2 0 0] r - flat [V3 0 0 0] r).
    pose proof (Sv 3%nat 1%nat (bm_at V1) g (fun _ => 2)) as M. cbv zeta in M. change (bm_at V1) with (fun r k => if (k =? 0)%nat then flat (on_x 1) r else 0) in M.
    set (x := svd _ _ _ _) in *. clearbody x. revert M. unfold sumn, g. cbn. intros M.
    assert (Q : (x 0%nat - 2) * (x 0%nat - 2) <= 0).
    { eapply Rle_trans; [|eapply Rle_trans; [exact M|]]; apply Req_le; ring. }
    nra. }
  split.
  { rewrite (compute_shape_fields _ (BS (one_shape 2) (on_x 0) None false)) by reflexivity. rewrite one_shape_compute. replace (2 * 2) with 4 by ring. reflexivity. }
  split; [unfold distance2, vnorm2, vdot, vsub; cbn; ring|]. exists (on_x 2). split.
  { rewrite (compute_shape_fields _ (BS (one_shape 2) (on_x 0) None false)) by reflexivity. rewrite one_shape_compute. replace (2 * 1) with 2 by ring. reflexivity. }
  unfold distance2, vnorm2, vdot, vsub; cbn; ring.
Qed.
Print Assumptions estimate_stale_refuted.

(** C91: without weights the regularization is ignored: 1 is returned where 1/2 is better. *)
Theorem estimate_regularization_refuted svd ldlt : least_squares_solver svd ->
  exists s s' c c' out out', estimate svd ldlt s (on_x 1) 1 [] = Ok (s', c) /\ compute_shape s c = Ok out /\ compute_shape s c' = Ok out' /\
    length c' = length c /\ distance2 out' (on_x 1) + 1 * 1 * norm2 c' < distance2 out (on_x 1) + 1 * 1 * norm2 c.
Proof.
  intros Sv. set (s := BS (one_shape 1) (on_x 0) None false).
  exists s. eexists. exists [1], [/ 2], (on_x (1 * 1)), (on_x (1 * / 2)).
  split.
  { unfold s. rewrite estimate_unweighted_ok; try reflexivity; try discriminate. cbn [bs_vectors bs_base one_shape bm_rows bm_cols seq map].
    do 3 f_equal. rewrite (one_shape_fit svd 1 1 Sv) by lra. lra. }
  split; [apply one_shape_compute|]. split; [apply one_shape_compute|]. split; [reflexivity|].
  unfold distance2, norm2, vnorm2, vdot, vsub. cbn. lra.
Qed.
Print Assumptions estimate_regularization_refuted.

(** C91: a fit changes what isApprox says, though it changes no shape. *)
Theorem estimate_approx_refuted svd ldlt :
  exists s s' c, estimate svd ldlt s (on_x 1) 1 [] = Ok (s', c) /\ bs_base s' = bs_base s /\ bs_vectors s' = bs_vectors s /\
    bs_is_approx s s = Ok true /\ bs_is_approx s s' = Ok false.
Proof.
  set (s := BS (one_shape 1) (on_x 0) None false). exists s. eexists _, _. split.
  { unfold s. rewrite estimate_unweighted_ok; try reflexivity; try discriminate. }
  split; [reflexivity|]. split; [reflexivity|].
  assert (B : forallb (fun x => vec_approx (fst x) (snd x)) (combine (on_x 0) (on_x 0)) = true).
  { cbn. rewrite Bool.andb_true_r. unfold vec_approx, approx_sq. destruct (Rleb_spec (vnorm2 (vsub (V3 0 0 0) (V3 0 0 0))) (approx_tol * approx_tol * Rmin (vnorm2 (V3 0 0 0)) (vnorm2 (V3 0 0 0)))) as [|D]; [reflexivity|].
    exfalso. revert D. unfold vnorm2, vdot, vsub. cbn. rewrite Rmin_left by lra. lra. }
  split.
  - unfold bs_is_approx, s. cbn [bs_base bs_vectors bs_valid]. rewrite Nat.eqb_refl, B, !Nat.eqb_refl. cbn [negb andb Bool.eqb]. rewrite Bool.andb_true_r. f_equal.
    unfold mat_approx, approx_sq, mat_sq, sumn. cbn. rewrite Rmin_left by lra.
    match goal with |- Rleb ?a ?b = true => destruct (Rleb_spec a b) as [|D]; [reflexivity|] end.
    exfalso. revert D. unfold approx_tol. lra.
  - unfold bs_is_approx, s. cbn [bs_base bs_vectors bs_valid]. rewrite Nat.eqb_refl, B, !Nat.eqb_refl. cbn [negb andb Bool.eqb]. rewrite Bool.andb_false_r. reflexivity.
Qed.
Print Assumptions estimate_approx_refuted.

(** ** Cases *)

(** Solvers as assumed exist. *)
Example solvers_exist : least_squares_solver (fun rows cols A b => ls rows A cols b) /\ definite_solver (fun n M b => ls n M n b).
Proof. split; [exact ls_least_squares|exact ls_definite]. Qed.

(** Two vertices, two shapes set one after the other with a fit in between. *)
Example blend_case svd ldlt : exists s, bs_run svd ldlt
    [SetVector 0 [V3 1 0 0; V3 0 1 0]; Estimate [V3 0 0 0; V3 1 1 1] 1 []; SetVector 1 [V3 0 0 1; V3 0 0 0]] (bs_new [V3 0 0 0; V3 1 0 0] 2) = Ok s /\
  vectors_first [SetVector 0 [V3 1 0 0; V3 0 1 0]; Estimate [V3 0 0 0; V3 1 1 1] 1 []; SetVector 1 [V3 0 0 1; V3 0 0 0]] /\
  bs_base s <> [] /\ bm_rows (bs_vectors s) = (3 * length (bs_base s))%nat /\
  compute_shape s [2; 3] = Ok [V3 2 0 3; V3 1 2 0].
Proof.
  eexists. split; [reflexivity|]. split.
  { intros before verts reg ws after V E _ I. destruct before as [|x1 [|x2 [|x3 before]]]; injection E; intros; subst; try discriminate.
    - destruct I as [I|[]]. discriminate.
    - destruct before; discriminate. }
  split; [discriminate|]. split; [reflexivity|]. unfold compute_shape, compute_deltas, unflat, sumn. cbn.
  do 2 f_equal; [|f_equal]; apply vec_ext; cbn; ring.
Qed.
