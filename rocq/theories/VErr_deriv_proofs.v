(** Derivatives of the vertices, of the error and of the residuals. *)

From Coq Require Import Reals List Arith ZArith Bool Lia Lra Permutation.
From Coquelicot Require Import Coquelicot.
From Verif Require Import Prelude Loops LinAlg Rbool R3 Transform_model Transform_proofs Skeleton_spec FK_model FK_spec FK_proofs FK_deriv_proofs
  ParamTransform_model ParamTransform_spec ParamTransform_proofs Limits_model Limits_spec Limits_proofs Loss_model Constraint_model Constraint_spec Constraint_eval_proofs Constraint_proofs
  Constraint_deriv_proofs SimdFn_proofs Normals_spec Skin_model Skin_spec Skin_props Blend_model Blend_spec Blend_props CharUtil_model CharState_model CharState_props
  VErr_model VErr_spec VErr_iter_proofs VErr_proofs.
Import ListNotations.
Local Open Scope nat_scope.
Local Open Scope outcome_scope.
Local Open Scope R_scope.

(** ** Shapes *)

Fixpoint msum (V : nat -> nat -> R) (v : nat) (k : nat) (w : list R) : vec3 :=
  match w with [] => vzero | x :: r => vadd (vscale x (shape_at V k v)) (msum V v (S k) r) end.
Lemma msum_eq V v w : forall k, msum V v k w = Skin_spec.vsum (map (fun m => vscale (nth m w 0) (shape_at V (k + m) v)) (seq 0 (length w))).
Proof.
  induction w as [|x w IH]; intros k; [reflexivity|]. cbn [msum length seq map Skin_spec.vsum fold_right nth]. rewrite Nat.add_0_r. f_equal.
  rewrite IH. rewrite <- seq_shift, map_map. unfold Skin_spec.vsum. f_equal. apply map_ext. intros m. rewrite Nat.add_succ_r. reflexivity.
Qed.
Lemma moved_msum V w v : moved V w v = msum V v 0 w.
Proof. rewrite msum_eq. reflexivity. Qed.

(** The derivative of what the shapes add, by parameter [i]. *)
Fixpoint dshape (V : nat -> nat -> R) (v i : nat) (k : nat) (params : list Z) : vec3 :=
  match params with
  | [] => vzero
  | z :: r => vadd (if (z <? 0)%Z then vzero else if (Z.to_nat z =? i)%nat then shape_at V k v else vzero) (dshape V v i (S k) r)
  end.
Lemma weight_derive p i z : (i < length p)%nat ->
  is_derive (fun t => shape_weight (set_nth p i t) z) (nth i p 0) (if (z <? 0)%Z then 0 else if (Z.to_nat z =? i)%nat then 1 else 0).
Proof.
  intros Hi. unfold shape_weight. destruct (z <? 0)%Z; [apply d_const|].
  destruct (Nat.eqb_spec (Z.to_nat z) i) as [->|N].
  - eapply d_ext; [intros t; symmetry; rewrite set_nth_nth by exact Hi; rewrite Nat.eqb_refl; reflexivity|]. apply (is_derive_id (K := R_AbsRing)).
  - eapply d_ext; [intros t; symmetry; rewrite set_nth_nth by exact Hi; rewrite (proj2 (Nat.eqb_neq _ _) N); reflexivity|]. apply d_const.
Qed.
Lemma msum_derive V v p i params : (i < length p)%nat -> forall k,
  is_vderive (fun t => msum V v k (map (shape_weight (set_nth p i t)) params)) (nth i p 0) (dshape V v i k params).
Proof.
  intros Hi. induction params as [|z params IH]; intros k; cbn [map msum dshape]; [apply vd_const|].
  apply (vd_add (fun t => vscale (shape_weight (set_nth p i t) z) (shape_at V k v)) (fun t => msum V v (S k) (map (shape_weight (set_nth p i t)) params))); [|apply IH].
  eapply vd_eq; [apply vd_scale; [apply weight_derive; exact Hi|apply vd_const]|].
  generalize (shape_at V k v). intros [a b c]. destruct (z <? 0)%Z; [vec_ring|]. destruct (Z.to_nat z =? i)%nat; vec_ring.
Qed.

Definition drest (E : vfn) (v i : nat) : vec3 :=
  vadd (match vf_blend E with Some b => dshape (bm_at (bs_vectors b)) v i 0 (pt_blend (vf_pt E)) | None => vzero end)
       (match vf_face E with Some V => dshape (bm_at V) v i 0 (pt_face (vf_pt E)) | None => vzero end).
Definition rest_of (E : vfn) (p : list R) (v : nat) : vec3 :=
  vadd (vadd (match base_at E v with Some b => b | None => vzero end) (blend_moves E p v)) (face_moves E p v).
Lemma rest_is_of E p v r : rest_is E p v r -> r = rest_of E p v.
Proof. intros (b & Hb & ->). unfold rest_of. rewrite Hb. reflexivity. Qed.
Lemma rest_derive E p v i : (i < length p)%nat -> is_vderive (fun t => rest_of E (set_nth p i t) v) (nth i p 0) (drest E v i).
Proof.
  intros Hi. unfold rest_of, drest.
  apply (vd_eq _ _ (vadd (vadd vzero (match vf_blend E with Some b => dshape (bm_at (bs_vectors b)) v i 0 (pt_blend (vf_pt E)) | None => vzero end))
       (match vf_face E with Some V => dshape (bm_at V) v i 0 (pt_face (vf_pt E)) | None => vzero end))); [|rewrite vadd_0_l; reflexivity].
  unfold blend_moves, face_moves. apply vd_add; [apply vd_add; [apply vd_const|]|].
  - destruct (vf_blend E) as [b|]; [|apply vd_const]. eapply vd_ext; [intros t; symmetry; apply moved_msum|]. apply msum_derive, Hi.
  - destruct (vf_face E) as [V|]; [|apply vd_const]. eapply vd_ext; [intros t; symmetry; apply moved_msum|]. apply msum_derive, Hi.
Qed.

(** ** Skinned points and directions *)

Section Skin.
Context (sk : skeleton) (inv : list affine) (sts : list jstate) (Ls : length sts = length sk)
  (Lin : forall j s, nth_error sts j = Some s -> js_linear s = tf_linear (js_world s)).

Definition skin_point (row : list influence) (pos : vec3) : vec3 :=
  vs_ (map (fun x => vscale (snd (fst x)) (snd x)) (parts inv sts row pos)).
Fixpoint skin_dir (row : list influence) (d : vec3) : vec3 :=
  match row with
  | [] => vzero
  | (j, w) :: r =>
    match nth_error sts j, nth_error inv j with
    | Some s, Some b => if Rltb 0 w then vadd (vscale w (mvec (js_linear s) (mvec (alin b) d))) (skin_dir r d) else skin_dir r d
    | _, _ => skin_dir r d
    end
  end.
Lemma world_act j s x : nth_error sts j = Some s -> aff_point (tf_affine (js_world s)) x = act s x.
Proof. intros E. unfold act. rewrite (Lin j s E). unfold aff_point, tf_affine. cbn [alin atrans]. first [reflexivity|apply vadd_comm]. Qed.
Lemma skinned_point row pos v : (forall j w, In (j, w) row -> 0 <= w) -> skinned (world_affines sts) inv row pos v -> v = skin_point row pos.
Proof.
  intros NN (vs & F & ->). rewrite skin_vsum. unfold skin_point. induction F as [|[j w] v row vs H F IH]; [reflexivity|].
  assert (IH' := IH (fun j' w' Hin => NN j' w' (or_intror Hin))). cbn [parts FK_spec.vsum]. rewrite IH'. clear IH IH'.
  pose proof (NN j w (or_introl eq_refl)) as Hw. destruct H as [(Z & ->)|(wd & b & Ew & Eb & ->)]; cbn [fst snd] in *.
  - subst w. rewrite vadd_0_l. destruct (nth_error sts j), (nth_error inv j); try reflexivity. destruct (Rltb_spec 0 0); [lra|reflexivity].
  - unfold world_affines in Ew. rewrite nth_error_map in Ew. destruct (nth_error sts j) as [s|] eqn:Es; [|discriminate]. injection Ew as <-. rewrite Eb.
    rewrite (world_act j s _ Es). destruct (Rltb_spec 0 w) as [P|P]; [reflexivity|].
    replace w with 0 by lra. replace (vscale 0 (act s (aff_point b pos))) with vzero by (vec_unfold; f_equal; ring). apply vadd_0_l.
Qed.
Lemma d_world_ok row d : in_range sk inv row -> d_world inv sts row d = Ok (skin_dir row d).
Proof.
  induction row as [|[j w] r IH]; intros R0; [reflexivity|]. cbn [d_world skin_dir].
  rewrite IH by (intros j' w' Hin; apply R0; right; exact Hin). cbn [obind]. destruct (Rltb_spec 0 w) as [Hw|Hw].
  - destruct (R0 j w (or_introl eq_refl) Hw) as (A & B). rewrite <- Ls in A. destruct (nth_error_lt sts j A) as [s Es], (nth_error_lt inv j B) as [b Eb].
    rewrite (rd_some _ _ _ Es), (rd_some _ _ _ Eb), Es, Eb. reflexivity.
  - destruct (nth_error sts j), (nth_error inv j); reflexivity.
Qed.
Lemma skin_dir_add row a b : skin_dir row (vadd a b) = vadd (skin_dir row a) (skin_dir row b).
Proof.
  induction row as [|[j w] r IH]; cbn [skin_dir]; [vec_ring|]. destruct (nth_error sts j) as [s|]; [|exact IH]. destruct (nth_error inv j) as [bd|]; [|exact IH].
  destruct (Rltb 0 w); [|exact IH]. rewrite IH. generalize (skin_dir r a), (skin_dir r b). intros x y. vec_unfold. f_equal; ring.
Qed.
Lemma skin_dir_zero row : skin_dir row vzero = vzero.
Proof.
  induction row as [|[j w] r IH]; cbn [skin_dir]; [reflexivity|]. destruct (nth_error sts j) as [s|]; [|exact IH]. destruct (nth_error inv j) as [bd|]; [|exact IH].
  destruct (Rltb 0 w); [|exact IH]. rewrite IH. vec_unfold. f_equal; ring.
Qed.

(** The derivatives by the shape parameters, for parameter [i]. *)
Definition pick (g : vec3 -> R) (i : nat) (l : list (nat * vec3)) : R := rsum (map (fun x => if (fst x =? i)%nat then g (snd x) else 0) l).
Lemma pick_app g i a b : pick g i (a ++ b) = pick g i a + pick g i b.
Proof. unfold pick. rewrite map_app. apply rsum_app. Qed.
Lemma shape_dofs_ok (E : vfn) V v row params cols nv : vf_inv E = inv -> nth_error (vf_skin E) v = Some row -> in_range sk inv row ->
  bm_rows V = (3 * nv)%nat -> (v < nv)%nat -> (forall z, In z params -> (z < Z.of_nat cols)%Z) ->
  forall k, (k + length params <= bm_cols V)%nat ->
  exists l, shape_dofs E sts V v k params = Ok l /\ (forall x, In x l -> (fst x < cols)%nat) /\
    forall g i, linear g -> pick g i l = g (skin_dir row (dshape (bm_at V) v i k params)).
Proof.
  intros Ei Er R0 HV Hv. induction params as [|z params IH]; intros HZ k Hk.
  - exists []. split; [reflexivity|]. split; [intros x []|]. intros g i L. cbn. rewrite skin_dir_zero. symmetry. apply linear_zero, L.
  - cbn [shape_dofs dshape]. destruct (IH ltac:(intros; apply HZ; right; assumption) (S k) ltac:(cbn in Hk; lia)) as (l & El & Bl & Pl).
    destruct (Z.ltb_spec z 0) as [Hz|Hz].
    + exists l. split; [exact El|]. split; [exact Bl|]. intros g i L. rewrite vadd_0_l. apply Pl, L.
    + rewrite (proj2 (Nat.leb_le _ _)) by lia. rewrite (proj2 (Nat.ltb_lt _ _)) by (cbn in Hk; lia). cbn [andb negb].
      rewrite (rd_some _ _ _ Er). cbn [obind]. rewrite Ei, (d_world_ok _ _ R0). cbn [obind]. rewrite El. cbn [obind]. eexists. split; [reflexivity|]. split.
      * intros x [<-|Hx]; [|apply Bl, Hx]. cbn. specialize (HZ z (or_introl eq_refl)). lia.
      * intros g i L. unfold pick. cbn [map rsum fst snd]. change (rsum (map _ l)) with (pick g i l). rewrite (Pl g i L), skin_dir_add, (proj1 L).
        destruct (Nat.eqb_spec (Z.to_nat z) i); [reflexivity|]. rewrite skin_dir_zero, (linear_zero g L). reflexivity.
Qed.
End Skin.

(** ** Along one model parameter *)

Lemma to_model_dsum es l i : dsum (to_model es l) i = rsum (map (fun x => snd x * ent_coeff es (fst x) i) l).
Proof. induction l as [|x l IH]; [reflexivity|]. unfold to_model in *. cbn [flat_map map rsum]. rewrite dsum_app, dsum_row_incs, IH. reflexivity. Qed.
Lemma to_model_in es l k v : In (k, v) (to_model es l) -> exists e, In e es /\ ecol e = k.
Proof. unfold to_model. intros H. apply in_flat_map in H as [x [_ H]]. eapply row_incs_in; exact H. Qed.
Lemma pick_dsum g i l : dsum (map (fun x => (fst x, g (snd x))) l) i = pick g i l.
Proof. unfold dsum, pick. rewrite map_map. reflexivity. Qed.

Section Path.
Context (E : vfn) (W : vfn_wf E) (WP : pt_wf (vf_pt E)) (V : valid_sk (vf_sk E)) (U : unit_prerotations (vf_sk E)).
Context (p : list R) (i : nat) (Lp : length p = pt_cols (vf_pt E)) (Hi : (i < pt_cols (vf_pt E))%nat) (DA : drives_active E i).
Context (sts : R -> list jstate) (HS : forall t, state_of (vf_sk E) (vf_pt E) (set_nth p i t) = Ok (sts t)).
Notation t0 := (nth i p 0).
Notation C := (fun r => ent_coeff (pt_entries (vf_pt E)) r i).
Notation nv := (length (vf_neutral E)).

Notation dummy := (CFn (vf_sk E) (vf_pt E) 1 (vf_active E) (fun k => Nat.eqb k i) (Loss 2 1 TL2) [] 0 0).
Lemma dummy_wf : cfn_wf dummy.
Proof.
  constructor; cbn.
  - apply (vw_rows E W).
  - apply (vw_active_len E W).
  - intros e He Hk. apply Nat.eqb_eq in Hk. apply (DA e He Hk).
  - intros c [].
  - lra.
Qed.
Lemma sts_len t : length (sts t) = length (vf_sk E).
Proof. apply (path_length dummy V p i sts HS). Qed.
Lemma C_in : inactive0 (vf_active E) C.
Proof. apply (C_inactive dummy dummy_wf i). cbn. apply Nat.eqb_refl. Qed.
Definition jst (t : R) (j : nat) : jstate := nth j (sts t) (JS mid tf_id tf_id mid mid).
Lemma jst_ok t j : (j < length (vf_sk E))%nat -> nth_error (sts t) j = Some (jst t j).
Proof. intros Hj. unfold jst. apply nth_error_nth'. rewrite sts_len. exact Hj. Qed.
Lemma lin_ok t j s : nth_error (sts t) j = Some s -> js_linear s = tf_linear (js_world s).
Proof. intros Es. eapply js_linear_state; [exact (proj2 (fk_inv _ _ _ V (path_fk dummy p i sts HS t)))|exact Es]. Qed.

Definition chains (j : nat) : list nat := chain_of (length (vf_sk E)) (vf_sk E) j.
Lemma chains_ok j : (j < length (vf_sk E))%nat -> chain (vf_sk E) j (chains j).
Proof. intros Hj. apply chain_of_ok; assumption. Qed.

Lemma rows_in row : In row (vf_skin E) -> in_range (vf_sk E) (vf_inv E) row.
Proof.
  intros Hr j w Hin Hw. destruct (vw_row E W row Hr) as (A & _ & _). pose proof (A j w Hin ltac:(lra)). pose proof (vw_inv E W). lia.
Qed.

(** One bone: the joint moves and the rest position moves. *)
Lemma bone_derive j b r r' : (j < length (vf_sk E))%nat -> is_vderive r t0 r' ->
  is_vderive (fun t => act (jst t j) (aff_point b (r t))) t0
    (vadd (chain_vel (sts t0) C (chains j) true (act (jst t0 j) (aff_point b (r t0)))) (mvec (js_linear (jst t0 j)) (mvec (alin b) r'))).
Proof.
  intros Hj Dr.
  assert (Dy : is_vderive (fun t => aff_point b (r t)) t0 (mvec (alin b) r')).
  { unfold aff_point. eapply vd_eq; [apply vd_add; [apply vd_mvec; exact Dr|apply vd_const]|]. rewrite vadd_0_r. reflexivity. }
  assert (A : forall t x, act (jst t j) x = tf_point (js_world (jst t j)) x).
  { intros t x. apply act_point, (lin_ok t j), jst_ok, Hj. }
  eapply vd_ext; [intros t; symmetry; apply A|].
  eapply vd_eq; [apply (moving_point (fun t => js_world (jst t j)) (fun t => aff_point b (r t)) t0 (mvec (alin b) r') (fun x => chain_vel (sts t0) C (chains j) true x))|].
  - exact (velsum_field (sts t0) (path_d dummy i) (chains j)) || idtac.
    unfold chain_vel. cbn [vel_of]. induction (chains j) as [|a l IH]; [apply field_zero|]. cbn [map FK_spec.vsum].
    apply (field_add (fun x => match nth_error (sts t0) a with Some sa => joint_velocity sa (jpC C a) x | None => vzero end)); [|exact IH].
    destruct (nth_error (sts t0) a); [apply joint_velocity_field|apply field_zero].
  - intros c. pose proof (point_vel dummy V U WP p i sts Lp Hi HS (Constr j 0 (CPosition vzero vzero)) (fun t => jst t j) (chains j)
      (chains_ok j Hj) (fun t => jst_ok t j Hj) c) as PV. rewrite <- A. eapply vd_ext; [intros t; apply A|]. exact PV.
  - exact Dy.
  - cbv beta. rewrite <- A. f_equal. rewrite (lin_ok t0 j _ (jst_ok t0 j Hj)). unfold tf_linear. rewrite mvec_scale, qmat_vec, qrot_scale. reflexivity.
Qed.

Definition vel_part (x : nat * R * vec3) : vec3 := vscale (snd (fst x)) (chain_vel (sts t0) C (chains (fst (fst x))) true (snd x)).
Definition dvertex (row : list influence) (pos d : vec3) : vec3 :=
  vadd (vs_ (map vel_part (parts (vf_inv E) (sts t0) row pos))) (skin_dir (vf_inv E) (sts t0) row d).
Lemma skin_derive row r r' : in_range (vf_sk E) (vf_inv E) row -> is_vderive r t0 r' ->
  is_vderive (fun t => skin_point (vf_inv E) (sts t) row (r t)) t0 (dvertex row (r t0) r').
Proof.
  intros R0 Dr. unfold skin_point, dvertex. induction row as [|[j w] row IH].
  - cbn. eapply vd_eq; [apply vd_const|]. vec_ring.
  - assert (R1 : in_range (vf_sk E) (vf_inv E) row) by (intros j' w' Hin; apply R0; right; exact Hin). specialize (IH R1).
    cbn [parts skin_dir]. destruct (Rltb_spec 0 w) as [Hw|Hw].
    + destruct (R0 j w (or_introl eq_refl) Hw) as (A & B). destruct (nth_error_lt (vf_inv E) j B) as [b Eb].
      eapply vd_ext; [intros t; rewrite (jst_ok t j A), Eb; cbn [map FK_spec.vsum fst snd]; reflexivity|].
      eapply vd_eq; [apply vd_add; [apply vd_scale; [apply d_const|apply (bone_derive j b r r' A Dr)]|exact IH]|].
      rewrite (jst_ok t0 j A), Eb. cbn [map FK_spec.vsum]. unfold vel_part at 2. cbn [fst snd].
      generalize (vs_ (map vel_part (parts (vf_inv E) (sts t0) row (r t0)))), (skin_dir (vf_inv E) (sts t0) row r'),
        (chain_vel (sts t0) C (chains j) true (act (jst t0 j) (aff_point b (r t0)))), (mvec (js_linear (jst t0 j)) (mvec (alin b) r')).
      intros a1 a2 a3 a4. generalize (act (jst t0 j) (aff_point b (r t0))). intros a5. vec_unfold. f_equal; ring.
    + eapply vd_ext; [|eapply vd_eq; [exact IH|]].
      * intros t. destruct (nth_error (sts t) j), (nth_error (vf_inv E) j); reflexivity.
      * destruct (nth_error (sts t0) j), (nth_error (vf_inv E) j); reflexivity.
Qed.

(** What the loops visit for one constraint, summed, is the velocity of its vertex. *)
Section One.
Context (sort : list bone -> list bone) (ST : sorts sort) (c : vconstr) (Hc : (vc_vertex c < nv)%nat) (row : list influence)
  (Er : nth_error (vf_skin E) (vc_vertex c) = Some row).
Notation v := (vc_vertex c).
Notation r0 := (rest_of E p v).

Lemma row_range : in_range (vf_sk E) (vf_inv E) row.
Proof. apply rows_in, (nth_error_In _ _ Er). Qed.

Lemma vertex_dofs_ok rest m : nth_error rest v = Some (r0, m) -> exists ds, vertex_dofs sort E (sts t0) rest c = Ok ds /\
  (forall r w d, In (r, (w, d)) ds -> (r / 7 < length (sts t0))%nat) /\
  forall g, linear g -> rsum (map (fun x => fst (snd x) * g (snd (snd x)) * C (fst x)) ds) = g (vs_ (map vel_part (parts (vf_inv E) (sts t0) row r0))).
Proof.
  intros Hr. unfold vertex_dofs. rewrite (rd_some _ _ _ Er), (rd_some _ _ _ Hr). cbn [obind fst].
  rewrite (it_bones_ok (vf_sk E) (vf_inv E) (sts t0) (sts_len t0) row r0 row_range). cbn [obind].
  set (ps := parts (vf_inv E) (sts t0) row r0).
  set (bones := map (fun x => Bone (fst (fst x)) (snd (fst x)) (vscale (snd (fst x)) (snd x))) ps).
  assert (PF : forall x, In x ps -> (fst (fst x) < length (vf_sk E))%nat /\ 0 < snd (fst x)) by (intros x Hx; apply (parts_fine _ _ _ row r0 x row_range Hx)).
  assert (FB : List.Forall (fine (vf_sk E)) bones).
  { unfold bones. apply List.Forall_forall. intros b Hb. apply in_map_iff in Hb as (x & <- & Hx). exact (PF x Hx). }
  pose proof (ST bones) as P.
  destruct (it_run_ok (vf_sk E) V (it_fuel bones) (sort bones)) as (vis & Ev & Rv & Sv).
  - rewrite List.Forall_forall in *. intros b Hb. apply FB, (Permutation_in _ P Hb).
  - rewrite (it_fuel_perm _ _ P). lia.
  - rewrite Ev. cbn [obind].
    destruct (it_dofs_ok (vf_active E) (sts t0) vis) as (ds & Ed & Rd & Sd).
    + intros j w q Hin. rewrite sts_len. apply (Rv j w q Hin).
    + rewrite sts_len, (vw_active_len E W), (vw_rows E W). lia.
    + exists ds. split; [exact Ed|]. split; [exact Rd|]. intros g L. rewrite (Sd g C L C_in).
      destruct (parts_totals (vf_sk E) V (sts t0) g C ps L (fun x Hx => proj1 (PF x Hx))) as (y & T & Y).
      rewrite (Sv (jv_at g (sts t0) C) y (jv_at_additive g _ _ L) (totals_perm _ _ _ _ _ (Permutation_sym P) T)).
      rewrite (Y chains (fun x Hx => chains_ok _ (proj1 (PF x Hx)))). rewrite (linear_vsum g _ L), map_map. apply rsum_map_ext. intros x _.
      unfold vel_part. symmetry. apply L.
Qed.
Lemma blend_dofs_ok : exists bs, blend_dofs E (sts t0) v = Ok bs /\ (forall x, In x bs -> (fst x < pt_cols (vf_pt E))%nat) /\
  forall g, linear g -> pick g i bs = g (skin_dir (vf_inv E) (sts t0) row (match vf_blend E with Some b => dshape (bm_at (bs_vectors b)) v i 0 (pt_blend (vf_pt E)) | None => vzero end)).
Proof.
  unfold blend_dofs. destruct (vf_blend E) as [b|] eqn:Eb.
  - destruct (vw_blend E W b Eb) as (_ & _ & (R1 & R2)).
    destruct (shape_dofs_ok (vf_sk E) (vf_inv E) (sts t0) (sts_len t0) E (bs_vectors b) v row (pt_blend (vf_pt E)) (pt_cols (vf_pt E)) nv eq_refl Er row_range R1 Hc
      (wf_blend _ WP) 0%nat ltac:(cbn; exact R2)) as (l & El & Bl & Pl). exists l. split; [exact El|]. split; [exact Bl|]. intros g L. apply Pl, L.
  - exists []. split; [reflexivity|]. split; [intros x []|]. intros g L. rewrite skin_dir_zero. symmetry. apply linear_zero, L.
Qed.
Lemma face_dofs_ok : exists fs, face_dofs E (sts t0) v = Ok fs /\ (forall x, In x fs -> (fst x < pt_cols (vf_pt E))%nat) /\
  forall g, linear g -> pick g i fs = g (skin_dir (vf_inv E) (sts t0) row (match vf_face E with Some V => dshape (bm_at V) v i 0 (pt_face (vf_pt E)) | None => vzero end)).
Proof.
  unfold face_dofs. destruct (vf_face E) as [b|] eqn:Eb.
  - destruct (vw_face E W b Eb) as (_ & (R1 & R2)).
    destruct (shape_dofs_ok (vf_sk E) (vf_inv E) (sts t0) (sts_len t0) E b v row (pt_face (vf_pt E)) (pt_cols (vf_pt E)) nv eq_refl Er row_range R1 Hc
      (wf_face _ WP) 0%nat ltac:(cbn; exact R2)) as (l & El & Bl & Pl). exists l. split; [exact El|]. split; [exact Bl|]. intros g L. apply Pl, L.
  - exists []. split; [reflexivity|]. split; [intros x []|]. intros g L. rewrite skin_dir_zero. symmetry. apply linear_zero, L.
Qed.

Definition vprime : vec3 := dvertex row r0 (drest E v i).

(** Increments of the gradient, or of a row of the Jacobian, made with a linear function of the derivatives. *)
Definition incs_of (g : vec3 -> R) (ds : list (nat * (R * vec3))) (l : list (nat * vec3)) : list (nat * R) :=
  to_model (pt_entries (vf_pt E)) (map (fun x => (fst x, fst (snd x) * g (snd (snd x)))) ds) ++ map (fun x => (fst x, g (snd x))) l.
Lemma incs_range g ds l k x : (forall y, In y l -> (fst y < pt_cols (vf_pt E))%nat) -> In (k, x) (incs_of g ds l) -> (k < pt_cols (vf_pt E))%nat.
Proof.
  intros Hl Hin. unfold incs_of in Hin. apply in_app_or in Hin as [Hin|Hin].
  - apply to_model_in in Hin as (e & He & <-). apply (wf_entries _ WP e He).
  - apply in_map_iff in Hin as (y & Q & Hy). injection Q as <- _. apply Hl, Hy.
Qed.
Lemma dofs_ok rest m : nth_error rest v = Some (r0, m) -> exists ds bs fs,
  vertex_dofs sort E (sts t0) rest c = Ok ds /\ blend_dofs E (sts t0) v = Ok bs /\ face_dofs E (sts t0) v = Ok fs /\
  (forall r w d, In (r, (w, d)) ds -> (r / 7 < length (sts t0))%nat) /\
  (forall x, In x (bs ++ fs) -> (fst x < pt_cols (vf_pt E))%nat) /\
  forall g, linear g -> dsum (incs_of g ds (bs ++ fs)) i = g vprime /\ (vf_face E = None -> dsum (incs_of g ds bs) i = g vprime).
Proof.
  intros Hr. destruct (vertex_dofs_ok rest m Hr) as (ds & Ed & Rd & Sd). destruct blend_dofs_ok as (bs & Eb & Rb & Sb). destruct face_dofs_ok as (fs & Ef & Rf & Sf).
  exists ds, bs, fs. split; [exact Ed|]. split; [exact Eb|]. split; [exact Ef|]. split; [exact Rd|]. split; [intros x Hx; apply in_app_or in Hx as [Hx|Hx]; auto|].
  intros g L. assert (Q : forall l, dsum (incs_of g ds l) i = g (vs_ (map vel_part (parts (vf_inv E) (sts t0) row r0))) + pick g i l).
  { intros l. unfold incs_of. rewrite dsum_app, to_model_dsum, map_map, pick_dsum. cbn [fst snd]. rewrite (Sd g L). reflexivity. }
  split.
  - rewrite Q, pick_app, (Sb g L), (Sf g L). unfold vprime, dvertex, drest. rewrite !skin_dir_add, !(proj1 L). reflexivity.
  - intros NF. rewrite Q, (Sb g L). unfold vprime, dvertex, drest. rewrite NF, skin_dir_add, skin_dir_zero, vadd_0_r, (proj1 L). reflexivity.
Qed.
End One.

Definition position_at (t : R) (k : nat) : vec3 :=
  match nth_error (vf_skin E) k with Some row => skin_point (vf_inv E) (sts t) row (rest_of E (set_nth p i t) k) | None => vzero end.
Definition velocity_at (k : nat) : vec3 :=
  match nth_error (vf_skin E) k with Some row => dvertex row (rest_of E p k) (drest E k i) | None => vzero end.
Lemma self : set_nth p i t0 = p. Proof. apply set_nth_self. lia. Qed.
Lemma position_derive k : (k < nv)%nat -> is_vderive (fun t => position_at t k) t0 (velocity_at k).
Proof.
  intros Hk. unfold position_at, velocity_at. destruct (nth_error (vf_skin E) k) as [row|] eqn:Er; [|apply vd_const].
  pose proof (skin_derive row (fun t => rest_of E (set_nth p i t) k) (drest E k i) (rows_in row (nth_error_In _ _ Er)) (rest_derive E p k i ltac:(lia))) as D.
  cbv beta in D. rewrite self in D. exact D.
Qed.
Lemma position_ok t k row r x : nth_error (vf_skin E) k = Some row -> rest_is E (set_nth p i t) k r ->
  skinned (world_affines (sts t)) (vf_inv E) row r x -> r = rest_of E (set_nth p i t) k /\ x = position_at t k.
Proof.
  intros Er Ir S. rewrite (rest_is_of _ _ _ _ Ir) in *. split; [reflexivity|]. unfold position_at. rewrite Er.
  apply (skinned_point (vf_inv E) (sts t) (lin_ok t)); [|exact S]. apply (vw_row E W row (nth_error_In _ _ Er)).
Qed.

(** ** Gradient and Jacobian *)

Context (TY : vf_type E = VPosition \/ vf_type E = VPlane /\ vf_face E = None).
Context (NB : vf_type E = VPlane -> vf_blend E = None -> forallb (fun z => z <? 0)%Z (pt_blend (vf_pt E)) = true).
Context (sort : list bone -> list bone) (ST : sorts sort).

(** The factor and the derivative of the squared distance. *)
Definition fac (c : vconstr) : R := / 10000 * vc_weight c.
Definition ddist (c : vconstr) (x x' : vec3) : R :=
  match vf_type E with VPosition => 2 * vdot (vsub x (vc_pos c)) x' | _ => 2 * (vdot (vc_nml c) (vsub x (vc_pos c)) * vdot (vc_nml c) x') end.
Lemma distance_derive c (x : R -> vec3) (x' : vec3) (nm : R -> vec3) (t : R) : is_vderive x t x' ->
  is_derive (fun u => distance2 (vf_type E) c (x u) (nm u)) t (ddist c (x t) x').
Proof.
  intros Dx. assert (Dd : is_vderive (fun u => vsub (x u) (vc_pos c)) t x').
  { eapply vd_eq; [apply (vd_sub x (fun _ => vc_pos c)); [exact Dx|apply vd_const]|]. vec_unfold. destruct x'. f_equal; ring. }
  unfold ddist, distance2. destruct TY as [->|[-> _]].
  - unfold vnorm2. eapply d_eq; [apply (vd_dot _ _ _ _ _ Dd Dd)|]. cbv beta. vec_unfold. ring.
  - unfold square. assert (D1 : is_derive (fun u => vdot (vc_nml c) (vsub (x u) (vc_pos c))) t (vdot (vc_nml c) x')).
    { eapply d_eq; [apply (vd_dot (fun _ => vc_nml c) _ _ _ _ (vd_const _ _) Dd)|]. cbv beta. vec_unfold. ring. }
    eapply d_eq; [apply (d_mult _ _ _ _ _ D1 D1)|]. cbv beta. ring.
Qed.

Lemma linear_dot k d : linear (fun x => k * vdot d x). Proof. apply dot_linear. Qed.
Lemma plane_values s c l : (forall r w d, In (r, (w, d)) l -> (r / 7 < length s)%nat) -> forall source,
  normal_values VPlane s source c l = Ok (map (fun x => (fst x, fst (snd x) * vdot (target_side source c) (snd (snd x)))) l).
Proof.
  intros H source. induction l as [|[r [w d]] l IH]; [reflexivity|]. cbn [normal_values map fst snd].
  destruct (nth_error_lt s (r / 7)) as [st Es]; [apply (H r w d); left; reflexivity|]. rewrite (rd_some _ _ _ Es). cbn [obind].
  rewrite IH by (intros r' w' d' Hin; eapply H; right; exact Hin). cbn [obind]. apply (f_equal (@Ok _)). f_equal. apply (f_equal2 pair); [reflexivity|].
  f_equal. unfold normal_value, used_normal. cbn [normal_weights fst snd]. generalize (target_side source c). intros ts.
  destruct (_ && _)%bool; vec_unfold; ring.
Qed.
Lemma side_sign source c : exists s, s * s = 1 /\ target_side source c = vscale s (vc_nml c).
Proof.
  unfold target_side. destruct (Rltb _ _); [exists (-1); split; [ring|reflexivity]|exists 1; split; [ring|]]. rewrite vscale_1. reflexivity.
Qed.

Lemma grad1_ok c rest posed m x nm : (vc_vertex c < nv)%nat -> nth_error rest (vc_vertex c) = Some (rest_of E p (vc_vertex c), m) ->
  nth_error posed (vc_vertex c) = Some (x, nm) ->
  exists incs, vf_grad1 sort E (sts t0) (rest, posed) c = Ok (fac c * distance2 (vf_type E) c x nm, incs) /\
    (forall k y, In (k, y) incs -> (k < pt_cols (vf_pt E))%nat) /\
    dsum incs i = vf_weight E * (fac c * ddist c x (velocity_at (vc_vertex c))).
Proof.
  intros Hv Hr Hx. unfold vf_grad1. cbn [fst snd]. rewrite (rd_some _ _ _ Hx). cbn [obind fst snd].
  destruct (nth_error_lt (vf_skin E) (vc_vertex c)) as [row Er]; [rewrite (vw_skin E W); exact Hv|].
  destruct (dofs_ok sort ST c Hv row Er rest m Hr) as (ds & bs & fs & -> & -> & -> & Rd & Rbf & Sg).
  assert (VP : vprime c row = velocity_at (vc_vertex c)) by (unfold velocity_at, vprime; rewrite Er; reflexivity). rewrite VP in Sg. clear VP.
  generalize (velocity_at (vc_vertex c)) Sg. clear Sg. intros x' Sg. unfold distance2, ddist, fac, square. destruct TY as [->|[-> NF]].
  - cbn [obind]. set (g := fun d => (vc_weight c * 2 * kPosWeight * vf_weight E) * vdot (vsub x (vc_pos c)) d).
    exists (incs_of g ds (bs ++ fs)). split; [|split].
    + apply (f_equal (@Ok _)). apply (f_equal2 pair); [unfold kPosWeight; ring|]. unfold incs_of. f_equal.
      f_equal. apply map_ext. intros y. unfold g. apply (f_equal2 pair); [reflexivity|ring].
    + intros k y. apply incs_range, Rbf.
    + rewrite (proj1 (Sg g (dot_linear _ _))). unfold g, kPosWeight. ring.
  - cbn [obind]. rewrite (plane_values _ c ds Rd nm). cbn [obind]. destruct (side_sign nm c) as (s & S1 & ST2).
    assert (UN : used_normal VPlane nm c = vscale s (vc_nml c)).
    { unfold used_normal. rewrite ST2. cbn [normal_weights fst snd]. generalize (vc_nml c). intros n. vec_unfold. f_equal; ring. }
    rewrite UN, ST2. set (K := vc_weight c * 2 * kPosWeight * vf_weight E * vdot (vsub x (vc_pos c)) (vscale s (vc_nml c))).
    set (g := fun d => K * vdot (vscale s (vc_nml c)) d). exists (incs_of g ds bs). split; [|split].
    + apply (f_equal (@Ok _)). apply (f_equal2 pair).
      * replace (vdot (vsub x (vc_pos c)) (vscale s (vc_nml c))) with (s * vdot (vc_nml c) (vsub x (vc_pos c))) by (vec_unfold; ring).
        unfold kPlaneWeight. generalize (vdot (vc_nml c) (vsub x (vc_pos c))). intros z. replace (vc_weight c * (s * z) * (s * z) * / 10000) with (vc_weight c * z * z * / 10000 * (s * s)) by ring.
        rewrite S1. ring.
      * unfold incs_of. f_equal. rewrite map_map. f_equal. apply map_ext. intros y. cbn [fst snd]. apply (f_equal2 pair); [reflexivity|]. unfold g. ring.
    + intros k y. apply incs_range. intros y0 Hy. apply Rbf, in_or_app. left. exact Hy.
    + rewrite (proj2 (Sg g (dot_linear _ _)) NF). unfold g, K, kPosWeight.
      replace (vdot (vsub x (vc_pos c)) (vscale s (vc_nml c))) with (s * vdot (vc_nml c) (vsub x (vc_pos c))) by (vec_unfold; ring).
      replace (vdot (vscale s (vc_nml c)) x') with (s * vdot (vc_nml c) x') by (vec_unfold; ring).
      generalize (vdot (vc_nml c) (vsub x (vc_pos c))), (vdot (vc_nml c) x'). intros a b.
      replace (vc_weight c * 2 * / 10000 * vf_weight E * (s * a) * (s * b)) with (vc_weight c * 2 * / 10000 * vf_weight E * a * b * (s * s)) by ring. rewrite S1. ring.
Qed.

Lemma grad_loop_ok rest posed cs : (forall c, In c cs -> (vc_vertex c < nv)%nat) ->
  (forall k, (k < nv)%nat -> exists m x nm, nth_error rest k = Some (rest_of E p k, m) /\ nth_error posed k = Some (x, nm) /\ x = position_at t0 k) ->
  forall g, length g = pt_cols (vf_pt E) ->
  exists g', vf_grad_loop sort E (sts t0) (rest, posed) cs g = Ok (rsum (map (fun c => fac c * distance2 (vf_type E) c (position_at t0 (vc_vertex c)) vzero) cs), g') /\
    length g' = length g /\
    nth i g' 0 = nth i g 0 + vf_weight E * rsum (map (fun c => fac c * ddist c (position_at t0 (vc_vertex c)) (velocity_at (vc_vertex c))) cs).
Proof.
  intros Hcs M. induction cs as [|c cs IH]; intros g Lg.
  - exists g. split; [reflexivity|]. split; [reflexivity|]. cbn. ring.
  - cbn [vf_grad_loop]. pose proof (Hcs c (or_introl eq_refl)) as Hv. destruct (M _ Hv) as (m & x & nm & Hr & Hx & Px).
    destruct (grad1_ok c rest posed m x nm Hv Hr Hx) as (incs & -> & Ri & Si). cbn [obind snd fst].
    destruct (add_all_ok incs g) as (g1 & -> & L1 & N1); [intros k y Hin; rewrite Lg; eapply Ri; exact Hin|]. cbn [obind].
    destruct (IH ltac:(intros; apply Hcs; right; assumption) g1 ltac:(lia)) as (g2 & -> & L2 & N2). cbn [obind fst snd]. exists g2. split; [|split; [lia|]].
    + apply (f_equal (@Ok _)). apply (f_equal2 pair); [|reflexivity]. cbn [map rsum]. f_equal. rewrite Px. f_equal.
      unfold distance2. destruct TY as [->|[-> _]]; reflexivity.
    + rewrite N2, N1, (proj2 (Nat.ltb_lt _ _)) by lia. rewrite Si, Px. cbn [map rsum]. ring.
Qed.

(** The Jacobian. *)
Definition wg (c : vconstr) : R := sqrt (vc_weight c * kPosWeight * vf_weight E).
Definition resid (c : vconstr) (x : vec3) : list R := map (fun k => component_of k (vsub x (vc_pos c)) * wg c) [0; 1; 2]%nat.
Definition dresid (c : vconstr) (x' : vec3) : list R := map (fun k => wg c * component_of k x') [0; 1; 2]%nat.
Lemma wg_sq c : 0 <= vc_weight c * vf_weight E -> wg c * wg c = vf_weight E * fac c.
Proof.
  intros H. unfold wg. rewrite sqrt_sqrt; [unfold kPosWeight, fac; ring|]. unfold kPosWeight. replace (vc_weight c * / 10000 * vf_weight E) with (vc_weight c * vf_weight E * / 10000) by ring.
  apply Rmult_le_pos; [exact H|lra].
Qed.
Lemma linear_component k w : linear (fun d => w * component_of k d).
Proof. unfold linear, component_of. destruct k as [|[|k]]; split; intros; cbn; ring. Qed.
Lemma row_ok_zero n incs : (forall k y, In (k, y) incs -> (k < pt_cols (vf_pt E))%nat) -> (pt_cols (vf_pt E) <= n)%nat ->
  exists r, add_all (repeat 0 n) incs = Ok r /\ length r = n /\ nth i r 0 = dsum incs i.
Proof.
  intros H Hn. destruct (add_all_ok incs (repeat 0 n)) as (r & Er & Lr & Nr); [intros k y Hin; rewrite repeat_length; specialize (H k y Hin); lia|].
  rewrite repeat_length in *. exists r. split; [exact Er|]. split; [exact Lr|]. rewrite Nr, nth_repeat, (proj2 (Nat.ltb_lt _ _)) by lia. ring.
Qed.
Lemma jac1_ok n c rest posed m x nm : (pt_cols (vf_pt E) <= n)%nat -> (vc_vertex c < nv)%nat -> 0 <= vc_weight c * vf_weight E ->
  nth_error rest (vc_vertex c) = Some (rest_of E p (vc_vertex c), m) -> nth_error posed (vc_vertex c) = Some (x, nm) ->
  exists rows, vf_jac1 sort E n (sts t0) (rest, posed) c = Ok (vf_weight E * (fac c * distance2 (vf_type E) c x nm), rows) /\
    (forall row, In row rows -> length (fst row) = n) /\ length rows = (match vf_type E with VPosition => 3 | _ => 1 end)%nat /\
    2 * jt_r rows i = vf_weight E * (fac c * ddist c x (velocity_at (vc_vertex c))) /\
    rsum (map (fun row => snd row * snd row) rows) = vf_weight E * (fac c * distance2 (vf_type E) c x nm) /\
    (vf_type E = VPosition -> map snd rows = resid c x /\ map (fun row => nth i (fst row) 0) rows = dresid c (velocity_at (vc_vertex c))).
Proof.
  intros Hn Hv Hw Hr Hx. unfold vf_jac1. cbn [fst snd]. rewrite (rd_some _ _ _ Hx). cbn [obind fst snd]. fold (wg c). pose proof (wg_sq c Hw) as WS.
  destruct (nth_error_lt (vf_skin E) (vc_vertex c)) as [row Er]; [rewrite (vw_skin E W); exact Hv|].
  destruct (dofs_ok sort ST c Hv row Er rest m Hr) as (ds & bs & fs & -> & Eb & -> & Rd & Rbf & Sg).
  assert (VP : vprime c row = velocity_at (vc_vertex c)) by (unfold velocity_at, vprime; rewrite Er; reflexivity). rewrite VP in Sg. clear VP.
  generalize (velocity_at (vc_vertex c)) Sg. clear Sg. intros x' Sg. unfold ddist. destruct TY as [->|[TP NF]]; [|rewrite TP].
  - rewrite Eb. cbn [obind].
    assert (Q : forall k, exists r, add_all (repeat 0 n)
      (to_model (pt_entries (vf_pt E)) (map (fun x0 => (fst x0, fst (snd x0) * wg c * component_of k (snd (snd x0)))) ds) ++ map (fun x0 => (fst x0, wg c * component_of k (snd x0))) (bs ++ fs)) = Ok r /\
      length r = n /\ nth i r 0 = wg c * component_of k x').
    { intros k. destruct (row_ok_zero n (incs_of (fun d => wg c * component_of k d) ds (bs ++ fs))) as (r & Er' & Lr & Nr); [intros k' y; apply incs_range, Rbf|exact Hn|].
      exists r. split; [|split; [exact Lr|]].
      - rewrite <- Er'. f_equal. unfold incs_of. f_equal. f_equal. apply map_ext. intros y. apply (f_equal2 pair); [reflexivity|ring].
      - rewrite Nr. apply (proj1 (Sg _ (linear_component k (wg c)))). }
    destruct (Q 0%nat) as (a0 & -> & L0 & N0), (Q 1%nat) as (a1 & -> & L1 & N1), (Q 2%nat) as (a2 & -> & L2 & N2). cbn [obind].
    eexists. split; [apply (f_equal (@Ok _)); apply (f_equal2 pair); [|reflexivity]|].
    { cbn [distance2]. rewrite WS. ring. }
    split; [intros rw [<-|[<-|[<-|[]]]]; cbn; assumption|]. split; [reflexivity|]. unfold jt_r. cbn [map rsum fst snd]. rewrite N0, N1, N2.
    cbn [component_of distance2]. split; [|split].
    + set (d := vsub x (vc_pos c)). replace (vf_weight E * (fac c * (2 * vdot d x'))) with (2 * (vf_weight E * fac c) * vdot d x') by ring. rewrite <- WS. unfold vdot. ring.
    + set (d := vsub x (vc_pos c)). replace (vf_weight E * (fac c * vnorm2 d)) with ((vf_weight E * fac c) * vnorm2 d) by ring. rewrite <- WS. unfold vnorm2, vdot. ring.
    + intros _. split; reflexivity.
  - cbn [obind]. rewrite (plane_values _ c ds Rd nm). cbn [obind].
    assert (EB : match vf_blend E with
               | Some b => shape_dofs E (sts t0) (bs_vectors b) (vc_vertex c) 0 (pt_blend (vf_pt E))
               | None => if forallb (fun z => z <? 0)%Z (pt_blend (vf_pt E)) then Ok [] else UB
               end = Ok bs).
    { unfold blend_dofs in Eb. destruct (vf_blend E); [exact Eb|]. rewrite (NB TP eq_refl). exact Eb. }
    rewrite EB. cbn [obind]. destruct (side_sign nm c) as (s & S1 & ST2).
    assert (UN : used_normal VPlane nm c = vscale s (vc_nml c)).
    { unfold used_normal. rewrite ST2. cbn [normal_weights fst snd]. generalize (vc_nml c). intros n0. vec_unfold. f_equal; ring. }
    rewrite UN, ST2. set (g := fun d => wg c * vdot (vscale s (vc_nml c)) d).
    destruct (row_ok_zero n (incs_of g ds bs)) as (r & Er' & Lr & Nr); [intros k' y; apply incs_range; intros y0 Hy; apply Rbf, in_or_app; left; exact Hy|exact Hn|].
    assert (EQ : to_model (pt_entries (vf_pt E)) (map (fun x0 => (fst x0, wg c * snd x0)) (map (fun x0 => (fst x0, fst (snd x0) * vdot (vscale s (vc_nml c)) (snd (snd x0)))) ds)) ++
      map (fun x0 => (fst x0, wg c * vdot (snd x0) (vscale s (vc_nml c)))) bs = incs_of g ds bs).
    { unfold incs_of. rewrite map_map. f_equal; [f_equal; apply map_ext; intros y; cbn [fst snd]; apply (f_equal2 pair); [reflexivity|unfold g; ring]|].
      apply map_ext. intros y. apply (f_equal2 pair); [reflexivity|]. unfold g, vdot. ring. }
    rewrite EQ, Er'. cbn [obind]. rewrite (proj2 (Sg g (dot_linear _ _)) NF) in Nr. unfold g in Nr.
    replace (vdot (vsub x (vc_pos c)) (vscale s (vc_nml c))) with (s * vdot (vc_nml c) (vsub x (vc_pos c))) by (vec_unfold; ring).
    replace (vdot (vscale s (vc_nml c)) x') with (s * vdot (vc_nml c) x') in Nr by (vec_unfold; ring).
    cbn [distance2]. unfold square. revert Nr. generalize (vdot (vc_nml c) (vsub x (vc_pos c))), (vdot (vc_nml c) x'). intros a b Nr'.
    eexists. split; [apply (f_equal (@Ok _)); apply (f_equal2 pair); [|reflexivity]|].
    { replace (wg c * wg c * (s * a) * (s * a)) with ((wg c * wg c) * (a * a) * (s * s)) by ring. rewrite S1, WS. ring. }
    split; [intros rw [<-|[]]; cbn; assumption|]. split; [reflexivity|]. unfold jt_r. cbn [map rsum fst snd]. rewrite Nr'. split; [|split].
    + replace (2 * (wg c * (s * b) * (s * a * wg c) + 0)) with (2 * (wg c * wg c) * a * b * (s * s)) by ring. rewrite S1, WS. ring.
    + replace (s * a * wg c * (s * a * wg c) + 0) with ((wg c * wg c) * (a * a) * (s * s)) by ring. rewrite S1, WS. ring.
    + intros D; discriminate D.
Qed.
Lemma jac_loop_ok n rest posed cs : (pt_cols (vf_pt E) <= n)%nat -> (forall c, In c cs -> (vc_vertex c < nv)%nat /\ 0 <= vc_weight c * vf_weight E) ->
  (forall k, (k < nv)%nat -> exists m x nm, nth_error rest k = Some (rest_of E p k, m) /\ nth_error posed k = Some (x, nm) /\ x = position_at t0 k) ->
  exists rows, vf_jac_loop sort E n (sts t0) (rest, posed) cs =
      Ok (vf_weight E * rsum (map (fun c => fac c * distance2 (vf_type E) c (position_at t0 (vc_vertex c)) vzero) cs), rows) /\
    (forall row, In row rows -> length (fst row) = n) /\
    length rows = (match vf_type E with VPosition => 3 * length cs | _ => length cs end)%nat /\
    2 * jt_r rows i = vf_weight E * rsum (map (fun c => fac c * ddist c (position_at t0 (vc_vertex c)) (velocity_at (vc_vertex c))) cs) /\
    rsum (map (fun row => snd row * snd row) rows) = vf_weight E * rsum (map (fun c => fac c * distance2 (vf_type E) c (position_at t0 (vc_vertex c)) vzero) cs) /\
    (vf_type E = VPosition -> map snd rows = flat_map (fun c => resid c (position_at t0 (vc_vertex c))) cs /\
      map (fun row => nth i (fst row) 0) rows = flat_map (fun c => dresid c (velocity_at (vc_vertex c))) cs).
Proof.
  intros Hn Hcs M. induction cs as [|c cs IH].
  - exists []. cbn [vf_jac_loop map rsum flat_map]. rewrite Rmult_0_r. split; [reflexivity|]. split; [intros row []|]. split; [cbn; destruct (vf_type E); reflexivity|].
    split; [unfold jt_r; cbn; ring|]. split; [reflexivity|]. intros _; split; reflexivity.
  - cbn [vf_jac_loop]. destruct (Hcs c (or_introl eq_refl)) as (Hv & Hw). destruct (M _ Hv) as (m & x & nm & Hr & Hx & Px).
    destruct (jac1_ok n c rest posed m x nm Hn Hv Hw Hr Hx) as (r1 & -> & A1 & A2 & A3 & A4 & A5). cbn [obind].
    destruct (IH ltac:(intros; apply Hcs; right; assumption)) as (r2 & -> & B1 & B2 & B3 & B4 & B5). cbn [obind fst snd].
    assert (DX : distance2 (vf_type E) c x nm = distance2 (vf_type E) c (position_at t0 (vc_vertex c)) vzero).
    { rewrite Px. unfold distance2. destruct TY as [->|[-> _]]; reflexivity. }
    rewrite DX in *. rewrite Px in *. exists (r1 ++ r2). split; [apply (f_equal (@Ok _)); apply (f_equal2 pair); [cbn [map rsum]; ring|reflexivity]|].
    split; [intros row Hin; apply in_app_or in Hin as [Hin|Hin]; auto|]. split.
    { rewrite app_length, A2, B2. cbn [length]. destruct (vf_type E); lia. }
    split; [|split].
    + unfold jt_r in *. rewrite map_app, rsum_app. cbn [map rsum]. lra.
    + rewrite map_app, rsum_app, A4, B4. cbn [map rsum]. ring.
    + intros T. destruct (A5 T) as (P1 & P2), (B5 T) as (Q1 & Q2). rewrite !map_app. cbn [flat_map]. rewrite P1, P2, Q1, Q2. split; reflexivity.
Qed.

(** The error along the parameter, and its derivative. *)
Definition along (t : R) : R := vf_weight E * rsum (map (fun c => fac c * distance2 (vf_type E) c (position_at t (vc_vertex c)) vzero) (vf_constraints E)).
Definition dalong : R := vf_weight E * rsum (map (fun c => fac c * ddist c (position_at t0 (vc_vertex c)) (velocity_at (vc_vertex c))) (vf_constraints E)).
Lemma along_derive : is_derive along t0 dalong.
Proof.
  unfold along, dalong. eapply d_eq; [apply d_mult; [apply d_const|]|].
  - pose proof (vw_constraints E W) as H. instantiate (1 := rsum (map (fun c => fac c * ddist c (position_at t0 (vc_vertex c)) (velocity_at (vc_vertex c))) (vf_constraints E))).
    induction (vf_constraints E) as [|c cs IH]; cbn [map rsum]; [apply d_const|]. apply d_plus; [|apply IH; intros; apply H; right; assumption].
    eapply d_eq; [apply d_mult; [apply d_const|apply (distance_derive c (fun t => position_at t (vc_vertex c)) (velocity_at (vc_vertex c)) (fun _ => vzero))]|].
    + apply position_derive, H. left. reflexivity.
    + cbv beta. ring.
  - cbv beta. ring.
Qed.

Section Mesh.
Context (order : list nat) (P : Permutation order (seq 0 nv)).
Lemma meshes_at t : exists rest posed, vf_meshes order E (set_nth p i t) (sts t) = Ok (rest, posed) /\
  forall k, (k < nv)%nat -> exists m x nm, nth_error rest k = Some (rest_of E (set_nth p i t) k, m) /\ nth_error posed k = Some (x, nm) /\ x = position_at t k.
Proof.
  destruct (vf_meshes_ok E W WP order (set_nth p i t) (sts t) P) as (rest & posed & Em & _ & _ & B); [rewrite set_nth_length; exact Lp|apply sts_len|].
  exists rest, posed. split; [exact Em|]. intros k Hk. destruct (nth_error_lt (vf_skin E) k) as [row Er]; [rewrite (vw_skin E W); exact Hk|].
  destruct (B k row Er) as (r & m & x & nm & E1 & E2 & Ir & Sk & _). destruct (position_ok t k row r x Er Ir Sk) as (-> & ->). exists m, (position_at t k), nm. auto.
Qed.
Lemma error_at t : vf_error order E (set_nth p i t) (sts t) = Ok (along t).
Proof.
  unfold vf_error. destruct (meshes_at t) as (rest & posed & -> & B). cbn [obind snd].
  assert (A : vf_err_sum (vf_type E) posed (vf_constraints E) = Ok (rsum (map (fun c => fac c * distance2 (vf_type E) c (position_at t (vc_vertex c)) vzero) (vf_constraints E)))).
  { pose proof (vw_constraints E W) as H. induction (vf_constraints E) as [|c cs IH]; [reflexivity|]. cbn [vf_err_sum map rsum].
    destruct (B _ (H c (or_introl eq_refl))) as (m & x & nm & _ & Hx & ->). rewrite (err1_ok _ _ _ _ _ Hx). cbn [obind].
    rewrite IH by (intros; apply H; right; assumption). cbn [obind]. apply (f_equal (@Ok R)). f_equal. unfold fac, distance2. destruct TY as [->|[-> _]]; reflexivity. }
  rewrite A. cbn [obind]. unfold along. apply (f_equal (@Ok R)). ring.
Qed.
Lemma gradient_at g : length g = pt_cols (vf_pt E) -> exists g', vf_gradient sort order E p (sts t0) g = Ok (along t0, g') /\ length g' = length g /\ nth i g' 0 - nth i g 0 = dalong.
Proof.
  intros Lg. unfold vf_gradient. destruct (meshes_at t0) as (rest & posed & Em & B). rewrite self in Em, B. rewrite Em. cbn [obind].
  destruct (grad_loop_ok rest posed (vf_constraints E) (vw_constraints E W) B g Lg) as (g' & -> & Lg' & Ng). cbn [obind fst snd].
  exists g'. split; [reflexivity|]. split; [exact Lg'|]. rewrite Ng. unfold dalong. ring.
Qed.
Lemma jacobian_at n : (pt_cols (vf_pt E) <= n)%nat -> (forall c, In c (vf_constraints E) -> 0 <= vc_weight c * vf_weight E) ->
  exists rows, vf_jacobian sort order E n p (sts t0) = Ok (along t0, rows) /\ (forall row, In row rows -> length (fst row) = n) /\
    length rows = vf_jacobian_size E /\ 2 * jt_r rows i = dalong /\ rsum (map (fun row => snd row * snd row) rows) = along t0 /\
    (vf_type E = VPosition -> map snd rows = flat_map (fun c => resid c (position_at t0 (vc_vertex c))) (vf_constraints E) /\
      map (fun row => nth i (fst row) 0) rows = flat_map (fun c => dresid c (velocity_at (vc_vertex c))) (vf_constraints E)).
Proof.
  intros Hn Hw. unfold vf_jacobian. destruct (meshes_at t0) as (rest & posed & Em & B). rewrite self in Em, B. rewrite Em. cbn [obind].
  destruct (jac_loop_ok n rest posed (vf_constraints E) Hn (fun c Hc => conj (vw_constraints E W c Hc) (Hw c Hc)) B) as (rows & Ej & A1 & A2 & A3 & A4 & A5).
  exists rows. split; [exact Ej|]. split; [exact A1|]. split; [exact A2|]. split; [exact A3|]. split; [exact A4|exact A5].
Qed.
Lemma resid_derive : forall k, is_derive (fun t => nth k (flat_map (fun c => resid c (position_at t (vc_vertex c))) (vf_constraints E)) 0) t0
  (nth k (flat_map (fun c => dresid c (velocity_at (vc_vertex c))) (vf_constraints E)) 0).
Proof.
  pose proof (vw_constraints E W) as H. induction (vf_constraints E) as [|c cs IH]; intros k.
  - cbn [flat_map]. destruct k; apply d_const.
  - specialize (IH (fun c Hc => H c (or_intror Hc))). cbn [flat_map resid dresid map app].
    destruct (position_derive (vc_vertex c) (H c (or_introl eq_refl))) as (D0 & D1 & D2).
    destruct k as [|[|[|k]]]; cbn [nth]; [| | |apply IH]; unfold component_of, vsub; cbn [vx vy vz];
      (eapply d_eq; [apply d_mult; [apply d_minus; [eassumption|apply d_const]|apply d_const]|]; cbv beta; ring).
Qed.
End Mesh.
End Path.
