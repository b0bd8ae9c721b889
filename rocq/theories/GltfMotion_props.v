(** C135: the motion in a glTF file. *)

From Coq Require Import List Arith Bool Lia.
From Verif Require Import GltfMotion_model.
Import ListNotations.
Local Open Scope list_scope.

Section Motion.
Context {N V : Type}.
Lemma columns_concat rows : forall frames : list (list V), Forall (fun f => length f = rows) frames -> columns rows (length frames) (concat frames) = frames.
Proof.
  intros frames F. induction F as [|f frames L F IH]; [reflexivity|]. cbn [length columns concat]. subst rows. rewrite firstn_app, firstn_all, skipn_app, skipn_all, Nat.sub_diag. cbn [firstn skipn app]. rewrite app_nil_r, IH. reflexivity.
Qed.
Lemma concat_length_rows rows : forall frames : list (list V), Forall (fun f => length f = rows) frames -> length (concat frames) = rows * length frames.
Proof. intros frames F. induction F as [|f frames L F IH]; [cbn; lia|]. cbn [concat length]. rewrite app_length, IH, L. lia. Qed.
Lemma columns_fit rows : forall n (l : list V), length l = rows * n -> length (columns rows n l) = n /\ Forall (fun f => length f = rows) (columns rows n l) /\ concat (columns rows n l) = l.
Proof.
  induction n as [|n IH]; intros l L; cbn [columns]; [rewrite Nat.mul_0_r in L; destruct l; [repeat split; constructor|discriminate]|].
  destruct (IH (skipn rows l)) as [A [B C]]; [rewrite skipn_length; lia|]. split; [cbn; lia|]. split; [constructor; [rewrite firstn_length; lia|exact B]|]. cbn [concat]. rewrite C. apply firstn_skipn.
Qed.
End Motion.

(** C135. A motion of at least one frame, with one value per parameter in every frame and seven values per joint, is read as it was written. *)
Theorem motion_round_trip {N V} (m : @motion N V) : mo_frames m <> [] -> mo_names m <> [] -> Forall (fun f => length f = length (mo_names m)) (mo_frames m) -> length (mo_identity m) = length (mo_joints m) * 7 -> read_motion (write_motion m) = m.
Proof.
  destruct m as [names frames joints identity]. cbn [mo_frames mo_names mo_joints mo_identity]. intros F Nn L I. unfold write_motion. cbn [mo_frames mo_names mo_joints mo_identity]. pose proof (concat_length_rows (length names) frames L) as CL.
  destruct frames as [|f0 frames]; [congruence|]. destruct names as [|n0 names]; [congruence|]. set (fr := f0 :: frames) in *. set (ns := n0 :: names) in *. cbn [nothing negb andb].
  assert (NC : nothing (concat fr) = false) by (destruct (concat fr); [unfold fr, ns in CL; cbn in CL; lia|reflexivity]). rewrite NC. cbn [negb andb]. unfold read_motion. cbn [st_nframes st_poses st_offsets].
  change (nothing fr) with false. change (nothing ns) with false. cbn [negb andb].
  assert (Q : length (concat fr) =? length ns * length fr = true) by (apply Nat.eqb_eq; exact CL). change (length fr) with (S (length frames)) in *. 
  destruct joints as [|j0 joints]; [destruct identity as [|x identity]; [|discriminate]|destruct identity as [|x identity]; [discriminate|]]; cbn [nothing negb andb st_nframes st_poses st_offsets]; rewrite Q; cbn [negb orb].
  - change (S (length frames)) with (length fr). rewrite (columns_concat (length ns) fr L). reflexivity.
  - rewrite (proj2 (Nat.eqb_eq _ _) I). cbn [negb]. change (S (length frames)) with (length fr). rewrite (columns_concat (length ns) fr L). reflexivity.
Qed.
Print Assumptions motion_round_trip.
Example motion_met : read_motion (write_motion (Motion [1; 2] [[10; 20]; [11; 21]; [12; 22]] [5] [1; 2; 3; 4; 5; 6; 7])) = Motion [1; 2] [[10; 20]; [11; 21]; [12; 22]] [5] [1; 2; 3; 4; 5; 6; 7].
Proof. apply motion_round_trip; cbn; try discriminate; repeat constructor. Qed.

(** C135. Whatever the file holds, every frame that is read has one value per parameter and every joint has seven; the frames are the stored values in their order. *)
Theorem motion_fits {N V} (s : @stored N V) : Forall (fun f => length f = length (mo_names (read_motion s))) (mo_frames (read_motion s)) /\ length (mo_identity (read_motion s)) = length (mo_joints (read_motion s)) * 7 /\
  (read_motion s = no_motion \/ (forall names values, st_poses s = Some (names, values) -> mo_names (read_motion s) = names /\ length (mo_frames (read_motion s)) = st_nframes s /\ concat (mo_frames (read_motion s)) = values) /\
    (forall names values, st_offsets s = Some (names, values) -> mo_joints (read_motion s) = names /\ mo_identity (read_motion s) = values)).
Proof.
  assert (Z : forall m : @motion N V, m = no_motion -> Forall (fun f => length f = length (mo_names m)) (mo_frames m) /\ length (mo_identity m) = length (mo_joints m) * 7 /\ m = no_motion) by (intros m ->; repeat split; constructor).
  assert (G : read_motion s = no_motion \/ exists n, st_nframes s = n /\ (forall names values, st_poses s = Some (names, values) -> length values = length names * n) /\ (forall names values, st_offsets s = Some (names, values) -> length values = length names * 7) /\
    read_motion s = Motion (match st_poses s with None => [] | Some (names, _) => names end) (match st_poses s with None => [] | Some (names, values) => columns (length names) n values end) (match st_offsets s with None => [] | Some (names, _) => names end) (match st_offsets s with None => [] | Some (_, values) => values end)).
  { destruct s as [[|n] poses offsets]; [left; destruct poses, offsets; reflexivity|]. unfold read_motion. cbn [st_nframes st_poses st_offsets].
    destruct poses as [[pn pv]|], offsets as [[jn jv]|]; [| | |left; reflexivity]; cbn [orb].
    - destruct (length pv =? length pn * S n) eqn:A; cbn [negb orb]; [|left; reflexivity]. destruct (length jv =? length jn * 7) eqn:B; cbn [negb]; [|left; reflexivity]. apply Nat.eqb_eq in A, B. right. exists (S n). repeat split; intros x y Q; injection Q as <- <-; assumption.
    - destruct (length pv =? length pn * S n) eqn:A; cbn [negb orb]; [|left; reflexivity]. apply Nat.eqb_eq in A. right. exists (S n). repeat split; intros x y Q; [injection Q as <- <-; assumption|discriminate].
    - destruct (length jv =? length jn * 7) eqn:B; cbn [negb]; [|left; reflexivity]. apply Nat.eqb_eq in B. right. exists (S n). repeat split; intros x y Q; [discriminate|injection Q as <- <-; assumption]. }
  destruct G as [G|[n [E [P [O ->]]]]]; [destruct (Z _ G) as [A [B C]]; repeat split; [exact A|exact B|left; exact C]|]. cbn [mo_names mo_frames mo_joints mo_identity]. split; [|split; [|right; split]].
  - destruct (st_poses s) as [[names values]|]; [|constructor]. apply (columns_fit (length names) n values (P names values eq_refl)).
  - destruct (st_offsets s) as [[names values]|]; [exact (O names values eq_refl)|reflexivity].
  - intros names values Q. rewrite Q in *. destruct (columns_fit (length names) n values (P names values eq_refl)) as [A [_ C]]. split; [reflexivity|]. split; [congruence|exact C].
  - intros names values Q. rewrite Q. split; reflexivity.
Qed.
Print Assumptions motion_fits.

(** C135. The offsets of joints are lost if there are no frames. *)
Theorem motion_only_offsets_refuted : exists m : @motion nat nat, mo_joints m <> [] /\ length (mo_identity m) = length (mo_joints m) * 7 /\ Forall (fun f => length f = length (mo_names m)) (mo_frames m) /\ read_motion (write_motion m) = no_motion.
Proof. exists (Motion [] [] [5] [1; 2; 3; 4; 5; 6; 7]). repeat split; [discriminate|constructor]. Qed.
Print Assumptions motion_only_offsets_refuted.
(** C135. Offsets of a wrong size make the frames disappear as well, without an error. *)
Theorem motion_wrong_offsets_refuted : exists m : @motion nat nat, mo_frames m <> [] /\ mo_names m <> [] /\ Forall (fun f => length f = length (mo_names m)) (mo_frames m) /\ read_motion (write_motion m) = no_motion.
Proof. exists (Motion [1] [[10]] [5] [1]). repeat split; try discriminate. repeat constructor. Qed.
Print Assumptions motion_wrong_offsets_refuted.

(** C135. Offsets are read back without parameters as well, if there is a frame. *)
Theorem motion_offsets_round_trip {N V} (m : @motion N V) : mo_frames m <> [] -> mo_names m = [] -> length (mo_identity m) = length (mo_joints m) * 7 -> read_motion (write_motion m) = Motion [] [] (mo_joints m) (mo_identity m).
Proof.
  destruct m as [names frames joints identity]. cbn [mo_frames mo_names mo_joints mo_identity]. intros F -> I. unfold write_motion. cbn [mo_frames mo_names mo_joints mo_identity]. destruct frames as [|f0 frames]; [congruence|]. cbn [nothing negb andb].
  destruct joints as [|j0 joints]; [destruct identity as [|x identity]; [reflexivity|discriminate]|destruct identity as [|x identity]; [discriminate|]]. cbn [nothing negb andb]. unfold read_motion. cbn [st_nframes st_poses st_offsets]. cbn [length] in I |- *. rewrite (proj2 (Nat.eqb_eq _ _) I). reflexivity.
Qed.
Print Assumptions motion_offsets_round_trip.
Example motion_offsets_met : read_motion (write_motion (Motion [] [[]; []] [5] [1; 2; 3; 4; 5; 6; 7])) = @Motion nat nat [] [] [5] [1; 2; 3; 4; 5; 6; 7].
Proof. apply (motion_offsets_round_trip (Motion [] [[]; []] [5] [1; 2; 3; 4; 5; 6; 7])); [discriminate|reflexivity|reflexivity]. Qed.

(** C135. Nothing is read only if there are no frames, nothing is stored, the parameters are no names at all, or a size is wrong. *)
Theorem motion_nothing {N V} (s : @stored N V) : read_motion s = no_motion -> st_nframes s = 0 \/
  (exists names values, st_poses s = Some (names, values) /\ length values <> length names * st_nframes s) \/
  (exists names values, st_offsets s = Some (names, values) /\ length values <> length names * 7) \/
  ((forall names values, st_poses s = Some (names, values) -> names = [] /\ values = []) /\ (forall names values, st_offsets s = Some (names, values) -> names = [] /\ values = [])).
Proof.
  destruct s as [[|n] poses offsets]; [intros _; left; reflexivity|]. unfold read_motion. cbn [st_nframes st_poses st_offsets]. intros R. right.
  destruct poses as [[pn pv]|].
  - destruct (length pv =? length pn * S n) eqn:A; [|left; exists pn, pv; split; [reflexivity|apply Nat.eqb_neq; exact A]]. right. apply Nat.eqb_eq in A. cbn [negb orb] in R. destruct offsets as [[jn jv]|]; [|discriminate R].
    destruct (length jv =? length jn * 7) eqn:B; [|left; exists jn, jv; split; [reflexivity|apply Nat.eqb_neq; exact B]]. discriminate R.
  - right. destruct offsets as [[jn jv]|]; [|right; split; intros x y Q; discriminate]. cbn [orb] in R. destruct (length jv =? length jn * 7) eqn:B; [|left; exists jn, jv; split; [reflexivity|apply Nat.eqb_neq; exact B]]. cbn [negb] in R. injection R as -> ->. right. split; intros x y Q; [discriminate|injection Q as <- <-; split; reflexivity].
Qed.
Print Assumptions motion_nothing.
Example motion_nothing_met : read_motion (Stored 2 (Some ([1], [10; 11; 12])) (@None (list nat * list nat))) = no_motion /\ read_motion (Stored 2 (Some ([1], [10; 11])) (@None (list nat * list nat))) <> no_motion.
Proof. split; [reflexivity|discriminate]. Qed.
