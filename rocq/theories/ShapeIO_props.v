(** Property C43: shape and prior files. *)

From Coq Require Import List Arith Ascii NArith ZArith Lia Bool.
From Verif Require Import Prelude Loops Bytes Mmo_model Mmo_proofs ShapeIO_model ShapeIO_spec.
Import ListNotations.

Lemma v3fs_of_floats l : v3fs_of (flat_map v3f_floats l) = l.
Proof. induction l as [|[[x y] z] l IH]; [reflexivity|]. cbn. rewrite IH. reflexivity. Qed.
Lemma flat_v3f_length l : length (flat_map v3f_floats l) = 3 * length l.
Proof.
  induction l as [|[[x y] z] l IH]; [reflexivity|].
  change (flat_map v3f_floats ((x, y, z) :: l)) with ([x; y; z] ++ flat_map v3f_floats l). rewrite app_length, IH. cbn [length]. lia.
Qed.
Lemma concat_length_all {A} n (ls : list (list A)) : (forall c, In c ls -> length c = n) -> length (concat ls) = n * length ls.
Proof.
  induction ls as [|c ls IH]; intros H; cbn [concat length]; [lia|].
  rewrite app_length, IH, (H c (or_introl eq_refl)); [lia|]. intros c' Hc. apply H. right. exact Hc.
Qed.
Lemma read_dim_exact n r : (n < 2 ^ 64)%N ->
  read_dim {| s_rest := le_bytes 8 n ++ r; s_good := true |} = Ok (n, {| s_rest := r; s_good := true |}).
Proof. intros H. unfold read_dim. rewrite read_size_exact by exact H. reflexivity. Qed.

Definition blend_file (b : bshape) : list ascii :=
  le_bytes 8 (N.of_nat (x_rows (bs_vectors b))) ++ le_bytes 8 (N.of_nat (length (x_cols (bs_vectors b)))) ++
  flat_map f32_bytes (flat_map v3f_floats (bs_base b)) ++ flat_map f32_bytes (mtx_data (bs_vectors b)).
Lemma save_blend_file b : bshape_wf b -> save_blend b = Ok (blend_file b).
Proof.
  intros W. unfold save_blend. cbv zeta. rewrite (bw_rows b W), Nat.mul_comm, Nat.eqb_refl. cbn [negb]. unfold blend_file.
  rewrite (bw_rows b W), Nat.mul_comm. reflexivity.
Qed.

Lemma firstn_concat {A} n (c : list (list A)) r : (forall x, In x c -> length x = n) -> firstn (n * length c) (concat c ++ r) = concat c.
Proof.
  intros H. rewrite firstn_app, <- (concat_length_all n c H), Nat.sub_diag, firstn_all. cbn [firstn]. apply app_nil_r.
Qed.

Lemma read_vectors_exact junk rows (cs : list (list f32)) r shapes verts :
  (forall c, In c cs -> length c = rows) -> (N.of_nat rows * N.of_nat (length cs) <= eigen_max)%N -> (verts <= 715827882)%Z ->
  read_vectors junk (N.of_nat rows) (N.of_nat (length cs)) shapes verts {| s_rest := flat_map f32_bytes (concat cs) ++ r; s_good := true |} =
  Ok (let m := Mtx rows (at_most shapes cs) in if (0 <? verts)%Z then keep_rows (3 * Z.to_nat verts) m else m).
Proof.
  intros Hc Hs Hv. unfold read_vectors. destruct (N.ltb_spec eigen_max (N.of_nat rows * N.of_nat (length cs))) as [X|_]; [lia|].
  assert (Ln : 4 * N.to_nat (N.of_nat rows * N.of_nat (length cs)) = length (flat_map f32_bytes (concat cs))).
  { rewrite flat_bytes_length, (concat_length_all rows cs Hc). lia. }
  rewrite fread_exact by (symmetry; exact Ln). rewrite floats_of_bytes, !Nat2N.id, columns_concat by exact Hc.
  unfold at_most, keep_cols. cbn [x_rows x_cols].
  destruct (0 <? shapes)%Z; (destruct (0 <? verts)%Z; [|reflexivity]); destruct (Z.ltb_spec 715827882 verts); try lia; reflexivity.
Qed.

(** A saved blend shape is restored, cut to the expected numbers of shapes and vertices if these are
    positive, whatever uninitialised memory holds. *)
Theorem blend_round_trip b : bshape_wf b ->
  exists file, save_blend b = Ok file /\
    forall junk1 junk2 shapes verts, (verts <= 715827882)%Z -> load_blend junk1 junk2 file shapes verts = Ok (cut shapes verts b).
Proof.
  intros W. exists (blend_file b). split; [apply save_blend_file, W|]. intros j1 j2 shapes verts Hv. unfold load_blend, blend_file.
  set (rows := x_rows (bs_vectors b)). set (cs := x_cols (bs_vectors b)).
  assert (Rw : rows = 3 * length (bs_base b)) by apply (bw_rows b W).
  assert (Hr : (N.of_nat rows < 2 ^ 64)%N). { pose proof (bw_base_size b W) as H. unfold vector_max in H. change ((2 ^ 63 - 1) / 12)%N with 768614336404564650%N in H. change (2 ^ 64)%N with 18446744073709551616%N. lia. }
  rewrite read_dim_exact by exact Hr. cbn [obind]. rewrite read_dim_exact by apply (bw_count b W). cbn [obind].
  assert (D : (N.of_nat rows = 3 * N.of_nat (length (bs_base b)))%N) by lia.
  assert (Dv : (N.of_nat rows / 3 = N.of_nat (length (bs_base b)))%N) by (rewrite D, N.mul_comm; apply N.div_mul; lia).
  assert (Dm : (N.of_nat rows mod 3 = 0)%N) by (rewrite D, N.mul_comm; apply N.mod_mul; lia).
  rewrite Dv, Dm, N.eqb_refl. cbn [negb]. destruct (N.ltb_spec vector_max (N.of_nat (length (bs_base b)))) as [X|_]; [pose proof (bw_base_size b W); lia|].
  rewrite fread_exact by (rewrite flat_bytes_length, flat_v3f_length; lia). rewrite floats_of_bytes, v3fs_of_floats.
  unfold mtx_data. fold cs. rewrite <- (app_nil_r (flat_map f32_bytes (concat cs))).
  rewrite read_vectors_exact; [|apply (bw_cols b W)|apply (bw_size b W)|exact Hv]. cbn [obind]. unfold cut, at_most. fold rows cs.
  destruct (Z.ltb_spec 0 verts) as [Pv|Pv].
  - f_equal. f_equal. unfold keep_rows. cbn [x_rows x_cols]. f_equal.
    + rewrite firstn_length. lia.
    + apply map_ext. intros c. destruct (Z.ltb_spec 0 (3 * verts)); [|lia]. f_equal. lia.
  - f_equal. f_equal. f_equal; [exact Rw|]. destruct (Z.ltb_spec 0 (3 * verts)); [lia|]. symmetry. apply map_id.
Qed.
Print Assumptions blend_round_trip.

Lemma cut_all b shapes verts : bshape_wf b -> (shapes <= 0)%Z -> (verts <= 0)%Z -> cut shapes verts b = b.
Proof.
  intros W Hs Hv. unfold cut, at_most. destruct (Z.ltb_spec 0 shapes); [lia|]. destruct (Z.ltb_spec 0 verts); [lia|]. destruct (Z.ltb_spec 0 (3 * verts)); [lia|].
  rewrite map_id, <- (bw_rows b W). destruct b as [bb [r c]]. reflexivity.
Qed.
Theorem blend_round_trip_all b : bshape_wf b ->
  exists file, save_blend b = Ok file /\ forall junk1 junk2, load_blend junk1 junk2 file (-1) (-1) = Ok b.
Proof.
  intros W. destruct (blend_round_trip b W) as (f & E & L). exists f. split; [exact E|]. intros j1 j2. rewrite L by lia. rewrite cut_all; [reflexivity|exact W|lia|lia].
Qed.
Print Assumptions blend_round_trip_all.

(** loadBlendShapeBase of such a file takes the base shape for the first shape and loses the last. *)
Theorem blend_base_shifted b : bshape_wf b ->
  exists file, save_blend b = Ok file /\
    forall junk, load_blend_base junk file (-1) (-1) =
      Ok (Mtx (x_rows (bs_vectors b)) (firstn (length (x_cols (bs_vectors b))) (flat_map v3f_floats (bs_base b) :: x_cols (bs_vectors b)))).
Proof.
  intros W. exists (blend_file b). split; [apply save_blend_file, W|]. intros junk. unfold load_blend_base, blend_file.
  set (rows := x_rows (bs_vectors b)). set (cs := x_cols (bs_vectors b)).
  assert (Rw : rows = 3 * length (bs_base b)) by apply (bw_rows b W).
  assert (Hr : (N.of_nat rows < 2 ^ 64)%N). { pose proof (bw_base_size b W) as H. unfold vector_max in H. change ((2 ^ 63 - 1) / 12)%N with 768614336404564650%N in H. change (2 ^ 64)%N with 18446744073709551616%N. lia. }
  rewrite read_dim_exact by exact Hr. cbn [obind]. rewrite read_dim_exact by apply (bw_count b W). cbn [obind].
  set (all := flat_map v3f_floats (bs_base b) :: cs). assert (La : length all = Datatypes.S (length cs)) by reflexivity.
  assert (Hall : forall c, In c all -> length c = rows). { intros c [<-|Hc]; [rewrite flat_v3f_length; lia|apply (bw_cols b W c Hc)]. }
  assert (F : flat_map f32_bytes (flat_map v3f_floats (bs_base b)) ++ flat_map f32_bytes (mtx_data (bs_vectors b)) =
              flat_map f32_bytes (concat (firstn (length cs) all)) ++ flat_map f32_bytes (concat (skipn (length cs) all))).
  { rewrite <- !flat_map_app, <- concat_app, firstn_skipn. reflexivity. }
  rewrite F. assert (Lf : length (firstn (length cs) all) = length cs) by (rewrite firstn_length; lia).
  replace (N.of_nat (length cs)) with (N.of_nat (length (firstn (length cs) all))) by (rewrite Lf; reflexivity).
  rewrite read_vectors_exact; [reflexivity| |rewrite Lf; apply (bw_size b W)|lia].
  intros c Hc. apply Hall. rewrite <- (firstn_skipn (length cs) all). apply in_or_app. left. exact Hc.
Qed.
Print Assumptions blend_base_shifted.

(** A truncated file is not refused: the missing part is whatever the memory held. *)
Definition byte_junk (c : ascii) (n : nat) : ascii := c.
Definition fl_a : f32 := ("a", "b", "c", "d")%char.
Definition one_vertex : bshape := BShape [(fl_a, f32_zero, fl_a)] (Mtx 3 [[fl_a; fl_a; f32_zero]; [f32_zero; fl_a; fl_a]]).
Lemma one_vertex_wf : bshape_wf one_vertex.
Proof.
  constructor; [reflexivity| | | |].
  - intros c [<-|[<-|[]]]; reflexivity.
  - unfold vector_max. change ((2 ^ 63 - 1) / 12)%N with 768614336404564650%N. cbn. lia.
  - cbn. lia.
  - unfold eigen_max. cbn. lia.
Qed.
Theorem blend_truncated_refuted : exists b file junk1 junk2 b1 b2, bshape_wf b /\ save_blend b = Ok file /\
  load_blend junk1 junk1 (firstn 40 file) (-1) (-1) = Ok b1 /\ load_blend junk2 junk2 (firstn 40 file) (-1) (-1) = Ok b2 /\
  40 < length file /\ b1 <> b2 /\ b1 <> b.
Proof.
  exists one_vertex, (blend_file one_vertex), (byte_junk "x"%char), (byte_junk "y"%char). do 2 eexists. split; [apply one_vertex_wf|]. split; [reflexivity|].
  split; [vm_compute; reflexivity|]. split; [vm_compute; reflexivity|]. split; [vm_compute; lia|]. split; intros X; discriminate X.
Qed.
Print Assumptions blend_truncated_refuted.

(** The case of the theorems: one vertex, two shapes, of which one is wanted. *)
Example blend_case : bshape_wf one_vertex /\ cut 1 0 one_vertex = BShape [(fl_a, f32_zero, fl_a)] (Mtx 3 [[fl_a; fl_a; f32_zero]]).
Proof. split; [apply one_vertex_wf|reflexivity]. Qed.

(** A file that ends inside its two dimensions makes every reader use an uninitialised number. *)
Lemma read_dim_short s : s_good s = true -> length (s_rest s) < 8 -> read_dim s = UB.
Proof.
  intros G H. unfold read_dim, read_size, fread. rewrite G. cbn [negb]. rewrite (proj2 (Nat.leb_gt 8 (length (s_rest s))) H). reflexivity.
Qed.
Lemma read_dim_long s : s_good s = true -> 8 <= length (s_rest s) ->
  read_dim s = Ok (of_le (firstn 8 (s_rest s)), {| s_rest := skipn 8 (s_rest s); s_good := true |}).
Proof.
  intros G H. unfold read_dim, read_size, fread. rewrite G. cbn [negb]. rewrite (proj2 (Nat.leb_le 8 (length (s_rest s))) H). reflexivity.
Qed.
Theorem header_truncated_refuted file : length file < 16 ->
  (forall j1 j2 shapes verts, load_blend j1 j2 file shapes verts = UB) /\
  (forall junk shapes verts, load_blend_base junk file shapes verts = UB) /\
  (forall junk chol, load_mppca junk chol file = UB).
Proof.
  intros H. destruct (Nat.lt_ge_cases (length file) 8) as [S|L].
  - pose proof (read_dim_short {| s_rest := file; s_good := true |} eq_refl S) as E. repeat split; intros; unfold load_blend, load_blend_base, load_mppca; rewrite E; reflexivity.
  - pose proof (read_dim_long {| s_rest := file; s_good := true |} eq_refl L) as E.
    assert (S : length (skipn 8 file) < 8) by (rewrite skipn_length; lia).
    pose proof (read_dim_short {| s_rest := skipn 8 file; s_good := true |} eq_refl S) as E2. cbn [s_rest] in E.
    repeat split; intros; unfold load_blend, load_blend_base, load_mppca; rewrite E; cbn [obind]; rewrite E2; reflexivity.
Qed.
Print Assumptions header_truncated_refuted.

(** ** Pose priors *)

(** A mixture with fewer names than dimensions is refused. *)
Theorem save_mppca_few_names m : length (mp_names m) < mp_d m -> save_mppca m = CheckFail.
Proof. intros H. unfold save_mppca. cbv zeta. rewrite (proj2 (Nat.ltb_lt _ _) H). reflexivity. Qed.
Print Assumptions save_mppca_few_names.

Lemma first_floats_all l : first_floats (length l) l = Ok (flat_map f32_bytes l).
Proof. unfold first_floats. rewrite Nat.leb_refl, firstn_all. reflexivity. Qed.
Lemma put_all_ok k ms : (forall m, In m ms -> length m = k) -> put_all k ms = Ok (flat_map (fun m => flat_map f32_bytes m) ms).
Proof.
  induction ms as [|m ms IH]; intros H; [reflexivity|]. cbn [put_all]. rewrite <- (H m (or_introl eq_refl)) at 1. rewrite first_floats_all. cbn [obind].
  rewrite IH by (intros; apply H; right; assumption). reflexivity.
Qed.
Lemma load_mats_ok junk k ms r : (forall m, In m ms -> length m = k) ->
  load_mats junk k (length ms) {| s_rest := flat_map (fun m => flat_map f32_bytes m) ms ++ r; s_good := true |} = (ms, {| s_rest := r; s_good := true |}).
Proof.
  induction ms as [|m ms IH]; intros H; [reflexivity|]. cbn [length load_mats flat_map]. rewrite <- app_assoc.
  rewrite fread_exact by (rewrite flat_bytes_length, (H m (or_introl eq_refl)); reflexivity).
  rewrite IH by (intros; apply H; right; assumption). rewrite floats_of_bytes. reflexivity.
Qed.

(** A saved mixture is restored except for L, which is computed again from Cinv. *)
Theorem mppca_round_trip m : mppca_wf m ->
  exists file, save_mppca m = Ok file /\
    forall junk chol, load_mppca junk chol file = Ok (Mppca (mp_d m) (mp_p m) (mp_names m) (mp_mu m) (mp_cinv m) (map chol (mp_cinv m)) (mp_rpre m)).
Proof.
  intros W. unfold save_mppca. cbv zeta. rewrite (mw_names m W), Nat.ltb_irrefl. assert (F1 : first_floats (mp_p m) (mp_rpre m) = Ok (flat_map f32_bytes (mp_rpre m))) by (rewrite <- (mw_rpre m W); apply first_floats_all).
  assert (F2 : first_floats (mp_p m * mp_d m) (mp_mu m) = Ok (flat_map f32_bytes (mp_mu m))) by (rewrite <- (mw_mu m W); apply first_floats_all).
  assert (F3 : firstn (mp_d m) (mp_names m) = mp_names m) by (rewrite <- (mw_names m W); apply firstn_all).
  assert (F4 : forall s, load_names (mp_d m) s = load_names (length (mp_names m)) s) by (intros; rewrite (mw_names m W); reflexivity).
  assert (F5 : forall j k s, load_mats j k (mp_p m) s = load_mats j k (length (mp_cinv m)) s) by (intros; rewrite (mw_cinv m W); reflexivity).
  rewrite F1. cbn [obind]. rewrite put_all_ok by apply (mw_mat m W). cbn [obind]. rewrite F2. cbn [obind].
  eexists. split; [reflexivity|]. intros junk chol. rewrite F3. unfold load_mppca.
  assert (Md : (N.of_nat (mp_d m) < 2 ^ 64)%N).
  { pose proof (mw_d m W) as H. unfold eigen_max in H. change (2 ^ 62 - 1)%N with 4611686018427387903%N in H. change (2 ^ 64)%N with 18446744073709551616%N. nia. }
  assert (Mp : (N.of_nat (mp_p m) < 2 ^ 64)%N).
  { pose proof (mw_p m W) as H. unfold eigen_max in H. change (2 ^ 62 - 1)%N with 4611686018427387903%N in H. change (2 ^ 64)%N with 18446744073709551616%N. lia. }
  rewrite read_dim_exact by exact Md. cbn [obind]. rewrite read_dim_exact by exact Mp. cbn [obind]. rewrite Nat2N.id.
  rewrite F4, load_names_put by apply (mw_name m W). cbn [obind fst snd].
  destruct (N.ltb_spec eigen_max (N.of_nat (mp_p m))) as [X|_]; [pose proof (mw_p m W); lia|].
  destruct (N.ltb_spec eigen_max (N.of_nat (mp_p m) * N.of_nat (mp_d m))) as [X|_]; [pose proof (mw_pd m W); lia|].
  destruct (N.ltb_spec eigen_max (N.of_nat (mp_d m) * N.of_nat (mp_d m))) as [X|_]; [pose proof (mw_d m W); lia|]. cbn [orb]. cbv zeta.
  rewrite !Nat2N.id. rewrite fread_exact by (rewrite flat_bytes_length, (mw_rpre m W); reflexivity).
  rewrite F5, load_mats_ok by apply (mw_mat m W).
  match goal with |- context [fread ?n ?o {| s_rest := ?b; s_good := true |}] => rewrite <- (app_nil_r b) end.
  rewrite fread_exact by (rewrite flat_bytes_length, (mw_mu m W); reflexivity). rewrite !floats_of_bytes. reflexivity.
Qed.
Print Assumptions mppca_round_trip.

Example mppca_case : mppca_wf (Mppca 2 1 [["a"; "b"]; []]%char [fl_a; f32_zero] [[fl_a; fl_a; f32_zero; fl_a]] [] [f32_zero]).
Proof.
  constructor; try reflexivity; try (unfold eigen_max; cbn; lia).
  - intros n [<-|[<-|[]]]; unfold string_max; cbn; lia.
  - intros c [<-|[]]. reflexivity.
Qed.
