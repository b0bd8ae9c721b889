(** C34, C35, C74: motion files. *)

From Coq Require Import List Arith Ascii NArith Lia Bool.
From Verif Require Import Prelude Loops Bytes Mmo_model Mmo_spec Mmo_proofs.
Import ListNotations.
Local Open Scope outcome_scope.

(** C34. Saving a motion writes a file, and loading that file returns the same motion, whatever the
    memory of the loaded matrices held. *)
Theorem motion_file_round_trip poses scale pnames jnames junk1 junk2 :
  motion_ok poses scale pnames jnames ->
  exists file, save_mmo poses scale pnames jnames = Some file /\
    load_mmo junk1 junk2 file = Ok (poses, scale, pnames, jnames).
Proof. exact (round_trip poses scale pnames jnames junk1 junk2). Qed.
Print Assumptions motion_file_round_trip.

(** Nothing is written when the sizes do not match. *)
Theorem motion_file_refused poses scale pnames jnames :
  save_mmo poses scale pnames jnames = None <->
  x_rows poses <> length pnames \/ length scale <> length jnames * 7.
Proof.
  unfold save_mmo. destruct (Nat.eqb_spec (x_rows poses) (length pnames)) as [H1|H1]; cbn [negb].
  - destruct (Nat.eqb_spec (length scale) (length jnames * 7)) as [H2|H2]; cbn [negb].
    + split; [discriminate|]. intros [H|H]; contradiction.
    + split; auto.
  - split; auto.
Qed.
Print Assumptions motion_file_refused.

(** A list of poses, each one a frame. *)
Theorem pose_list_round_trip poses scale pnames jnames junk1 junk2 :
  poses <> [] -> motion_ok (Mtx (length pnames) poses) scale pnames jnames ->
  exists file, save_poses poses scale pnames jnames = Ok (Some file) /\
    load_mmo junk1 junk2 file = Ok (Mtx (length pnames) poses, scale, pnames, jnames).
Proof.
  intros H M. destruct (round_trip _ _ _ _ junk1 junk2 M) as (file & E & L). exists file. split; [|exact L].
  destruct M as [Hc Hr Hs _ _ _ _ _]. cbn [x_rows x_cols] in *. unfold save_poses. destruct poses as [|p ps]; [congruence|].
  rewrite (Hc p) by (cbn; auto). rewrite Nat.eqb_refl. cbn [negb].
  assert (forallb (fun q => length q =? length pnames) (p :: ps) = true) as ->.
  { apply forallb_forall. intros q Hq. rewrite (Hc q Hq). apply Nat.eqb_refl. }
  cbn [negb]. unfold save_character. cbn [x_rows x_cols length]. rewrite Nat.eqb_refl, Hs, Nat.eqb_refl.
  cbn [negb andb Nat.eqb Nat.ltb Nat.leb obind map]. rewrite app_nil_r, Nat.add_0_r. f_equal. exact E.
Qed.
Print Assumptions pose_list_round_trip.

(** C35. A motion saved with extra parameters: the extra parameters come back with their names and
    values, and mapping the file to the same character returns the poses and offsets. The extra
    names are not empty, and no parameter is named like an extra one. *)
Theorem extra_parameters_round_trip_partial poses scale pnames jnames aux aux_names junk1 junk2 :
  motion_ok poses scale pnames jnames ->
  (forall c, In c (x_cols aux) -> length c = x_rows aux) -> x_rows aux = length aux_names ->
  length (x_cols aux) = length (x_cols poses) ->
  names_fit (pnames ++ map extra_name aux_names) ->
  (N.of_nat (length pnames + length aux_names) * N.of_nat (length (x_cols poses)) <= eigen_max)%N ->
  (forall a, In a aux_names -> a <> []) ->
  (forall n, n <> [] -> ~ In (extra_name n) pnames) ->
  NoDup pnames -> NoDup jnames ->
  exists file all names,
    save_character poses scale pnames jnames aux aux_names = Ok (Some file) /\
    load_mmo junk1 junk2 file = Ok (all, scale, names, jnames) /\
    aux_data all names = Ok (aux, aux_names) /\
    map_motion all scale names jnames pnames jnames = Ok (poses, scale).
Proof.
  intros M Ha Hra LA HN He Hne Hno NP NJ.
  pose proof (motion_stacked _ _ _ _ _ _ M Ha Hra LA HN He) as M2.
  destruct (round_trip _ _ _ _ junk1 junk2 M2) as (file & E & L). destruct M as [Hc Hr Hs _ _ _ _ _].
  exists file. do 2 eexists. split; [|split; [exact L|split]].
  - rewrite save_character_eq by assumption. f_equal. exact E.
  - rewrite Hr, Hra. change extra_name with underscored. rewrite aux_spec; auto.
    + rewrite <- Hra. destruct aux; reflexivity.
    + rewrite <- Hr. exact Hc.
    + rewrite <- Hra. exact Ha.
    + intros n Hn. destruct (is_aux n) eqn:X; [|reflexivity]. apply is_aux_iff in X.
      destruct X as (m & Hm & ->). exfalso. exact (Hno m Hm Hn).
  - apply map_motion_self; auto.
    + intros a Hi Hp. apply in_map_iff in Hi. destruct Hi as (m & <- & Hm). exact (Hno m (Hne m Hm) Hp).
    + rewrite map_length, <- Hra. exact Ha.
Qed.
Print Assumptions extra_parameters_round_trip_partial.

Definition c (x : ascii) : f32 := (x, x, x, x).
Definition f7 : list f32 := map c ["0"; "1"; "2"; "3"; "4"; "5"; "6"]%char.

(** The unconditional claim fails: an extra parameter without a name is lost, ... *)
Theorem extra_parameters_empty_name_refuted :
  exists poses scale pnames jnames aux aux_names file all names,
    motion_ok poses scale pnames jnames /\
    (forall n, ~ In (extra_name n) pnames) /\
    save_character poses scale pnames jnames aux aux_names = Ok (Some file) /\
    (forall junk1 junk2, load_mmo junk1 junk2 file = Ok (all, scale, names, jnames)) /\
    aux_data all names <> Ok (aux, aux_names).
Proof.
  exists (Mtx 1 [[c "a"%char]]), f7, [["p"%char]], [["j"%char]], (Mtx 1 [[c "x"%char]]), [[]].
  do 3 eexists. split; [|split; [|split; [reflexivity|split; [intros; vm_compute; reflexivity|vm_compute; discriminate]]]].
  - constructor; cbn; try lia; try reflexivity; try (split; cbn; [reflexivity|]);
      try (intros ? [<-|[]]; cbn; (reflexivity || discriminate)).
  - intros n [H|[]]. discriminate H.
Qed.
Print Assumptions extra_parameters_empty_name_refuted.

(** ... a parameter of the character named like an extra one is taken for an extra one, ... *)
Theorem extra_parameters_mixed_refuted :
  exists poses scale pnames jnames file all names,
    motion_ok poses scale pnames jnames /\
    save_character poses scale pnames jnames (Mtx 0 []) [] = Ok (Some file) /\
    (forall junk1 junk2, load_mmo junk1 junk2 file = Ok (all, scale, names, jnames)) /\
    exists a, aux_data all names = Ok (a, [["p"%char]]).
Proof.
  exists (Mtx 1 [[c "a"%char]]), f7, [extra_name ["p"%char]], [["j"%char]].
  do 3 eexists. split; [|split; [reflexivity|split; [intros; vm_compute; reflexivity|eexists; vm_compute; reflexivity]]].
  constructor; cbn; try lia; try reflexivity; try (split; cbn; [reflexivity|]);
    try (intros ? [<-|[]]; cbn; (reflexivity || discriminate)).
Qed.
Print Assumptions extra_parameters_mixed_refuted.

(** ... and extra names with a matrix without columns pass the checks of saveMmo, and then a matrix
    is assigned to one of another width. *)
Theorem extra_parameters_no_columns_refuted :
  exists poses scale pnames jnames aux aux_names,
    motion_ok poses scale pnames jnames /\ x_rows aux = length aux_names /\
    (forall a, In a aux_names -> a <> []) /\
    save_character poses scale pnames jnames aux aux_names = UB.
Proof.
  exists (Mtx 1 [[c "a"%char]]), f7, [["p"%char]], [["j"%char]], (Mtx 1 []), [["x"%char]].
  split; [|split; [reflexivity|split; [|reflexivity]]].
  - constructor; cbn; try lia; try reflexivity; try (split; cbn; [reflexivity|]);
      try (intros ? [<-|[]]; cbn; (reflexivity || discriminate)).
  - intros a [<-|[]]. discriminate.
Qed.
Print Assumptions extra_parameters_no_columns_refuted.

(** C74. A file that ends early, for example because the writing program was stopped: when the
    counts and names are complete, names and sizes are right, and so is every value whose four bytes
    were written. *)
Theorem cut_motion_file_partial poses scale pnames jnames file k junk1 junk2 :
  motion_ok poses scale pnames jnames ->
  save_mmo poses scale pnames jnames = Some file ->
  let h := header_size pnames jnames in
  h <= k ->
  exists poses' scale', load_mmo junk1 junk2 (firstn k file) = Ok (poses', scale', pnames, jnames) /\
    x_rows poses' = x_rows poses /\ length (x_cols poses') = length (x_cols poses) /\
    (forall col, In col (x_cols poses') -> length col = x_rows poses) /\
    length scale' = length scale /\
    (forall i, h + 4 * (i + 1) <= k -> i < length scale -> nth_error scale' i = nth_error scale i) /\
    (forall i, h + 4 * (length scale + i + 1) <= k ->
      nth_error (concat (x_cols poses')) i = nth_error (concat (x_cols poses)) i).
Proof. exact (truncated poses scale pnames jnames file k junk1 junk2). Qed.
Print Assumptions cut_motion_file_partial.

(** The rest is whatever the memory held: a cut file is loaded without an error, with a result that
    depends on uninitialised memory. *)
Theorem cut_motion_file_refuted :
  exists poses scale pnames jnames file k, motion_ok poses scale pnames jnames /\
    save_mmo poses scale pnames jnames = Some file /\ k < length file /\
    exists junk1 junk2 r r', load_mmo junk1 junk1 (firstn k file) = Ok r /\
      load_mmo junk2 junk2 (firstn k file) = Ok r' /\ r <> r'.
Proof.
  exists (Mtx 1 [[c "a"%char]]), f7, [["p"%char]], [["j"%char]]. eexists. exists 71.
  split; [|split; [reflexivity|split; [cbn; lia|]]].
  - constructor; cbn; try lia; try reflexivity; try (split; cbn; [reflexivity|]);
      try (intros ? [<-|[]]; cbn; (reflexivity || discriminate)).
  - exists (fun _ => "x"%char), (fun _ => "y"%char). do 2 eexists.
    split; [vm_compute; reflexivity|]. split; [vm_compute; reflexivity|]. discriminate.
Qed.
Print Assumptions cut_motion_file_refuted.

(** Two parameters, one joint, two frames, one extra parameter: all the hypotheses above hold. *)
Example motion_case :
  motion_ok (Mtx 2 [[c "a"; c "b"]; [c "d"; c "e"]]%char) f7 [["p"]; ["q"; "r"]]%char [["j"%char]] /\
  names_fit ([["p"]; ["q"; "r"]]%char ++ map extra_name [["x"%char]]) /\
  (forall n, n <> [] -> ~ In (extra_name n) [["p"]; ["q"; "r"]]%char) /\
  NoDup [["p"]; ["q"; "r"]]%char /\ header_size [["p"]; ["q"; "r"]]%char [["j"%char]] = 52.
Proof.
  split; [|split; [|split; [|split; [|reflexivity]]]].
  - constructor; cbn; try lia; try reflexivity; try (split; cbn; [reflexivity|]);
      try (intros ? [<-|[<-|[]]]; cbn; (reflexivity || discriminate)).
    intros ? [<-|[]]; discriminate.
  - split; cbn; [reflexivity|]. intros ? [<-|[<-|[<-|[]]]]; discriminate.
  - intros n _ [H|[H|[]]]; discriminate H.
  - repeat constructor; cbn; intuition discriminate.
Qed.
