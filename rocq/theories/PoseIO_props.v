(** C122: binary files of joint parameters and of pose shapes. *)

From Coq Require Import Reals List Arith Ascii NArith ZArith Bool Lia.
From Verif Require Import Prelude Loops Bytes Mmo_model Mmo_proofs R3 LinAlg Blend_model Blend_spec PoseShape_model PoseShape_props PoseIO_model PoseIO_spec.
Import ListNotations.
Local Open Scope nat_scope.
Local Open Scope outcome_scope.

(** ** Numbers *)

Lemma number_length n : length (number n) = 8. Proof. apply le_bytes_length. Qed.
Lemma of_number n : (N.of_nat n < 2 ^ 64)%N -> of_le (number n) = N.of_nat n.
Proof. intros H. apply of_le_bytes. exact H. Qed.
Lemma of_le_bound l : (of_le l < 256 ^ N.of_nat (length l))%N.
Proof.
  induction l as [|b l IH]; cbn [of_le length]; [reflexivity|]. rewrite Nat2N.inj_succ, N.pow_succ_r'.
  assert (N_of_ascii b < 256)%N by apply N_ascii_bounded. lia.
Qed.
Lemma le_bytes_of l : le_bytes (length l) (of_le l) = l.
Proof.
  induction l as [|b l IH]; [reflexivity|]. cbn [of_le length le_bytes].
  assert (B : (N_of_ascii b < 256)%N) by apply N_ascii_bounded.
  rewrite (N.mul_comm 256), N.mod_add, N.div_add by lia. rewrite N.mod_small, (N.div_small (N_of_ascii b)) by exact B. rewrite N.add_0_l, IH, ascii_N_embedding. reflexivity.
Qed.
Lemma header a b r : firstn 8 (number a ++ number b ++ r) = number a /\ firstn 8 (skipn 8 (number a ++ number b ++ r)) = number b /\
  skipn 16 (number a ++ number b ++ r) = r /\ length (number a ++ number b ++ r) = 16 + length r.
Proof.
  pose proof (number_length a) as La. pose proof (number_length b) as Lb.
  assert (S1 : skipn 8 (number a ++ number b ++ r) = number b ++ r) by (rewrite <- La; rewrite skipn_app, Nat.sub_diag, skipn_all; reflexivity).
  split; [rewrite <- La at 1; rewrite firstn_app, Nat.sub_diag, firstn_all, firstn_O, app_nil_r; reflexivity|].
  split; [rewrite S1; rewrite <- Lb at 1; rewrite firstn_app, Nat.sub_diag, firstn_all, firstn_O, app_nil_r; reflexivity|].
  split; [|rewrite !app_length; lia].
  assert (L2 : length (number a ++ number b) = 16) by (rewrite app_length; lia). rewrite app_assoc, <- L2, skipn_app, Nat.sub_diag, skipn_all. reflexivity.
Qed.

Lemma signed_nat n : (Z.of_nat n < 2 ^ 63)%Z -> signed64 (of_le (number n)) = Z.of_nat n.
Proof.
  intros H. rewrite of_number by lia. unfold signed64. destruct (N.ltb_spec (N.of_nat n) (2 ^ 63)); [lia|]. lia.
Qed.
Lemma fread_length n old s : length old = n -> length (fst (fread n old s)) = n.
Proof.
  intros H. unfold fread. destruct (s_good s); cbn [negb]; [|exact H]. destruct (Nat.leb_spec n (length (s_rest s))); cbn [fst].
  - rewrite firstn_length. lia.
  - rewrite app_length, skipn_length. lia.
Qed.

(** ** Joint parameters *)

Lemma jp_frames_good junk k frames : forall i r, (forall f, In f frames -> length f = k) ->
  jp_frames junk k (length frames) i {| s_rest := flat_map f32_bytes (concat frames) ++ r; s_good := true |} = frames.
Proof.
  induction frames as [|f frames IH]; intros i r H; [reflexivity|]. cbn [length jp_frames concat]. rewrite flat_map_app, <- app_assoc.
  rewrite fread_exact by (rewrite flat_bytes_length, (H f) by (left; reflexivity); reflexivity). rewrite floats_of_bytes, IH; [reflexivity|].
  intros g Hg. apply H. right. exact Hg.
Qed.
Lemma jp_frames_sizes junk k n : forall i s, length (jp_frames junk k n i s) = n /\ forall f, In f (jp_frames junk k n i s) -> length f = k.
Proof.
  induction n as [|n IH]; intros i s; [split; [reflexivity|intros f []]|]. cbn [jp_frames].
  destruct (fread _ _ s) as [b s'] eqn:E. assert (Lb : length b = 4 * k).
  { change b with (fst (b, s')). rewrite <- E. apply fread_length. rewrite map_length, seq_length. reflexivity. }
  destruct (IH (S i) s') as (A & B). split; [cbn; lia|]. intros f [<-|Hf]; [apply floats_of_length, Lb|exact (B f Hf)].
Qed.
Lemma jp_frames_cut junk k frames : (forall f, In f frames -> length f = k) -> forall i m p, 4 * (p + 1) <= m -> p < length (concat frames) ->
  nth_error (concat (jp_frames junk k (length frames) i {| s_rest := firstn m (flat_map f32_bytes (concat frames)); s_good := true |})) p = nth_error (concat frames) p.
Proof.
  intros H. induction frames as [|f frames IH]; intros i m p Hp Lp; [cbn in Lp; lia|]. cbn [length jp_frames concat]. rewrite flat_map_app.
  assert (Lf : length f = k) by (apply H; left; reflexivity).
  destruct (fread_prefix (4 * k) (flat_map f32_bytes f) (flat_map f32_bytes (concat frames)) m (map (junk i) (seq 0 (4 * k)))) as (c & s & -> & Lc & Ec & Sg & _).
  { rewrite flat_bytes_length, Lf. reflexivity. } { rewrite map_length, seq_length. reflexivity. }
  cbn [concat]. assert (Lfc : length (floats_of c) = k) by (apply floats_of_length, Lc).
  destruct (Nat.lt_ge_cases p k) as [Hk|Hk].
  - rewrite !nth_error_app1 by lia. rewrite (floats_agree c (flat_map f32_bytes f) (Nat.min m (4 * k)) p Ec) by lia. rewrite floats_of_bytes. reflexivity.
  - rewrite !nth_error_app2 by lia. rewrite Sg by lia. rewrite Lfc, Lf. cbn [concat] in Lp. rewrite app_length in Lp. apply IH; [intros g Hg; apply H; right; exact Hg|lia|lia].
Qed.
Lemma load_jp_header junk frames k data : (Z.of_nat k <= floats_max)%Z -> (Z.of_nat frames < 2 ^ 31)%Z ->
  load_jp junk (Some (number frames ++ number k ++ data)) = Ok (jp_frames junk k frames 0 {| s_rest := data; s_good := true |}).
Proof.
  intros Hk Hn. destruct (header frames k data) as (H1 & H2 & H3 & H4). unfold load_jp. rewrite H1, H2, H3, H4.
  destruct (Nat.ltb_spec (16 + length data) 16) as [C|_]; [lia|]. unfold floats_max in *. rewrite !signed_nat by lia.
  destruct (Z.ltb_spec (Z.of_nat k) 0) as [C|_]; [lia|]. destruct (Z.ltb_spec (Z.of_nat frames) 0) as [C|_]; [lia|].
  unfold frames_max. destruct (Z.ltb_spec (2 ^ 59 - 1) (Z.of_nat frames)) as [C|_]; [lia|]. destruct (Z.ltb_spec (2 ^ 61 - 1) (Z.of_nat k)) as [C|_]; [lia|]. cbn [orb].
  destruct (Z.leb_spec (2 ^ 31) (Z.of_nat frames)) as [C|_]; [lia|]. rewrite !Nat2Z.id. reflexivity.
Qed.

(** C122: a file of joint parameters is loaded as it is, whatever follows the data. *)
Theorem joint_params_file_loaded junk k frames tail : (forall f, In f frames -> length f = k) ->
  (Z.of_nat k <= 2 ^ 61 - 1)%Z -> (Z.of_nat (length frames) < 2 ^ 31)%Z ->
  load_jp junk (Some (jp_file k frames ++ tail)) = Ok frames.
Proof.
  intros H Hk Hn. unfold jp_file. rewrite <- !app_assoc. rewrite load_jp_header by assumption. f_equal. apply jp_frames_good, H.
Qed.
Print Assumptions joint_params_file_loaded.

(** C122: and nothing else is loaded: if there are as many bytes as the result needs, the result is what the file says. *)
Theorem joint_params_file_only junk bytes frames : load_jp junk (Some bytes) = Ok frames ->
  exists k, (forall f, In f frames -> length f = k) /\
    (16 + 4 * (length frames * k) <= length bytes -> exists tail, bytes = jp_file k frames ++ tail).
Proof.
  unfold load_jp. destruct (Nat.ltb_spec (length bytes) 16) as [C|L16]; [discriminate|]. cbv zeta.
  set (x := of_le (firstn 8 bytes)). set (y := of_le (firstn 8 (skipn 8 bytes))).
  assert (L1 : length (firstn 8 bytes) = 8) by (rewrite firstn_length; lia). assert (L2 : length (firstn 8 (skipn 8 bytes)) = 8) by (rewrite firstn_length, skipn_length; lia).
  assert (Bx : (x < 2 ^ 64)%N) by (unfold x; pose proof (of_le_bound (firstn 8 bytes)) as B; rewrite L1 in B; exact B).
  assert (By : (y < 2 ^ 64)%N) by (unfold y; pose proof (of_le_bound (firstn 8 (skipn 8 bytes))) as B; rewrite L2 in B; exact B).
  destruct (Z.ltb_spec (signed64 y) 0) as [C|Hy]; [discriminate|].
  destruct (Z.ltb_spec (signed64 x) 0) as [C|Hx]; [discriminate|]. destruct (Z.ltb_spec frames_max (signed64 x)); [discriminate|].
  destruct (Z.ltb_spec floats_max (signed64 y)); [discriminate|]. cbn [orb]. destruct (Z.leb_spec (2 ^ 31) (signed64 x)); [discriminate|].
  intros E. apply (f_equal (fun o => match o with Ok z => z | _ => [] end)) in E. cbv beta iota in E. set (n := Z.to_nat (signed64 x)) in *. set (k := Z.to_nat (signed64 y)) in *.
  destruct (jp_frames_sizes junk k n 0 {| s_rest := skipn 16 bytes; s_good := true |}) as (A & B). rewrite E in A, B.
  exists k. split; [exact B|]. rewrite A. intros Hl.
  assert (Ex : N.of_nat n = x) by (unfold n; unfold signed64 in *; destruct (N.ltb_spec x (2 ^ 63)); lia).
  assert (Ey : N.of_nat k = y) by (unfold k; unfold signed64 in *; destruct (N.ltb_spec y (2 ^ 63)); lia).
  assert (Nx : number n = firstn 8 bytes) by (unfold number; rewrite Ex; unfold x; rewrite <- L1 at 1; apply le_bytes_of).
  assert (Ny : number k = firstn 8 (skipn 8 bytes)) by (unfold number; rewrite Ey; unfold y; rewrite <- L2 at 1; apply le_bytes_of).
  assert (D : exists data tail, skipn 16 bytes = flat_map f32_bytes (concat data) ++ tail /\ length data = n /\ forall f, In f data -> length f = k).
  { set (d := firstn (4 * (n * k)) (skipn 16 bytes)). assert (Ld : length d = 4 * (n * k)) by (unfold d; rewrite firstn_length, skipn_length; lia).
    assert (Lf : length (floats_of d) = k * n) by (apply floats_of_length; lia).
    exists (columns k n (floats_of d)), (skipn (4 * (n * k)) (skipn 16 bytes)). destruct (columns_data k n (floats_of d) Lf) as (C1 & C2). rewrite C1, columns_length.
    split; [|split; [reflexivity|exact C2]].
    assert (FB : forall m l, length l = 4 * m -> flat_map f32_bytes (floats_of l) = l).
    { clear. induction m as [|m IH]; intros l Hl; [destruct l; [reflexivity|discriminate]|]. destruct l as [|a [|b [|c [|e r]]]]; cbn in Hl; try lia. cbn. rewrite IH by lia. reflexivity. }
    rewrite (FB (n * k) d Ld). unfold d. symmetry. apply firstn_skipn. }
  destruct D as (data & tail & Es & Ln & Lk). exists tail. rewrite Es, <- Ln, jp_frames_good in E by exact Lk. subst frames. unfold jp_file. rewrite Ln, Nx, Ny, <- !app_assoc, <- Es.
  rewrite <- (firstn_skipn 8 bytes) at 1. f_equal. rewrite <- (firstn_skipn 8 (skipn 8 bytes)) at 1. f_equal.
  clear - L16. do 8 (destruct bytes as [|? bytes]; [cbn in L16; lia|]). reflexivity.
Qed.
Print Assumptions joint_params_file_only.

(** C122: of a file that has been cut behind the two counts, what is there is loaded in its place and the sizes are right. Partial: the rest is what was in memory. *)
Theorem joint_params_file_cut_partial junk k frames m : (forall f, In f frames -> length f = k) ->
  (Z.of_nat k <= 2 ^ 61 - 1)%Z -> (Z.of_nat (length frames) < 2 ^ 31)%Z -> 16 <= m ->
  exists frames', load_jp junk (Some (firstn m (jp_file k frames))) = Ok frames' /\ length frames' = length frames /\ (forall f, In f frames' -> length f = k) /\
    forall p, 16 + 4 * (p + 1) <= m -> p < length (concat frames) -> nth_error (concat frames') p = nth_error (concat frames) p.
Proof.
  intros H Hk Hn Hm. unfold jp_file.
  assert (firstn m (number (length frames) ++ number k ++ flat_map f32_bytes (concat frames)) =
    number (length frames) ++ number k ++ firstn (m - 16) (flat_map f32_bytes (concat frames))) as ->.
  { pose proof (number_length (length frames)). pose proof (number_length k). rewrite !firstn_app, !firstn_all2 by lia. do 3 f_equal. lia. }
  rewrite load_jp_header by assumption. eexists. split; [reflexivity|]. destruct (jp_frames_sizes junk k (length frames) 0 {| s_rest := firstn (m - 16) (flat_map f32_bytes (concat frames)); s_good := true |}) as (A & B).
  split; [exact A|]. split; [exact B|]. intros p Hp Lp. apply jp_frames_cut; [exact H|lia|exact Lp].
Qed.
Print Assumptions joint_params_file_cut_partial.

(** Finding: a file that does not exist or is too short is not noticed: the counts are read from uninitialised memory. *)
Theorem joint_params_missing_file_refuted : forall junk file, (forall bytes, file = Some bytes -> length bytes < 16) -> load_jp junk file = UB.
Proof. intros junk [b|] H; [|reflexivity]. unfold load_jp. destruct (Nat.ltb_spec (length b) 16) as [_|C]; [reflexivity|]. specialize (H b eq_refl). lia. Qed.
Print Assumptions joint_params_missing_file_refuted.

(** Finding: a cut file is not noticed: the missing values are whatever was in memory. *)
Theorem joint_params_cut_file_refuted : exists file junk junk' a b,
  load_jp junk (Some file) = Ok a /\ load_jp junk' (Some file) = Ok b /\ a <> b.
Proof.
  exists (number 1 ++ number 1), (fun _ _ => "0"%char), (fun _ _ => "1"%char). eexists _, _.
  rewrite <- (app_nil_r (number 1)) at 2. rewrite load_jp_header by (unfold floats_max; lia).
  rewrite <- (app_nil_r (number 1)) at 2. rewrite load_jp_header by (unfold floats_max; lia).
  split; [reflexivity|]. split; [reflexivity|]. discriminate.
Qed.
Print Assumptions joint_params_cut_file_refuted.

(** Finding: the frame counter is an int: two billion frames, all there, overflow it. *)
Theorem joint_params_many_frames_refuted : forall junk k frames, Z.of_nat (length frames) = (2 ^ 31)%Z -> (Z.of_nat k <= 2 ^ 61 - 1)%Z ->
  load_jp junk (Some (jp_file k frames)) = UB.
Proof.
  intros junk k frames Hn Hk. unfold jp_file. destruct (header (length frames) k (flat_map f32_bytes (concat frames))) as (H1 & H2 & H3 & H4). unfold load_jp. rewrite H1, H2, H4.
  destruct (Nat.ltb_spec (16 + length (flat_map f32_bytes (concat frames))) 16) as [C|_]; [lia|]. rewrite !signed_nat by lia. rewrite Hn.
  destruct (Z.ltb_spec (Z.of_nat k) 0) as [C|_]; [lia|]. unfold floats_max. destruct (Z.ltb_spec (2 ^ 61 - 1) (Z.of_nat k)) as [C|_]; [lia|]. reflexivity.
Qed.
Print Assumptions joint_params_many_frames_refuted.

Definition exjp : list (list f32) := [[("a", "b", "c", "d")%char; ("e", "f", "g", "h")%char]; [f32_zero; ("a", "a", "a", "a")%char]; [f32_zero; f32_zero]].
Example exjp_loaded : forall junk tail, load_jp junk (Some (jp_file 2 exjp ++ tail)) = Ok exjp.
Proof. intros. apply joint_params_file_loaded; [intros f [<-|[<-|[<-|[]]]]; reflexivity|lia|cbn; lia]. Qed.

(** ** Pose shapes *)

Lemma index_of_some (l : list str) : forall n j, index_of n l = Some j -> nth_error l j = Some n /\ forall i, i < j -> nth_error l i <> Some n.
Proof.
  induction l as [|m l IH]; intros n j E; [discriminate|]. cbn [index_of] in E. destruct (list_eq_dec ascii_dec m n) as [->|Hm].
  - injection E as <-. split; [reflexivity|]. intros i Hi. lia.
  - destruct (index_of n l) as [k|] eqn:Ek; [|discriminate]. injection E as <-. destruct (IH n k Ek) as (A & B). split; [exact A|].
    intros [|i] Hi; [cbn; congruence|]. apply B. lia.
Qed.
Lemma index_of_in (l : list str) n : In n l -> exists j, index_of n l = Some j.
Proof.
  induction l as [|m l IH]; intros H; [destruct H|]. cbn [index_of]. destruct (list_eq_dec ascii_dec m n) as [->|Hm]; [exists 0; reflexivity|].
  destruct H as [->|H]; [contradiction|]. destruct (IH H) as [j ->]. exists (S j). reflexivity.
Qed.
Lemma index_of_first {Q} (joints : list (str * Q)) n j : index_of n (map fst joints) = Some j -> first_named joints n j.
Proof.
  intros E. destruct (index_of_some _ _ _ E) as (A & B). rewrite nth_error_map in A. split.
  - destruct (nth_error joints j) as [[m q]|]; [|discriminate]. injection A as ->. exists q. reflexivity.
  - intros i q Hi C. apply (B i Hi). rewrite nth_error_map, C. reflexivity.
Qed.
Lemma map_joints_ok {Q} (joints : list (str * Q)) names : (forall n, In n names -> In n (map fst joints)) ->
  exists jm, map_joints (map fst joints) names = Ok jm /\ Forall2 (first_named joints) names jm.
Proof.
  induction names as [|n names IH]; intros H; [exists []; split; [reflexivity|constructor]|].
  destruct IH as (jm & E & F); [intros m Hm; apply H; right; exact Hm|]. destruct (index_of_in _ n (H n (or_introl eq_refl))) as (j & Ej).
  exists (j :: jm). cbn [map_joints]. rewrite Ej, E. split; [reflexivity|]. constructor; [apply index_of_first, Ej|exact F].
Qed.
Lemma map_joints_inv {Q} (joints : list (str * Q)) names : forall jm, map_joints (map fst joints) names = Ok jm -> Forall2 (first_named joints) names jm.
Proof.
  induction names as [|n names IH]; intros jm E; [injection E as <-; constructor|]. cbn [map_joints] in E.
  destruct (index_of n (map fst joints)) as [j|] eqn:Ej; [|discriminate]. destruct (map_joints _ names) as [r| | | |]; try discriminate. injection E as <-.
  constructor; [apply index_of_first, Ej|apply IH; reflexivity].
Qed.
Lemma load_string_put old n r : (N.of_nat (length n) <= string_max)%N ->
  load_string old {| s_rest := named n ++ r; s_good := true |} = Ok (n, number (length n), {| s_rest := r; s_good := true |}).
Proof.
  intros H. unfold load_string, named. rewrite <- app_assoc. rewrite fread_exact by apply number_length. unfold string_max in *.
  rewrite of_number by lia. destruct (N.ltb_spec (2 ^ 63 - 1) (N.of_nat (length n))) as [C|_]; [lia|]. rewrite Nat2N.id.
  rewrite fread_exact by reflexivity. reflexivity.
Qed.
Lemma load_strings_put names : forall old r, (forall n, In n names -> (N.of_nat (length n) <= string_max)%N) ->
  load_strings (length names) old {| s_rest := flat_map named names ++ r; s_good := true |} = Ok (names, {| s_rest := r; s_good := true |}).
Proof.
  induction names as [|n names IH]; intros old r H; [reflexivity|]. cbn [length load_strings flat_map]. rewrite <- app_assoc.
  rewrite load_string_put by (apply H; left; reflexivity). cbn [obind fst snd]. rewrite IH by (intros m Hm; apply H; right; exact Hm). reflexivity.
Qed.

(** C122: a file of a pose shape is loaded as it is: the base joint and its pre-rotation, the joints by their names, the mean shape added to the mesh, the columns. *)
Theorem pose_shape_file_loaded {Q} fadd junk1 junk2 (joints : list (str * Q)) vertices base names mean cols tail :
  vertices <> [] -> length mean = length vertices -> (forall c, In c cols -> length c = length vertices) -> length cols = 4 * length names ->
  In base (map fst joints) -> (forall n, In n names -> In n (map fst joints)) ->
  (forall n, In n (base :: names) -> (N.of_nat (length n) <= 2 ^ 63 - 1)%N) -> (N.of_nat (length names) <= 2 ^ 58 - 1)%N ->
  (N.of_nat (length vertices) * N.of_nat (length cols) <= 2 ^ 61 - 1)%N -> (N.of_nat (length vertices) < 2 ^ 64)%N ->
  exists b q jm, first_named joints base b /\ nth_error joints b = Some (base, q) /\ Forall2 (first_named joints) names jm /\
    load_pose_shape fadd junk1 junk2 joints (Some vertices) (Some (shape_file (length vertices) base names mean cols ++ tail)) =
      Ok (Some (PShape Q b q jm (map (fun ab => fadd (fst ab) (snd ab)) (combine mean vertices)) (Mtx (length vertices) cols))).
Proof.
  intros Hv Lm Hc Lc Hb Hn Hs Hj Hm Hr. destruct (index_of_in _ base Hb) as (b & Eb). destruct (index_of_first _ _ _ Eb) as ((q & Eq) & FB).
  destruct (map_joints_ok joints names Hn) as (jm & Ejm & Fjm). exists b, q, jm. split; [split; [exists q; exact Eq|exact FB]|]. split; [exact Eq|]. split; [exact Fjm|].
  unfold shape_file. rewrite <- !app_assoc.
  destruct (header (length vertices) (length names) (named base ++ flat_map named names ++ flat_map f32_bytes mean ++ flat_map f32_bytes (concat cols) ++ tail)) as (H1 & H2 & H3 & H4).
  unfold load_pose_shape. rewrite H1, H2, H3, H4.
  match goal with |- context [if ?x <? 16 then _ else _] => destruct (Nat.ltb_spec x 16) as [C|_]; [lia|] end.
  rewrite !of_number by lia. rewrite N.eqb_refl. cbn [negb]. rewrite load_string_put by (apply Hs; left; reflexivity). cbn [obind fst snd]. rewrite Eb.
  rewrite (rd_some _ _ _ Eq). cbn [obind]. unfold strings_max. destruct (N.ltb_spec (2 ^ 58 - 1) (N.of_nat (length names))) as [C|_]; [lia|].
  rewrite !Nat2N.id. rewrite load_strings_put by (intros n In1; apply Hs; right; exact In1). cbn [obind fst snd].
  rewrite fread_exact by (rewrite flat_bytes_length, Lm; reflexivity). destruct (Nat.eqb_spec (length vertices) 0) as [C|_]; [destruct vertices; [contradiction|discriminate]|].
  replace (N.of_nat (length names) * 4)%N with (N.of_nat (length cols)) by lia. unfold floats_max.
  destruct (N.ltb_spec (Z.to_N (2 ^ 61 - 1)) (N.of_nat (length vertices) * N.of_nat (length cols))) as [C|_]; [lia|].
  rewrite <- Nat2N.inj_mul, !Nat2N.id. rewrite fread_exact by (rewrite flat_bytes_length, (concat_length (length vertices)) by exact Hc; reflexivity).
  rewrite Ejm. cbn [obind]. rewrite !floats_of_bytes, columns_concat by exact Hc. reflexivity.
Qed.
Print Assumptions pose_shape_file_loaded.

(** A loaded shape, with the values of its floats. *)
Definition loaded_shape (value : f32 -> R) (p : pshape quat) : pose_shape :=
  PS (pf_joint p) (pf_rot p) (pf_map p) (map value (pf_base p))
    (BM (x_rows (pf_vectors p)) (length (x_cols (pf_vectors p))) (fun r c => value (nth r (nth c (x_cols (pf_vectors p)) []) f32_zero))).

Lemma load_strings_length n : forall old s x, load_strings n old s = Ok x -> length (fst x) = n.
Proof.
  induction n as [|n IH]; intros old s x E; [injection E as <-; reflexivity|]. cbn [load_strings] in E. destruct (load_string old s) as [y| | | |]; try discriminate. cbn [obind] in E.
  destruct (load_strings n _ _) as [z| | | |] eqn:Ez; try discriminate. injection E as <-. cbn. f_equal. apply (IH _ _ _ Ez).
Qed.
Lemma forall2_length {A B} (P : A -> B -> Prop) l m : Forall2 P l m -> length l = length m.
Proof. induction 1; cbn; congruence. Qed.

(** C122: whatever file it was loaded from, even a damaged one, a shape fits the character: its joints exist, sizes agree, and it can be computed in every pose. *)
Theorem loaded_pose_shape_fits fadd junk1 junk2 (joints : list (str * quat)) vertices bytes p :
  load_pose_shape fadd junk1 junk2 joints (Some vertices) (Some bytes) = Ok (Some p) ->
  pf_joint p < length joints /\ (exists n, nth_error joints (pf_joint p) = Some (n, pf_rot p)) /\ (forall j, In j (pf_map p) -> j < length joints) /\
  length (pf_base p) = length vertices /\ x_rows (pf_vectors p) = length vertices /\ length (x_cols (pf_vectors p)) = 4 * length (pf_map p) /\
  (forall c, In c (x_cols (pf_vectors p)) -> length c = length vertices) /\
  forall value rots, length rots = length joints -> length vertices mod 3 = 0 -> exists out, pose_compute (loaded_shape value p) rots = Ok out.
Proof.
  intros E. unfold load_pose_shape in E. destruct (length bytes <? 16); [discriminate|]. cbv zeta in E.
  set (rows := of_le (firstn 8 bytes)) in E. set (nj := of_le (firstn 8 (skipn 8 bytes))) in E.
  destruct (N.eqb_spec (N.of_nat (length vertices)) rows) as [Er|]; [|discriminate]. cbn [negb] in E.
  destruct (load_string _ _) as [x| | | |]; try discriminate. cbn [obind] in E. destruct (index_of _ _) as [b|] eqn:Eb; [|discriminate].
  destruct (rd joints b) as [[bn bq]| | | |] eqn:Ebq; try discriminate. cbn [obind snd] in E. destruct (_ <? nj)%N; [discriminate|].
  destruct (load_strings _ _ _) as [ns| | | |] eqn:Ens; try discriminate. cbn [obind] in E. apply load_strings_length in Ens.
  destruct (fread _ _ (snd ns)) as [b1 s1] eqn:E1. assert (L1 : length b1 = 4 * N.to_nat rows).
  { change b1 with (fst (b1, s1)). rewrite <- E1. apply fread_length. rewrite map_length, seq_length. reflexivity. }
  destruct (Nat.eqb_spec (length vertices) 0) as [|NZ]; [discriminate|]. destruct (_ <? rows * (nj * 4))%N; [discriminate|].
  destruct (fread _ _ s1) as [b2 s2] eqn:E2. assert (L2 : length b2 = 4 * N.to_nat (rows * (nj * 4))).
  { change b2 with (fst (b2, s2)). rewrite <- E2. apply fread_length. rewrite map_length, seq_length. reflexivity. }
  destruct (map_joints _ _) as [jm| | | |] eqn:Ejm; try discriminate. cbn [obind] in E.
  assert (p = PShape quat b bq jm (map (fun ab => fadd (fst ab) (snd ab)) (combine (floats_of b1) vertices)) (Mtx (N.to_nat rows) (columns (N.to_nat rows) (N.to_nat (nj * 4)) (floats_of b2)))) as -> by congruence.
  clear E. cbn [pf_joint pf_rot pf_map pf_base pf_vectors x_rows x_cols].
  apply rd_inv in Ebq. assert (Lb : b < length joints) by (apply (nth_error_len _ _ _ Ebq)).
  apply map_joints_inv in Ejm. assert (Ljm : length jm = N.to_nat nj) by (rewrite <- (forall2_length _ _ _ Ejm); exact Ens).
  assert (R : N.to_nat rows = length vertices) by lia.
  assert (Jin : forall j, In j jm -> j < length joints).
  { clear - Ejm. induction Ejm as [|n j nms jm [[q H] _] F IH]; intros j' Hj; [destruct Hj|]. destruct Hj as [<-|Hj]; [apply (nth_error_len _ _ _ H)|exact (IH j' Hj)]. }
  assert (LF : length (floats_of b1) = length vertices) by (rewrite <- R; apply floats_of_length, L1).
  assert (LB : length (map (fun ab => fadd (fst ab) (snd ab)) (combine (floats_of b1) vertices)) = length vertices) by (rewrite map_length, combine_length, LF; apply Nat.min_id).
  assert (LC : length (columns (N.to_nat rows) (N.to_nat (nj * 4)) (floats_of b2)) = 4 * length jm) by (rewrite columns_length, Ljm; lia).
  split; [exact Lb|]. split; [exists bn; exact Ebq|]. split; [exact Jin|]. split; [exact LB|]. split; [exact R|]. split; [exact LC|]. split.
  - intros c Hc. rewrite <- R. apply (columns_data (N.to_nat rows) (N.to_nat (nj * 4)) (floats_of b2)); [|exact Hc]. apply floats_of_length. rewrite L2, N2Nat.inj_mul. reflexivity.
  - intros value rots Lr H3. destruct (nth_error_lt rots b) as [r Hr]; [lia|].
    assert (Q : exists qs, Forall2 (fun jid q => exists w, nth_error rots jid = Some w /\ q = qmul (qmul bq (qinv r)) w) jm qs).
    { clear - Jin Lr. induction jm as [|j jm IH]; [exists []; constructor|]. destruct IH as [qs F]; [intros k Hk; apply Jin; right; exact Hk|].
      destruct (nth_error_lt rots j) as [w Hw]; [rewrite Lr; apply Jin; left; reflexivity|]. eexists (_ :: qs). constructor; [exists w; split; [exact Hw|reflexivity]|exact F]. }
    destruct Q as [qs F]. unfold loaded_shape. cbn [pf_joint pf_rot pf_map pf_base pf_vectors x_rows x_cols].
    match goal with |- exists out, pose_compute ?P rots = Ok out => destruct (pose_shape_correct P rots r qs Hr F) as (out & Eo & _) end; cbn [ps_vectors ps_base bm_rows bm_cols ps_map].
    + rewrite map_length, LB. exact R.
    + exact LC.
    + rewrite map_length, LB. exists (length vertices / 3 - 1). pose proof (Nat.div_mod_eq (length vertices) 3). lia.
    + exists out. exact Eo.
Qed.
Print Assumptions loaded_pose_shape_fits.

(** Finding: a cut file passes all checks: the mean shape and the columns are whatever was in memory. Without a file the result is a shape whose base joint was
    never set. *)
Theorem pose_shape_cut_file_refuted : exists (joints : list (str * quat)) vertices file junk junk' p p',
  load_pose_shape (fun a _ => a) junk junk joints (Some vertices) (Some file) = Ok (Some p) /\
  load_pose_shape (fun a _ => a) junk' junk' joints (Some vertices) (Some file) = Ok (Some p') /\ pf_base p <> pf_base p' /\
  load_pose_shape (fun a _ => a) junk junk joints (Some vertices) None = Ok None.
Proof.
  exists [(["h"]%char, qid)], [f32_zero; f32_zero; f32_zero], (number 3 ++ number 0 ++ named ["h"]%char), (fun _ => "0"%char), (fun _ => "1"%char).
  eexists _, _. split; [vm_compute; reflexivity|]. split; [vm_compute; reflexivity|]. split; [discriminate|reflexivity].
Qed.
Print Assumptions pose_shape_cut_file_refuted.

(** Finding: a file for another mesh, or with a joint the character does not have, ends in an assertion; release builds go on and read outside of the skeleton. *)
Theorem pose_shape_other_character_refuted : exists (joints : list (str * quat)) vertices file,
  forall fadd junk1 junk2, load_pose_shape fadd junk1 junk2 joints (Some vertices) (Some file) = CheckFail.
Proof.
  exists [(["h"]%char, qid)], [f32_zero; f32_zero; f32_zero], (shape_file 3 ["h"]%char [["k"]%char] [f32_zero; f32_zero; f32_zero] (repeat [f32_zero; f32_zero; f32_zero] 4)).
  intros. vm_compute. reflexivity.
Qed.
Print Assumptions pose_shape_other_character_refuted.

(** A file that meets the hypotheses, with two joints of the same name. *)
Example exps_loaded : exists b q jm, first_named [(["h"], 1); (["k"], 2); (["k"], 3)]%char ["k"]%char b /\
  load_pose_shape (fun a _ => a) (fun _ => "0"%char) (fun _ => "0"%char) [(["h"], 1); (["k"], 2); (["k"], 3)]%char (Some [f32_zero; f32_zero; f32_zero])
    (Some (shape_file 3 ["k"]%char [["h"]; ["k"]]%char [f32_zero; f32_zero; f32_zero] (repeat [("a", "b", "c", "d")%char; f32_zero; f32_zero] 8))) = Ok (Some (PShape nat b q jm [f32_zero; f32_zero; f32_zero]
      (Mtx 3 (repeat [("a", "b", "c", "d")%char; f32_zero; f32_zero] 8)))) /\ b = 1 /\ q = 2 /\ jm = [0; 1].
Proof.
  exists 1, 2, [0; 1]. split; [|split; [vm_compute; reflexivity|auto]]. split; [exists 2; reflexivity|]. intros [|i] q Hi; [discriminate|lia].
Qed.
