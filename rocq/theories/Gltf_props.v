(** C36, C37, C75: arrays in glTF documents. *)

From Coq Require Import List Arith Ascii NArith ZArith Lia Bool.
From Verif Require Import Prelude Loops Bytes Gltf_model Gltf_spec Gltf_proofs.
Import ListNotations.
Local Open Scope outcome_scope.

(** C36. Any history of appended arrays on any document: each call succeeds and returns the next
    index, every array is read back, and so is everything that could be read before. The document
    stays below 4 GiB. *)
Theorem accessor_history_round_trip_partial d calls :
  (forall k, In k calls -> call_ok k) ->
  (N.of_nat (main_size d + list_sum (map call_bytes calls)) < 2 ^ 32)%N ->
  exists d' ids, creates d calls = Ok (d', ids) /\
    ids = seq (length (d_accs d)) (length calls) /\
    (forall i e data al no, nth_error calls i = Some (e, data, al, no) ->
      copy_accessor (esize e) d' (length (d_accs d) + i) = Ok data) /\
    (forall size j r, copy_accessor size d j = Ok r -> copy_accessor size d' j = Ok r).
Proof.
  intros H B. destruct (creates_ok calls d H B) as (d' & ids & E & I & _ & R). exists d', ids.
  split; [exact E|]. split; [exact I|]. split.
  - intros i e data al no Ei. exact (R i _ Ei).
  - intros size j r. exact (creates_frame calls d d' ids size j r E).
Qed.
Print Assumptions accessor_history_round_trip_partial.

(** The aligned reader returns the same, and the same as the plain one. *)
Theorem aligned_reader_agrees size d id r :
  copy_accessor size d id = Ok r -> copy_aligned size d id = Ok r.
Proof.
  unfold copy_aligned, copy_accessor. destruct (rd (d_accs d) id) as [a| | | |]; try discriminate. cbn [obind].
  destruct (N.eqb_spec (a_count a) 0) as [E|E]; [|auto].
  destruct (negb (_ =? Z.of_nat size)%Z); [auto|]. rewrite E. cbn [N.to_nat seq omapl].
  destruct (rd (d_views d) (a_view a)) as [v| | | |]; try discriminate. cbn [obind].
  destruct (rd (d_buffers d) (v_buffer v)) as [b| | | |]; try discriminate. cbn [obind].
  destruct (subspan _ _ _) as [s| | | |]; try discriminate. cbn [obind].
  destruct (subspan_from _ _) as [s2| | | |]; try discriminate. auto.
Qed.
Print Assumptions aligned_reader_agrees.

(** Appending never disturbs what was there, whatever the sizes. *)
Theorem accessor_append_keeps_others d e data align norm d' id size j r :
  create_accessor d e data align norm = Ok (d', id) ->
  copy_accessor size d j = Ok r -> copy_accessor size d' j = Ok r.
Proof. exact (create_frame d e data align norm d' id size j r). Qed.
Print Assumptions accessor_append_keeps_others.

(** Beyond 4 GiB the stored offset wraps and other bytes come back. *)
Theorem accessor_round_trip_refuted :
  exists d data d' id, (forall x, In x data -> length x = esize EFloat) /\
    create_accessor d EFloat data false false = Ok (d', id) /\
    exists r, copy_accessor (esize EFloat) d' id = Ok r /\ r <> data.
Proof.
  assert (exists n, N.of_nat n = 2 ^ 32)%N as [n Hn] by (exists (N.to_nat (2 ^ 32)); apply N2Nat.id).
  set (d := {| d_buffers := [{| b_data := repeat Ascii.zero n; b_length := 0 |}]; d_views := []; d_accs := [] |}).
  destruct (create_ok d EFloat [repeat "x"%char 4] false false I) as (c & t & b' & bs' & Es & E & _ & EB).
  cbn [set_type] in Es. injection Es as <- <-. cbn [d_buffers d] in EB. destruct EB as [EB _].
  exists d, [repeat "x"%char 4]. do 2 eexists. split; [|split; [exact E|]].
  { intros x [<-|[]]. reflexivity. }
  eexists. split.
  - eapply copy_valid; [reflexivity|reflexivity|reflexivity|reflexivity|cbn; lia| | |];
      cbn [v_offset v_length a_offset a_count v_stride]; unfold main_size; cbn [d_buffers d b_data andb].
    + rewrite repeat_length. unfold u32. rewrite Hn. rewrite EB. cbn [b_data].
      rewrite app_length, repeat_length. cbn. lia.
    + cbn. lia.
    + cbn. intros i Hi. assert (i = 0)%N as -> by lia. cbn. lia.
  - cbn [v_offset v_length a_offset a_count v_stride]. unfold main_size. cbn [d_buffers d b_data]. rewrite EB. cbn [b_data].
    rewrite repeat_length. unfold u32 at 1 2. rewrite Hn. change (2 ^ 32 mod 2 ^ 32)%N with 0%N.
    change (N.to_nat (N.of_nat (length [repeat "x"%char 4]) mod 2 ^ 32)) with 1. cbn [seq map].
    change (N.to_nat (0 + 0 + N.of_nat 0 * _)) with 0. cbn [skipn].
    destruct n as [|[|n]]; [discriminate|discriminate|]. discriminate.
Qed.
Print Assumptions accessor_round_trip_refuted.

(** The layout of an appended array: it starts where the buffer ended, its elements are one stride
    apart and do not overlap, with alignment the stride is a multiple of four, and the array ends
    where the buffer ends now. *)
Theorem accessor_layout d e data align norm d' id :
  supported e -> (forall x, In x data -> length x = esize e) -> data <> [] ->
  (N.of_nat (main_size d + length data * stored_size e align) < 2 ^ 32)%N ->
  create_accessor d e data align norm = Ok (d', id) ->
  exists a v, nth_error (d_accs d') id = Some a /\ nth_error (d_views d') (a_view a) = Some v /\
    v_buffer v = 0 /\ a_offset a = 0%N /\ a_count a = N.of_nat (length data) /\ a_norm a = norm /\
    v_offset v = N.of_nat (main_size d) /\
    (N.of_nat (esize e) <= stride_of v (esize e))%N /\
    (align = true -> (stride_of v (esize e) mod 4 = 0)%N) /\
    (v_length v = N.of_nat (length data) * stride_of v (esize e))%N /\
    (v_offset v + v_length v = N.of_nat (main_size d'))%N.
Proof.
  intros S Hx Ne B H. pose proof (main_size_create _ _ _ _ _ _ _ S Hx H) as M.
  destruct (create_ok d e data align norm S) as (c & t & b' & bs' & _ & E & _ & _).
  rewrite E in H. apply Ok_inj in H.
  pose proof (f_equal fst H) as Hd'. pose proof (f_equal snd H) as Hid. cbn [fst snd] in Hd', Hid.
  rewrite M. subst d' id. clear H M E.
  do 2 eexists. cbn [d_accs d_views]. split; [apply nth_error_snoc|]. split; [apply nth_error_snoc|].
  cbn [v_buffer a_offset a_count a_norm v_offset v_length].
  rewrite elem_step_stored.
  set (n := stored_size e align) in *.
  assert (0 < length data) as P by (destruct data; [congruence|cbn; lia]).
  assert (esize e <= n) as Ge by (unfold n; rewrite <- elem_step_stored; apply elem_step_ge).
  destruct (set_type_ok e S) as (_ & _ & _ & _ & Pos).
  assert (n <= length data * n) by nia. assert (length data <= length data * n) by nia.
  assert (stride_of {| v_buffer := 0; v_offset := u32 (main_size d); v_length := u32 (length data * n);
      v_stride := if align && negb (esize e mod 4 =? 0) then u32 n else 0%N |} (esize e) = N.of_nat n) as ->.
  { unfold stride_of. cbn [v_stride]. destruct (align && negb (esize e mod 4 =? 0)) eqn:Al.
    - rewrite u32_small by lia. destruct (N.eqb_spec (N.of_nat n) 0); [lia|reflexivity].
    - cbn [N.eqb]. f_equal. unfold n. rewrite <- elem_step_stored. unfold elem_step. rewrite Al. reflexivity. }
  rewrite !u32_small by lia. repeat split; try lia.
  intros ->. unfold n, stored_size. rewrite Nat2N.inj_mul. change (N.of_nat 4) with 4%N.
  rewrite N.mul_comm. apply N.mod_mul. discriminate.
Qed.
Print Assumptions accessor_layout.

(** C75. glTF asks that an array of 4-byte components starts at a multiple of four. From a buffer
    that ends at such an offset, arrays start there and leave it so when each call asks for
    alignment or has elements of a multiple of four bytes. *)
Theorem array_starts_aligned_partial d e data align norm d' id :
  supported e -> (forall x, In x data -> length x = esize e) -> data <> [] ->
  (N.of_nat (main_size d + length data * stored_size e align) < 2 ^ 32)%N ->
  main_size d mod 4 = 0 -> (align = true \/ esize e mod 4 = 0) ->
  create_accessor d e data align norm = Ok (d', id) ->
  main_size d' mod 4 = 0 /\
  exists a v, nth_error (d_accs d') id = Some a /\ nth_error (d_views d') (a_view a) = Some v /\
    ((v_offset v + a_offset a) mod 4 = 0)%N.
Proof.
  intros S Hx Ne B M4 A H. split.
  - rewrite (main_size_create _ _ _ _ _ _ _ S Hx H), elem_step_stored.
    assert (exists k, stored_size e align = 4 * k) as [k Hk].
    { unfold stored_size. destruct A as [->|A]; [eauto|]. destruct align; [eauto|]. exists (esize e / 4).
      pose proof (Nat.div_mod (esize e) 4). lia. }
    rewrite Hk. pose proof (Nat.div_mod (main_size d) 4 ltac:(lia)) as D. rewrite M4 in D.
    rewrite D. replace (4 * (main_size d / 4) + 0 + length data * (4 * k)) with ((main_size d / 4 + length data * k) * 4) by lia.
    apply Nat.mod_mul. lia.
  - destruct (accessor_layout _ _ _ _ _ _ _ S Hx Ne B H) as (a & v & E1 & E2 & _ & E3 & _ & _ & E4 & _).
    exists a, v. repeat split; auto. rewrite E3, E4, N.add_0_r.
    pose proof (Nat.div_mod (main_size d) 4 ltac:(lia)) as D. rewrite M4, Nat.add_0_r in D. rewrite D, Nat2N.inj_mul.
    rewrite N.mul_comm. apply N.mod_mul. discriminate.
Qed.
Print Assumptions array_starts_aligned_partial.

Definition empty : doc := {| d_buffers := []; d_views := []; d_accs := [] |}.

(** Without alignment a float array can start anywhere. *)
Theorem array_starts_aligned_refuted :
  exists calls d' ids a v, (forall k, In k calls -> call_ok k) /\ creates empty calls = Ok (d', ids) /\
    nth_error (d_accs d') 1 = Some a /\ a_comp a = CFloat /\ nth_error (d_views d') (a_view a) = Some v /\
    ((v_offset v + a_offset a) mod 4 <> 0)%N.
Proof.
  exists [(EVec3b, [["a"; "b"; "c"]%char], false, true); (EFloat, [["a"; "b"; "c"; "d"]%char], false, false)].
  do 4 eexists. split; [|split; [vm_compute; reflexivity|split; [reflexivity|split; [reflexivity|split; [reflexivity|discriminate]]]]].
  intros k [<-|[<-|[]]]; (split; [exact I|]); intros x [<-|[]]; reflexivity.
Qed.
Print Assumptions array_starts_aligned_refuted.

(** C37. Reading an accessor of any document whose three indices are in range: bytes outside the
    buffer are read exactly when an element starts inside its view and ends behind the buffer; the
    start is checked, the end is not. *)
Theorem accessor_overread_iff size d id a v b :
  nth_error (d_accs d) id = Some a -> nth_error (d_views d) (a_view a) = Some v ->
  nth_error (d_buffers d) (v_buffer v) = Some b ->
  let L := N.of_nat (length (b_data b)) in
  (copy_accessor size d id = UB <->
   ((type_size (a_type a) * comp_size (a_comp a)) mod 2 ^ 64 = Z.of_nat size)%Z /\
   (v_offset v + v_length v <= L)%N /\ (a_offset a <= v_length v)%N /\
   exists i, (N.of_nat i < a_count a)%N /\
     (a_offset a + N.of_nat i * stride_of v size < v_length v)%N /\
     (L < v_offset v + a_offset a + N.of_nat i * stride_of v size + N.of_nat size)%N).
Proof. exact (copy_ub_iff size d id a v b). Qed.
Print Assumptions accessor_overread_iff.

(** When every element ends inside the view, as glTF requires, the result is these bytes. *)
Theorem accessor_read_in_bounds_partial size d id a v b :
  nth_error (d_accs d) id = Some a -> nth_error (d_views d) (a_view a) = Some v ->
  nth_error (d_buffers d) (v_buffer v) = Some b ->
  ((type_size (a_type a) * comp_size (a_comp a)) mod 2 ^ 64 = Z.of_nat size)%Z -> 0 < size ->
  (v_offset v + v_length v <= N.of_nat (length (b_data b)))%N -> (a_offset a <= v_length v)%N ->
  (forall i, (i < a_count a)%N -> (a_offset a + i * stride_of v size + N.of_nat size <= v_length v)%N) ->
  copy_accessor size d id = Ok (map (fun i =>
    firstn size (skipn (N.to_nat (v_offset v + a_offset a + N.of_nat i * stride_of v size)) (b_data b)))
    (seq 0 (N.to_nat (a_count a)))).
Proof. exact (copy_valid size d id a v b). Qed.
Print Assumptions accessor_read_in_bounds_partial.

(** A document that makes the code read behind its buffer, and one with an index out of range. *)
Theorem accessor_read_in_bounds_refuted :
  exists d d', copy_accessor 12 d 0 = UB /\ copy_accessor 12 d' 0 = UB /\
    exists a v b, nth_error (d_accs d) 0 = Some a /\ nth_error (d_views d) (a_view a) = Some v /\
      nth_error (d_buffers d) (v_buffer v) = Some b.
Proof.
  exists {| d_buffers := [{| b_data := repeat "a"%char 13; b_length := 13 |}];
            d_views := [{| v_buffer := 0; v_offset := 0; v_length := 13; v_stride := 0 |}];
            d_accs := [{| a_view := 0; a_offset := 0; a_count := 2; a_comp := CFloat; a_type := TVec3; a_norm := false |}] |}.
  exists {| d_buffers := []; d_views := [];
            d_accs := [{| a_view := 0; a_offset := 0; a_count := 2; a_comp := CFloat; a_type := TVec3; a_norm := false |}] |}.
  split; [reflexivity|]. split; [reflexivity|]. do 3 eexists. repeat split.
Qed.
Print Assumptions accessor_read_in_bounds_refuted.

(** Colours with alignment, then positions, on a document with a buffer. *)
Example accessor_case :
  let d := {| d_buffers := [{| b_data := repeat "z"%char 5; b_length := 5 |}]; d_views := []; d_accs := [] |} in
  let calls := [(EVec3b, [["a"; "b"; "c"]; ["d"; "e"; "f"]]%char, true, true);
                (EFloat, [["1"; "2"; "3"; "4"]; ["5"; "6"; "7"; "8"]]%char, false, false)] in
  (forall k, In k calls -> call_ok k) /\
  (N.of_nat (main_size d + list_sum (map call_bytes calls)) < 2 ^ 32)%N /\
  exists d', creates d calls = Ok (d', [0; 1]) /\ main_size d' = 21.
Proof.
  cbv zeta. split; [|split; [reflexivity|]].
  - intros k [<-|[<-|[]]]; (split; [exact I|]); intros x [<-|[<-|[]]]; reflexivity.
  - eexists. split; vm_compute; reflexivity.
Qed.
