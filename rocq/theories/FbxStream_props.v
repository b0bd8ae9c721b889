(** C38 and C76: the in-memory FBX stream. *)

From Coq Require Import List Arith Ascii ZArith Lia Bool.
From Verif Require Import Prelude FbxStream_model FbxStream_spec.
Import ListNotations.
Local Open Scope Z_scope.

(** The state of the code and the ideal stream. [clear] tells whether the error code has a value
    yet. *)
Definition agrees (data : list ascii) (s : fbx) (i : stream) : Prop :=
  f_buf s = data /\ f_pos s = Z.of_nat (at_ i) /\ (at_ i <= length data)%nat /\
  (f_err s = Some (if failed i then 1 else 0) \/ (f_err s = None /\ failed i = false)).

Lemma checked_ok z : - 2 ^ 63 <= z < 2 ^ 63 -> checked z = Ok z.
Proof.
  intros H. unfold checked, int64.
  rewrite (proj2 (Z.leb_le _ _)), (proj2 (Z.ltb_lt _ _)) by lia. reflexivity.
Qed.

Lemma step_agrees modern data s i o : Z.of_nat (length data) < 2 ^ 63 -> agrees data s i ->
  legal modern (length data) (at_ i) o ->
  exists s', step modern s o = Ok (fst (ideal data i o), s') /\ agrees data s' (snd (ideal data i o)) /\
    (f_err s <> None \/ o = ClearError -> f_err s' <> None).
Proof.
  intros HL (B & P & L & E) G.
  assert (f_len s = Z.of_nat (length data)) as FL by (unfold f_len; rewrite B; reflexivity).
  destruct o as [| | |n|n|off [| |]|p|]; cbn [step ideal fst snd legal] in *.
  1,2: eexists; split; [reflexivity|]; repeat split; cbn; auto; try lia; intros [|]; congruence.
  - eexists; split; [reflexivity|]. repeat split; auto. intros [|]; congruence.
  - eexists; split; [reflexivity|]. repeat split; cbn; auto. discriminate.
  - unfold read. rewrite FL, P, checked_ok by lia. cbn [obind].
    set (rem := Z.of_nat (length data) - Z.of_nat (at_ i)).
    assert ((if modern then rem mod 2 ^ 64 <? n else rem <? n) = (Z.of_nat (length data) <? Z.of_nat (at_ i) + n)) as ->.
    { unfold rem. assert ((Z.of_nat (length data) - Z.of_nat (at_ i)) mod 2 ^ 64 = Z.of_nat (length data) - Z.of_nat (at_ i)) as -> by (apply Z.mod_small; lia).
      destruct modern; destruct (Z.ltb_spec (Z.of_nat (length data) - Z.of_nat (at_ i)) n);
      destruct (Z.ltb_spec (Z.of_nat (length data)) (Z.of_nat (at_ i) + n)); auto; lia. }
    destruct (Z.ltb_spec (Z.of_nat (length data)) (Z.of_nat (at_ i) + n)) as [R|R]; cbn [fst snd].
    + eexists; split; [reflexivity|]. repeat split; cbn; auto. discriminate.
    + assert (0 <= n < 2 ^ 64) as Hn by (destruct modern; lia).
      assert ((if modern then n else n mod 2 ^ 64) = n) as -> by (destruct modern; [reflexivity|apply Z.mod_small; lia]).
      cbv zeta. destruct (Z.eqb_spec n 0) as [->|N0].
      * exists s. split; [reflexivity|]. repeat split; cbn; auto; try lia. intros [|]; congruence.
      * rewrite (proj2 (Z.leb_le _ _)), (proj2 (Z.leb_le _ _)) by lia. cbn [andb].
        rewrite Nat2Z.id, B. eexists; split; [reflexivity|]. repeat split; cbn; auto; try lia. intros [|]; congruence.
  - eexists; split; [reflexivity|]. repeat split; cbn; auto; try lia. intros [|]; congruence.
  - unfold seek. rewrite P, checked_ok by lia. eexists; split; [reflexivity|]. repeat split; cbn; auto; try lia. intros [|]; congruence.
  - unfold seek. rewrite FL, checked_ok by lia. eexists; split; [reflexivity|]. repeat split; cbn; auto; try lia. intros [|]; congruence.
  - eexists; split; [reflexivity|]. repeat split; cbn; auto; try lia. intros [|]; congruence.
  - eexists; split; [reflexivity|]. repeat split; cbn; auto. discriminate.
Qed.

Lemma run_agrees modern data l : forall s i, Z.of_nat (length data) < 2 ^ 63 -> agrees data s i ->
  all_legal modern data i l ->
  exists s', run modern s l = Ok (fst (ideal_run data i l), s') /\ agrees data s' (snd (ideal_run data i l)) /\
    (f_err s <> None \/ In ClearError l -> f_err s' <> None).
Proof.
  induction l as [|o l IH]; intros s i HL A G; cbn [run ideal_run].
  - exists s. split; [reflexivity|]. split; [exact A|]. intros [H|[]]. exact H.
  - destruct G as [G1 G2]. destruct (step_agrees modern data s i o HL A G1) as (s1 & E & A1 & N1). rewrite E.
    cbn [obind fst snd]. destruct (IH s1 _ HL A1 G2) as (s2 & E2 & A2 & N2). rewrite E2. cbn [obind fst snd].
    destruct (ideal data i o) as [x i1]. cbn [fst snd] in *. destruct (ideal_run data i1 l) as [y i2].
    exists s2. split; [reflexivity|]. split; [exact A2|]. intros [H|[H|H]]; apply N2; auto.
Qed.

(** C38. Any history of calls that moves the place only inside the data: nothing undefined happens,
    each call returns what the ideal stream returns, and the place is that of the ideal stream. *)
Theorem memory_stream_reads_data_partial modern data l :
  Z.of_nat (length data) < 2 ^ 63 ->
  all_legal modern data {| at_ := 0; failed := false |} l ->
  exists s', run modern (construct data) l = Ok (fst (ideal_run data {| at_ := 0; failed := false |} l), s') /\
    f_buf s' = data /\
    f_pos s' = Z.of_nat (at_ (snd (ideal_run data {| at_ := 0; failed := false |} l))) /\
    0 <= f_pos s' <= Z.of_nat (length data).
Proof.
  intros HL G. destruct (run_agrees modern data l (construct data) {| at_ := 0; failed := false |} HL) as (s' & E & (B & P & L & _) & _); auto.
  - repeat split; cbn; auto. lia.
  - exists s'. repeat split; auto; lia.
Qed.
Print Assumptions memory_stream_reads_data_partial.

(** A single read in full: it touches memory outside the data exactly when the place is outside and
    the request passes the only check there is. *)
Theorem memory_stream_read_outside_iff s n :
  Z.of_nat (length (f_buf s)) < 2 ^ 62 -> - 2 ^ 62 <= f_pos s < 2 ^ 62 -> 0 <= n < 2 ^ 64 ->
  (read true s n = UB <->
   0 < n /\ ((f_pos s < 0 /\ n <= Z.of_nat (length (f_buf s)) - f_pos s) \/
             (Z.of_nat (length (f_buf s)) < f_pos s /\ n <= 2 ^ 64 + Z.of_nat (length (f_buf s)) - f_pos s))).
Proof.
  intros HL HP Hn. unfold read, f_len. set (L := Z.of_nat (length (f_buf s))) in *.
  assert (0 <= L) by (unfold L; lia).
  rewrite checked_ok by lia. cbn [obind]. cbv iota.
  assert ((L - f_pos s) mod 2 ^ 64 = if f_pos s <=? L then L - f_pos s else 2 ^ 64 + L - f_pos s) as ->.
  { destruct (Z.leb_spec (f_pos s) L).
    - apply Z.mod_small. lia.
    - rewrite <- (Z.mod_small (2 ^ 64 + L - f_pos s) (2 ^ 64)) by lia.
      replace (2 ^ 64 + L - f_pos s) with (L - f_pos s + 1 * 2 ^ 64) by lia. rewrite Z.mod_add by lia. reflexivity. }
  destruct (Z.leb_spec (f_pos s) L) as [A|A].
  - destruct (Z.ltb_spec (L - f_pos s) n) as [R|R]; [split; [discriminate|]; lia|].
    destruct (Z.eqb_spec n 0) as [->|N0]; [split; [discriminate|]; lia|].
    destruct (Z.leb_spec 0 (f_pos s)) as [P0|P0]; cbn [andb].
    + rewrite (proj2 (Z.leb_le _ _)) by lia. split; [discriminate|]; lia.
    + split; auto. lia.
  - destruct (Z.ltb_spec (2 ^ 64 + L - f_pos s) n) as [R|R]; [split; [discriminate|]; lia|].
    destruct (Z.eqb_spec n 0) as [->|N0]; [split; [discriminate|]; lia|].
    rewrite (proj2 (Z.leb_gt (f_pos s + n) L)) by lia. rewrite andb_false_r. split; auto. lia.
Qed.
Print Assumptions memory_stream_read_outside_iff.

(** So the claim for every history fails: after moving the place before the data, or behind it in
    the modern branch, a read leaves the data; with the older interface a negative count does. *)
Theorem memory_stream_in_bounds_refuted :
  (exists data l, run true (construct data) l = UB /\ l = [Open; SetPosition (-1); Read 1]) /\
  (exists data l, run true (construct data) l = UB /\ l = [Open; Seek 5 Begin; Read 1]) /\
  (exists data l, run false (construct data) l = UB /\ l = [Open; Seek (-1) Current; Read 1]) /\
  (exists data l, run false (construct data) l = UB /\ l = [Open; Read (-1)]).
Proof.
  split; [|split; [|split]]; exists ["a"; "b"; "c"]%char; eexists; (split; [|reflexivity]); reflexivity.
Qed.
Print Assumptions memory_stream_in_bounds_refuted.

(** C76. In a history with a ClearError, the error code at the end tells whether a read was refused
    or a write attempted since the last one. *)
Theorem memory_stream_error_partial modern data l :
  Z.of_nat (length data) < 2 ^ 63 ->
  all_legal modern data {| at_ := 0; failed := false |} l -> In ClearError l ->
  exists r s', run modern (construct data) l = Ok (r, s') /\
    f_err s' = Some (if failed (snd (ideal_run data {| at_ := 0; failed := false |} l)) then 1 else 0).
Proof.
  intros HL G I.
  destruct (run_agrees modern data l (construct data) {| at_ := 0; failed := false |} HL) as (s' & E & (_ & _ & _ & X) & N); auto.
  { repeat split; cbn; auto. lia. }
  do 2 eexists. split; [exact E|]. destruct X as [X|[X _]]; [exact X|]. exfalso. exact (N (or_intror I) X).
Qed.
Print Assumptions memory_stream_error_partial.

(** Without it the code is indeterminate: the constructor does not set it. *)
Theorem memory_stream_error_refuted modern data :
  exists s, run modern (construct data) [Open] = Ok ([[]], s) /\ f_err s = None.
Proof. eexists. split; reflexivity. Qed.
Print Assumptions memory_stream_error_refuted.

(** Reading to the end, a refused read, moving back and reading again. *)
Example memory_stream_case :
  let data := ["a"; "b"; "c"]%char in
  let l := [Open; ClearError; Read 2; Read 2; Seek 1 End_; Read 1; Seek (-3) Current; Read 3]%Z in
  all_legal true data {| at_ := 0; failed := false |} l /\
  ideal_run data {| at_ := 0; failed := false |} l =
    ([[]; []; ["a"; "b"]; []; []; ["c"]; []; ["a"; "b"; "c"]]%char, {| at_ := 3; failed := true |}).
Proof. cbv zeta. split; [vm_compute; intuition discriminate|reflexivity]. Qed.
