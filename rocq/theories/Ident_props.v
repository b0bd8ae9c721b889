(** C47: adding and removing identity parameters. *)

From Coq Require Import List Arith Lia ZArith QArith Floats.SpecFloat.
From Verif Require Import Prelude Loops Ident_model Ident_spec.
Import ListNotations.
Local Open Scope outcome_scope.
Local Open Scope nat_scope.

Section Rows.
Context {X : Type}.
Implicit Types (m : list (list X)) (identity : list X).

Lemma change_rows_ok (f : X -> X -> X) s identity m : length m <= set_size -> length m <= length identity ->
  exists m', change_rows f s identity m = Ok m' /\ length m' = length m /\
    forall i row, nth_error m i = Some row ->
      exists v, nth_error identity i = Some v /\ nth_error m' i = Some (if s i then map (fun x => f x v) row else row).
Proof.
  intros L1 L2. unfold change_rows.
  destruct (ofold_seq_inv (fun i (m : list (list X)) =>
    let* b := set_test s i in
    if b then
      let* row := rd m i in
      match row with
      | [] => Ok m
      | _ => let* v := rd identity i in wr m i (map (fun x => f x v) row)
      end
    else Ok m)
    (fun k (m' : list (list X)) => length m' = length m /\
      (forall i, k <= i -> nth_error m' i = nth_error m i) /\
      forall i row, i < k -> nth_error m i = Some row ->
       exists v, nth_error identity i = Some v /\ nth_error m' i = Some (if s i then map (fun x => f x v) row else row)) (length m) m)
    as (m' & E & L & _ & H).
  - split; [reflexivity|]. split; [auto|]. intros; lia.
  - intros k m1 Hk (Lm & Same & Done). unfold set_test. destruct (Nat.ltb_spec k set_size); [|lia]. cbn [obind].
    destruct (nth_error_lt m k Hk) as [row Er]. destruct (nth_error_lt identity k) as [v Ev]; [lia|].
    assert (Ek : nth_error m1 k = Some row) by (rewrite Same by lia; exact Er).
    assert (Keep : (if s k then map (fun x => f x v) row else row) = row -> exists s', Ok m1 = Ok s' /\
      (length s' = length m /\ (forall i, S k <= i -> nth_error s' i = nth_error m i) /\
      forall i row, i < S k -> nth_error m i = Some row ->
       exists v, nth_error identity i = Some v /\ nth_error s' i = Some (if s i then map (fun x => f x v) row else row))).
    { intros Hrow. exists m1. split; [reflexivity|]. split; [exact Lm|]. split; [intros i Hi; apply Same; lia|].
      intros i r Hi E. destruct (Nat.eq_dec i k) as [->|Ne]; [|apply Done; [lia|exact E]].
      assert (r = row) as -> by congruence. exists v. rewrite Hrow. auto. }
    destruct (s k) eqn:Sk; [|apply Keep; reflexivity].
    rewrite (rd_some _ _ _ Ek). cbn [obind]. destruct row as [|x row]; [apply Keep; reflexivity|].
    rewrite (rd_some _ _ _ Ev). cbn [obind]. clear Keep.
    destruct (wr_ok m1 k (map (fun x => f x v) (x :: row))) as (m2 & E2 & L2' & At & Other); [lia|].
    exists m2. split; [exact E2|]. split; [congruence|]. split; [intros i Hi; rewrite Other by lia; apply Same; lia|].
    intros i r Hi E. destruct (Nat.eq_dec i k) as [->|Ne].
    + assert (r = x :: row) as -> by congruence. exists v. rewrite Sk. auto.
    + rewrite Other by exact Ne. apply Done; [lia|exact E].
  - exists m'. split; [exact E|]. split; [exact L|]. intros i row Hr. apply H; [|exact Hr]. apply nth_error_len in Hr. exact Hr.
Qed.

(** Both functions change exactly the rows in the set, each entry by the value of the identity; for
    any numbers, in particular floats. *)
Theorem identity_rows (add sub : X -> X -> X) s identity m : length m <= set_size -> length m <= length identity ->
  (exists m', fill_identity add s identity m = Ok m' /\ rows_changed add s identity m m') /\
  (exists m', remove_identity sub s identity m = Ok m' /\ rows_changed sub s identity m m').
Proof.
  intros L1 L2. assert (G : forall f : X -> X -> X, exists m', change_rows f s identity m = Ok m' /\ rows_changed f s identity m m').
  { intros f. destruct (change_rows_ok f s identity m L1 L2) as (m' & E & L & H). exists m'. split; [exact E|]. split; [exact L|].
    intros i row Hr. destruct (H i row Hr) as (v & Ev & Em). exists (if s i then map (fun x => f x v) row else row).
    split; [exact Em|]. split; [destruct (s i); [apply map_length|reflexivity]|]. intros j x Hx.
    destruct (s i); [|exact Hx]. exists v. split; [exact Ev|]. rewrite nth_error_map, Hx. reflexivity. }
  split; apply G.
Qed.

(** Removing undoes adding, for numbers whose subtraction undoes addition. *)
Theorem identity_round_trip_partial (add sub : X -> X -> X) s identity m :
  (forall x y, sub (add x y) y = x) -> length m <= set_size -> length m <= length identity ->
  exists m', fill_identity add s identity m = Ok m' /\ remove_identity sub s identity m' = Ok m.
Proof.
  intros Inv L1 L2. destruct (change_rows_ok add s identity m L1 L2) as (m1 & E1 & N1 & H1).
  destruct (change_rows_ok sub s identity m1) as (m2 & E2 & N2 & H2); [lia|lia|].
  exists m1. split; [exact E1|]. unfold remove_identity. rewrite E2. f_equal. apply nth_error_ext_len; [lia|].
  intros i Hi. destruct (nth_error_lt m i) as [row Er]; [lia|]. destruct (H1 i row Er) as (v & Ev & Em).
  destruct (H2 i _ Em) as (v' & Ev' & Em'). assert (v' = v) as -> by congruence.
  rewrite Em', Er. f_equal. destruct (s i); [|reflexivity]. rewrite map_map. rewrite <- (map_id row) at 2. apply map_ext. intros x. apply Inv.
Qed.

(** A motion with more rows than a parameter set has bits makes both functions throw. *)
Theorem identity_too_many_rows (f : X -> X -> X) s identity m : set_size < length m -> length m <= length identity ->
  change_rows f s identity m = Throw.
Proof.
  intros L1 L2. unfold change_rows. replace (length m) with (set_size + (length m - set_size)) at 1 by lia.
  rewrite seq_app, ofold_app.
  destruct (ofold_seq_inv (fun i (m : list (list X)) =>
    let* b := set_test s i in
    if b then
      let* row := rd m i in
      match row with
      | [] => Ok m
      | _ => let* v := rd identity i in wr m i (map (fun x => f x v) row)
      end
    else Ok m) (fun _ m' => length m' = length m) set_size m) as (m' & E & L); [reflexivity| |].
  - intros k m1 Hk Lm. unfold set_test. destruct (Nat.ltb_spec k set_size); [|lia]. cbn [obind].
    destruct (s k); [|eauto]. destruct (nth_error_lt m1 k) as [row Er]; [lia|]. rewrite (rd_some _ _ _ Er). cbn [obind].
    destruct row as [|x row]; [eauto|]. destruct (nth_error_lt identity k) as [v Ev]; [lia|]. rewrite (rd_some _ _ _ Ev). cbn [obind].
    destruct (wr_ok m1 k (map (fun x => f x v) (x :: row))) as (m2 & E2 & L2' & _); [lia|]. exists m2. split; [exact E2|congruence].
  - rewrite E. cbn [obind]. destruct (length m - set_size) as [|r] eqn:Z; [lia|]. cbn [seq ofold]. reflexivity.
Qed.

(** extractParameters keeps the parameters in the set and sets the others to zero. *)
Theorem extract_parameters_correct (zero : X) s p : length p <= set_size ->
  exists p', extract_parameters zero s p = Ok p' /\ length p' = length p /\
    forall i x, nth_error p i = Some x -> nth_error p' i = Some (if s i then x else zero).
Proof.
  intros L. unfold extract_parameters.
  destruct (ofold_seq_inv (fun i (p : list X) => let* b := set_at s i in if b then Ok p else wr p i zero)
    (fun k p' => length p' = length p /\ (forall i, k <= i -> nth_error p' i = nth_error p i) /\
       forall i x, i < k -> nth_error p i = Some x -> nth_error p' i = Some (if s i then x else zero)) (length p) p) as (p' & E & L' & _ & H).
  - split; [reflexivity|]. split; [auto|]. intros; lia.
  - intros k p1 Hk (Lp & Same & Done). unfold set_at. destruct (Nat.ltb_spec k set_size); [|lia]. cbn [obind].
    destruct (s k) eqn:Sk.
    + exists p1. split; [reflexivity|]. split; [exact Lp|]. split; [intros i Hi; apply Same; lia|].
      intros i x Hi E. destruct (Nat.eq_dec i k) as [->|Ne]; [rewrite Sk, Same by lia; exact E|apply Done; [lia|exact E]].
    + destruct (wr_ok p1 k zero) as (p2 & E2 & L2 & At & Other); [lia|]. exists p2. split; [exact E2|].
      split; [congruence|]. split; [intros i Hi; rewrite Other by lia; apply Same; lia|].
      intros i x Hi E. destruct (Nat.eq_dec i k) as [->|Ne]; [rewrite Sk; exact At|rewrite Other by exact Ne; apply Done; [lia|exact E]].
  - exists p'. split; [exact E|]. split; [exact L'|]. intros i x Hx. apply H; [|exact Hx]. apply nth_error_len in Hx. exact Hx.
Qed.
End Rows.
Print Assumptions identity_rows.
Print Assumptions identity_round_trip_partial.
Print Assumptions identity_too_many_rows.
Print Assumptions extract_parameters_correct.

(** In 32-bit floats addition rounds, so that the round trip loses the motion: here 1 and the
    identity 2^30. *)
Definition f32_add := SFadd 24 128.
Definition f32_sub := SFsub 24 128.
Theorem identity_round_trip_refuted : exists s identity m m' m'',
  fill_identity f32_add s identity m = Ok m' /\ remove_identity f32_sub s identity m' = Ok m'' /\ m'' <> m /\
  m'' = [[S754_zero false]].
Proof.
  exists (fun _ => true), [S754_finite false (2 ^ 23) 7], [[S754_finite false (2 ^ 23) (-23)]].
  do 2 eexists. split; [vm_compute; reflexivity|]. split; [vm_compute; reflexivity|]. split; [discriminate|reflexivity].
Qed.
Print Assumptions identity_round_trip_refuted.

Example identity_case :
  (forall x y, Z.sub (Z.add x y) y = x) /\
  fill_identity Z.add (fun i => Nat.eqb i 1) [10; 20]%Z [[1; 2]; [3; 4]]%Z = Ok [[1; 2]; [23; 24]]%Z /\
  remove_identity Z.sub (fun i => Nat.eqb i 1) [10; 20]%Z [[1; 2]; [23; 24]]%Z = Ok [[1; 2]; [3; 4]]%Z /\
  extract_parameters 0%Z (fun i => Nat.eqb i 1) [5; 6; 7]%Z = Ok [0; 6; 0]%Z.
Proof. split; [intros; lia|]. repeat split; vm_compute; reflexivity. Qed.
