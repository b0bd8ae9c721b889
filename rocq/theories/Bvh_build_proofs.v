(** The build loop makes a hierarchy. *)

From Coq Require Import List Arith NArith QArith Bool Lia Lqa Permutation.
From Verif Require Import Prelude Loops Box_model Box_spec Box_proofs Bvh_model Bvh_spec.
Import ListNotations.
Local Open Scope outcome_scope.
Local Open Scope nat_scope.

Lemma rd_mid {A} (a : list A) x b : rd (a ++ x :: b) (length a) = Ok x.
Proof. unfold rd. rewrite nth_error_app2, Nat.sub_diag by lia. reflexivity. Qed.
Lemma wr_mid {A} (a : list A) x b y : wr (a ++ x :: b) (length a) y = Ok (a ++ y :: b).
Proof.
  unfold wr. replace (upd (a ++ x :: b) (length a) y) with (Some (a ++ y :: b)); [reflexivity|].
  induction a as [|c a IH]; [reflexivity|]. cbn. rewrite <- IH. reflexivity.
Qed.

(** ** Boxes of ranges *)

Lemma tight_one b : tight b [b].
Proof.
  split; [intros c [<-|[]]; apply inside_refl|]. intros d. split; exists b; split; try reflexivity; left; reflexivity.
Qed.

Lemma tight_extend b seg c : tight b seg -> tight (extend b c) (seg ++ [c]).
Proof.
  intros (C & T). split.
  - intros x I. apply in_app_or in I. destruct I as [I|[<-|[]]].
    + eapply inside_trans; [apply C; exact I|apply inside_extend_l].
    + apply inside_extend_r.
  - intros d. destruct (T d) as ((x & I & E) & (y & J & F)). cbn [extend lo hi]. rewrite !at_make. split.
    + destruct (qmin_cases (at3 (lo b) d) (at3 (lo c) d)) as [(-> & _)|(-> & _)].
      * exists x. split; [apply in_or_app; auto|exact E].
      * exists c. split; [apply in_or_app; right; left; reflexivity|reflexivity].
    + destruct (qmax_cases (at3 (hi b) d) (at3 (hi c) d)) as [(-> & _)|(-> & _)].
      * exists y. split; [apply in_or_app; auto|exact F].
      * exists c. split; [apply in_or_app; right; left; reflexivity|reflexivity].
Qed.

Lemma tight_fold todo : forall b done, tight b done -> tight (fold_left extend todo b) (done ++ todo).
Proof.
  induction todo as [|c todo IH]; intros b done T; [rewrite app_nil_r; exact T|].
  cbn [fold_left]. replace (done ++ c :: todo) with ((done ++ [c]) ++ todo) by (rewrite <- app_assoc; reflexivity).
  apply IH. apply tight_extend. exact T.
Qed.

Lemma tight_perm b s s' : Permutation s s' -> tight b s -> tight b s'.
Proof.
  intros P (C & T). split.
  - intros c I. apply C. eapply Permutation_in; [apply Permutation_sym; exact P|exact I].
  - intros d. destruct (T d) as ((x & I & E) & (y & J & F)).
    split; [exists x|exists y]; (split; [eapply Permutation_in; eassumption|assumption]).
Qed.

Lemma bounds_loop pre post todo : forall done b c,
  exists c', ofold (fun p bb => let* q := rd (pre ++ (done ++ todo) ++ post) p in Ok (extend (fst bb) q, extend_point (snd bb) (center q)))
    (seq (length (pre ++ done)) (length todo)) (b, c) = Ok (fold_left extend todo b, c').
Proof.
  induction todo as [|q todo IH]; intros done b c; [exists c; reflexivity|].
  cbn [length seq ofold]. 
  replace (pre ++ (done ++ q :: todo) ++ post) with ((pre ++ done) ++ q :: todo ++ post) by (rewrite <- !app_assoc; reflexivity).
  rewrite rd_mid. cbn [obind fst snd fold_left].
  destruct (IH (done ++ [q]) (extend b q) (extend_point c (center q))) as (c' & E). exists c'. rewrite <- E. f_equal.
  - rewrite <- !app_assoc. reflexivity.
  - f_equal. rewrite !app_length. cbn. lia.
Qed.

Lemma bounds_ok pre seg post : 1 <= length seg ->
  exists b c, bounds (pre ++ seg ++ post) (length pre) (length pre + length seg) = Ok (b, c) /\ tight b seg.
Proof.
  intros L. destruct seg as [|b0 seg]; [cbn in L; lia|]. unfold bounds.
  cbn [app]. rewrite rd_mid. cbn [obind].
  destruct (bounds_loop pre post seg [b0] b0 (box_of_point (center b0))) as (c & E).
  exists (fold_left extend seg b0), c. split.
  - rewrite <- E. cbn [app]. f_equal. f_equal; [rewrite app_length; reflexivity|cbn [length]; lia].
  - change (b0 :: seg) with ([b0] ++ seg). apply tight_fold, tight_one.
Qed.

(** ** Partition *)

Lemma partition_loop d c pre post todo : forall lo hi,
  exists lo' hi', ofold (partition_step d c) (seq (length (pre ++ lo ++ hi)) (length todo)) (pre ++ lo ++ hi ++ todo ++ post, length (pre ++ lo))
    = Ok (pre ++ lo' ++ hi' ++ post, length (pre ++ lo')) /\ Permutation (lo ++ hi ++ todo) (lo' ++ hi').
Proof.
  induction todo as [|q todo IH]; intros lo hi.
  - exists lo, hi. cbn. rewrite app_nil_r. split; reflexivity.
  - cbn [length seq ofold]. unfold partition_step at 1. cbn [fst snd].
    assert (R : rd (pre ++ lo ++ hi ++ (q :: todo) ++ post) (length (pre ++ lo ++ hi)) = Ok q).
    { replace (pre ++ lo ++ hi ++ (q :: todo) ++ post) with ((pre ++ lo ++ hi) ++ q :: todo ++ post) by (rewrite <- !app_assoc; reflexivity).
      apply rd_mid. }
    rewrite R. cbn [obind]. destruct (goes_left d c q).
    + destruct hi as [|h hi].
      * rewrite !app_nil_r, Nat.eqb_refl. cbn [obind].
        destruct (IH (lo ++ [q]) []) as (lo' & hi' & E & P). exists lo', hi'. split.
        -- rewrite <- E. rewrite app_nil_r. f_equal.
           ++ f_equal. rewrite !app_length. cbn. lia.
           ++ f_equal; [rewrite <- !app_assoc; reflexivity|rewrite !app_length; cbn; lia].
        -- rewrite <- P. rewrite <- app_assoc. reflexivity.
      * destruct (Nat.eqb_spec (length (pre ++ lo ++ h :: hi)) (length (pre ++ lo))) as [X|_].
        { exfalso. rewrite !app_length in X. cbn in X. lia. }
        assert (R2 : rd (pre ++ lo ++ (h :: hi) ++ (q :: todo) ++ post) (length (pre ++ lo)) = Ok h).
        { replace (pre ++ lo ++ (h :: hi) ++ (q :: todo) ++ post) with ((pre ++ lo) ++ h :: hi ++ (q :: todo) ++ post)
            by (rewrite <- !app_assoc; reflexivity). apply rd_mid. }
        rewrite R2. cbn [obind].
        assert (W1 : wr (pre ++ lo ++ (h :: hi) ++ (q :: todo) ++ post) (length (pre ++ lo ++ h :: hi)) h =
          Ok ((pre ++ lo) ++ h :: hi ++ h :: todo ++ post)).
        { replace (pre ++ lo ++ (h :: hi) ++ (q :: todo) ++ post) with ((pre ++ lo ++ h :: hi) ++ q :: todo ++ post)
            by (rewrite <- !app_assoc; reflexivity).
          rewrite wr_mid. f_equal. rewrite <- !app_assoc. reflexivity. }
        rewrite W1. cbn [obind]. rewrite wr_mid. cbn [obind].
        destruct (IH (lo ++ [q]) (hi ++ [h])) as (lo' & hi' & E & P). exists lo', hi'. split.
        -- rewrite <- E. f_equal.
           ++ f_equal. rewrite !app_length. cbn. try (rewrite !app_length; cbn). lia.
           ++ f_equal; [rewrite <- !app_assoc; cbn [app]; try rewrite <- !app_assoc; reflexivity|rewrite !app_length; cbn; lia].
        -- rewrite <- P. rewrite <- !app_assoc. cbn [app]. apply Permutation_app_head.
           apply Permutation_trans with (q :: h :: hi ++ todo).
           ++ symmetry. apply Permutation_trans with (h :: q :: hi ++ todo); [apply perm_swap|].
              apply perm_skip. apply Permutation_middle.
           ++ apply perm_skip. apply Permutation_middle.
    + cbn [obind]. destruct (IH lo (hi ++ [q])) as (lo' & hi' & E & P). exists lo', hi'. split.
      * rewrite <- E. f_equal.
        -- f_equal. rewrite !app_length. cbn. lia.
        -- f_equal. rewrite <- !app_assoc. reflexivity.
      * rewrite <- P. rewrite <- !app_assoc. reflexivity.
Qed.

Lemma partition_ok d c pre seg post :
  exists lo hi, ofold (partition_step d c) (seq (length pre) (length seg)) (pre ++ seg ++ post, length pre)
    = Ok (pre ++ lo ++ hi ++ post, length pre + length lo) /\ Permutation seg (lo ++ hi).
Proof.
  destruct (partition_loop d c pre post seg [] []) as (lo & hi & E & P).
  exists lo, hi. cbn [app] in E, P. rewrite !app_nil_r in E. rewrite E, app_length. auto.
Qed.

(** The two halves after the choice of [mid] are not empty. *)
Lemma split_ok d c pre seg post : 2 <= length seg ->
  exists s1 s2 pm, ofold (partition_step d c) (seq (length pre) (length seg)) (pre ++ seg ++ post, length pre) = Ok pm /\
    fst pm = pre ++ s1 ++ s2 ++ post /\ Permutation seg (s1 ++ s2) /\ 1 <= length s1 /\ 1 <= length s2 /\
    (if (snd pm =? length pre) || (snd pm =? length pre + length seg) then length pre + length seg / 2 else snd pm)
      = length pre + length s1.
Proof.
  intros L. destruct (partition_ok d c pre seg post) as (lo & hi & E & P).
  pose proof (Permutation_length P) as PL. rewrite app_length in PL.
  destruct ((length pre + length lo =? length pre) || (length pre + length lo =? length pre + length seg)) eqn:B.
  - set (k := length seg / 2). assert (K : 1 <= k /\ k < length seg).
    { unfold k. split; [apply (Nat.div_le_lower_bound (length seg) 2 1); lia|apply Nat.div_lt; lia]. }
    exists (firstn k (lo ++ hi)), (skipn k (lo ++ hi)), (pre ++ lo ++ hi ++ post, length pre + length lo).
    cbn [fst snd]. rewrite B. split; [exact E|]. split.
    + rewrite (app_assoc (firstn k (lo ++ hi))), firstn_skipn, <- app_assoc. reflexivity.
    + rewrite firstn_skipn, firstn_length, skipn_length, app_length. repeat split; try exact P; lia.
  - apply orb_false_iff in B. destruct B as (B1 & B2). apply Nat.eqb_neq in B1, B2.
    exists lo, hi, (pre ++ lo ++ hi ++ post, length pre + length lo). cbn [fst snd].
    replace (_ || _) with false by (symmetry; apply orb_false_iff; split; apply Nat.eqb_neq; assumption).
    repeat split; try assumption; lia.
Qed.

(** ** Sizes *)

Lemma over_nonempty good cap s seg t : over good cap s seg t -> 1 <= length seg.
Proof. induction 1; [assumption|]. rewrite app_length. lia. Qed.

Lemma size_over good cap s seg t : over good cap s seg t -> size t + 1 <= 2 * length seg.
Proof. induction 1; cbn [size]; [lia|]. rewrite app_length. lia. Qed.

Lemma height_over good cap s seg t : over good cap s seg t -> height t + 1 <= length seg.
Proof. induction 1; cbn [height]; [lia|]. rewrite app_length. pose proof (over_nonempty _ _ _ _ _ H). pose proof (over_nonempty _ _ _ _ _ H0). lia. Qed.

Lemma flatten_length t : length (flatten t) = size t.
Proof. induction t; cbn; [reflexivity|]. rewrite app_length. lia. Qed.

(** ** The parent *)

Definition set_right (n : node) (r : N) : node :=
  {| n_box := n_box n; n_start := n_start n; n_prims := n_prims n; n_right := r |}.

(** The flat tree after a child at the next place touched its parent. *)
Definition touched (flat : list node) (P : N) : list node :=
  if (P =? kRootParent)%N then flat
  else
    let p := N.to_nat P in
    match nth_error flat p with
    | None => flat
    | Some n =>
      let r := dec32 (n_right n) in
      let r := if (r =? kTouchedTwice)%N then wrap32 (length flat - p) else r in
      firstn p flat ++ set_right n r :: skipn (S p) flat
    end.
Definition valid_parent (flat : list node) (P : N) : Prop := P = kRootParent \/ N.to_nat P < length flat.

Lemma split_at {A} (l : list A) p x : nth_error l p = Some x -> l = firstn p l ++ x :: skipn (S p) l.
Proof.
  revert p. induction l as [|a l IH]; intros [|p] H; try discriminate; cbn in *.
  - congruence.
  - f_equal. apply IH. exact H.
Qed.

Lemma touched_length flat P : length (touched flat P) = length flat.
Proof.
  unfold touched. destruct (P =? kRootParent)%N; [reflexivity|]. destruct (nth_error flat (N.to_nat P)) eqn:E; [|reflexivity].
  apply split_at in E. apply (f_equal (@length node)) in E. rewrite E at 2. rewrite !app_length. reflexivity.
Qed.

Lemma touch_ok flat cur P : valid_parent flat P ->
  touch (flat ++ [cur]) P (length (flat ++ [cur])) = Ok (touched flat P ++ [cur]).
Proof.
  intros V. unfold touch, touched. destruct (N.eqb_spec P kRootParent) as [|N]; [reflexivity|].
  destruct V as [V|V]; [contradiction|].
  destruct (nth_error flat (N.to_nat P)) as [n|] eqn:E; [|apply nth_error_None in E; lia].
  unfold rd. rewrite nth_error_app1 by exact V. rewrite E. cbn [obind].
  rewrite app_length. cbn [length]. replace (length flat + 1 - 1 - N.to_nat P) with (length flat - N.to_nat P) by lia.
  assert (L : length (firstn (N.to_nat P) flat) = N.to_nat P) by (rewrite firstn_length; lia).
  assert (W : forall x, wr (flat ++ [cur]) (N.to_nat P) x =
    Ok ((firstn (N.to_nat P) flat ++ x :: skipn (S (N.to_nat P)) flat) ++ [cur])).
  { intros x. apply split_at in E. rewrite E at 1. rewrite <- !app_assoc. cbn [app]. rewrite <- L at 3. apply wr_mid. }
  apply W.
Qed.

Definition small (n : nat) : Prop := (N.of_nat n < 2 ^ 32 - 4)%N.

Lemma wrap32_small n : small n -> wrap32 n = N.of_nat n.
Proof. unfold small, wrap32. intros H. apply N.mod_small. lia. Qed.

(** The first and the second touch of a node at position [length G]. *)
Lemma touched_first G cur : small (length G) -> n_right cur = kUntouched ->
  touched (G ++ [cur]) (N.of_nat (length G)) = G ++ [set_right cur (kUntouched - 1)].
Proof.
  intros S R. unfold touched. unfold small in S.
  destruct (N.eqb_spec (N.of_nat (length G)) kRootParent) as [E|_]; [unfold kRootParent in E; lia|].
  rewrite Nat2N.id, nth_error_app2, Nat.sub_diag by lia. cbn [nth_error]. rewrite R.
  rewrite firstn_app, firstn_all, Nat.sub_diag. cbn [firstn]. rewrite app_nil_r.
  rewrite skipn_all2 by (rewrite app_length; cbn; lia). reflexivity.
Qed.

Lemma touched_second G cur T : small (length G) -> small (1 + length T) -> n_right cur = (kUntouched - 1)%N ->
  touched (G ++ [cur] ++ T) (N.of_nat (length G)) = G ++ [set_right cur (N.of_nat (1 + length T))] ++ T.
Proof.
  intros S S2 R. unfold touched.
  destruct (N.eqb_spec (N.of_nat (length G)) kRootParent) as [E|_]; [unfold small, kRootParent in *; lia|].
  rewrite Nat2N.id, nth_error_app2, Nat.sub_diag by lia. cbn [nth_error app]. rewrite R.
  rewrite firstn_app, firstn_all, Nat.sub_diag. cbn [firstn]. rewrite app_nil_r.
  replace (dec32 (kUntouched - 1) =? kTouchedTwice)%N with true by reflexivity.
  replace (length (G ++ cur :: T) - length G) with (1 + length T) by (rewrite app_length; cbn; lia).
  rewrite wrap32_small by exact S2. f_equal. f_equal.
  change (cur :: T) with ([cur] ++ T). rewrite app_assoc. rewrite skipn_app.
  rewrite skipn_all2 by (rewrite app_length; cbn; lia). rewrite app_length. cbn [length].
  replace (Datatypes.S (length G) - (length G + 1)) with 0 by lia. reflexivity.
Qed.

(** ** The loop *)

Definition at_entry (F : list node) (prims : list box) (P : N) (s e : nat) (st : list entry) : bstate :=
  {| b_flat := F; b_prims := prims; b_stack := {| e_parent := P; e_start := s; e_end := e |} :: st |}.

Lemma build_entry cap : 1 <= cap -> forall n pre seg post F P st,
  length seg = n -> 1 <= n -> valid_parent F P -> small (length F + 2 * n) ->
  (exists tr seg', Permutation seg seg' /\ over tight cap (length pre) seg' tr /\
     forall f, build_loop cap (size tr + f) (at_entry F (pre ++ seg ++ post) P (length pre) (length pre + n) st) =
       build_loop cap f {| b_flat := touched F P ++ flatten tr; b_prims := pre ++ seg' ++ post; b_stack := st |}) \/
  (128 < length st + n /\ exists k, k <= 2 * n /\
     forall f, build_loop cap (k + f) (at_entry F (pre ++ seg ++ post) P (length pre) (length pre + n) st) = UB).
Proof.
  intros C n. induction n as [n IH] using lt_wf_ind. intros pre seg post F P st L N V S.
  destruct (bounds_ok pre seg post) as (bb & bc & EB & T); [lia|]. rewrite L in EB.
  assert (Step : forall f, build_loop cap (1 + f) (at_entry F (pre ++ seg ++ post) P (length pre) (length pre + n) st) =
    let* st' := build_step cap {| e_parent := P; e_start := length pre; e_end := length pre + n |} F (pre ++ seg ++ post) st in
    build_loop cap f st') by reflexivity.
  unfold build_step in Step. cbn [e_start e_end e_parent] in Step. rewrite EB in Step. cbn [obind fst snd] in Step.
  replace (length pre + n - length pre) with n in Step by lia.
  rewrite touch_ok in Step by exact V. cbn [obind] in Step.
  destruct (Nat.leb_spec n cap) as [Lc|Lc].
  - left. exists (Leaf bb (length pre) (length seg)), seg. split; [reflexivity|]. split.
    + constructor; [lia|lia|exact T].
    + intros f. cbn [size]. rewrite Step. cbn [obind]. rewrite L. reflexivity.
  - set (d := max_dim bc) in Step. set (c := ((1 # 2) * (at3 (lo bc) d + at3 (hi bc) d))%Q) in Step.
    destruct (split_ok d c pre seg post) as (s1 & s2 & pm & EP & Ef & Pm & L1 & L2 & Em); [lia|].
    rewrite L in EP, Em. rewrite EP in Step. cbn [obind] in Step. rewrite Em, Ef in Step.
    pose proof (Permutation_length Pm) as PL. rewrite app_length in PL.
    destruct (Nat.ltb_spec 128 (length st + 2)) as [O|O].
    + right. split; [lia|]. exists 1. split; [lia|]. intros f. rewrite Step. reflexivity.
    + cbn [obind] in Step. rewrite app_length in Step. cbn [length] in Step.
      replace (length F + 1 - 1) with (length F) in Step by lia.
      assert (SF : small (length F)) by (unfold small in *; lia).
      rewrite (wrap32_small _ SF) in Step.
      set (cur := {| n_box := bb; n_start := length pre; n_prims := n; n_right := kUntouched |}) in Step.
      assert (LG : length F = length (touched F P)) by (rewrite touched_length; reflexivity).
      destruct (IH (length s1)) with (pre := pre) (seg := s1) (post := s2 ++ post) (F := touched F P ++ [cur])
        (P := N.of_nat (length F)) (st := {| e_parent := N.of_nat (length F); e_start := length pre + length s1; e_end := length pre + n |} :: st)
        as [(t1 & s1' & P1 & O1 & G1)|(O1 & k & Kb & G1)]; [lia|reflexivity|lia| | | |].
      { right. rewrite Nat2N.id, app_length. cbn. lia. }
      { unfold small in *. rewrite app_length. cbn. lia. }
      * assert (TF : touched (touched F P ++ [cur]) (N.of_nat (length F)) = touched F P ++ [set_right cur (kUntouched - 1)])
          by (rewrite LG; apply touched_first; [rewrite <- LG; exact SF|reflexivity]).
        rewrite TF in G1.
        pose proof (Permutation_length P1) as PL1. pose proof (size_over _ _ _ _ _ O1) as Z1.
        destruct (IH (length s2)) with (pre := pre ++ s1') (seg := s2) (post := post)
          (F := touched F P ++ [set_right cur (kUntouched - 1)] ++ flatten t1)
          (P := N.of_nat (length F)) (st := st)
          as [(t2 & s2' & P2 & O2 & G2)|(O2 & k & Kb & G2)]; [lia|reflexivity|lia| | | |].
        { right. rewrite Nat2N.id, !app_length. cbn. lia. }
        { unfold small in *. rewrite !app_length, flatten_length. cbn. lia. }
        -- left. exists (Node bb (length pre) (length (s1' ++ s2')) t1 t2), (s1' ++ s2').
           pose proof (Permutation_length P2) as PL2.
           assert (PP : Permutation seg (s1' ++ s2')) by (rewrite Pm; apply Permutation_app; assumption).
           split; [exact PP|]. split.
           ++ constructor; [exact O1| | |].
              ** rewrite app_length in O2. exact O2.
              ** rewrite app_length. lia.
              ** eapply tight_perm; eassumption.
           ++ intros f. cbn [size]. replace (1 + size t1 + size t2 + f) with (1 + (size t1 + (size t2 + f))) by lia.
              rewrite Step. unfold at_entry in G1. rewrite G1.
              unfold at_entry in G2. rewrite app_length, <- PL1 in G2.
              replace (length pre + length s1 + length s2) with (length pre + n) in G2 by lia.
              replace (pre ++ s1' ++ s2 ++ post) with ((pre ++ s1') ++ s2 ++ post) by (rewrite <- !app_assoc; reflexivity).
              rewrite <- !app_assoc. rewrite <- !app_assoc in G2. rewrite G2. f_equal. f_equal.
              rewrite LG. cbn [app].
              change (set_right cur (kUntouched - 1) :: flatten t1) with ([set_right cur (kUntouched - 1)] ++ flatten t1).
              rewrite touched_second; [| |rewrite flatten_length; unfold small in *; lia|reflexivity].
              2:{ rewrite <- LG. exact SF. }
              rewrite flatten_length, <- app_assoc. f_equal. cbn [flatten app]. f_equal.
              unfold set_right, cur. cbn [n_box n_start n_prims n_right]. f_equal.
              rewrite app_length. lia.
        -- right. split; [lia|]. exists (1 + (size t1 + k)). split; [lia|]. intros f.
           replace (1 + (size t1 + k) + f) with (1 + (size t1 + (k + f))) by lia.
           rewrite Step. unfold at_entry in G1. rewrite G1.
           unfold at_entry in G2. rewrite app_length, <- PL1 in G2.
           replace (length pre + length s1 + length s2) with (length pre + n) in G2 by lia.
           replace (pre ++ s1' ++ s2 ++ post) with ((pre ++ s1') ++ s2 ++ post) by (rewrite <- !app_assoc; reflexivity).
           rewrite <- !app_assoc. rewrite <- !app_assoc in G2. apply G2.
      * right. cbn [length] in O1. split; [lia|]. exists (1 + k). split; [lia|]. intros f.
        replace (1 + k + f) with (1 + (k + f)) by lia. rewrite Step. apply G1.
Qed.
