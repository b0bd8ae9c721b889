(** The traversals visit the subtrees whose boxes pass the test. *)

From Coq Require Import List Arith NArith QArith Bool Lia Lqa Permutation.
From Verif Require Import Prelude Loops Box_model Box_spec Box_proofs Bvh_model Bvh_spec Bvh_build_proofs.
Import ListNotations.
Local Open Scope outcome_scope.
Local Open Scope nat_scope.

(** The nodes of [tr] stand in [flat] from position [i] on. *)
Definition stored (flat : list node) (i : nat) (tr : tree) : Prop :=
  exists a b, flat = a ++ flatten tr ++ b /\ length a = i.

Lemma stored_left flat i b s n l r : stored flat i (Node b s n l r) -> stored flat (i + 1) l.
Proof.
  intros (a & z & E & L). cbn [flatten] in E. eexists (a ++ [_]), (flatten r ++ z). split.
  - rewrite E. rewrite <- !app_assoc. cbn [app]. rewrite <- app_assoc. reflexivity.
  - rewrite app_length. cbn. lia.
Qed.
Lemma stored_right flat i b s n l r : stored flat i (Node b s n l r) -> stored flat (i + (1 + size l)) r.
Proof.
  intros (a & z & E & L). cbn [flatten] in E. eexists (a ++ _ :: flatten l), z. split.
  - rewrite E. rewrite <- !app_assoc. cbn [app]. rewrite <- !app_assoc. reflexivity.
  - rewrite app_length. cbn [length]. rewrite flatten_length. lia.
Qed.

Definition head_node (tr : tree) : node :=
  match tr with
  | Leaf b s n => {| n_box := b; n_start := s; n_prims := n; n_right := 0 |}
  | Node b s n l _ => {| n_box := b; n_start := s; n_prims := n; n_right := N.of_nat (1 + size l) |}
  end.
Lemma head_box tr : n_box (head_node tr) = t_box tr.
Proof. destruct tr; reflexivity. Qed.
Lemma stored_rd flat i tr : stored flat i tr -> rd flat i = Ok (head_node tr).
Proof. intros (a & z & -> & <-). destruct tr; cbn [flatten app]; apply rd_mid. Qed.
Lemma right_at tr l r b s n i : tr = Node b s n l r -> right_index (head_node tr) i = i + (1 + size l).
Proof. intros ->. unfold right_index. cbn [head_node n_right]. rewrite Nat2N.id. reflexivity. Qed.
Lemma leaf_head b s n : is_leaf (head_node (Leaf b s n)) = true.
Proof. reflexivity. Qed.
Lemma node_head b s n l r : is_leaf (head_node (Node b s n l r)) = false.
Proof. unfold is_leaf. cbn [head_node n_right]. apply N.eqb_neq. lia. Qed.

Lemma read_range_ok pre seg post : read_range (pre ++ seg ++ post) (length pre) (length seg) = Ok seg.
Proof.
  revert pre. induction seg as [|b seg IH]; intros pre; [reflexivity|]. cbn [length read_range app].
  rewrite rd_mid. cbn [obind].
  replace (pre ++ b :: seg ++ post) with ((pre ++ [b]) ++ seg ++ post) by (rewrite <- app_assoc; reflexivity).
  replace (length pre + 1) with (length (pre ++ [b])) by (rewrite app_length; reflexivity).
  rewrite IH. reflexivity.
Qed.

(** Weaker demands on the boxes. *)
Lemma over_impl (g g' : box -> list box -> Prop) cap start seg tr : over g cap start seg tr ->
  (forall b s, 1 <= length s -> (forall c, In c s -> In c seg) -> g b s -> g' b s) -> over g' cap start seg tr.
Proof.
  induction 1 as [start seg b L1 L2 G|start s1 s2 b l r O1 I1 O2 I2 C G]; intros H; constructor; auto.
  - apply I1. intros b' s' L I. apply H; [exact L|]. intros c J. apply in_or_app. auto.
  - apply I2. intros b' s' L I. apply H; [exact L|]. intros c J. apply in_or_app. auto.
  - apply H; auto. rewrite app_length. pose proof (over_nonempty _ _ _ _ _ O1). lia.
Qed.

Section Walk.
Context {A : Type}.
Variables (t : bvh) (test : box -> bool) (leaf : list box -> A -> outcome A) (go_on : A -> bool).

(** The traversal as a recursion over the tree; the right subtree goes first. *)
Fixpoint visit (tr : tree) (a : A) : outcome A :=
  if negb (go_on a) then Ok a
  else
    match tr with
    | Leaf _ s n => leaf (firstn n (skipn s (t_prims t))) a
    | Node _ _ _ l r =>
      let* a := if test (t_box r) then visit r a else Ok a in
      if test (t_box l) then visit l a else Ok a
    end.

Lemma visit_stop tr a : go_on a = false -> visit tr a = Ok a.
Proof. intros H. destruct tr; cbn; rewrite H; reflexivity. Qed.
Lemma walk_stop f s a : go_on a = false -> walk t test leaf go_on f s a = Ok a.
Proof. intros H. destruct s, f; cbn; rewrite ?H; reflexivity. Qed.

(** The stack holds at most 64 entries: either the traversal visits the subtree, or it overruns the
    stack, which needs a deep tree. *)
Definition visits (i : nat) (rest : list nat) (tr : tree) (a : A) : Prop :=
  exists k, k <= size tr /\ forall f, walk t test leaf go_on (k + f) (i :: rest) a =
    (let* a' := visit tr a in walk t test leaf go_on f rest a').
Definition overruns (i : nat) (rest : list nat) (tr : tree) (a : A) : Prop :=
  64 < length rest + 1 + height tr /\ exists k, k <= size tr /\ forall f, walk t test leaf go_on (k + f) (i :: rest) a = UB.

Lemma walk_visit good cap start seg tr : over good cap start seg tr -> forall pre post i rest a,
  t_prims t = pre ++ seg ++ post -> length pre = start -> stored (t_flat t) i tr -> length rest + 1 <= 64 ->
  visits i rest tr a \/ overruns i rest tr a.
Proof.
  induction 1 as [start seg b L1 L2 G|start s1 s2 b l r O1 I1 O2 I2 C G]; intros pre post i rest a EP Lp St Hh.
  - left. destruct (go_on a) eqn:Go.
    + exists 1. split; [cbn; lia|]. intros f. cbn [Nat.add walk]. rewrite Go. cbn [negb].
      rewrite (stored_rd _ _ _ St). cbn [obind]. rewrite leaf_head. cbn [head_node n_start n_prims].
      rewrite EP, <- Lp, read_range_ok. cbn [obind visit]. rewrite Go. cbn [negb].
      rewrite EP. rewrite skipn_app, Nat.sub_diag, skipn_all. cbn [skipn app].
      rewrite firstn_app, firstn_all, Nat.sub_diag. cbn [firstn]. rewrite app_nil_r. reflexivity.
    + exists 0. split; [lia|]. intros f. rewrite visit_stop by exact Go. cbn [obind]. rewrite !walk_stop by exact Go. reflexivity.
  - destruct (go_on a) eqn:Go.
    2:{ left. exists 0. split; [lia|]. intros f. rewrite visit_stop by exact Go. cbn [obind]. rewrite !walk_stop by exact Go. reflexivity. }
    pose proof (stored_left _ _ _ _ _ _ _ St) as Sl. pose proof (stored_right _ _ _ _ _ _ _ St) as Sr.
    assert (E2 : t_prims t = (pre ++ s1) ++ s2 ++ post) by (rewrite EP, <- !app_assoc; reflexivity).
    assert (E1 : t_prims t = pre ++ s1 ++ s2 ++ post) by (rewrite EP, <- !app_assoc; reflexivity).
    assert (Step : forall f, walk t test leaf go_on (1 + f) (i :: rest) a =
      let* s1 := if test (t_box l) then push (i + 1) rest else Ok rest in
      let* s2 := if test (t_box r) then push (i + (1 + size l)) s1 else Ok s1 in
      walk t test leaf go_on f s2 a).
    { intros f. cbn [Nat.add walk]. rewrite Go. cbn [negb]. rewrite (stored_rd _ _ _ St). cbn [obind].
      rewrite node_head. rewrite (right_at _ l r b start (length (s1 ++ s2)) i eq_refl). unfold left_index.
      rewrite (stored_rd _ _ _ Sl). cbn [obind]. change (i + S (size l)) with (i + (1 + size l)).
      rewrite (stored_rd _ _ _ Sr). cbn [obind]. rewrite !head_box. reflexivity. }
    assert (Push1 : forall x, push x rest = Ok (x :: rest)).
    { intros x. unfold push. destruct (Nat.ltb_spec (length rest) 64); [reflexivity|lia]. }
    unfold visits, overruns. cbn [visit height size]. rewrite Go. cbn [negb].
    destruct (test (t_box l)) eqn:Tl.
    + rewrite Push1 in Step. cbn [obind] in Step. destruct (test (t_box r)) eqn:Tr.
      * unfold push in Step. cbn [length] in Step. destruct (Nat.ltb_spec (S (length rest)) 64) as [Q|Q].
        -- cbn [obind] in Step.
           destruct (I2 (pre ++ s1) post (i + (1 + size l)) ((i + 1) :: rest) a E2) as [(k2 & K2 & W2)|(D2 & k2 & K2 & W2)];
             [rewrite app_length; lia|exact Sr|cbn [length]; lia| |].
           ++ assert (Bad : (forall f', (let* a' := visit r a in walk t test leaf go_on f' (i + 1 :: rest) a') =
                       (let* a' := visit r a in (let* a'' := visit l a' in Ok a''))) -> 
                   (forall a', visit r a <> Ok a') ->
                   exists k, k <= 1 + size l + size r /\ forall f, walk t test leaf go_on (k + f) (i :: rest) a =
                     (let* a' := (let* a0 := visit r a in visit l a0) in walk t test leaf go_on f rest a')).
              { intros H1 H2. exists (1 + k2). split; [lia|]. intros f. cbn [Nat.add] in Step |- *. rewrite Step, W2.
                destruct (visit r a) as [a'| | | |]; try reflexivity. exfalso. eapply H2; reflexivity. }
              destruct (visit r a) as [a'| | | |] eqn:Ev; [clear Bad|left; apply Bad; [reflexivity|discriminate]..].
              destruct (I1 pre (s2 ++ post) (i + 1) rest a' E1) as [(k1 & K1 & W1)|(D1 & k1 & K1 & W1)];
                [exact Lp|exact Sl|lia| |].
              ** left. exists (1 + (k2 + k1)). split; [lia|]. intros f.
                 replace (1 + (k2 + k1) + f) with (1 + (k2 + (k1 + f))) by lia. rewrite Step, W2. cbn [obind]. apply W1.
              ** right. split; [lia|]. exists (1 + (k2 + k1)). split; [lia|]. intros f.
                 replace (1 + (k2 + k1) + f) with (1 + (k2 + (k1 + f))) by lia. rewrite Step, W2. cbn [obind]. apply W1.
           ++ right. cbn [length] in D2. split; [lia|]. exists (1 + k2). split; [lia|]. intros f. cbn [Nat.add] in Step |- *. rewrite Step. apply W2.
        -- right. split; [lia|]. exists 1. split; [lia|]. intros f. rewrite Step. reflexivity.
      * cbn [obind] in Step |- *.
        destruct (I1 pre (s2 ++ post) (i + 1) rest a E1) as [(k1 & K1 & W1)|(D1 & k1 & K1 & W1)]; [exact Lp|exact Sl|lia| |].
        -- left. exists (1 + k1). split; [lia|]. intros f. cbn [Nat.add] in Step |- *. rewrite Step. apply W1.
        -- right. split; [lia|]. exists (1 + k1). split; [lia|]. intros f. cbn [Nat.add] in Step |- *. rewrite Step. apply W1.
    + cbn [obind] in Step. destruct (test (t_box r)) eqn:Tr.
      * rewrite Push1 in Step. cbn [obind] in Step.
        destruct (I2 (pre ++ s1) post (i + (1 + size l)) rest a E2) as [(k2 & K2 & W2)|(D2 & k2 & K2 & W2)];
          [rewrite app_length; lia|exact Sr|lia| |].
        -- left. exists (1 + k2). split; [lia|]. intros f. cbn [Nat.add] in Step |- *. rewrite Step, W2.
           destruct (visit r a); reflexivity.
        -- right. split; [lia|]. exists (1 + k2). split; [lia|]. intros f. cbn [Nat.add] in Step |- *. rewrite Step. apply W2.
      * left. exists 1. split; [lia|]. intros f. cbn [Nat.add obind] in Step |- *. rewrite Step. reflexivity.
Qed.

(** The whole tree. *)
Lemma walk_all good cap tr a f : hierarchy good cap t tr -> length (t_flat t) <= f ->
  walk t test leaf go_on f [0] a = visit tr a \/ (63 < height tr /\ walk t test leaf go_on f [0] a = UB).
Proof.
  intros (Ef & O) Hf. rewrite Ef, flatten_length in Hf.
  destruct (walk_visit _ _ _ _ _ O [] [] 0 [] a) as [(k & K & W)|(D & k & K & W)].
  - rewrite app_nil_r. reflexivity.
  - reflexivity.
  - exists [], []. split; [rewrite app_nil_r; exact Ef|reflexivity].
  - cbn. lia.
  - left. replace f with (k + (f - k)) by lia. rewrite W.
    destruct (visit tr a); try reflexivity. cbn [obind]. destruct (f - k); reflexivity.
  - right. cbn [length] in D. split; [lia|]. replace f with (k + (f - k)) by lia. apply W.
Qed.

(** Rule for reasoning about a traversal that never stops early: an invariant over the primitives
    handed to the callback so far; the skipped ones are in boxes that fail the test. *)
Lemma visit_inv good cap start seg tr (Inv : list box -> list box -> A -> Prop) :
  over good cap start seg tr ->
  (forall a, go_on a = true) ->
  (forall b ps sk skipped a, test b = false -> good b sk -> Inv ps skipped a -> Inv ps (skipped ++ sk) a) ->
  (forall b ps l sk a, good b l -> Inv ps sk a -> exists a', leaf l a = Ok a' /\ Inv (ps ++ l) sk a') ->
  forall pre post a ps sk, t_prims t = pre ++ seg ++ post -> length pre = start -> Inv ps sk a ->
  exists seen unseen a', visit tr a = Ok a' /\ Permutation seg (seen ++ unseen) /\ Inv (ps ++ seen) (sk ++ unseen) a'.
Proof.
  intros O Go Skip Lf. induction O as [start seg b L1 L2 G|start s1 s2 b l r O1 I1 O2 I2 C G]; intros pre post a ps sk EP Lp Ia.
  - cbn [visit]. rewrite Go. cbn [negb]. rewrite EP, <- Lp. rewrite skipn_app, Nat.sub_diag, skipn_all. cbn [skipn app].
    rewrite firstn_app, firstn_all, Nat.sub_diag. cbn [firstn]. rewrite app_nil_r.
    destruct (Lf b ps seg sk a G Ia) as (a' & E & Ia'). exists seg, [], a'. rewrite !app_nil_r. auto.
  - cbn [visit]. rewrite Go. cbn [negb].
    assert (good_l : exists bl sl, good bl sl /\ t_box l = bl /\ sl = s1) by (destruct O1; repeat eexists; eauto).
    assert (good_r : exists bl sl, good bl sl /\ t_box r = bl /\ sl = s2) by (destruct O2; repeat eexists; eauto).
    destruct good_l as (bl & sl & Gl & Bl & ->). destruct good_r as (br & sr & Gr & Br & ->).
    assert (E2 : t_prims t = (pre ++ s1) ++ s2 ++ post) by (rewrite EP, <- !app_assoc; reflexivity).
    assert (E1 : t_prims t = pre ++ s1 ++ s2 ++ post) by (rewrite EP, <- !app_assoc; reflexivity).
    assert (R : exists seen unseen a', (if test (t_box r) then visit r a else Ok a) = Ok a' /\
      Permutation s2 (seen ++ unseen) /\ Inv (ps ++ seen) (sk ++ unseen) a').
    { destruct (test (t_box r)) eqn:T.
      - apply (I2 (pre ++ s1) post); [exact E2|rewrite app_length; lia|exact Ia].
      - exists [], s2, a. split; [reflexivity|]. split; [reflexivity|]. rewrite app_nil_r.
        eapply Skip; [exact T|rewrite Br; exact Gr|exact Ia]. }
    destruct R as (seen2 & un2 & a2 & -> & P2 & Ia2). cbn [obind].
    assert (R : exists seen unseen a', (if test (t_box l) then visit l a2 else Ok a2) = Ok a' /\
      Permutation s1 (seen ++ unseen) /\ Inv ((ps ++ seen2) ++ seen) ((sk ++ un2) ++ unseen) a').
    { destruct (test (t_box l)) eqn:T.
      - apply (I1 pre (s2 ++ post)); [exact E1|exact Lp|exact Ia2].
      - exists [], s1, a2. split; [reflexivity|]. split; [reflexivity|]. rewrite app_nil_r.
        eapply Skip; [exact T|rewrite Bl; exact Gl|exact Ia2]. }
    destruct R as (seen1 & un1 & a1 & -> & P1 & Ia1).
    exists (seen2 ++ seen1), (un2 ++ un1), a1. split; [reflexivity|]. split.
    + rewrite P1, P2.
      apply Permutation_trans with ((seen2 ++ un2) ++ (seen1 ++ un1)); [apply Permutation_app_comm|].
      rewrite <- !app_assoc. apply Permutation_app_head.
      rewrite !app_assoc. apply Permutation_app_tail. apply Permutation_app_comm.
    + rewrite !app_assoc. exact Ia1.
Qed.
End Walk.
