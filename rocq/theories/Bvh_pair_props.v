(** C55 and C56: overlapping pairs and closest surface points. *)

From Coq Require Import List Arith NArith ZArith QArith Bool Lia Lqa Permutation.
From Verif Require Import Prelude Loops Box_model Box_spec Box_proofs Box_props Bvh_model Bvh_spec
  Bvh_build_proofs Bvh_walk_proofs Bvh_refit_proofs Bvh_props Bvh_pair_model Bvh_pair_spec.
Import ListNotations.
Local Open Scope outcome_scope.
Local Open Scope nat_scope.

(** ** Lists of pairs *)

Lemma prod_app_l {A B} (l1 l2 : list A) (r : list B) : list_prod (l1 ++ l2) r = list_prod l1 r ++ list_prod l2 r.
Proof. induction l1 as [|x l1 IH]; [reflexivity|]. cbn [app list_prod]. rewrite IH, app_assoc. reflexivity. Qed.
Lemma prod_app_r {A B} (l : list A) (r1 r2 : list B) : Permutation (list_prod l (r1 ++ r2)) (list_prod l r1 ++ list_prod l r2).
Proof.
  induction l as [|x l IH]; [reflexivity|]. cbn [list_prod]. rewrite map_app, IH.
  rewrite <- !app_assoc. apply Permutation_app_head. rewrite !app_assoc. apply Permutation_app_tail, Permutation_app_comm.
Qed.
Lemma pairs_app l1 l2 : Permutation (pairs (l1 ++ l2)) (pairs l1 ++ pairs l2 ++ list_prod l1 l2).
Proof.
  induction l1 as [|x l1 IH]; cbn [pairs app list_prod]; [rewrite app_nil_r; reflexivity|].
  rewrite map_app, IH. rewrite <- !app_assoc. apply Permutation_app_head.
  rewrite (Permutation_app_comm (map (pair x) l2)). rewrite <- !app_assoc. do 2 apply Permutation_app_head.
  apply Permutation_app_comm.
Qed.

Lemma bring_front {A} (a x b : list A) : Permutation (a ++ x ++ b) (x ++ a ++ b).
Proof. rewrite !app_assoc. apply Permutation_app_tail, Permutation_app_comm. Qed.

(** Two splits of lists give a split of their concatenation. *)
Lemma join_split {A} (l1 l2 c1 o1 c2 o2 : list A) : Permutation l1 (c1 ++ o1) -> Permutation l2 (c2 ++ o2) ->
  Permutation (l1 ++ l2) ((c1 ++ c2) ++ (o1 ++ o2)).
Proof.
  intros P1 P2. rewrite P1, P2. rewrite <- !app_assoc. apply Permutation_app_head.
  rewrite !app_assoc. apply Permutation_app_tail. apply Permutation_app_comm.
Qed.

Section Pairs.
Context {A : Type}.
Variable func : nat -> nat -> A -> bool * A.

(** The callback called on a list of pairs of ids. *)
Definition run (calls : list (nat * nat)) (a : A) : A :=
  fold_left (fun a p => snd (func (fst p) (snd p) a)) calls a.
Lemma run_app l1 l2 a : run (l1 ++ l2) a = run l2 (run l1 a).
Proof. apply fold_left_app. Qed.

Definition keeps_going : Prop := forall i j a, fst (func i j a) = true.

Lemma each_run pa pb a : (keeps_going \/ (length pa = 1 /\ length pb = 1)) ->
  snd (each pa (fun x a => each pb (fun y a => func (bid x) (bid y) a) a) a) = run (map ids (list_prod pa pb)) a.
Proof.
  intros [K|(La & Lb)].
  - assert (Inner : forall pb x a, each pb (fun y a => func (bid x) (bid y) a) a = (true, run (map ids (map (pair x) pb)) a)).
    { clear pb a. induction pb as [|y pb IH]; intros x a; [reflexivity|]. cbn [each map].
      destruct (func (bid x) (bid y) a) as [go a'] eqn:E. pose proof (K (bid x) (bid y) a) as G. rewrite E in G. cbn in G. subst go.
      rewrite IH. unfold run. cbn [map fold_left ids fst snd]. rewrite E. reflexivity. }
    revert a. induction pa as [|x pa IH]; intros a; [reflexivity|]. cbn [each list_prod].
    rewrite Inner, IH, map_app, run_app. reflexivity.
  - destruct pa as [|x [|? ?]]; try discriminate. destruct pb as [|y [|? ?]]; try discriminate.
    cbn [each list_prod map app ids fst snd run fold_left]. unfold run. cbn [fold_left fst snd].
    destruct (func (bid x) (bid y) a) as [[] a']; reflexivity.
Qed.

Lemma head_leaf tr : is_leaf (head_node tr) = match tr with Leaf _ _ _ => true | _ => false end.
Proof. destruct tr; [apply leaf_head|apply node_head]. Qed.
Lemma good_root (good : box -> list box -> Prop) cap start seg tr : over good cap start seg tr -> good (t_box tr) seg.
Proof. intros O. destruct O; assumption. Qed.

Lemma pair_walk_ok (good : box -> list box -> Prop) capa capb (Cov : forall b s, good b s -> covers b s) (K : keeps_going \/ (capa = 1 /\ capb = 1)) ta tb : forall n starta sa tra startb sb trb,
  over good capa starta sa tra -> over good capb startb sb trb -> height tra + height trb < n ->
  forall prea posta preb postb ia ib a,
  t_prims ta = prea ++ sa ++ posta -> length prea = starta -> stored (t_flat ta) ia tra ->
  t_prims tb = preb ++ sb ++ postb -> length preb = startb -> stored (t_flat tb) ib trb ->
  exists chosen others, Permutation (list_prod sa sb) (chosen ++ others) /\ (forall p, In p others -> ~ overlap p) /\
    (capa = 1 -> capb = 1 -> (forall b s, good b s -> tight b s) -> forall p, In p chosen -> overlap p) /\
    pair_walk func n ta tb ia ib a = Ok (false, run (map ids chosen) a).
Proof.
  induction n as [|n IH]; intros starta sa tra startb sb trb Oa Ob Hn prea posta preb postb ia ib a Ea La Sa Eb Lb Sb; [lia|].
  cbn [pair_walk]. rewrite (stored_rd _ _ _ Sa). cbn [obind]. rewrite (stored_rd _ _ _ Sb). cbn [obind]. rewrite !head_box, !head_leaf.
  destruct (box_intersects (t_box tra) (t_box trb)) eqn:T; cbn [negb].
  2:{ exists [], (list_prod sa sb). split; [reflexivity|]. split; [|split; [intros ? ? ? p []|reflexivity]].
      intros (x & y) I M. apply in_prod_iff in I. destruct I as (Ix & Iy). unfold overlap in M. cbn [fst snd] in M.
      assert (X : meet (t_box tra) (t_box trb)); [|apply box_intersects_iff in X; congruence].
      eapply meet_inside; [|apply (Cov _ _ (good_root _ _ _ _ _ Oa)); exact Ix]. apply meet_sym.
      eapply meet_inside; [|apply (Cov _ _ (good_root _ _ _ _ _ Ob)); exact Iy]. apply meet_sym. exact M. }
  (* descending the first tree *)
  assert (DA : forall b s m l r s1 s2, tra = Node b s m l r -> sa = s1 ++ s2 -> over good capa starta s1 l -> over good capa (starta + length s1) s2 r ->
    exists chosen others, Permutation (list_prod sa sb) (chosen ++ others) /\ (forall p, In p others -> ~ overlap p) /\
    (capa = 1 -> capb = 1 -> (forall b s, good b s -> tight b s) -> forall p, In p chosen -> overlap p) /\
    (let* q := pair_walk func n ta tb (left_index ia) ib a in
     if fst q then Ok q else pair_walk func n ta tb (right_index (head_node tra) ia) ib (snd q)) = Ok (false, run (map ids chosen) a)).
  { intros b s m l r s1 s2 -> -> O1 O2. cbn [height] in Hn. rewrite (right_at _ l r b s m ia eq_refl). unfold left_index.
    destruct (IH starta s1 l startb sb trb O1 Ob) with (prea := prea) (posta := s2 ++ posta) (preb := preb) (postb := postb)
      (ia := ia + 1) (ib := ib) (a := a) as (c1 & o1 & P1 & H1 & X1 & E1);
      [lia|rewrite Ea, <- !app_assoc; reflexivity|exact La|eapply stored_left; exact Sa|exact Eb|exact Lb|exact Sb|].
    rewrite E1. cbn [obind fst snd].
    destruct (IH (starta + length s1) s2 r startb sb trb O2 Ob) with (prea := prea ++ s1) (posta := posta) (preb := preb) (postb := postb)
      (ia := ia + (1 + size l)) (ib := ib) (a := run (map ids c1) a) as (c2 & o2 & P2 & H2 & X2 & E2);
      [lia|rewrite Ea, <- !app_assoc; reflexivity|rewrite app_length; lia|eapply stored_right; exact Sa|exact Eb|exact Lb|exact Sb|].
    rewrite E2. exists (c1 ++ c2), (o1 ++ o2). split; [rewrite prod_app_l; apply join_split; assumption|]. split; [|split].
    - intros p I. apply in_app_or in I. destruct I; auto.
    - intros A1 A2 A3 p I. apply in_app_or in I. destruct I; auto.
    - rewrite map_app, run_app. reflexivity. }
  assert (DB : forall b s m l r s1 s2, trb = Node b s m l r -> sb = s1 ++ s2 -> over good capb startb s1 l -> over good capb (startb + length s1) s2 r ->
    exists chosen others, Permutation (list_prod sa sb) (chosen ++ others) /\ (forall p, In p others -> ~ overlap p) /\
    (capa = 1 -> capb = 1 -> (forall b s, good b s -> tight b s) -> forall p, In p chosen -> overlap p) /\
    (let* q := pair_walk func n ta tb ia (left_index ib) a in
     if fst q then Ok q else pair_walk func n ta tb ia (right_index (head_node trb) ib) (snd q)) = Ok (false, run (map ids chosen) a)).
  { intros b s m l r s1 s2 -> -> O1 O2. cbn [height] in Hn. rewrite (right_at _ l r b s m ib eq_refl). unfold left_index.
    destruct (IH starta sa tra startb s1 l Oa O1) with (prea := prea) (posta := posta) (preb := preb) (postb := s2 ++ postb)
      (ia := ia) (ib := ib + 1) (a := a) as (c1 & o1 & P1 & H1 & X1 & E1);
      [lia|exact Ea|exact La|exact Sa|rewrite Eb, <- !app_assoc; reflexivity|exact Lb|eapply stored_left; exact Sb|].
    rewrite E1. cbn [obind fst snd].
    destruct (IH starta sa tra (startb + length s1) s2 r Oa O2) with (prea := prea) (posta := posta) (preb := preb ++ s1) (postb := postb)
      (ia := ia) (ib := ib + (1 + size l)) (a := run (map ids c1) a) as (c2 & o2 & P2 & H2 & X2 & E2);
      [lia|exact Ea|exact La|exact Sa|rewrite Eb, <- !app_assoc; reflexivity|rewrite app_length; lia|eapply stored_right; exact Sb|].
    rewrite E2. exists (c1 ++ c2), (o1 ++ o2). split; [rewrite prod_app_r; apply join_split; assumption|]. split; [|split].
    - intros p I. apply in_app_or in I. destruct I; auto.
    - intros A1 A2 A3 p I. apply in_app_or in I. destruct I; auto.
    - rewrite map_app, run_app. reflexivity. }
  destruct Oa as [starta sa ba La1 La2 Ga|starta s1 s2 ba la ra O1 O2 Ca Ga].
  - destruct Ob as [startb sb bb Lb1 Lb2 Gb|startb u1 u2 bb lb rb U1 U2 Cb Gb].
    + cbn [andb head_node n_start n_prims]. rewrite Ea, <- La, read_range_ok. cbn [obind].
      rewrite Eb, <- Lb, read_range_ok. cbn [obind].
      assert (ER : snd (each sa (fun x a => each sb (fun y a => func (bid x) (bid y) a) a) a) = run (map ids (list_prod sa sb)) a).
      { apply each_run. destruct K as [K|(Ka & Kb)]; [left; exact K|right; lia]. }
      destruct (each sa (fun x a => each sb (fun y a => func (bid x) (bid y) a) a) a) as [go a'] eqn:Ee.
      cbn [snd] in ER. subst a'.
      exists (list_prod sa sb), []. rewrite app_nil_r. split; [reflexivity|]. split; [intros p []|]. split; [|reflexivity].
      intros A1 A2 A3 (x & y) I. apply in_prod_iff in I. destruct I as (Ix & Iy). unfold overlap. cbn [fst snd].
      cbn [t_box] in T. apply box_intersects_iff in T.
      destruct sa as [|x' [|? ?]]; [destruct Ix| |cbn in La2; lia]. destruct Ix as [<-|[]].
      destruct sb as [|y' [|? ?]]; [destruct Iy| |cbn in Lb2; lia]. destruct Iy as [<-|[]].
      pose proof (tight_single _ _ (A3 _ _ Ga)) as Ta. pose proof (tight_single _ _ (A3 _ _ Gb)) as Tb.
      intros d. specialize (T d). specialize (Ta d). specialize (Tb d). lra.
    + cbn [andb orb negb]. cbv zeta. eapply DB; [reflexivity|reflexivity|exact U1|exact U2].
  - cbn [andb negb]. cbv zeta. destruct Ob as [startb sb bb Lb1 Lb2 Gb|startb u1 u2 bb lb rb U1 U2 Cb Gb].
    + cbn [orb]. eapply DA; [reflexivity|reflexivity|exact O1|exact O2].
    + cbn [orb andb]. destruct (Qltb _ _).
      * eapply DA; [reflexivity|reflexivity|exact O1|exact O2].
      * eapply DB; [reflexivity|reflexivity|exact U1|exact U2].
Qed.

Lemma height_size tr : height tr < size tr.
Proof. induction tr; cbn [height size]; lia. Qed.

Lemma self_walk_ok (good : box -> list box -> Prop) cap (Cov : forall b s, good b s -> covers b s) (K : keeps_going \/ cap = 1) t : forall start seg tr,
  over good cap start seg tr -> forall f pre post i a, height tr < f -> size tr <= length (t_flat t) ->
  t_prims t = pre ++ seg ++ post -> length pre = start -> stored (t_flat t) i tr ->
  exists chosen others, Permutation (pairs seg) (chosen ++ others ++ leaf_pairs (t_prims t) tr) /\ (forall p, In p others -> ~ overlap p) /\
    (cap = 1 -> (forall b s, good b s -> tight b s) -> forall p, In p chosen -> overlap p) /\
    self_walk func f t i a = Ok (false, run (map ids chosen) a).
Proof.
  induction 1 as [start seg b L1 L2 G|start s1 s2 b l r O1 I1 O2 I2 C G]; intros f pre post i a Hf Hs EP Lp St;
    (destruct f as [|f]; [lia|]); cbn [self_walk]; rewrite (stored_rd _ _ _ St); cbn [obind].
  - rewrite leaf_head. exists [], []. cbn [app leaf_pairs]. rewrite EP, <- Lp, segment_of. split; [reflexivity|].
    split; [intros p []|]. split; [intros ? ? p []|reflexivity].
  - rewrite node_head, (right_at _ l r b start (length (s1 ++ s2)) i eq_refl). unfold left_index. cbn [height size] in Hf, Hs.
    pose proof (stored_left _ _ _ _ _ _ _ St) as Sl. pose proof (stored_right _ _ _ _ _ _ _ St) as Sr.
    destruct (I1 f pre (s2 ++ post) (i + 1) a) as (c1 & o1 & P1 & H1 & X1 & E1);
      [lia|lia|rewrite EP, <- !app_assoc; reflexivity|exact Lp|exact Sl|].
    rewrite E1. cbn [obind fst snd].
    destruct (I2 f (pre ++ s1) post (i + (1 + size l)) (run (map ids c1) a)) as (c2 & o2 & P2 & H2 & X2 & E2);
      [lia|lia|rewrite EP, <- !app_assoc; reflexivity|rewrite app_length; lia|exact Sr|].
    rewrite E2. cbn [obind fst snd].
    pose proof (height_size l) as Hl. pose proof (height_size r) as Hr.
    destruct (pair_walk_ok good cap cap Cov ltac:(tauto) t t (2 * length (t_flat t)) start s1 l (start + length s1) s2 r O1 O2)
      with (prea := pre) (posta := s2 ++ post) (preb := pre ++ s1) (postb := post) (ia := i + 1) (ib := i + (1 + size l))
        (a := run (map ids c2) (run (map ids c1) a)) as (c3 & o3 & P3 & H3 & X3 & E3);
      [lia|rewrite EP, <- !app_assoc; reflexivity|exact Lp|exact Sl|rewrite EP, <- !app_assoc; reflexivity|rewrite app_length; lia|exact Sr|].
    rewrite E3. exists (c1 ++ c2 ++ c3), (o1 ++ o2 ++ o3). split; [|split; [|split]].
    + rewrite pairs_app, P1, P2, P3. cbn [leaf_pairs]. generalize (leaf_pairs (t_prims t) l) (leaf_pairs (t_prims t) r). intros e1 e2.
      clear. rewrite <- !app_assoc. apply Permutation_app_head.
      rewrite (app_assoc o1 e1), (bring_front (o1 ++ e1) c2). apply Permutation_app_head.
      rewrite <- !app_assoc. rewrite (app_assoc o1), (app_assoc (o1 ++ e1)), (app_assoc ((o1 ++ e1) ++ o2)), (bring_front _ c3 o3).
      apply Permutation_app_head. rewrite <- !app_assoc. apply Permutation_app_head.
      rewrite (bring_front e1 o2). apply Permutation_app_head.
      rewrite (app_assoc e1 e2). apply Permutation_app_comm.
    + intros p I. apply in_app_or in I. destruct I as [I|I]; [auto|]. apply in_app_or in I. destruct I; auto.
    + intros A1 A2 p I. apply in_app_or in I. destruct I as [I|I]; [auto|]. apply in_app_or in I. destruct I; auto.
    + rewrite !map_app, !run_app. reflexivity.
Qed.

(** C55, the part that holds: with one box per leaf, the callback gets every unordered pair of
    overlapping boxes once, and no other pair; what it returns is ignored. With larger leaves and a
    callback that never asks to stop, it gets every overlapping pair except those within one leaf. *)
Theorem overlapping_pairs_partial good cap t tr a : hierarchy good cap t tr -> (forall b s, good b s -> covers b s) ->
  keeps_going \/ cap = 1 ->
  exists chosen others, overlapping_pairs func t a = Ok (run (map ids chosen) a) /\
    Permutation (pairs (t_prims t)) (chosen ++ others ++ leaf_pairs (t_prims t) tr) /\
    (forall p, In p others -> ~ overlap p) /\
    (cap = 1 -> leaf_pairs (t_prims t) tr = [] /\ ((forall b s, good b s -> tight b s) -> forall p, In p chosen -> overlap p)).
Proof.
  intros H Cov K. pose proof H as (Ef & O). unfold overlapping_pairs. rewrite (nonempty_tree _ _ _ _ H).
  destruct (self_walk_ok good cap Cov K t 0 (t_prims t) tr O (length (t_flat t)) [] [] 0 a) as (c & o & P & Ho & X & E).
  - rewrite Ef, flatten_length. apply height_size.
  - rewrite Ef, flatten_length. lia.
  - cbn [app]. rewrite app_nil_r. reflexivity.
  - reflexivity.
  - exists [], []. cbn [app]. rewrite app_nil_r. auto.
  - exists c, o. rewrite E. split; [reflexivity|]. split; [exact P|]. split; [exact Ho|]. intros C. split; [|auto].
    assert (L : forall start seg tr, over good cap start seg tr -> forall pre post, length pre = start -> leaf_pairs (pre ++ seg ++ post) tr = []).
    { clear - C. induction 1 as [start seg b L1 L2 G|start s1 s2 b l r O1 I1 O2 I2 D G]; intros pre post Lp; cbn [leaf_pairs].
      - rewrite <- Lp, segment_of. destruct seg as [|x [|y seg]]; [reflexivity|reflexivity|cbn in L2; lia].
      - rewrite <- app_assoc. rewrite (I1 pre (s2 ++ post) Lp). rewrite app_assoc. rewrite (I2 (pre ++ s1) post); [reflexivity|rewrite app_length; lia]. }
    specialize (L 0 (t_prims t) tr O [] [] eq_refl). cbn [app] in L. rewrite app_nil_r in L. exact L.
Qed.

(** The same for two trees. *)
Theorem overlapping_pairs_with_partial good cap t tr t2 tr2 a : hierarchy good cap t tr -> hierarchy good cap t2 tr2 ->
  (forall b s, good b s -> covers b s) -> keeps_going \/ cap = 1 ->
  exists chosen others, overlapping_pairs_with func t t2 a = Ok (run (map ids chosen) a) /\
    Permutation (list_prod (t_prims t) (t_prims t2)) (chosen ++ others) /\
    (forall p, In p others -> ~ overlap p) /\
    (cap = 1 -> (forall b s, good b s -> tight b s) -> forall p, In p chosen -> overlap p).
Proof.
  intros H H2 Cov K. pose proof H as (Ef & O). pose proof H2 as (Ef2 & O2). unfold overlapping_pairs_with.
  rewrite (nonempty_tree _ _ _ _ H), (nonempty_tree _ _ _ _ H2). cbn [orb].
  pose proof (height_size tr). pose proof (height_size tr2).
  destruct (pair_walk_ok good cap cap Cov ltac:(tauto) t t2 (length (t_flat t) + length (t_flat t2)) 0 (t_prims t) tr 0 (t_prims t2) tr2 O O2)
    with (prea := @nil box) (posta := @nil box) (preb := @nil box) (postb := @nil box) (ia := 0) (ib := 0) (a := a)
    as (c & o & P & Ho & X & E).
  - rewrite Ef, Ef2, !flatten_length. lia.
  - cbn [app]. rewrite app_nil_r. reflexivity.
  - reflexivity.
  - exists [], []. cbn [app]. rewrite app_nil_r. auto.
  - cbn [app]. rewrite app_nil_r. reflexivity.
  - reflexivity.
  - exists [], []. cbn [app]. rewrite app_nil_r. auto.
  - exists c, o. rewrite E. split; [reflexivity|]. split; [exact P|]. split; [exact Ho|]. intros C T. apply X; auto.
Qed.
End Pairs.
Print Assumptions overlapping_pairs_partial.
Print Assumptions overlapping_pairs_with_partial.

(** The callback that records its calls and always goes on, and the one that always asks to stop. *)
Definition record (go : bool) (i j : nat) (l : list (nat * nat)) : bool * list (nat * nat) := (go, l ++ [(i, j)]).
Definition half : list box := map (fun p => {| lo := Q3 (fst p) 0 0; hi := Q3 (fst p + 3) 1 1; bid := snd p |}) [(0%Q, 0); (2%Q, 1); (10%Q, 2); (4%Q, 3)].

Example pairs_case : exists t, build 1 half = Ok t /\ keeps_going (record true) /\
  overlapping_pairs (record true) t [] = Ok [(1, 3); (0, 1)] /\
  overlapping_pairs_with (record true) t t [] = Ok [(0, 0); (1, 0); (0, 1); (1, 1); (3, 1); (1, 3); (3, 3); (2, 2)].
Proof. eexists. split; [vm_compute; reflexivity|]. split; [intros ? ? ?; reflexivity|]. split; vm_compute; reflexivity. Qed.

(** With two boxes per leaf an overlapping pair is not reported. *)
Theorem leaf_pairs_refuted : exists t, build 2 (firstn 2 half) = Ok t /\ (exists p, In p (pairs (t_prims t)) /\ overlap p) /\
  overlapping_pairs (record true) t [] = Ok [].
Proof.
  eexists. split; [vm_compute; reflexivity|]. split; [|vm_compute; reflexivity].
  eexists. split; [left; reflexivity|]. intros []; cbn; lra.
Qed.
Print Assumptions leaf_pairs_refuted.

(** A callback that asks to stop is called again. *)
Theorem pairs_stop_refuted : exists t, build 1 half = Ok t /\ overlapping_pairs (record false) t [] = Ok [(1, 3); (0, 1)].
Proof. eexists. split; vm_compute; reflexivity. Qed.
Print Assumptions pairs_stop_refuted.

(** ** C56 *)

Section Closest.
Variables (t : bvh) (q : q3) (func : nat -> q3).

(** The outcome for the primitives [seg] when [s] was the best so far. *)
Definition improved (seg : list box) (s r : closest) : Prop :=
  (r = s /\ forall b, In b seg -> (fst s <= reach q func b)%Q) \/
  (exists b, In b seg /\ r = (reach q func b, Some (func (bid b), bid b)) /\ (reach q func b < fst s)%Q /\
     forall c, In c seg -> (reach q func b <= reach q func c)%Q).

Lemma improved_nil s : improved [] s s.
Proof. left. split; [reflexivity|]. intros b []. Qed.
Lemma improved_app s1 s2 s m r : improved s1 s m -> improved s2 m r -> improved (s1 ++ s2) s r.
Proof.
  intros [(-> & H1)|(b & I & -> & L & H1)] [(-> & H2)|(c & J & -> & M & H2)]; cbn [fst] in *.
  - left. split; [reflexivity|]. intros x K. apply in_app_or in K. destruct K; auto.
  - right. exists c. split; [apply in_or_app; auto|]. split; [reflexivity|]. split; [exact M|].
    intros x K. apply in_app_or in K. destruct K as [K|K]; [|auto]. specialize (H1 x K). lra.
  - right. exists b. split; [apply in_or_app; auto|]. split; [reflexivity|]. split; [exact L|].
    intros x K. apply in_app_or in K. destruct K as [K|K]; [auto|]. apply H2, K.
  - right. exists c. split; [apply in_or_app; auto|]. split; [reflexivity|]. split; [lra|].
    intros x K. apply in_app_or in K. destruct K as [K|K]; [|auto]. specialize (H1 x K). lra.
Qed.
Lemma improved_swap s1 s2 s r : improved (s2 ++ s1) s r -> improved (s1 ++ s2) s r.
Proof.
  assert (X : forall c, In c (s1 ++ s2) <-> In c (s2 ++ s1)) by (intros c; rewrite !in_app_iff; tauto).
  intros [(-> & H)|(b & I & -> & L & H)].
  - left. split; [reflexivity|]. intros b I. apply H, X, I.
  - right. exists b. split; [apply X, I|]. split; [reflexivity|]. split; [exact L|]. intros c J. apply H, X, J.
Qed.

Lemma leaf_improved seg : forall s, improved seg s (fold_left (closest_prim q func) seg s).
Proof.
  induction seg as [|b seg IH]; intros s; [apply improved_nil|]. cbn [fold_left].
  change (b :: seg) with ([b] ++ seg). eapply improved_app; [|apply IH].
  unfold closest_prim. change (sq_norm (func (bid b)) q) with (reach q func b).
  destruct (Qltb_spec (reach q func b) (fst s)).
  - right. exists b. split; [left; reflexivity|]. split; [reflexivity|]. split; [assumption|]. intros c [<-|[]]. lra.
  - left. split; [reflexivity|]. intros c [<-|[]]. lra.
Qed.

(** Taking the result of a subtree only if it is closer. *)
Lemma sub_improved seg d0 o r : improved seg (d0, None) r -> improved seg (d0, o) (if Qltb (fst r) d0 then r else (d0, o)).
Proof.
  intros [(-> & H)|(b & I & -> & L & H)]; cbn [fst] in *.
  - destruct (Qltb_spec d0 d0); [lra|]. left. split; [reflexivity|exact H].
  - destruct (Qltb_spec (reach q func b) d0) as [_|N]; [|lra]. right. exists b. auto.
Qed.

Hypothesis Proj : forall b, In b (t_prims t) -> in_box (func (bid b)) b.
Hypothesis Prp : forall b, In b (t_prims t) -> proper b.

Lemma far_improved bb seg s : covers bb seg -> 1 <= length seg -> (forall b, In b seg -> In b (t_prims t)) ->
  ~ (sq_dist_to_box bb q < fst s)%Q -> improved seg s s.
Proof.
  intros C L Sub N. left. split; [reflexivity|]. intros b I.
  assert (Pb : proper bb) by (eapply cover_proper; [exact L|intros c J; apply Prp, Sub, J|exact C]).
  pose proof (proj1 (box_distance_exact bb q Pb) (func (bid b))) as D.
  assert (X : in_box (func (bid b)) bb) by (eapply in_inside; [apply Proj, Sub, I|apply C; exact I]).
  specialize (D X). unfold reach. lra.
Qed.

Lemma closest_node_ok (good : box -> list box -> Prop) cap (Cov : forall b s, good b s -> covers b s) start seg tr : over good cap start seg tr ->
  forall f pre post i s, height tr < f -> t_prims t = pre ++ seg ++ post -> length pre = start -> stored (t_flat t) i tr ->
  exists r, closest_node t q func f i s = Ok r /\ improved seg s r.
Proof.
  induction 1 as [start seg b L1 L2 G|start s1 s2 b l r O1 I1 O2 I2 C G]; intros f pre post i s Hf EP Lp St;
    (destruct f as [|f]; [lia|]); cbn [closest_node]; rewrite (stored_rd _ _ _ St); cbn [obind].
  - rewrite leaf_head. cbn [head_node n_start n_prims]. rewrite EP, <- Lp, read_range_ok. cbn [obind].
    eexists. split; [reflexivity|]. apply leaf_improved.
  - rewrite node_head, (right_at _ l r b start (length (s1 ++ s2)) i eq_refl). unfold left_index. cbn [height] in Hf. cbv zeta.
    pose proof (stored_left _ _ _ _ _ _ _ St) as Sl. pose proof (stored_right _ _ _ _ _ _ _ St) as Sr.
    rewrite (stored_rd _ _ _ Sl). cbn [obind]. rewrite (stored_rd _ _ _ Sr). cbn [obind]. rewrite !head_box.
    assert (E1 : t_prims t = pre ++ s1 ++ (s2 ++ post)) by (rewrite EP, <- !app_assoc; reflexivity).
    assert (E2 : t_prims t = (pre ++ s1) ++ s2 ++ post) by (rewrite EP, <- !app_assoc; reflexivity).
    assert (Sub1 : forall c, In c s1 -> In c (t_prims t)) by (intros c J; rewrite E1; apply in_or_app; right; apply in_or_app; auto).
    assert (Sub2 : forall c, In c s2 -> In c (t_prims t)) by (intros c J; rewrite E2; apply in_or_app; right; apply in_or_app; auto).
    assert (SL : forall s, exists r0, (let* x := closest_node t q func f (i + 1) (fst s, None) in Ok (if Qltb (fst x) (fst s) then x else s)) = Ok r0 /\ improved s1 s r0).
    { intros (d0 & o). cbn [fst]. destruct (I1 f pre (s2 ++ post) (i + 1) (d0, None)) as (x & Ex & Ix); [lia|exact E1|exact Lp|exact Sl|].
      rewrite Ex. cbn [obind]. eexists. split; [reflexivity|]. apply sub_improved. exact Ix. }
    assert (SR : forall s, exists r0, (let* x := closest_node t q func f (i + (1 + size l)) (fst s, None) in Ok (if Qltb (fst x) (fst s) then x else s)) = Ok r0 /\ improved s2 s r0).
    { intros (d0 & o). cbn [fst]. destruct (I2 f (pre ++ s1) post (i + (1 + size l)) (d0, None)) as (x & Ex & Ix);
        [lia|exact E2|rewrite app_length; lia|exact Sr|].
      rewrite Ex. cbn [obind]. eexists. split; [reflexivity|]. apply sub_improved. exact Ix. }
    assert (FL : forall s c, exists r0, (if negb c && Qltb (sq_dist_to_box (t_box l) q) (fst s)
        then let* x := closest_node t q func f (i + 1) (fst s, None) in Ok (if Qltb (fst x) (fst s) then x else s) else Ok s) = Ok r0 /\
        (c = false -> improved s1 s r0) /\ (c = true -> r0 = s)).
    { intros s' c. destruct c; cbn [negb andb]; [exists s'; split; [reflexivity|]; split; [discriminate|reflexivity]|].
      destruct (Qltb_spec (sq_dist_to_box (t_box l) q) (fst s')) as [N|N].
      - destruct (SL s') as (r0 & E & I). exists r0. split; [exact E|]. split; [auto|discriminate].
      - exists s'. split; [reflexivity|]. split; [|discriminate]. intros _.
        eapply far_improved; [apply Cov, (good_root _ _ _ _ _ O1)|eapply over_nonempty; exact O1|exact Sub1|exact N]. }
    assert (FR : forall s c, exists r0, (if negb c && Qltb (sq_dist_to_box (t_box r) q) (fst s)
        then let* x := closest_node t q func f (i + (1 + size l)) (fst s, None) in Ok (if Qltb (fst x) (fst s) then x else s) else Ok s) = Ok r0 /\
        (c = false -> improved s2 s r0) /\ (c = true -> r0 = s)).
    { intros s' c. destruct c; cbn [negb andb]; [exists s'; split; [reflexivity|]; split; [discriminate|reflexivity]|].
      destruct (Qltb_spec (sq_dist_to_box (t_box r) q) (fst s')) as [N|N].
      - destruct (SR s') as (r0 & E & I). exists r0. split; [exact E|]. split; [auto|discriminate].
      - exists s'. split; [reflexivity|]. split; [|discriminate]. intros _.
        eapply far_improved; [apply Cov, (good_root _ _ _ _ _ O2)|eapply over_nonempty; exact O2|exact Sub2|exact N]. }
    assert (A1 : exists r0, (if contains_point (t_box l) q then let* x := closest_node t q func f (i + 1) (fst s, None) in Ok (if Qltb (fst x) (fst s) then x else s) else Ok s) = Ok r0 /\
        (contains_point (t_box l) q = true -> improved s1 s r0) /\ (contains_point (t_box l) q = false -> r0 = s)).
    { destruct (contains_point (t_box l) q); [destruct (SL s) as (r0 & E & I); exists r0; auto|exists s; auto].
      split; [exact E|split; [auto|discriminate]]. split; [reflexivity|]. split; [discriminate|reflexivity]. }
    destruct A1 as (m1 & -> & A1 & A1'). cbn [obind].
    assert (A2 : exists r0, (if contains_point (t_box r) q then let* x := closest_node t q func f (i + (1 + size l)) (fst m1, None) in Ok (if Qltb (fst x) (fst m1) then x else m1) else Ok m1) = Ok r0 /\
        (contains_point (t_box r) q = true -> improved s2 m1 r0) /\ (contains_point (t_box r) q = false -> r0 = m1)).
    { destruct (contains_point (t_box r) q); [destruct (SR m1) as (r0 & E & I); exists r0; auto|exists m1; auto].
      split; [exact E|split; [auto|discriminate]]. split; [reflexivity|]. split; [discriminate|reflexivity]. }
    destruct A2 as (m2 & -> & A2 & A2'). cbn [obind].
    set (cl := contains_point (t_box l) q) in *. set (cr := contains_point (t_box r) q) in *. clearbody cl cr.
    destruct (Qltb (sq_dist_to_box (t_box l) q) (sq_dist_to_box (t_box r) q)).
    + destruct (FL m2 cl) as (m3 & Ez & B1 & B1'). unfold closest in *. rewrite Ez. clear Ez. cbn [obind]. destruct (FR m3 cr) as (m4 & Ez & B2 & B2'). unfold closest in *. rewrite Ez. clear Ez.
      exists m4. split; [reflexivity|].
      destruct cl, cr.
      * rewrite (B2' eq_refl), (B1' eq_refl). eapply improved_app; [apply A1; reflexivity|apply A2; reflexivity].
      * rewrite (B1' eq_refl), (A2' eq_refl) in B2. eapply improved_app; [apply A1; reflexivity|apply B2; reflexivity].
      * rewrite (B2' eq_refl). rewrite (A1' eq_refl) in A2. apply improved_swap. eapply improved_app; [apply A2; reflexivity|apply B1; reflexivity].
      * rewrite (A2' eq_refl), (A1' eq_refl) in B1. eapply improved_app; [apply B1; reflexivity|apply B2; reflexivity].
    + destruct (FR m2 cr) as (m3 & Ez & B1 & B1'). unfold closest in *. rewrite Ez. clear Ez. cbn [obind]. destruct (FL m3 cl) as (m4 & Ez & B2 & B2'). unfold closest in *. rewrite Ez. clear Ez.
      exists m4. split; [reflexivity|].
      destruct cl, cr.
      * rewrite (B2' eq_refl), (B1' eq_refl). eapply improved_app; [apply A1; reflexivity|apply A2; reflexivity].
      * rewrite (B2' eq_refl). rewrite (A2' eq_refl) in B1. eapply improved_app; [apply A1; reflexivity|apply B1; reflexivity].
      * rewrite (B1' eq_refl) in B2. rewrite (A1' eq_refl) in A2. apply improved_swap. eapply improved_app; [apply A2; reflexivity|apply B2; reflexivity].
      * rewrite (A2' eq_refl), (A1' eq_refl) in B1. apply improved_swap. eapply improved_app; [apply B1; reflexivity|apply B2; reflexivity].
Qed.
End Closest.

(** C56. On a non-empty tree, with projections that lie in their boxes: the result is the projection
    on a primitive at minimal distance, and no result means that none is nearer than the largest
    finite squared distance. *)
Theorem closest_surface_point_correct good cap t tr q func big : hierarchy good cap t tr -> (forall b s, good b s -> covers b s) ->
  (forall b, In b (t_prims t) -> proper b) -> (forall b, In b (t_prims t) -> in_box (func (bid b)) b) ->
  exists d res, closest_surface_point t q func big = Ok (d, res) /\
    match res with
    | Some (p, id) => exists b, In b (t_prims t) /\ id = bid b /\ p = func id /\ d = sq_dist p q /\ (d < big)%Q /\
        forall c, In c (t_prims t) -> (d <= sq_dist (func (bid c)) q)%Q
    | None => forall c, In c (t_prims t) -> (big <= sq_dist (func (bid c)) q)%Q
    end.
Proof.
  intros (Ef & O) Cov Pr Pj. unfold closest_surface_point.
  destruct (closest_node_ok t q func Pj Pr good cap Cov 0 (t_prims t) tr O (S (length (t_flat t))) [] [] 0 (big, None)) as (r & E & I).
  - rewrite Ef, flatten_length. pose proof (height_size tr). lia.
  - cbn [app]. rewrite app_nil_r. reflexivity.
  - reflexivity.
  - exists [], []. cbn [app]. rewrite app_nil_r. auto.
  - rewrite E. destruct I as [(-> & H)|(b & Ib & -> & L & H)]; do 2 eexists; (split; [reflexivity|]).
    + exact H.
    + exists b. cbn [fst] in L. repeat split; auto.
Qed.
Print Assumptions closest_surface_point_correct.

(** The projection of the query on the box itself is one such projection. *)
Definition clamp (q : q3) (b : box) : q3 :=
  make3 (fun d => if Qltb (at3 q d) (at3 (lo b) d) then at3 (lo b) d else if Qltb (at3 (hi b) d) (at3 q d) then at3 (hi b) d else at3 q d).
Example closest_case : exists t, build 1 five = Ok t /\ (forall b, In b (t_prims t) -> proper b) /\
  (forall b, In b (t_prims t) -> in_box (clamp (Q3 (11#2) 2 0) (nth (bid b) five b)) b) /\
  exists d, closest_surface_point t (Q3 (11#2) 2 0) (fun i => clamp (Q3 (11#2) 2 0) (nth i five (pt 0 0))) 1000 = Ok (d, Some (Q3 7 1 0, 0)) /\ (d == 13#4)%Q.
Proof.
  eexists. split; [vm_compute; reflexivity|]. split.
  { intros b I. cbn in I. repeat (destruct I as [<-|I]; [intros []; cbn; lra|]). destruct I. }
  split.
  { intros b I. cbn in I. repeat (destruct I as [<-|I]; [intros []; vm_compute; split; discriminate|]). destruct I. }
  eexists. split; vm_compute; reflexivity.
Qed.

(** The empty tree is read out of bounds. *)
Theorem closest_empty_refuted : forall q func big, closest_surface_point {| t_flat := []; t_prims := [] |} q func big = UB.
Proof. reflexivity. Qed.
Print Assumptions closest_empty_refuted.
