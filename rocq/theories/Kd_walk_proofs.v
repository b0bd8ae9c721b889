(** The walks over a stored k-d tree. *)

From Coq Require Import List Arith ZArith QArith Bool Permutation Lia Lqa.
From Verif Require Import Prelude Loops Box_model Box_spec Box_proofs Box_props Bvh_pair_model Tri_model Tri_spec Kd_model Kd_spec Kd_proofs.
Import ListNotations.
Local Open Scope outcome_scope.
Local Open Scope nat_scope.

Lemma one_dim_dist p q d : ((at3 p d - at3 q d) * (at3 p d - at3 q d) <= sq_dist p q)%Q.
Proof.
  assert (H : forall a : Q, (0 <= a * a)%Q) by (intros a; nra).
  pose proof (H (qx p - qx q)%Q). pose proof (H (qy p - qy q)%Q). pose proof (H (qz p - qz q)%Q).
  unfold sq_dist. destruct d; cbn [at3]; lra.
Qed.

(** Blocks read one after another. *)
Lemma ofold_blocks {X S} (blocks : list X) (f : nat -> S -> outcome S) (g : X -> S -> S) (P : list X -> S -> Prop) (bls : list X) :
  forall b done s, P done s ->
  (forall i x, nth_error bls i = Some x -> nth_error blocks (b + i) = Some x) ->
  (forall i x done s, nth_error blocks i = Some x -> In x bls -> P done s -> f i s = Ok (g x s) /\ P (done ++ [x]) (g x s)) ->
  exists s', ofold f (seq b (length bls)) s = Ok s' /\ P (done ++ bls) s'.
Proof.
  induction bls as [|x bls IH]; intros b done s H0 HB Hs.
  - exists s. rewrite app_nil_r. cbn. auto.
  - cbn [length seq ofold].
    assert (E : nth_error blocks b = Some x) by (rewrite <- (Nat.add_0_r b); apply HB; reflexivity).
    destruct (Hs b x done s E (or_introl eq_refl) H0) as [-> P1]. cbn [obind].
    destruct (IH (Datatypes.S b) (done ++ [x]) (g x s)) as (s' & E' & P').
    + exact P1.
    + intros i y Hy. rewrite Nat.add_succ_comm. apply HB. exact Hy.
    + intros i y dn s0 A B C. apply Hs; auto. right. exact B.
    + exists s'. split; [exact E'|]. rewrite <- app_assoc in P'. exact P'.
Qed.

Section Walk.
Variables (W : nat) (T : kd) (q : q3).
Variable filt : nat -> list lane -> outcome (list bool).
Variable acc : lane -> bool.
Variable skip : bool.
Hypothesis FO : forall i b, nth_error (k_blocks T) i = Some b -> filt i b = Ok (map acc b).

Notation dl l := (sq_dist (l_pos l) q).
Definition better (x : lane * (Q * Z)) : Q * Z :=
  if Qltb (dl (fst x)) (fst (snd x)) && acc (fst x) then (dl (fst x), l_idx (fst x)) else snd x.

Lemma combine_acc {Y} (b : list lane) (bs : list Y) : length bs = length b ->
  combine (combine b bs) (map acc b) = map (fun x => (x, acc (fst x))) (combine b bs).
Proof. revert bs. induction b as [|l b IH]; intros [|s bs] L; cbn in *; try discriminate; auto. rewrite IH by lia. reflexivity. Qed.

Lemma scan_block_eq i b bs : nth_error (k_blocks T) i = Some b -> length bs = length b ->
  scan_block T q filt i bs = Ok (map better (combine b bs)).
Proof.
  intros E L. unfold scan_block. rewrite (rd_some _ _ _ E). cbn [obind].
  destruct (existsb _ _) eqn:X.
  - rewrite (FO i b E). cbn [obind]. rewrite combine_acc by exact L. rewrite map_map. cbn [fst snd]. reflexivity.
  - f_equal. clear E. revert bs L X. induction b as [|l b IH]; intros [|s bs] L X; cbn in *; try discriminate; auto.
    apply orb_false_iff in X. destruct X as [X1 X2].
    f_equal; [|apply IH; [lia|exact X2]]. unfold better. cbn [fst snd].
    change (sq_norm (l_pos l) q) with (dl l) in X1. rewrite X1. reflexivity.
Qed.

Lemma combine_left {X Y} (b : list X) (bs : list Y) x : length bs = length b -> In x b -> exists y, In (x, y) (combine b bs).
Proof.
  revert bs. induction b as [|l b IH]; intros [|s bs] L; cbn in *; try discriminate; [intros []|].
  intros [->|H]; [exists s; auto|]. destruct (IH bs) as [y Hy]; [lia|exact H|]. exists y; auto.
Qed.
Lemma combine_right {X Y} (b : list X) (bs : list Y) y : length bs = length b -> In y bs -> exists x, In (x, y) (combine b bs).
Proof.
  revert bs. induction b as [|l b IH]; intros [|s bs] L; cbn in *; try discriminate; [intros []|].
  intros [->|H]; [exists l; auto|]. destruct (IH bs) as [x Hx]; [lia|exact H|]. exists x; auto.
Qed.

Definition lanes_inv (b0 : Q) (seen : list (list lane)) (bs : list (Q * Z)) : Prop :=
  length bs = W /\
  (forall s, In s bs -> s = (b0, int_max) \/ exists l, In l (concat seen) /\ acc l = true /\ s = (dl l, l_idx l) /\ (dl l < b0)%Q) /\
  (forall l, In l (concat seen) -> acc l = true -> exists s, In s bs /\ (fst s <= dl l)%Q).

Lemma lanes_step b0 seen bs b : length b = W -> lanes_inv b0 seen bs -> lanes_inv b0 (seen ++ [b]) (map better (combine b bs)).
Proof.
  intros Lb (L & H1 & H2). assert (LL : length bs = length b) by congruence.
  unfold lanes_inv. rewrite concat_app. cbn [concat]. rewrite app_nil_r.
  split; [rewrite map_length, combine_length; lia|]. split.
  - intros s Hs. apply in_map_iff in Hs. destruct Hs as ((l & s0) & <- & Hx). unfold better. cbn [fst snd].
    pose proof (in_combine_l _ _ _ _ Hx) as Hl. pose proof (in_combine_r _ _ _ _ Hx) as Hs0.
    destruct (Qltb_spec (dl l) (fst s0)) as [Lt|_]; cbn [andb].
    + destruct (acc l) eqn:A.
      * right. exists l. split; [apply in_or_app; auto|]. do 2 (split; [auto|]).
        destruct (H1 s0 Hs0) as [->|(l' & _ & _ & -> & Hlt)]; cbn [fst] in Lt; lra.
      * destruct (H1 s0 Hs0) as [->|(l' & Hi & Ha & E & Hlt)]; [left; reflexivity|].
        right. exists l'. split; [apply in_or_app; auto|]. auto.
    + destruct (H1 s0 Hs0) as [->|(l' & Hi & Ha & E & Hlt)]; [left; reflexivity|].
      right. exists l'. split; [apply in_or_app; auto|]. auto.
  - intros l Hl A. apply in_app_or in Hl. destruct Hl as [Hl|Hl].
    + destruct (H2 l Hl A) as (s & Hs & Hle). destruct (combine_right b bs s LL Hs) as [x Hx].
      exists (better (x, s)). split; [apply in_map; exact Hx|].
      unfold better. cbn [fst snd]. destruct (Qltb_spec (dl x) (fst s)); cbn [andb]; [|exact Hle].
      destruct (acc x); cbn [fst]; lra.
    + destruct (combine_left b bs l LL Hl) as [s Hs]. exists (better (l, s)). split; [apply in_map; exact Hs|].
      unfold better. cbn [fst snd]. rewrite A. destruct (Qltb_spec (dl l) (fst s)); cbn [andb fst]; lra.
Qed.

Definition counts (x : Q * Z) : bool := negb (skip && (snd x =? int_max)%Z).
Lemma take_lanes bs : forall s, let r := fold_left (take_lane skip) bs s in
  (r = s /\ forall x, In x bs -> counts x = true -> (fst s <= fst x)%Q) \/
  (exists x, In x bs /\ counts x = true /\ r = (fst x, Some (snd x)) /\ (fst x < fst s)%Q /\
    forall y, In y bs -> counts y = true -> (fst x <= fst y)%Q).
Proof.
  induction bs as [|x bs IH]; intros s; cbv zeta in *; cbn [fold_left]; [left; split; [reflexivity|intros x []]|].
  assert (C : (counts x = false /\ take_lane skip s x = s) \/ (counts x = true /\ (fst x < fst s)%Q /\ take_lane skip s x = (fst x, Some (snd x))) \/
     (counts x = true /\ (fst s <= fst x)%Q /\ take_lane skip s x = s)).
  { unfold counts, take_lane. destruct (skip && (snd x =? int_max)%Z); [left; auto|right].
    destruct (Qltb_spec (fst x) (fst s)); [left|right]; repeat split; auto; lra. }
  destruct C as [[C ->]|[(C & Lt & ->)|(C & Ge & ->)]].
  - destruct (IH s) as [[-> H]|(y & Hy & Cy & -> & Lt & M)].
    + left. split; [reflexivity|]. intros z [<-|Hz] Cz; [congruence|auto].
    + right. exists y. split; [right; exact Hy|]. do 3 (split; [auto|]). intros z [<-|Hz] Cz; [congruence|auto].
  - destruct (IH (fst x, Some (snd x))) as [[-> H]|(y & Hy & Cy & -> & Lt2 & M)]; cbn [fst] in *.
    + right. exists x. split; [left; reflexivity|]. do 3 (split; [auto|]). intros z [<-|Hz] Cz; [lra|auto].
    + right. exists y. split; [right; exact Hy|]. split; [exact Cy|]. split; [reflexivity|]. split; [lra|].
      intros z [<-|Hz] Cz; [lra|auto].
  - destruct (IH s) as [[-> H]|(y & Hy & Cy & -> & Lt2 & M)].
    + left. split; [reflexivity|]. intros z [<-|Hz] Cz; [lra|auto].
    + right. exists y. split; [right; exact Hy|]. do 3 (split; [auto|]). intros z [<-|Hz] Cz; [lra|auto].
Qed.

(** The points that no padding lane can hide, and the lanes that can be reported. *)
Notation dp p := (sq_dist (snd p) q).
Definition must (p : item) : Prop := acc (lane_of p) = true /\ (acc pad = true -> (dp p < filler_dist q)%Q).
Definition may (seg : list item) (l : lane) : Prop :=
  acc l = true /\ ((exists p, In p seg /\ l = lane_of p) \/ (skip = false /\ l = pad)).

Definition improved (seg : list item) (s s' : best) : Prop :=
  (s' = s /\ forall p, In p seg -> must p -> (fst s <= dp p)%Q) \/
  (exists l, may seg l /\ s' = (dl l, Some (l_idx l)) /\ (dl l < fst s)%Q /\
    forall p, In p seg -> must p -> (dl l <= dp p)%Q).

Lemma improved_le seg s s' : improved seg s s' -> (fst s' <= fst s)%Q.
Proof. intros [[-> _]|(p & _ & -> & H & _)]; cbn [fst]; lra. Qed.

Lemma may_incl A C l : (forall p, In p A -> In p C) -> may A l -> may C l.
Proof. intros H [H1 [(p & Hp & ->)|H2]]; split; auto. left. exists p. auto. Qed.

Lemma improved_two A B C s s1 s2 : improved A s s1 -> improved B s1 s2 ->
  (forall p, In p C <-> In p A \/ In p B) -> improved C s s2.
Proof.
  intros I1 I2 E.
  assert (MA : forall l, may A l -> may C l) by (intros l; apply may_incl; intros p Hp; apply E; auto).
  assert (MB : forall l, may B l -> may C l) by (intros l; apply may_incl; intros p Hp; apply E; auto).
  destruct I1 as [[-> H1]|(p & Ip & -> & Lp & Mp)], I2 as [[-> H2]|(p2 & Ip2 & -> & Lp2 & Mp2)]; cbn [fst] in *.
  - left. split; [reflexivity|]. intros x Hx Ax. apply E in Hx. destruct Hx; auto.
  - right. exists p2. split; [auto|]. do 2 (split; [auto|]).
    intros x Hx Ax. apply E in Hx. destruct Hx as [Hx|Hx]; [|auto]. specialize (H1 x Hx Ax). lra.
  - right. exists p. split; [auto|]. do 2 (split; [auto|]).
    intros x Hx Ax. apply E in Hx. destruct Hx as [Hx|Hx]; auto.
  - right. exists p2. split; [auto|]. split; [auto|]. split; [lra|].
    intros x Hx Ax. apply E in Hx. destruct Hx as [Hx|Hx]; [|auto]. specialize (Mp x Hx Ax). lra.
Qed.

Lemma improved_none seg s (s0 : best) : (fst s <= fst s0)%Q -> (forall p, In p seg -> (fst s0 <= dp p)%Q) -> improved seg s s.
Proof. intros L H. left. split; [reflexivity|]. intros p Hp _. specialize (H p Hp). lra. Qed.

Variables (N : nat) (all : list item).
Hypothesis NF : (Z.of_nat N <= int_max)%Z.
Hypothesis AV : valid N all.

Lemma scan_leaf_ok b e seg s : leaf_blocks W T b e seg -> incl seg all ->
  exists s', scan_leaf W T q filt skip b e s = Ok s' /\ improved seg s s'.
Proof.
  intros (bls & m & L & NE & HB & HL & CC) I. unfold scan_leaf. rewrite <- L.
  destruct (ofold_blocks (k_blocks T) (scan_block T q filt) (fun x bs => map better (combine x bs)) (lanes_inv (fst s)) bls
     b [] (repeat (fst s, int_max) W)) as (bs & E & Inv).
  - split; [apply repeat_length|]. split; [|intros l []]. intros x Hx. left. symmetry. eapply eq_sym, repeat_spec. exact Hx.
  - exact HB.
  - intros i x done bs0 Ex Hx Inv. split; [apply scan_block_eq; [exact Ex|]|apply lanes_step; auto].
    rewrite (HL x Hx). apply Inv.
  - cbn [app] in Inv. rewrite E. cbn [obind]. eexists. split; [reflexivity|].
    destruct Inv as (_ & H1 & H2). rewrite CC in H1, H2.
    assert (Real : forall p, In p seg -> Z.of_nat (fst p) <> int_max) by (intros p Hp; specialize (AV p (I p Hp)); lia).
    assert (Kind : forall l, In l (map lane_of seg ++ repeat pad m) -> (exists p, In p seg /\ l = lane_of p) \/ l = pad).
    { intros l Hl. apply in_app_or in Hl. destruct Hl as [Hl|Hl]; [|right; eapply repeat_spec; exact Hl].
      apply in_map_iff in Hl. destruct Hl as (p & <- & Hp). eauto. }
    assert (In1 : forall p, In p seg -> In (lane_of p) (map lane_of seg ++ repeat pad m)).
    { intros p Hp. apply in_or_app. left. apply in_map. exact Hp. }
    (* every point that cannot be hidden has a counting lane at most as far *)
    assert (Cover : forall p, In p seg -> must p -> (fst s <= dp p)%Q \/
      exists x, In x bs /\ counts x = true /\ (fst x <= dp p)%Q).
    { intros p Hp [Ap Vp]. destruct (H2 _ (In1 p Hp) Ap) as (x & Hx & Le). cbn [lane_of l_pos] in Le.
      destruct (H1 x Hx) as [->|(l & Hl & Al & -> & Lt)]; [left; exact Le|]. cbn [fst] in Le.
      destruct (Kind l Hl) as [(p' & Hp' & ->)| ->].
      - right. exists (dp p', Z.of_nat (fst p')). split; [exact Hx|]. split; [|exact Le].
        unfold counts. cbn [snd]. destruct (Z.eqb_spec (Z.of_nat (fst p')) int_max) as [C|_]; [exfalso; exact (Real p' Hp' C)|].
        rewrite andb_false_r. reflexivity.
      - specialize (Vp Al). change (filler_dist q) with (sq_dist far q) in Vp. cbn [pad l_pos] in Le. lra. }
    destruct (take_lanes bs s) as [[-> H]|(x & Hx & Cx & -> & Lt & M)].
    + left. split; [reflexivity|]. intros p Hp Ap. destruct (Cover p Hp Ap) as [C|(x & Hx & Cx & Le)]; [exact C|].
      specialize (H x Hx Cx). lra.
    + destruct (H1 x Hx) as [->|(l & Hl & Al & -> & Ltl)]; [cbn [fst] in Lt; lra|]. cbn [fst snd] in *.
      right. exists l. split; [|split; [reflexivity|split; [exact Lt|]]].
      * split; [exact Al|]. destruct (Kind l Hl) as [K| ->]; [left; exact K|right]. split; [|reflexivity].
        unfold counts in Cx. cbn in Cx. destruct skip; [discriminate|reflexivity].
      * intros p Hp Mp. destruct (Cover p Hp Mp) as [C|(y & Hy & Cy & Le)]; [lra|]. specialize (M y Hy Cy). lra.
Qed.

Lemma box_far bx seg s : proper bx -> (forall p : item, In p seg -> in_box (snd p) bx) ->
  (s < sq_dist_to_box bx q)%Q -> forall p, In p seg -> (s <= dp p)%Q.
Proof. intros P I L p Hp. destruct (box_distance_exact bx q P) as [D _]. specialize (D (snd p) (I p Hp)). lra. Qed.

Lemma side_far (seg : list item) d v : ((forall p, In p seg -> (at3 (snd p) d <= v)%Q) /\ (v <= at3 q d)%Q) \/
   ((forall p, In p seg -> (v <= at3 (snd p) d)%Q) /\ (at3 q d <= v)%Q) ->
  forall s, (s <= (at3 q d - v) * (at3 q d - v))%Q -> forall p, In p seg -> (s <= dp p)%Q.
Proof.
  intros H s L p Hp. pose proof (one_dim_dist (snd p) q d) as D.
  assert (S : forall a c : Q, (0 <= a -> a <= c -> a * a <= c * c)%Q) by (intros; nra).
  destruct H as [[H V]|[H V]]; specialize (H p Hp).
  - pose proof (S (at3 q d - v)%Q (at3 q d - at3 (snd p) d)%Q) as S1.
    setoid_replace ((at3 (snd p) d - at3 q d) * (at3 (snd p) d - at3 q d))%Q with ((at3 q d - at3 (snd p) d) * (at3 q d - at3 (snd p) d))%Q in D by ring.
    lra.
  - pose proof (S (v - at3 q d)%Q (at3 (snd p) d - at3 q d)%Q) as S1.
    setoid_replace ((at3 q d - v) * (at3 q d - v))%Q with ((v - at3 q d) * (v - at3 q d))%Q in L by ring.
    lra.
Qed.

Lemma kpush_ok i rest : length rest < max_depth + 1 -> kpush i rest = Ok (i :: rest).
Proof. intros H. unfold kpush. apply Nat.ltb_lt in H. rewrite H. reflexivity. Qed.

Lemma walk_ok i seg h n : kover W T i seg h n -> forall rest s fuel, incl seg all ->
  length rest + h <= max_depth -> n <= fuel ->
  exists s' k, k <= n /\ kd_walk W T q filt skip fuel (i :: rest) s = kd_walk W T q filt skip (fuel - k) rest s' /\ improved seg s s'.
Proof.
  induction 1 as [i seg b e bx E Sn PB IB LO|i v d l r bx s1 s2 h1 h2 n1 n2 E PB IB H1 H2 K1 IH1 K2 IH2];
    intros rest s fuel I HS HF.
  - destruct fuel as [|fuel]; [lia|]. cbn [kd_walk]. rewrite (rd_some _ _ _ E). cbn [obind k_box].
    destruct (Qltb_spec (fst s) (sq_dist_to_box bx q)) as [Far|_].
    + exists s, 1. split; [lia|]. split; [f_equal; lia|]. apply (improved_none _ _ s); [lra|]. eapply box_far; eauto.
    + destruct (scan_leaf_ok b e seg s LO I) as (s' & Es & Im). rewrite Es. cbn [obind].
      exists s', 1. split; [lia|]. split; [f_equal; lia|exact Im].
  - destruct fuel as [|fuel]; [lia|]. cbn [kd_walk]. rewrite (rd_some _ _ _ E). cbn [obind k_box].
    destruct (Qltb_spec (fst s) (sq_dist_to_box bx q)) as [Far|_].
    + exists s, 1. split; [lia|]. split; [f_equal; lia|]. apply (improved_none _ _ s); [lra|]. eapply box_far; eauto.
    + assert (I1 : incl s1 all) by (intros p Hp; apply I, in_or_app; auto).
      assert (I2 : incl s2 all) by (intros p Hp; apply I, in_or_app; auto).
      cbv zeta. destruct (Qleb_spec v (at3 q d)) as [Side|Side].
      * destruct (Qltb_spec ((at3 q d - v) * (at3 q d - v)) (fst s)) as [Near|Far].
        -- rewrite kpush_ok by lia. cbn [obind]. rewrite kpush_ok by (cbn [length]; lia). cbn [obind].
           destruct (IH2 (l :: rest) s fuel I2) as (t2 & k2 & Hk2 & -> & Im2); [cbn [length]; lia|lia|].
           pose proof (improved_le _ _ _ Im2).
           destruct (IH1 rest t2 (fuel - k2) I1) as (t1 & k1 & Hk1 & -> & Im1); [lia|lia|].
           exists t1, (S (k1 + k2)). split; [lia|]. split; [f_equal; lia|].
           apply (improved_two s2 s1 _ _ _ _ Im2 Im1). intros p. rewrite in_app_iff. tauto.
        -- cbn [obind]. rewrite kpush_ok by lia. cbn [obind].
           destruct (IH2 rest s fuel I2) as (t2 & k2 & Hk2 & -> & Im2); [lia|lia|].
           pose proof (improved_le _ _ _ Im2).
           exists t2, (S k2). split; [lia|]. split; [f_equal; lia|].
           apply (improved_two s2 s1 _ _ _ _ Im2 (improved_none s1 t2 s ltac:(lra) (side_far s1 d v (or_introl (conj H1 Side)) (fst s) ltac:(lra)))).
           intros p. rewrite in_app_iff. tauto.
      * assert (Side' : (at3 q d <= v)%Q) by lra.
        destruct (Qltb_spec ((at3 q d - v) * (at3 q d - v)) (fst s)) as [Near|Far].
        -- rewrite kpush_ok by lia. cbn [obind]. rewrite kpush_ok by (cbn [length]; lia). cbn [obind].
           destruct (IH1 (r :: rest) s fuel I1) as (t1 & k1 & Hk1 & -> & Im1); [cbn [length]; lia|lia|].
           pose proof (improved_le _ _ _ Im1).
           destruct (IH2 rest t1 (fuel - k1) I2) as (t2 & k2 & Hk2 & -> & Im2); [lia|lia|].
           exists t2, (S (k1 + k2)). split; [lia|]. split; [f_equal; lia|].
           apply (improved_two s1 s2 _ _ _ _ Im1 Im2). intros p. rewrite in_app_iff. tauto.
        -- cbn [obind]. rewrite kpush_ok by lia. cbn [obind].
           destruct (IH1 rest s fuel I1) as (t1 & k1 & Hk1 & -> & Im1); [lia|lia|].
           pose proof (improved_le _ _ _ Im1).
           exists t1, (S k1). split; [lia|]. split; [f_equal; lia|].
           apply (improved_two s1 s2 _ _ _ _ Im1 (improved_none s2 t1 s ltac:(lra) (side_far s2 d v (or_intror (conj H2 Side')) (fst s) ltac:(lra)))).
           intros p. rewrite in_app_iff. tauto.
Qed.
End Walk.

(** *** Points in a ball *)

Section Ball.
Variables (W : nat) (T : kd) (c : q3) (r : Q).
Hypothesis R0 : (0 <= r)%Q.
Hypothesis PF : (r * r < filler_dist c)%Q.
Definition in_ball (p : item) : bool := Qle_bool (sq_dist (snd p) c) (r * r).

Lemma ball_block i b acc : nth_error (k_blocks T) i = Some b ->
  sphere_block T c r i acc = Ok (acc ++ map l_idx (filter (fun l => Qle_bool (sq_norm (l_pos l) c) (r * r)) b)).
Proof. intros E. unfold sphere_block. rewrite (rd_some _ _ _ E). reflexivity. Qed.

Lemma ball_leaf b e seg acc : leaf_blocks W T b e seg ->
  ofold (sphere_block T c r) (seq b (e - b)) acc = Ok (acc ++ map (fun p => Z.of_nat (fst p)) (filter in_ball seg)).
Proof.
  intros (bls & m & L & _ & HB & _ & CC). rewrite <- L.
  destruct (ofold_blocks (k_blocks T) (sphere_block T c r)
     (fun x a => a ++ map l_idx (filter (fun l => Qle_bool (sq_norm (l_pos l) c) (r * r)) x))
     (fun done a => a = acc ++ map l_idx (filter (fun l => Qle_bool (sq_norm (l_pos l) c) (r * r)) (concat done))) bls b [] acc)
    as (s & E & P).
  - cbn. rewrite app_nil_r. reflexivity.
  - exact HB.
  - intros i x done s Ex _ ->. split; [apply ball_block; exact Ex|].
    rewrite concat_app, filter_app, map_app, app_assoc. cbn [concat]. rewrite app_nil_r. reflexivity.
  - rewrite E, P. cbn [app]. rewrite CC, filter_app. do 2 f_equal.
    assert (Z : filter (fun l => Qle_bool (sq_norm (l_pos l) c) (r * r)) (repeat pad m) = []).
    { clear - PF. induction m; cbn [repeat filter]; [reflexivity|]. rewrite IHm.
      destruct (Qleb_spec (sq_norm (l_pos pad) c) (r * r)) as [C|_]; [|reflexivity].
      exfalso. change (filler_dist c) with (sq_dist far c) in PF. change (sq_norm (l_pos pad) c) with (sq_dist far c) in C. lra. }
    rewrite Z, app_nil_r. clear. induction seg as [|p seg IH]; [reflexivity|]. cbn [map filter]. unfold in_ball at 1.
    change (sq_norm (l_pos (lane_of p)) c) with (sq_dist (snd p) c). destruct (Qle_bool _ _); cbn [map]; rewrite IH; reflexivity.
Qed.

Lemma none_in_ball seg : (forall p, In p seg -> (r * r < sq_dist (snd p) c)%Q) -> filter in_ball seg = [].
Proof.
  induction seg as [|p seg IH]; intros H; [reflexivity|]. cbn [filter]. rewrite IH by (intros; apply H; right; assumption).
  unfold in_ball. destruct (Qleb_spec (sq_dist (snd p) c) (r * r)) as [C|_]; [|reflexivity].
  specialize (H p (or_introl eq_refl)). lra.
Qed.

Lemma beyond seg d v : ((forall p : item, In p seg -> (at3 (snd p) d <= v)%Q) /\ (v < at3 c d - r)%Q) \/
   ((forall p : item, In p seg -> (v <= at3 (snd p) d)%Q) /\ (at3 c d + r < v)%Q) -> filter in_ball seg = [].
Proof.
  intros H. apply none_in_ball. intros p Hp. pose proof (one_dim_dist (snd p) c d) as D.
  assert (S : forall a : Q, (r < a -> r * r < a * a)%Q) by (intros; nra).
  destruct H as [[H V]|[H V]]; specialize (H p Hp).
  - pose proof (S (at3 c d - at3 (snd p) d)%Q) as S1.
    setoid_replace ((at3 (snd p) d - at3 c d) * (at3 (snd p) d - at3 c d))%Q with ((at3 c d - at3 (snd p) d) * (at3 c d - at3 (snd p) d))%Q in D by ring.
    lra.
  - pose proof (S (at3 (snd p) d - at3 c d)%Q) as S1. lra.
Qed.

Lemma sphere_ok i seg h n : kover W T i seg h n -> forall rest acc fuel, length rest + h <= max_depth -> n <= fuel ->
  exists found k, k <= n /\ sphere_walk T c r fuel (i :: rest) acc = sphere_walk T c r (fuel - k) rest (acc ++ found) /\
    Permutation found (map (fun p => Z.of_nat (fst p)) (filter in_ball seg)).
Proof.
  induction 1 as [i seg b e bx E Sn PB IB LO|i v d l rc bx s1 s2 h1 h2 n1 n2 E PB IB H1 H2 K1 IH1 K2 IH2];
    intros rest acc fuel HS HF.
  - destruct fuel as [|fuel]; [lia|]. cbn [sphere_walk]. rewrite (rd_some _ _ _ E). cbn [obind k_box].
    destruct (Qltb_spec (r * r) (sq_dist_to_box bx c)) as [Far|_].
    + exists [], 1. split; [lia|]. rewrite app_nil_r. split; [f_equal; lia|]. rewrite none_in_ball; [apply Permutation_refl|].
      intros p Hp. destruct (box_distance_exact bx c PB) as [D _]. specialize (D (snd p) (IB p Hp)). lra.
    + rewrite (ball_leaf b e seg acc LO). cbn [obind].
      eexists. exists 1. split; [lia|]. split; [f_equal; lia|apply Permutation_refl].
  - destruct fuel as [|fuel]; [lia|]. cbn [sphere_walk]. rewrite (rd_some _ _ _ E). cbn [obind k_box].
    destruct (Qltb_spec (r * r) (sq_dist_to_box bx c)) as [Far|_].
    + exists [], 1. split; [lia|]. rewrite app_nil_r. split; [f_equal; lia|]. rewrite none_in_ball; [apply Permutation_refl|].
      intros p Hp. destruct (box_distance_exact bx c PB) as [D _]. specialize (D (snd p) (IB p Hp)). lra.
    + cbv zeta. rewrite filter_app, map_app.
      destruct (Qleb_spec (at3 c d - r) v) as [L|L]; [rewrite kpush_ok by lia|]; cbn [obind];
        (destruct (Qleb_spec v (at3 c d + r)) as [R|R]; [rewrite kpush_ok by (cbn [length]; lia)|]; cbn [obind]).
      * destruct (IH2 (l :: rest) acc fuel) as (f2 & k2 & Hk2 & -> & P2); [cbn [length]; lia|lia|].
        destruct (IH1 rest (acc ++ f2) (fuel - k2)) as (f1 & k1 & Hk1 & -> & P1); [lia|lia|].
        exists (f2 ++ f1), (S (k1 + k2)). split; [lia|]. rewrite app_assoc. split; [f_equal; lia|].
        eapply Permutation_trans; [apply Permutation_app_comm|]. apply Permutation_app; assumption.
      * destruct (IH1 rest acc fuel) as (f1 & k1 & Hk1 & -> & P1); [lia|lia|].
        exists f1, (S k1). split; [lia|]. split; [f_equal; lia|].
        rewrite (beyond s2 d v) by (right; split; [exact H2|lra]). cbn [map]. rewrite app_nil_r. exact P1.
      * destruct (IH2 rest acc fuel) as (f2 & k2 & Hk2 & -> & P2); [lia|lia|].
        exists f2, (S k2). split; [lia|]. split; [f_equal; lia|].
        rewrite (beyond s1 d v) by (left; split; [exact H1|lra]). cbn [map app]. exact P2.
      * exfalso. lra.
Qed.
End Ball.
