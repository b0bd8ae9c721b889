(** The k-d tree: what the construction stores, and what the walks see. *)

From Coq Require Import List Arith ZArith QArith Bool Permutation Lia Lqa.
From Verif Require Import Prelude Loops Box_model Box_spec Box_proofs Box_props Bvh_pair_model Tri_model Tri_spec Kd_model Kd_spec.
Import ListNotations.
Local Open Scope outcome_scope.
Local Open Scope nat_scope.

Section Stored.
Variables (W : nat) (normals : list q3) (colors : list color) (N : nat).
Hypothesis W1 : 1 <= W.
Hypothesis NF : (Z.of_nat N <= int_max)%Z.
Hypothesis NL : normals = [] \/ length normals = N.
Hypothesis CL : colors = [] \/ length colors = N.

(** The normal and the color of a lane. *)
Definition lane_value {X} (l : list X) (x : X) (ln : lane) : X :=
  if (l_idx ln =? int_max)%Z then x else nth (Z.to_nat (l_idx ln)) l x.
Definition parallel (t : kd) : Prop :=
  k_normals t = (if length normals =? 0 then [] else map (map (lane_value normals (Q3 0 0 0))) (k_blocks t)) /\
  k_colors t = (if length colors =? 0 then [] else map (map (lane_value colors (0, 0, 0, 0)%Q)) (k_blocks t)).

Definition valid (seg : list item) : Prop := forall p, In p seg -> fst p < N.

Lemma read_all_ok {X} (l : list X) (x : X) seg acc : length l = N -> valid seg ->
  ofold (fun p acc => let* x := rd l (fst p) in Ok (acc ++ [x])) seg acc =
  Ok (acc ++ map (lane_value l x) (map lane_of seg)).
Proof.
  intros L. revert acc. induction seg as [|p seg IH]; intros acc V; [cbn; rewrite app_nil_r; reflexivity|].
  cbn [ofold map]. assert (V1 : fst p < N) by (apply V; left; reflexivity).
  destruct (nth_error_lt l (fst p)) as [y E]; [lia|].
  rewrite (rd_some _ _ _ E). cbn [obind]. rewrite IH by (intros a H; apply V; right; exact H).
  rewrite <- app_assoc. cbn [app]. do 3 f_equal. unfold lane_value, lane_of. cbn [l_idx].
  destruct (Z.eqb_spec (Z.of_nat (fst p)) int_max); [lia|]. rewrite Nat2Z.id.
  rewrite (nth_error_nth _ _ x E). reflexivity.
Qed.

Lemma fill_values {X} (l : list X) (x : X) cur : fill W (map (lane_value l x) (map lane_of cur)) x =
  map (lane_value l x) (fill W (map lane_of cur) pad).
Proof.
  unfold fill. rewrite map_app, !map_length. f_equal.
  induction (W - length cur); cbn; [reflexivity|]. rewrite <- IHn. reflexivity.
Qed.

Lemma fill_length cur : length cur <= W -> length (fill W (map lane_of cur) pad) = W.
Proof. intros H. unfold fill. rewrite app_length, repeat_length, map_length. lia. Qed.

Lemma add_blocks_ok fuel : forall seg t, length seg <= fuel -> valid seg -> parallel t ->
  exists t' bls m, add_blocks W normals colors fuel seg t = Ok t' /\
    k_nodes t' = k_nodes t /\ k_depth t' = k_depth t /\ k_count t' = k_count t /\ parallel t' /\
    k_blocks t' = k_blocks t ++ bls /\ (seg <> [] -> bls <> []) /\
    (forall b, In b bls -> length b = W) /\ concat bls = map lane_of seg ++ repeat pad m.
Proof.
  induction fuel as [|fuel IH]; intros seg t L V P.
  - destruct seg; [|cbn in L; lia]. exists t, [], 0. cbn. rewrite app_nil_r. repeat split; auto; try apply P. intros b [].
  - destruct seg as [|p0 seg0]; [exists t, [], 0; cbn; rewrite app_nil_r; repeat split; auto; try apply P; intros b []|].
    set (seg := p0 :: seg0) in *. cbn [add_blocks]. fold seg.
    assert (Hlen : length seg = S (length seg0)) by reflexivity.
    change (match seg with [] => Ok t | _ :: _ => ?x end) with x.
    assert (Split : seg = firstn W seg ++ skipn W seg) by (symmetry; apply firstn_skipn).
    assert (CW : length (firstn W seg) <= W) by (rewrite firstn_length; lia).
    assert (SL : length (skipn W seg) <= fuel) by (rewrite skipn_length; lia).
    assert (CS : length (firstn W seg) = W \/ skipn W seg = []).
    { rewrite firstn_length. destruct (Nat.le_gt_cases W (length seg)); [left; lia|right]. apply skipn_all2. lia. }
    assert (Vc : valid (firstn W seg)) by (intros a H; apply V; rewrite Split; apply in_or_app; left; exact H).
    assert (Vr : valid (skipn W seg)) by (intros a H; apply V; rewrite Split; apply in_or_app; right; exact H).
    assert (Rn : (if length normals =? 0 then Ok [] else read_all normals (firstn W seg)) =
      Ok (if length normals =? 0 then [] else map (lane_value normals (Q3 0 0 0)) (map lane_of (firstn W seg)))).
    { destruct NL as [->|NL']; [reflexivity|]. destruct (length normals =? 0); [reflexivity|].
      unfold read_all. rewrite (read_all_ok _ (Q3 0 0 0)) by assumption. reflexivity. }
    assert (Rc : (if length colors =? 0 then Ok [] else read_all colors (firstn W seg)) =
      Ok (if length colors =? 0 then [] else map (lane_value colors (0, 0, 0, 0)%Q) (map lane_of (firstn W seg)))).
    { destruct CL as [->|CL']; [reflexivity|]. destruct (length colors =? 0); [reflexivity|].
      unfold read_all. rewrite (read_all_ok _ (0, 0, 0, 0)%Q) by assumption. reflexivity. }
    rewrite Rn, Rc. cbn [obind]. clear Rn Rc.
    match goal with |- context [add_blocks _ _ _ _ _ ?t1] => set (t2 := t1) end.
    assert (P2 : parallel t2).
    { destruct P as [P1 P2]. subst t2. split; cbn [k_normals k_colors k_blocks].
      - rewrite P1. destruct (length normals =? 0); [reflexivity|]. rewrite map_app. cbn [map]. rewrite fill_values. reflexivity.
      - rewrite P2. destruct (length colors =? 0); [reflexivity|]. rewrite map_app. cbn [map]. rewrite fill_values. reflexivity. }
    destruct (IH (skipn W seg) t2 SL Vr P2) as (t' & bls & m & E & H1 & H2 & H3 & H4 & H5 & H6 & H7 & H8).
    destruct CS as [CS|CS].
    + exists t', (fill W (map lane_of (firstn W seg)) pad :: bls), m.
      split; [exact E|]. split; [exact H1|]. split; [exact H2|]. split; [exact H3|]. split; [exact H4|].
      split; [rewrite H5; subst t2; cbn [k_blocks]; rewrite <- app_assoc; reflexivity|]. split; [discriminate|].
      split; [intros b [<-|Hb]; [apply fill_length; exact CW|apply H7; exact Hb]|].
      cbn [concat]. rewrite H8. unfold fill. rewrite map_length, CS, Nat.sub_diag. cbn [repeat]. rewrite app_nil_r.
      rewrite app_assoc, <- map_app, <- Split. reflexivity.
    + exists t', [fill W (map lane_of (firstn W seg)) pad], (W - length (firstn W seg)).
      rewrite CS in H8, E |- *.
      assert (E2 : Ok t2 = Ok t') by (rewrite <- E; destruct fuel; reflexivity).
      assert (t' = t2) as -> by congruence.
      split; [destruct fuel; reflexivity|]. do 3 (split; [reflexivity|]). split; [exact P2|]. split; [reflexivity|].
      split; [discriminate|]. split; [intros b [<-|[]]; apply fill_length; exact CW|].
      cbn [concat]. rewrite app_nil_r. unfold fill. rewrite map_length.
      f_equal. f_equal. rewrite CS, app_nil_r in Split. symmetry. exact Split.
Qed.

(** *** The stored tree *)

Definition leaf_blocks (T : kd) (b e : nat) (seg : list item) : Prop :=
  exists bls m, length bls = e - b /\ bls <> [] /\
    (forall i x, nth_error bls i = Some x -> nth_error (k_blocks T) (b + i) = Some x) /\
    (forall x, In x bls -> length x = W) /\ concat bls = map lane_of seg ++ repeat pad m.

Inductive kover (T : kd) : nat -> list item -> nat -> nat -> Prop :=
| ko_leaf i seg b e bx : nth_error (k_nodes T) i = Some (KLeaf b e bx) -> seg <> [] ->
    proper bx -> (forall p, In p seg -> in_box (snd p) bx) -> leaf_blocks T b e seg -> kover T i seg 0 1
| ko_node i v d l r bx s1 s2 h1 h2 n1 n2 : nth_error (k_nodes T) i = Some (KNode v d l r bx) ->
    proper bx -> (forall p, In p (s1 ++ s2) -> in_box (snd p) bx) ->
    (forall p, In p s1 -> (at3 (snd p) d <= v)%Q) -> (forall p, In p s2 -> (v <= at3 (snd p) d)%Q) ->
    kover T l s1 h1 n1 -> kover T r s2 h2 n2 -> kover T i (s1 ++ s2) (S (Nat.max h1 h2)) (S (n1 + n2)).

Lemma extend_point_in b p : proper b -> proper (extend_point b p) /\ in_box p (extend_point b p) /\
  forall q, in_box q b -> in_box q (extend_point b p).
Proof.
  intros P. unfold proper, in_box, extend_point. cbn [lo hi]. 
  assert (H : forall d, (at3 (make3 (fun d => qmin (at3 (lo b) d) (at3 p d))) d <= at3 p d /\
     at3 (make3 (fun d => qmin (at3 (lo b) d) (at3 p d))) d <= at3 (lo b) d /\
     at3 p d <= at3 (make3 (fun d => qmax (at3 (hi b) d) (at3 p d))) d /\
     at3 (hi b) d <= at3 (make3 (fun d => qmax (at3 (hi b) d) (at3 p d))) d)%Q).
  { intros d. rewrite !at_make.
    destruct (qmin_cases (at3 (lo b) d) (at3 p d)) as [[-> ?]|[-> ?]], (qmax_cases (at3 (hi b) d) (at3 p d)) as [[-> ?]|[-> ?]];
      repeat split; lra. }
  split; [intros d; specialize (H d); lra|]. split; [intros d; specialize (H d); lra|].
  intros q Hq d. specialize (H d). specialize (Hq d). lra.
Qed.

Lemma points_box_ok seg : seg <> [] -> exists bx, points_box seg = Ok bx /\ proper bx /\ forall p, In p seg -> in_box (snd p) bx.
Proof.
  destruct seg as [|p seg]; [congruence|]. intros _. cbn [points_box].
  assert (G : forall seg b done, proper b -> (forall p, In p done -> in_box (snd p) b) ->
    let r := fold_left (fun b p => extend_point b (snd p)) seg b in proper r /\ forall p : item, In p done \/ In p seg -> in_box (snd p) r).
  { clear. induction seg as [|x seg IH]; intros b done P H; cbn [fold_left].
    - split; [exact P|]. intros p [Hp|[]]; auto.
    - destruct (extend_point_in b (snd x) P) as (P2 & I & M).
      destruct (IH _ (x :: done) P2) as [P3 H3]; [intros p [<-|Hp]; auto|].
      split; [exact P3|]. intros p [Hp|[->|Hp]]; apply H3; cbn; auto. }
  destruct (G seg (box_of_point (snd p)) [p]) as [P H].
  - intros d. cbn. lra.
  - intros x [<-|[]] d. cbn. lra.
  - eexists. split; [reflexivity|]. split; [exact P|]. intros x [<-|Hx]; apply H; cbn; auto.
Qed.

Variable A : algos.
Hypothesis AO : algos_ok A.

(** [T] holds these nodes and blocks at the places where they were added. *)
Definition holds {X} (l : list X) (base : nat) (new : list X) : Prop :=
  forall i x, nth_error new i = Some x -> nth_error l (base + i) = Some x.

Lemma holds_app {X} (l : list X) base n1 n2 : holds l base (n1 ++ n2) -> holds l base n1 /\ holds l (base + length n1) n2.
Proof.
  intros H. split; intros i x E.
  - apply H. rewrite nth_error_app1; [exact E|]. apply nth_error_len in E. exact E.
  - rewrite <- Nat.add_assoc. apply H. rewrite nth_error_app2 by lia. replace (length n1 + i - length n1) with i by lia. exact E.
Qed.

Definition built (rem : nat) (seg : list item) (t : kd) (r : nat * kd) : Prop :=
  let t' := snd r in
  fst r = length (k_nodes t) /\ parallel t' /\ k_count t' = k_count t /\
  k_depth t' <= Nat.max max_depth (k_depth t) /\
  exists nn nb seg' h, k_nodes t' = k_nodes t ++ nn /\ k_blocks t' = k_blocks t ++ nb /\
    Permutation seg seg' /\ h <= rem /\
    forall T, holds (k_nodes T) (length (k_nodes t)) nn -> holds (k_blocks T) (length (k_blocks t)) nb ->
      kover T (fst r) seg' h (length nn).

Lemma create_leaf_ok rem seg bx t t0 : seg <> [] -> valid seg -> parallel t -> proper bx ->
  (forall p, In p seg -> in_box (snd p) bx) ->
  k_nodes t = k_nodes t0 -> k_blocks t = k_blocks t0 -> k_count t = k_count t0 -> k_depth t <= Nat.max max_depth (k_depth t0) ->
  exists r, create_leaf W normals colors seg bx t = Ok r /\ built rem seg t0 r.
Proof.
  intros S V P PB IB En Eb Ec Ed.
  destruct (add_blocks_ok (length seg) seg t) as (t' & bls & m & E & H1 & H2 & H3 & H4 & H5 & H6 & H7 & H8); auto.
  unfold create_leaf. rewrite E. cbn [obind]. eexists. split; [reflexivity|].
  unfold built. cbn [fst snd with_nodes k_nodes k_blocks k_count k_depth].
  split; [congruence|]. split; [exact H4|]. split; [congruence|]. split; [lia|].
  exists [KLeaf (length (k_blocks t)) (length (k_blocks t')) bx], bls, seg, 0.
  split; [congruence|]. split; [congruence|]. split; [apply Permutation_refl|]. split; [lia|].
  intros T HN HB. apply (ko_leaf _ _ _ (length (k_blocks t)) (length (k_blocks t')) bx); auto.
  - rewrite H1, En. specialize (HN 0 _ eq_refl). rewrite Nat.add_0_r in HN. exact HN.
  - exists bls, m. rewrite H5, app_length. split; [lia|]. split; [auto|]. split; [rewrite Eb; exact HB|]. auto.
Qed.

Lemma split_sides seg bx : seg <> [] -> proper bx ->
  8 < length seg / W + (if length seg mod W =? 0 then 0 else 1) ->
  let d := split_dim bx in let v := at3 (center bx) d in
  let '(tr, fl) := do_partition A (fun p => Qltb (at3 (snd p) d) v) seg in
  exists s1 s2 v', (if (length tr <? W) || (length seg - length tr <? W) then
          let s := do_nth A d (length seg / 2) (tr ++ fl) in
          let* p := rd s (length seg / 2) in
          Ok (firstn (length seg / 2) s, skipn (length seg / 2) s, at3 (snd p) d)
        else Ok (tr, fl, v)) = Ok (s1, s2, v') /\
    s1 <> [] /\ s2 <> [] /\ Permutation seg (s1 ++ s2) /\
    (forall p, In p s1 -> (at3 (snd p) d <= v')%Q) /\ (forall p, In p s2 -> (v' <= at3 (snd p) d)%Q).
Proof.
  intros S P B d v. destruct AO as [AP AN].
  specialize (AP (fun p => Qltb (at3 (snd p) d) v) seg). cbv zeta in AP.
  destruct (do_partition A _ seg) as [tr fl]. cbn [fst snd] in AP. destruct AP as (Pm & Ht & Hf).
  assert (LL : length seg = length tr + length fl) by (rewrite (Permutation_length Pm), app_length; reflexivity).
  assert (L8 : 2 <= length seg).
  { destruct (Nat.le_gt_cases 2 (length seg)) as [|C]; [assumption|]. exfalso.
    assert (length seg / W <= length seg) by (apply Nat.div_le_upper_bound; nia).
    destruct (length seg mod W =? 0); lia. }
  assert (Hh : 1 <= length seg / 2 < length seg).
  { split; [apply Nat.div_le_lower_bound; lia|apply Nat.div_lt; lia]. }
  destruct ((length tr <? W) || (length seg - length tr <? W)) eqn:C.
  - assert (Lh : length seg / 2 < length (tr ++ fl)) by (rewrite app_length; lia).
    specialize (AN d (length seg / 2) (tr ++ fl) Lh). cbv zeta in AN |- *.
    destruct AN as (Pn & x & E & H1 & H2). set (s := do_nth A d (length seg / 2) (tr ++ fl)) in *.
    rewrite (rd_some _ _ _ E). cbn [obind].
    exists (firstn (length seg / 2) s), (skipn (length seg / 2) s), (at3 (snd x) d). split; [reflexivity|].
    assert (Ls : length s = length seg) by (rewrite <- (Permutation_length Pn), app_length; lia).
    split; [intros Z; apply (f_equal (@length _)) in Z; rewrite firstn_length in Z; cbn [length] in Z; lia|].
    split; [intros Z; apply (f_equal (@length _)) in Z; rewrite skipn_length in Z; cbn [length] in Z; lia|].
    split; [rewrite firstn_skipn; eapply Permutation_trans; eassumption|]. auto.
  - apply orb_false_iff in C. destruct C as [C1 C2]. apply Nat.ltb_ge in C1, C2.
    exists tr, fl, v. split; [reflexivity|].
    split; [intros Z; rewrite Z in C1; cbn in C1; lia|].
    split; [intros Z; rewrite Z in LL; cbn in LL; lia|]. split; [exact Pm|]. split.
    + intros p Hp. apply Ht in Hp. destruct (Qltb_spec (at3 (snd p) d) v); [lra|discriminate].
    + intros p Hp. apply Hf in Hp. destruct (Qltb_spec (at3 (snd p) d) v); [discriminate|lra].
Qed.

Lemma split_ok rem : forall seg t, seg <> [] -> valid seg -> parallel t -> rem <= max_depth ->
  exists r, split W A normals colors rem seg t = Ok r /\ built rem seg t r.
Proof.
  induction rem as [|rem IH]; intros seg t Sn V P Rm.
  - cbn [split]. destruct (points_box_ok seg Sn) as (bx & -> & PB & IB). cbn [obind].
    destruct (_ <=? 8); apply create_leaf_ok; auto; cbn [with_depth k_depth]; lia.
  - cbn [split]. destruct (points_box_ok seg Sn) as (bx & -> & PB & IB). cbn [obind].
    match goal with |- context [if ?b <=? 8 then _ else _] => destruct (Nat.leb_spec b 8) as [B|B] end.
    { apply create_leaf_ok; auto; cbn [with_depth k_depth]; lia. }
    pose proof (split_sides seg bx Sn PB B) as Q. cbv zeta in Q |- *.
    destruct (do_partition A _ seg) as [tr fl].
    destruct Q as (s1 & s2 & v' & -> & N1 & N2 & Pm & H1 & H2). cbn [obind].
    set (d := split_dim bx) in *. clearbody d.
    match goal with |- context [split _ _ _ _ rem s1 ?x] => set (t1 := x) end.
    assert (V1 : valid s1) by (intros p Hp; apply V; apply (Permutation_in _ (Permutation_sym Pm)); apply in_or_app; auto).
    assert (V2 : valid s2) by (intros p Hp; apply V; apply (Permutation_in _ (Permutation_sym Pm)); apply in_or_app; auto).
    destruct (IH s1 t1 N1 V1) as (l & El & B1 & B2 & B3 & B4 & nn1 & nb1 & g1 & h1 & B5 & B6 & B7 & B8 & B9); [exact P|lia|].
    destruct (IH s2 (snd l) N2 V2) as (r & Er & C1 & C2 & C3 & C4 & nn2 & nb2 & g2 & h2 & C5 & C6 & C7 & C8 & C9); [exact B2|lia|].
    rewrite El. cbn [obind]. rewrite Er. cbn [obind].
    assert (T1 : k_nodes t1 = k_nodes t ++ [KNode v' d 0 0 bx]) by reflexivity.
    assert (EN : k_nodes (snd r) = k_nodes t ++ KNode v' d 0 0 bx :: nn1 ++ nn2).
    { rewrite C5, B5, T1, <- !app_assoc. reflexivity. }
    assert (WR : wr (k_nodes (snd r)) (length (k_nodes t)) (KNode v' d (fst l) (fst r) bx) =
      Ok (k_nodes t ++ KNode v' d (fst l) (fst r) bx :: nn1 ++ nn2)).
    { rewrite EN. destruct (wr_ok (k_nodes t ++ KNode v' d 0 0 bx :: nn1 ++ nn2) (length (k_nodes t)) (KNode v' d (fst l) (fst r) bx))
        as (l' & E & L & A1 & A2); [rewrite app_length; cbn; lia|].
      rewrite E. f_equal. apply nth_error_ext. intros i.
      destruct (Nat.eq_dec i (length (k_nodes t))) as [->|Hne].
      - rewrite A1, nth_error_app2, Nat.sub_diag by lia. reflexivity.
      - rewrite A2 by exact Hne. destruct (Nat.lt_ge_cases i (length (k_nodes t))).
        + rewrite !nth_error_app1 by assumption. reflexivity.
        + rewrite !nth_error_app2 by assumption. destruct (i - length (k_nodes t)) eqn:Z; [lia|]. reflexivity. }
    change (k_nodes (with_depth t (Nat.max (max_depth - S rem) (k_depth t)))) with (k_nodes t).
    rewrite WR. cbn [obind]. eexists. split; [reflexivity|].
    unfold built. cbn [fst snd with_nodes k_nodes k_blocks k_count k_depth].
    assert (D1 : k_depth t1 <= Nat.max max_depth (k_depth t)) by (subst t1; cbn [with_nodes with_depth k_depth]; lia).
    split; [reflexivity|]. split; [exact C2|]. split; [rewrite C3, B3; reflexivity|]. split; [lia|].
    exists (KNode v' d (fst l) (fst r) bx :: nn1 ++ nn2), (nb1 ++ nb2), (g1 ++ g2), (S (Nat.max h1 h2)).
    split; [reflexivity|].
    assert (EB : k_blocks t1 = k_blocks t) by reflexivity.
    split; [rewrite C6, B6, EB, app_assoc; reflexivity|].
    split; [eapply Permutation_trans; [exact Pm|]; apply Permutation_app; assumption|]. split; [lia|].
    intros T HN HB. cbn [length]. rewrite app_length.
    assert (HNs : holds (k_nodes T) (length (k_nodes t1)) nn1 /\ holds (k_nodes T) (length (k_nodes (snd l))) nn2).
    { destruct (holds_app _ _ [KNode v' d (fst l) (fst r) bx] (nn1 ++ nn2) HN) as [_ HN2]. apply holds_app in HN2.
      rewrite B5, T1, !app_length. exact HN2. }
    assert (HBs : holds (k_blocks T) (length (k_blocks t)) nb1 /\ holds (k_blocks T) (length (k_blocks (snd l))) nb2).
    { apply holds_app in HB. rewrite B6, EB, app_length. exact HB. }
    eapply ko_node.
    + specialize (HN 0 _ eq_refl). rewrite Nat.add_0_r in HN. exact HN.
    + exact PB.
    + intros p Hp. apply IB. apply (Permutation_in _ (Permutation_sym Pm)). apply in_app_or in Hp. apply in_or_app.
      destruct Hp as [Hp|Hp]; [left; apply (Permutation_in _ (Permutation_sym B7))|right; apply (Permutation_in _ (Permutation_sym C7))]; exact Hp.
    + intros p Hp. apply H1. apply (Permutation_in _ (Permutation_sym B7)). exact Hp.
    + intros p Hp. apply H2. apply (Permutation_in _ (Permutation_sym C7)). exact Hp.
    + apply B9; [apply HNs|apply HBs].
    + apply C9; [apply HNs|apply HBs].
Qed.
End Stored.
