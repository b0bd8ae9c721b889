(** Lemmas about boxes. *)

From Coq Require Import List QArith Qfield Bool Lqa.
From Verif Require Import Box_model Box_spec.
Import ListNotations.
Local Open Scope Q_scope.

Lemma Qleb_spec a b : reflect (a <= b) (Qle_bool a b).
Proof. destruct (Qle_bool a b) eqn:E; constructor; [apply Qle_bool_iff; exact E|]. intros H. apply Qle_bool_iff in H. congruence. Qed.
Lemma Qltb_spec a b : reflect (a < b) (Qltb a b).
Proof. unfold Qltb. destruct (Qleb_spec b a); constructor; lra. Qed.

Lemma dims_all (P : dim -> Prop) : (forall d, In d dims -> P d) <-> forall d, P d.
Proof. split; [|auto]. intros H d. apply H. destruct d; cbn; tauto. Qed.
Lemma forallb_dims f : forallb f dims = true <-> forall d, f d = true.
Proof. rewrite forallb_forall. apply dims_all. Qed.
Lemma at_make f d : at3 (make3 f) d = f d. Proof. destruct d; reflexivity. Qed.

Lemma qmin_cases a b : (qmin a b = a /\ a <= b) \/ (qmin a b = b /\ b < a).
Proof. unfold qmin. destruct (Qltb_spec b a); [right|left]; split; auto. lra. Qed.
Lemma qmax_cases a b : (qmax a b = a /\ b <= a) \/ (qmax a b = b /\ a < b).
Proof. unfold qmax. destruct (Qltb_spec a b); [right|left]; split; auto. lra. Qed.

Lemma and_leb a b c d : Qle_bool a b && Qle_bool c d = true <-> a <= b /\ c <= d.
Proof. rewrite andb_true_iff, !Qle_bool_iff. reflexivity. Qed.

Lemma contains_point_iff b p : contains_point b p = true <-> in_box p b.
Proof. unfold contains_point, in_box. rewrite forallb_dims. split; intros H d; apply and_leb, H. Qed.
Lemma contains_box_iff b c : contains_box b c = true <-> inside c b.
Proof. unfold contains_box, inside. rewrite forallb_dims. split; intros H d; apply and_leb, H. Qed.
Lemma box_intersects_iff b c : box_intersects b c = true <-> meet b c.
Proof. unfold box_intersects, meet. rewrite forallb_dims. split; intros H d; apply and_leb, H. Qed.

Lemma inside_refl b : inside b b. Proof. intros d; lra. Qed.
Lemma inside_trans a b c : inside a b -> inside b c -> inside a c.
Proof. intros H K d. specialize (H d); specialize (K d). lra. Qed.
Lemma inside_extend_l b c : inside b (extend b c).
Proof.
  intros d. cbn [extend lo hi]. rewrite !at_make.
  destruct (qmin_cases (at3 (lo b) d) (at3 (lo c) d)) as [(-> & H)|(-> & H)],
    (qmax_cases (at3 (hi b) d) (at3 (hi c) d)) as [(-> & K)|(-> & K)]; lra.
Qed.
Lemma inside_extend_r b c : inside c (extend b c).
Proof.
  intros d. cbn [extend lo hi]. rewrite !at_make.
  destruct (qmin_cases (at3 (lo b) d) (at3 (lo c) d)) as [(-> & H)|(-> & H)],
    (qmax_cases (at3 (hi b) d) (at3 (hi c) d)) as [(-> & K)|(-> & K)]; lra.
Qed.
Lemma meet_inside a b c : meet a b -> inside a c -> meet c b.
Proof. intros H K d. specialize (H d); specialize (K d). lra. Qed.
Lemma meet_sym a b : meet a b -> meet b a.
Proof. intros H d. specialize (H d). tauto. Qed.

(** ** Rays *)

Lemma div_pos a b v t : 0 < v -> (a / v <= t <-> a <= t * v) /\ (t <= b / v <-> t * v <= b).
Proof.
  intros V. split; split; intros H.
  - setoid_replace a with (a / v * v) by (field; lra). nra.
  - apply Qle_shift_div_r; assumption.
  - setoid_replace b with (b / v * v) by (field; lra). nra.
  - apply Qle_shift_div_l; assumption.
Qed.

Lemma slab_iff b o v d t : at3 (lo b) d <= at3 (hi b) d -> ~ at3 v d == 0 ->
  (fst (slab b o v d) <= t /\ t <= snd (slab b o v d) <->
   at3 (lo b) d <= at3 o d + t * at3 v d /\ at3 o d + t * at3 v d <= at3 (hi b) d).
Proof.
  intros P Z. unfold slab. set (l := at3 (lo b) d) in *. set (h := at3 (hi b) d) in *. set (x := at3 o d).
  set (w := at3 v d) in *. clearbody l h x w.
  assert (C : 0 < w \/ w < 0).
  { destruct (Qlt_le_dec 0 w); [left; assumption|right]. destruct (Qlt_le_dec w 0); [assumption|].
    exfalso. apply Z. lra. }
  destruct C as [C|C].
  - destruct (div_pos (l - x) (h - x) w t C) as (A & B).
    destruct (Qltb_spec ((h - x) / w) ((l - x) / w)) as [L|L]; cbn [fst snd].
    + exfalso. assert ((l - x) / w <= (h - x) / w); [|lra].
      apply Qle_shift_div_l; [exact C|]. setoid_replace ((l - x) / w * w) with (l - x) by (field; lra). lra.
    + rewrite A, B. split; intros; lra.
  - assert (N : 0 < - w) by lra.
    assert (El : (l - x) / w == (x - l) / (- w)) by (field; lra).
    assert (Eh : (h - x) / w == (x - h) / (- w)) by (field; lra).
    destruct (div_pos (x - h) (x - l) (- w) t N) as (A & B).
    destruct (Qltb_spec ((h - x) / w) ((l - x) / w)) as [L|L]; cbn [fst snd].
    + rewrite El, Eh, A, B. split; intros (H1 & H2); split; lra.
    + assert (X : (x - h) / (- w) <= (x - l) / (- w)).
      { apply Qle_shift_div_l; [exact N|]. setoid_replace ((x - h) / - w * - w) with (x - h) by (field; lra). lra. }
      assert (X' : (x - h) / - w == (x - l) / - w) by lra.
      rewrite El, Eh. split; intros (H1 & H2).
      * assert (A1 : (x - h) / - w <= t) by lra. assert (B1 : t <= (x - l) / - w) by lra.
        apply A in A1. apply B in B1. split; lra.
      * assert (A1 : x - h <= t * - w) by lra. assert (B1 : t * - w <= x - l) by lra.
        apply A in A1. apply B in B1. split; lra.
Qed.

Lemma slab_ordered b o v d : fst (slab b o v d) <= snd (slab b o v d).
Proof. unfold slab. destruct (Qltb_spec ((at3 (hi b) d - at3 o d) / at3 v d) ((at3 (lo b) d - at3 o d) / at3 v d)); cbn; lra. Qed.

Lemma ray_intersects_iff_slabs b o v : ray_intersects b o v = true <->
  exists t, 0 <= t /\ forall d, fst (slab b o v d) <= t /\ t <= snd (slab b o v d).
Proof.
  unfold ray_intersects.
  pose proof (slab_ordered b o v DX) as OX; pose proof (slab_ordered b o v DY) as OY; pose proof (slab_ordered b o v DZ) as OZ.
  assert (D : forall P : dim -> Prop, (forall d, P d) <-> (P DX /\ P DY /\ P DZ)).
  { intros P. split; [auto|]. intros (A & B & C) []; assumption. }
  assert (E : (exists t, 0 <= t /\ forall d, fst (slab b o v d) <= t /\ t <= snd (slab b o v d)) <->
    exists t, 0 <= t /\ (fst (slab b o v DX) <= t /\ t <= snd (slab b o v DX)) /\ (fst (slab b o v DY) <= t /\ t <= snd (slab b o v DY)) /\
     (fst (slab b o v DZ) <= t /\ t <= snd (slab b o v DZ))).
  { split; intros (t & T & H); exists t; split; auto; apply (D (fun d => fst (slab b o v d) <= t /\ t <= snd (slab b o v d))); exact H. }
  rewrite E. clear E D.
  destruct (slab b o v DX) as [x1 x2], (slab b o v DY) as [y1 y2], (slab b o v DZ) as [z1 z2]. cbn [fst snd] in *.
  destruct (Qltb_spec y2 x1); cbn [orb]; [split; [discriminate|intros (t & ?); lra]|].
  destruct (Qltb_spec x2 y1); cbn [orb]; [split; [discriminate|intros (t & ?); lra]|].
  set (m := if Qltb x1 y1 then y1 else x1). set (M := if Qltb y2 x2 then y2 else x2).
  assert (Hm : x1 <= m /\ y1 <= m /\ (m = x1 \/ m = y1)) by (unfold m; destruct (Qltb_spec x1 y1); repeat split; auto; lra).
  assert (HM : M <= x2 /\ M <= y2 /\ (M = x2 \/ M = y2)) by (unfold M; destruct (Qltb_spec y2 x2); repeat split; auto; lra).
  clearbody m M. destruct Hm as (Hm1 & Hm2 & Hm3), HM as (HM1 & HM2 & HM3).
  assert (OM : m <= M) by (destruct Hm3, HM3; subst; lra).
  assert (F : forall t, m <= t /\ t <= M <-> x1 <= t /\ t <= x2 /\ y1 <= t /\ t <= y2).
  { intros t. split; [intros; lra|]. intros H. destruct Hm3, HM3; subst; lra. }
  destruct (Qltb_spec z2 m); cbn [orb].
  { split; [discriminate|]. intros (t & T & A & B & C). destruct (proj2 (F t)); [tauto|lra]. }
  destruct (Qltb_spec M z1); cbn [orb].
  { split; [discriminate|]. intros (t & T & A & B & C). destruct (proj2 (F t)); [tauto|lra]. }
  set (p := if Qltb m z1 then z1 else m). set (P := if Qltb z2 M then z2 else M).
  assert (Hp : m <= p /\ z1 <= p /\ (p = m \/ p = z1)) by (unfold p; destruct (Qltb_spec m z1); repeat split; auto; lra).
  assert (HP : P <= M /\ P <= z2 /\ (P = M \/ P = z2)) by (unfold P; destruct (Qltb_spec z2 M); repeat split; auto; lra).
  clearbody p P. destruct Hp as (Hp1 & Hp2 & Hp3), HP as (HP1 & HP2 & HP3).
  assert (OP : p <= P) by (destruct Hp3, HP3; subst; lra).
  assert (G : forall t, p <= t /\ t <= P <-> (x1 <= t /\ t <= x2) /\ (y1 <= t /\ t <= y2) /\ (z1 <= t /\ t <= z2)).
  { intros t. pose proof (F t). split; [intros; lra|]. intros H0. destruct Hp3, HP3; subst; intuition lra. }
  destruct (Qltb_spec P 0).
  - replace (Qltb p 0) with true by (destruct (Qltb_spec p 0); [reflexivity|lra]). cbn [andb].
    split; [discriminate|]. intros (t & T & H). apply G in H. lra.
  - rewrite andb_false_r. split; [intros _|reflexivity]. exists P. split; [lra|]. apply G. lra.
Qed.

Lemma ray_point_in b o v t : in_box (ray_point o v t) b <->
  forall d, at3 (lo b) d <= at3 o d + t * at3 v d /\ at3 o d + t * at3 v d <= at3 (hi b) d.
Proof. unfold in_box, ray_point. split; intros H d; specialize (H d); rewrite at_make in *; exact H. Qed.

(** *** Branchless *)

Lemma branchless_fold b o w big ds T0 :
  (forall d, at3 (lo b) d <= at3 (hi b) d) ->
  forall t, (fst (fold_left (branchless_step b o w) ds (T0, big)) <= t /\ t <= snd (fold_left (branchless_step b o w) ds (T0, big))) <->
  (T0 <= t /\ t <= big /\ forall d, In d ds ->
    qmin ((at3 (lo b) d - at3 o d) * at3 w d) ((at3 (hi b) d - at3 o d) * at3 w d) <= t /\
    t <= qmax ((at3 (lo b) d - at3 o d) * at3 w d) ((at3 (hi b) d - at3 o d) * at3 w d)).
Proof.
  intros P t. revert T0 big. induction ds as [|d ds IH]; intros T0 big.
  - cbn. split; [intros; repeat split; try tauto; intros ? []|tauto].
  - cbn [fold_left]. unfold branchless_step at 2 4. cbn [fst snd]. rewrite IH. clear IH.
    set (t1 := (at3 (lo b) d - at3 o d) * at3 w d). set (t2 := (at3 (hi b) d - at3 o d) * at3 w d).
    assert (A : qmin (qmax T0 t1) (qmax T0 t2) <= t <-> T0 <= t /\ qmin t1 t2 <= t).
    { destruct (qmax_cases T0 t1) as [(-> & ?)|(-> & ?)], (qmax_cases T0 t2) as [(-> & ?)|(-> & ?)],
        (qmin_cases t1 t2) as [(-> & ?)|(-> & ?)];
      try match goal with |- qmin ?a ?b <= _ <-> _ => destruct (qmin_cases a b) as [(-> & ?)|(-> & ?)] end; split; intros; lra. }
    assert (B : t <= qmax (qmin big t1) (qmin big t2) <-> t <= big /\ t <= qmax t1 t2).
    { destruct (qmin_cases big t1) as [(-> & ?)|(-> & ?)], (qmin_cases big t2) as [(-> & ?)|(-> & ?)],
        (qmax_cases t1 t2) as [(-> & ?)|(-> & ?)];
      try match goal with |- _ <= qmax ?a ?b <-> _ => destruct (qmax_cases a b) as [(-> & ?)|(-> & ?)] end; split; intros; lra. }
    rewrite A, B. split.
    + intros ((U1 & U2) & (U3 & U4) & W). do 2 (split; [assumption|]).
      intros d' [<-|I]; [split; assumption|apply W; exact I].
    + intros (U1 & U2 & W). destruct (W d (or_introl eq_refl)). split; [split; assumption|]. split; [split; assumption|].
      intros d' I. apply W. right; exact I.
Qed.

Lemma slab_mul b o v d t : at3 (lo b) d <= at3 (hi b) d -> ~ at3 v d == 0 ->
  let t1 := (at3 (lo b) d - at3 o d) * / at3 v d in let t2 := (at3 (hi b) d - at3 o d) * / at3 v d in
  (qmin t1 t2 <= t /\ t <= qmax t1 t2) <-> (fst (slab b o v d) <= t /\ t <= snd (slab b o v d)).
Proof.
  intros P Z t1 t2. unfold slab. fold (Qdiv (at3 (lo b) d - at3 o d) (at3 v d)).
  change ((at3 (lo b) d - at3 o d) / at3 v d) with t1. change ((at3 (hi b) d - at3 o d) / at3 v d) with t2.
  destruct (qmin_cases t1 t2) as [(-> & ?)|(-> & ?)], (qmax_cases t1 t2) as [(-> & ?)|(-> & ?)];
    destruct (Qltb_spec t2 t1); cbn [fst snd]; split; intros; lra.
Qed.
