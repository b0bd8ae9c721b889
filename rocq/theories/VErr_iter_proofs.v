(** The iteration over the bones of a vertex. *)

From Coq Require Import Reals List Arith ZArith Bool Lia Lra Permutation Sorting.Sorted.
From Verif Require Import Prelude Loops LinAlg Rbool R3 Transform_model Skeleton_spec FK_model FK_spec FK_proofs FK_deriv_proofs ParamTransform_model
  Limits_model Constraint_model Constraint_proofs Skin_model Blend_model CharUtil_model CharState_model VErr_model.
Import ListNotations.
Local Open Scope R_scope.

(** ** Sums over chains *)

Definition additive (H : nat -> R -> vec3 -> R) : Prop :=
  forall j w q w' q', H j (w + w') (vadd q q') = H j w q + H j w' q'.

Section Iter.
Context (sk : skeleton) (V : valid_sk sk).

(** The value [x] is the sum of [H] over the chain of [b]. *)
Definition total_of (H : nat -> R -> vec3 -> R) (b : bone) (x : R) : Prop :=
  exists l, chain sk (bn_joint b) l /\ x = rsum (map (fun a => H a (bn_weight b) (bn_point b)) l).
Inductive totals (H : nat -> R -> vec3 -> R) : list bone -> R -> Prop :=
| totals_nil : totals H [] 0
| totals_cons b l x y : total_of H b x -> totals H l y -> totals H (b :: l) (x + y).

Lemma relocate_totals H b l x y : additive H -> total_of H b x -> totals H l y -> totals H (relocate b l) (x + y).
Proof.
  intros A Tb T. revert x Tb. induction T as [|c l x' y' Tc T IH]; intros x Tb.
  - cbn. constructor; [exact Tb|constructor].
  - cbn [relocate]. destruct (bn_joint b <? bn_joint c)%nat.
    + replace (x + (x' + y')) with (x' + (x + y')) by ring. constructor; [exact Tc|]. apply IH. exact Tb.
    + destruct (Nat.eqb_spec (bn_joint b) (bn_joint c)) as [E|].
      * replace (x + (x' + y')) with ((x + x') + y') by ring. constructor; [|exact T].
        destruct Tb as (l1 & C1 & ->), Tc as (l2 & C2 & ->). rewrite <- E in C2. rewrite (chain_unique _ _ _ C2 _ C1) in *.
        exists l1. split; [exact C1|]. cbn [merge bn_weight bn_point]. rewrite <- rsum_map_plus. apply rsum_map_ext. intros a _. symmetry. apply A.
      * constructor; [exact Tb|]. constructor; assumption.
Qed.

Definition fine (b : bone) : Prop := (bn_joint b < length sk)%nat /\ 0 < bn_weight b.
Lemma relocate_fine b l : fine b -> Forall fine l -> Forall fine (relocate b l).
Proof.
  intros Fb F. revert b Fb. induction F as [|c l Fc F IH]; intros b Fb; cbn [relocate]; [constructor; [exact Fb|constructor]|].
  destruct (bn_joint b <? bn_joint c)%nat; [constructor; [exact Fc|apply IH, Fb]|].
  destruct (bn_joint b =? bn_joint c)%nat; [|constructor; [exact Fb|constructor; assumption]].
  constructor; [|exact F]. destruct Fb, Fc. split; cbn; [assumption|lra].
Qed.
Lemma relocate_fuel b l : (it_fuel (relocate b l) <= S (bn_joint b) + it_fuel l)%nat.
Proof.
  induction l as [|c l IH]; cbn [relocate]; [unfold it_fuel; cbn; lia|].
  destruct (bn_joint b <? bn_joint c)%nat; [unfold it_fuel in *; cbn [map list_sum fold_right] in *; unfold list_sum in *; cbn [fold_right] in *; lia|].
  destruct (bn_joint b =? bn_joint c)%nat; unfold it_fuel, list_sum; cbn; lia.
Qed.
Lemma relocate_joints b l c : In c (relocate b l) -> bn_joint c = bn_joint b \/ exists d, In d l /\ bn_joint c = bn_joint d.
Proof.
  induction l as [|d l IH]; cbn [relocate]; [intros [<-|[]]; auto|].
  destruct (bn_joint b <? bn_joint d)%nat.
  - intros [<-|H]; [right; exists d; cbn; auto|]. destruct (IH H) as [A|(e & He & A)]; [auto|]. right. exists e. split; [right|]; assumption.
  - destruct (bn_joint b =? bn_joint d)%nat; (intros [<-|H]; [left; reflexivity|]).
    + right. exists c. split; [right; exact H|reflexivity].
    + right. exists c. auto.
Qed.

(** What the iteration gives, summed, is what the bones give, summed over their chains. *)
Lemma it_run_ok : forall fuel l, Forall fine l -> (it_fuel l <= fuel)%nat ->
  exists vis, it_run fuel sk l = Ok vis /\
    (forall j w q, In (j, w, q) vis -> (j < length sk)%nat /\ 0 < w) /\
    forall H y, additive H -> totals H l y ->
      rsum (map (fun v => H (fst (fst v)) (snd (fst v)) (vscale (snd (fst v)) (snd v))) vis) = y.
Proof.
  induction fuel as [|fuel IH]; intros l F Hf.
  - destruct l as [|b l]; [|unfold it_fuel, list_sum in Hf; cbn in Hf; lia]. exists []. split; [reflexivity|]. split; [intros j w q []|].
    intros H y _ T. inversion T. reflexivity.
  - destruct l as [|b l].
    { exists []. split; [reflexivity|]. split; [intros j w q []|]. intros H y _ T. inversion T. reflexivity. }
    inversion F as [|? ? Fb Fl]; subst. pose proof Fb as (Hj & Hw). destruct (nth_error_lt sk (bn_joint b) Hj) as [jt Ej].
    cbn [it_run]. rewrite (rd_some _ _ _ Ej). cbn [obind].
    set (l' := match jparent jt with None => l | Some q => relocate (Bone q (bn_weight b) (bn_point b)) l end).
    assert (F' : Forall fine l').
    { unfold l'. destruct (jparent jt) as [q|] eqn:P; [|exact Fl]. apply relocate_fine; [|exact Fl].
      pose proof (valid_sk_parent _ _ _ _ V Ej P). split; cbn; [lia|exact Hw]. }
    assert (L' : (it_fuel l' <= fuel)%nat).
    { unfold it_fuel, list_sum in Hf. cbn in Hf. unfold l'. destruct (jparent jt) as [q|] eqn:P.
      - pose proof (valid_sk_parent _ _ _ _ V Ej P). pose proof (relocate_fuel (Bone q (bn_weight b) (bn_point b)) l) as RF.
        cbn [bn_joint] in RF. unfold it_fuel, list_sum in *. lia.
      - unfold it_fuel, list_sum. lia. }
    destruct (IH l' F' L') as (vis & Ev & Rv & Sv). rewrite Ev. cbn [obind]. eexists. split; [reflexivity|]. split.
    + intros j w q [E|Hin]; [injection E as <- <- <-; auto|]. eapply Rv. exact Hin.
    + intros H y A T. inversion T as [|? ? x y' Tb Tl]; subst. cbn [map rsum fst snd].
      rewrite vscale_scale, Rinv_r, vscale_1 by lra. destruct Tb as (ch & C & ->).
      assert (S' : exists x', totals H l' x' /\ rsum (map (fun a => H a (bn_weight b) (bn_point b)) ch) + y' = H (bn_joint b) (bn_weight b) (bn_point b) + x').
      { unfold l'. inversion C as [j' jt' E1 P1 E3|j' jt' p lc E1 P1 C1 E3]; subst.
        - rewrite E1 in Ej. injection Ej as <-. rewrite P1. exists y'. split; [exact Tl|]. cbn. ring.
        - rewrite E1 in Ej. injection Ej as <-. rewrite P1.
          exists (rsum (map (fun a => H a (bn_weight b) (bn_point b)) lc) + y'). split.
          + apply relocate_totals; [exact A| |exact Tl]. exists lc. split; [exact C1|reflexivity].
          + rewrite map_app, rsum_app. cbn. ring. }
      destruct S' as (x' & T' & ->). rewrite (Sv H x' A T'). reflexivity.
Qed.

(** With different joints in decreasing order, no joint comes twice. *)
Definition falling (l : list bone) : Prop := StronglySorted (fun a b => (bn_joint b < bn_joint a)%nat) l.
Lemma relocate_falling b l : falling l -> falling (relocate b l).
Proof.
  intros F. induction F as [|c l F IH Hc]; cbn [relocate]; [constructor; constructor|].
  destruct (Nat.ltb_spec (bn_joint b) (bn_joint c)).
  - constructor; [exact IH|]. apply Forall_forall. intros d Hd. destruct (relocate_joints b l d Hd) as [->|(e & He & ->)]; [exact H|].
    rewrite Forall_forall in Hc. apply Hc, He.
  - destruct (Nat.eqb_spec (bn_joint b) (bn_joint c)) as [E|N].
    + constructor; [exact F|]. cbn [merge bn_joint]. rewrite E. exact Hc.
    + constructor; [constructor; assumption|]. constructor; [lia|]. rewrite Forall_forall in *. intros d Hd. specialize (Hc d Hd). lia.
Qed.
Lemma it_run_falling : forall fuel l vis, falling l -> it_run fuel sk l = Ok vis ->
  StronglySorted (fun a b => (fst (fst b) < fst (fst a))%nat) vis /\
  forall v, In v vis -> exists b, In b l /\ (fst (fst v) <= bn_joint b)%nat.
Proof.
  induction fuel as [|fuel IH]; intros l vis F E.
  - destruct l; [|discriminate E]. injection E as <-. split; [constructor|intros v []].
  - destruct l as [|b l]; [injection E as <-; split; [constructor|intros v []]|].
    cbn [it_run] in E. unfold rd in E. destruct (nth_error sk (bn_joint b)) as [jt|] eqn:Ej; [|discriminate]. cbn [obind] in E.
    set (l' := match jparent jt with None => l | Some q => relocate (Bone q (bn_weight b) (bn_point b)) l end) in *.
    destruct (it_run fuel sk l') as [vis'| | | |] eqn:Er; try discriminate. injection E as <-. inversion F as [|? ? Fl Hb]; subst.
    assert (F' : falling l') by (unfold l'; destruct (jparent jt); [apply relocate_falling|]; exact Fl).
    assert (J' : forall c, In c l' -> (bn_joint c < bn_joint b)%nat).
    { rewrite Forall_forall in Hb. unfold l'. destruct (jparent jt) as [q|] eqn:P; [|exact Hb]. intros c Hc.
      destruct (relocate_joints _ _ _ Hc) as [->|(d & Hd & ->)]; [|apply Hb, Hd]. cbn. exact (valid_sk_parent _ _ _ _ V Ej P). }
    destruct (IH l' vis' F' Er) as (S1 & S2). split.
    + constructor; [exact S1|]. apply Forall_forall. intros v Hv. destruct (S2 v Hv) as (c & Hc & L). specialize (J' c Hc). cbn. lia.
    + intros v [<-|Hv]; [exists b; split; [left; reflexivity|cbn; lia]|]. destruct (S2 v Hv) as (c & Hc & L). specialize (J' c Hc).
      exists b. split; [left; reflexivity|lia].
Qed.
End Iter.

Lemma it_fuel_perm l l' : Permutation l l' -> it_fuel l = it_fuel l'.
Proof. unfold it_fuel, list_sum. intros P. induction P; cbn in *; lia. Qed.
Lemma totals_perm sk H l l' x : Permutation l l' -> totals sk H l x -> totals sk H l' x.
Proof.
  intros P. revert x. induction P as [|b l l' P IH|a b l|l l' l'' P1 IH1 P2 IH2]; intros x T.
  - exact T.
  - inversion T; subst. constructor; [assumption|]. apply IH. assumption.
  - inversion T as [|? ? y z Ta T']; subst. inversion T' as [|? ? y' z' Tb T'']; subst. replace (y + (y' + z')) with (y' + (y + z')) by ring.
    constructor; [assumption|]. constructor; assumption.
  - apply IH2, IH1, T.
Qed.

(** ** Velocities of weighted points *)

Definition jvw (s : jstate) (d : jparam) (w : R) (q : vec3) : vec3 := vadd (joint_velocity s d q) (vscale (w - 1) (joint_velocity s d vzero)).
Lemma jvw_point s d w x : jvw s d w (vscale w x) = vscale w (joint_velocity s d x).
Proof.
  unfold jvw. destruct (joint_velocity_field s d) as (A & om & sc & H). rewrite !H. destruct A, om, x. vec_unfold. f_equal; ring.
Qed.
Lemma jvw_add s d w q w' q' : jvw s d (w + w') (vadd q q') = vadd (jvw s d w q) (jvw s d w' q').
Proof.
  unfold jvw. destruct (joint_velocity_field s d) as (A & om & sc & H). rewrite !H. destruct A, om, q, q'. vec_unfold. f_equal; ring.
Qed.

Definition jv_at (g : vec3 -> R) (sts : list jstate) (C : nat -> R) (j : nat) (w : R) (q : vec3) : R :=
  match nth_error sts j with Some s => g (jvw s (jpC C j) w q) | None => 0 end.
Lemma jv_at_additive g sts C : linear g -> additive (jv_at g sts C).
Proof. intros (L1 & L2) j w q w' q'. unfold jv_at. destruct (nth_error sts j); [|ring]. rewrite jvw_add. apply L1. Qed.
Lemma jv_at_chain g sts C w x l : linear g ->
  rsum (map (fun a => jv_at g sts C a w (vscale w x)) l) = w * g (chain_vel sts C l true x).
Proof.
  intros L. unfold chain_vel. rewrite (linear_vsum g _ L), map_map, <- rsum_map_scal. apply rsum_map_ext. intros a _. unfold jv_at.
  destruct (nth_error sts a); [rewrite jvw_point; apply L|rewrite (linear_zero g L); ring].
Qed.

(** ** Bones of a vertex *)

Section Bones.
Context (sk : skeleton) (V : valid_sk sk) (inv : list affine) (sts : list jstate) (Ls : length sts = length sk).

(** The weighted points that skinning adds, with the joint. *)
Fixpoint parts (row : list influence) (pos : vec3) : list (nat * R * vec3) :=
  match row with
  | [] => []
  | (j, w) :: r =>
    match nth_error sts j, nth_error inv j with
    | Some s, Some b => if Rltb 0 w then (j, w, act s (aff_point b pos)) :: parts r pos else parts r pos
    | _, _ => parts r pos
    end
  end.
Definition in_range (row : list influence) : Prop := forall j w, In (j, w) row -> 0 < w -> (j < length sk)%nat /\ (j < length inv)%nat.
Lemma it_bones_ok row pos : in_range row ->
  it_bones inv sts row pos = Ok (map (fun x => Bone (fst (fst x)) (snd (fst x)) (vscale (snd (fst x)) (snd x))) (parts row pos)).
Proof.
  induction row as [|[j w] r IH]; intros R; [reflexivity|]. cbn [it_bones parts].
  assert (Rr : in_range r) by (intros j' w' Hin; apply R; right; exact Hin).
  destruct (Rltb_spec 0 w) as [Hw|Hw].
  - destruct (R j w (or_introl eq_refl) Hw) as (A & B). rewrite <- Ls in A. destruct (nth_error_lt sts j A) as [s Es], (nth_error_lt inv j B) as [b Eb].
    rewrite (rd_some _ _ _ Es), (rd_some _ _ _ Eb), (IH Rr), Es, Eb. reflexivity.
  - rewrite (IH Rr). destruct (nth_error sts j), (nth_error inv j); reflexivity.
Qed.
Lemma parts_fine row pos x : in_range row -> In x (parts row pos) -> (fst (fst x) < length sk)%nat /\ 0 < snd (fst x).
Proof.
  induction row as [|[j w] r IH]; intros R Hx; [contradiction|]. assert (Rr : in_range r) by (intros j' w' Hin; apply R; right; exact Hin).
  cbn [parts] in Hx. destruct (nth_error sts j) eqn:Es; [|apply IH; assumption]. destruct (nth_error inv j); [|apply IH; assumption].
  destruct (Rltb_spec 0 w) as [Hw|Hw]; [|apply IH; assumption]. destruct Hx as [<-|Hx]; [|apply IH; assumption]. cbn. split; [|exact Hw].
  apply (R j w (or_introl eq_refl) Hw).
Qed.
Lemma parts_totals g C (ps : list (nat * R * vec3)) : linear g -> (forall x, In x ps -> (fst (fst x) < length sk)%nat) -> exists y,
  totals sk (jv_at g sts C) (map (fun x => Bone (fst (fst x)) (snd (fst x)) (vscale (snd (fst x)) (snd x))) ps) y /\
  forall chains, (forall x, In x ps -> chain sk (fst (fst x)) (chains (fst (fst x)))) ->
    y = rsum (map (fun x => snd (fst x) * g (chain_vel sts C (chains (fst (fst x))) true (snd x))) ps).
Proof.
  intros L. induction ps as [|x ps IH]; intros H; [exists 0; split; [constructor|reflexivity]|].
  destruct IH as (y & T & Y); [intros; apply H; right; assumption|].
  destruct (chain_exists sk V (fst (fst x)) (H x (or_introl eq_refl))) as [l Hl].
  eexists. split.
  - cbn [map]. constructor; [|exact T]. exists l. split; [exact Hl|reflexivity].
  - intros chains Hc. cbn [map rsum]. cbn [bn_weight bn_point]. rewrite (jv_at_chain g sts C _ _ _ L).
    rewrite (chain_unique _ _ _ (Hc x (or_introl eq_refl)) _ Hl). f_equal. apply Y. intros; apply Hc; right; assumption.
Qed.
End Bones.

(** ** Derivatives by joint parameters *)

Lemma active_dofs_in active base l ts r d : active_dofs active base l = Ok ts -> In (r, d) ts -> exists k, In (k, d) l /\ r = (base + k)%nat.
Proof.
  revert ts. induction l as [|[k x] l IH]; intros ts E Hin; cbn [active_dofs] in E; [injection E as <-; contradiction|].
  destruct (rd active (base + k)) as [a| | | |]; try discriminate. cbn [obind] in E.
  destruct (active_dofs active base l) as [tl| | | |]; try discriminate. cbn [obind] in E. injection E as <-.
  assert (D : In (r, d) tl -> exists k0, In (k0, d) ((k, x) :: l) /\ r = (base + k0)%nat).
  { intros H. destruct (IH tl eq_refl H) as (k0 & A & B). exists k0. split; [right|]; assumption. }
  destruct a; [|exact (D Hin)]. destruct Hin as [Q|Hin]; [|exact (D Hin)]. injection Q as <- <-. exists k. split; [left|]; reflexivity.
Qed.
Lemma vec_dofs_in active j s v ts r d : vec_dofs active j s true v = Ok ts -> In (r, d) ts -> (r / 7 = j)%nat.
Proof.
  unfold vec_dofs. intros E Hin.
  destruct (active_dofs active (j * 7) [(0%nat, _); _; _]) as [t1| | | |] eqn:E1; try discriminate. cbn [obind] in E.
  destruct (active_dofs active (j * 7) [(3%nat, _); _; _]) as [t2| | | |] eqn:E2; try discriminate. cbn [obind] in E.
  destruct (active_dofs active (j * 7) [(6%nat, _)]) as [t3| | | |] eqn:E3; try discriminate. cbn [obind] in E. injection E as <-.
  assert (Q : exists k, (k < 7)%nat /\ r = (j * 7 + k)%nat).
  { rewrite !in_app_iff in Hin. destruct Hin as [H|[H|H]];
      [destruct (active_dofs_in _ _ _ _ _ _ E1 H) as (k & A & ->)|destruct (active_dofs_in _ _ _ _ _ _ E2 H) as (k & A & ->)|destruct (active_dofs_in _ _ _ _ _ _ E3 H) as (k & A & ->)];
      exists k; (split; [|reflexivity]); cbn in A; repeat (destruct A as [A|A]; [injection A; intros; lia|]); contradiction. }
  destruct Q as (k & Hk & ->). rewrite Nat.div_add_l by lia. rewrite (Nat.div_small k 7 Hk). lia.
Qed.

Lemma it_dofs_ok active sts vis :
  (forall j w q, In (j, w, q) vis -> (j < length sts)%nat) -> (7 * length sts <= length active)%nat ->
  exists ds, it_dofs active sts vis = Ok ds /\
    (forall r w d, In (r, (w, d)) ds -> (r / 7 < length sts)%nat) /\
    forall g C, linear g -> inactive0 active C ->
      rsum (map (fun x => fst (snd x) * g (snd (snd x)) * C (fst x)) ds) =
      rsum (map (fun v => jv_at g sts C (fst (fst v)) (snd (fst v)) (vscale (snd (fst v)) (snd v))) vis).
Proof.
  induction vis as [|[[j w] q] vis IH]; intros R LA; [exists []; repeat split; intros; contradiction|].
  destruct IH as (ds & E & Rd & Sd); [intros j' w' q' Hin; eapply R; right; exact Hin|exact LA|].
  cbn [it_dofs]. assert (Hj : (j < length sts)%nat) by (eapply R; left; reflexivity).
  destruct (nth_error_lt sts j Hj) as [s Es]. rewrite (rd_some _ _ _ Es). cbn [obind].
  destruct (vec_dofs_ok active j s true q) as (ts & Et & St); [lia|]. rewrite Et. cbn [obind]. rewrite E. cbn [obind]. eexists. split; [reflexivity|]. split.
  - intros r w' d Hin. apply in_app_or in Hin as [Hin|Hin]; [|eapply Rd; exact Hin]. apply in_map_iff in Hin as ([r' d'] & Q & Hin). cbn in Q.
    injection Q as <- <- <-. rewrite (vec_dofs_in _ _ _ _ _ _ _ Et Hin). exact Hj.
  - intros g C L I. rewrite map_app, rsum_app, (Sd g C L I). cbn [map rsum fst snd]. f_equal. rewrite map_map. cbn [fst snd].
    rewrite (rsum_map_ext _ (fun x => w * (g (snd x) * C (fst x)))) by (intros; ring). rewrite rsum_map_scal, (St g C L I).
    unfold jv_at. rewrite Es, jvw_point. cbn [vel_of]. symmetry. apply L.
Qed.
