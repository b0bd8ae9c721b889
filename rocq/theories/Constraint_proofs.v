From Coq Require Import Bool Reals List Arith Lia Lra Psatz.
From Coquelicot Require Import Coquelicot.
From Verif Require Import Prelude LinAlg Rbool R3 Transform_model Transform_proofs Skeleton_model
  Skeleton_spec FK_model FK_spec FK_proofs FK_deriv_proofs FK_axis_proofs ParamTransform_model
  ParamTransform_spec ParamTransform_proofs Limits_model Limits_spec Limits_proofs Loss_model
  Loss_proofs Constraint_model Constraint_spec Constraint_eval_proofs.
Import ListNotations.
Local Open Scope R_scope.

(** ** Linear functionals *)

Definition linear (g : vec3 -> R) : Prop :=
  (forall a b, g (vadd a b) = g a + g b) /\ (forall s a, g (vscale s a) = s * g a).
Lemma linear_zero g : linear g -> g vzero = 0.
Proof. intros [_ H]. rewrite <- (vscale_0_l vzero), H. ring. Qed.
Lemma linear_vsum g l : linear g -> g (vsum l) = rsum (map g l).
Proof.
  intros L. induction l as [|a l IH]; cbn; [apply linear_zero, L|].
  destruct L as [L1 L2]. rewrite L1, IH. reflexivity.
Qed.
Lemma contract_linear der ds jv : linear (contract der ds jv).
Proof.
  unfold contract. split; intros.
  - rewrite <- rsum_map_plus. apply rsum_map_ext. intros i _. unfold vdot; cbn. ring.
  - rewrite <- rsum_map_scal. apply rsum_map_ext. intros i _. unfold vdot; cbn. ring.
Qed.
Lemma dot_linear k r : linear (fun d => k * vdot r d).
Proof. split; intros; unfold vdot; cbn; ring. Qed.

(** ** The terms of one joint *)

Definition jpC (C : nat -> R) (j : nat) : jparam :=
  JP (C (7 * j + 0)%nat) (C (7 * j + 1)%nat) (C (7 * j + 2)%nat) (C (7 * j + 3)%nat)
     (C (7 * j + 4)%nat) (C (7 * j + 5)%nat) (C (7 * j + 6)%nat).
Definition vel_of (pos : bool) (s : jstate) (d : jparam) (v : vec3) : vec3 :=
  if pos then joint_velocity s d v else axis_velocity s d v.

Lemma rd_b (l : list bool) i : (i < length l)%nat -> rd l i = Ok (nth i l false).
Proof. apply rd_nthb. Qed.

Definition inactive0 (active : list bool) (C : nat -> R) : Prop :=
  forall r, nth r active false = false -> C r = 0.

Lemma active_dofs_ok active base l :
  (forall k d, In (k, d) l -> (base + k < length active)%nat) ->
  exists ts, active_dofs active base l = Ok ts /\
    forall g C, inactive0 active C ->
      rsum (map (fun x => g (snd x) * C (fst x)) ts) =
      rsum (map (fun x => g (snd x) * C (base + fst x)%nat) l).
Proof.
  induction l as [|[k d] l IH]; intros H.
  - exists []. split; reflexivity.
  - destruct IH as [ts [E S]]; [intros; eapply H; right; eassumption|].
    cbn [active_dofs]. rewrite (rd_b active (base + k)) by (eapply H; left; reflexivity).
    cbn [obind]. rewrite E. cbn [obind]. eexists; split; [reflexivity|].
    intros g C Z. cbn [map rsum fst snd]. rewrite <- (S g C Z).
    destruct (nth (base + k) active false) eqn:A; cbn [map rsum fst snd]; [reflexivity|].
    rewrite (Z _ A). ring.
Qed.

Lemma vec_dofs_ok active j s pos v :
  (j * 7 + 7 <= length active)%nat ->
  exists ts, vec_dofs active j s pos v = Ok ts /\
    forall g C, linear g -> inactive0 active C ->
      rsum (map (fun x => g (snd x) * C (fst x)) ts) = g (vel_of pos s (jpC C j) v).
Proof.
  intros HA. unfold vec_dofs.
  destruct (active_dofs_ok active (j * 7)
    [(0%nat, get_translation_derivative s 0); (1%nat, get_translation_derivative s 1);
     (2%nat, get_translation_derivative s 2)]) as [t1 [E1 S1]].
  { intros k d [H|[H|[H|[]]]]; injection H as <- _; lia. }
  set (off := if pos then vsub v (trans (js_world s)) else v).
  destruct (active_dofs_ok active (j * 7)
    [(3%nat, get_rotation_derivative s 0 off); (4%nat, get_rotation_derivative s 1 off);
     (5%nat, get_rotation_derivative s 2 off)]) as [t2 [E2 S2]].
  { intros k d [H|[H|[H|[]]]]; injection H as <- _; lia. }
  destruct (active_dofs_ok active (j * 7) [(6%nat, get_scale_derivative s off)]) as [t3 [E3 S3]].
  { intros k d [H|[]]; injection H as <- _; lia. }
  destruct pos; cbv zeta; fold off.
  - rewrite E1. cbn [obind]. rewrite E2. cbn [obind]. rewrite E3. cbn [obind].
    eexists; split; [reflexivity|]. intros g C L Z.
    rewrite !map_app, !rsum_app, (S1 g C Z), (S2 g C Z), (S3 g C Z).
    unfold vel_of, joint_velocity. rewrite linear_vsum by exact L. destruct L as [_ L2].
    cbn [map rsum fst snd jpC jtx jty jtz jrx jry jrz jsc]. rewrite !L2.
    rewrite (Nat.mul_comm j 7). unfold off. ring.
  - cbn [obind]. rewrite E2. cbn [obind].
    eexists; split; [reflexivity|]. intros g C L Z.
    rewrite !map_app, !rsum_app, (S2 g C Z).
    unfold vel_of, axis_velocity. rewrite linear_vsum by exact L. destruct L as [_ L2].
    cbn [map rsum fst snd jpC jtx jty jtz jrx jry jrz jsc]. rewrite !L2.
    rewrite (Nat.mul_comm j 7). unfold off. ring.
Qed.

Definition tsum (G : nat -> vec3 -> R) (C : nat -> R) (ts : list (nat * (nat * vec3))) : R :=
  rsum (map (fun x => G (fst x) (snd (snd x)) * C (fst (snd x))) ts).

Lemma joint_terms_ok prec active j s npos :
  (j * 7 + 7 <= length active)%nat -> forall vs ds jv, length vs = length ds ->
  exists ts, joint_terms prec active j s npos jv vs ds = Ok ts /\
    forall G C, (forall k, linear (G k)) -> inactive0 active C ->
      (forall k, (k < length ds)%nat -> is_zero_mat prec (nth k ds []) = true ->
         forall d, G (jv + k)%nat d = 0) ->
      tsum G C ts = sumn (length vs) (fun k =>
        G (jv + k)%nat (vel_of (Nat.ltb (jv + k) npos) s (jpC C j) (nth k vs vzero))).
Proof.
  intros HA. induction vs as [|v vs IH]; intros [|m ds] jv HL; try discriminate.
  - exists []. split; [reflexivity|]. intros. reflexivity.
  - injection HL as HL. destruct (IH ds (S jv) HL) as [ts [E S]].
    cbn [joint_terms].
    destruct (is_zero_mat prec m) eqn:Z.
    + cbn [obind]. rewrite E. cbn [obind map app]. eexists; split; [reflexivity|].
      intros G C L I Hz. rewrite (S G C L I).
      * cbn [length]. rewrite sumn_shift. rewrite (Hz 0%nat) by (first [exact Z|cbn; lia]).
        rewrite Rplus_0_l. apply sumn_ext. intros k _. rewrite Nat.add_succ_comm. reflexivity.
      * intros k Hk Hzk d. rewrite Nat.add_succ_comm. apply (Hz (Datatypes.S k)); [cbn; lia|exact Hzk].
    + destruct (vec_dofs_ok active j s (Nat.ltb jv npos) v HA) as [t1 [E1 S1]].
      rewrite E1. cbn [obind]. rewrite E. cbn [obind]. eexists; split; [reflexivity|].
      intros G C L I Hz. unfold tsum. rewrite map_app, rsum_app, map_map. cbn [fst snd].
      rewrite (S1 (G jv) C (L jv) I). fold (tsum G C ts). rewrite (S G C L I).
      * cbn [length]. rewrite sumn_shift, Nat.add_0_r. cbn [nth]. f_equal.
        apply sumn_ext. intros k _. rewrite Nat.add_succ_comm. reflexivity.
      * intros k Hk Hzk d. rewrite Nat.add_succ_comm. apply (Hz (Datatypes.S k)); [cbn; lia|exact Hzk].
Qed.

(** ** Walking up *)

Lemma chain_length sk j l (V : valid_sk sk) : chain sk j l -> (length l <= j + 1)%nat.
Proof.
  induction 1 as [j jt E P|j jt p l E P Hc IH]; cbn; [lia|].
  rewrite app_length; cbn. pose proof (valid_sk_parent _ _ _ _ V E P). lia.
Qed.

Lemma walk_ok {A} sk sts (term : nat -> jstate -> outcome (list A)) j l : chain sk j l ->
  (forall a, In a l -> exists s ts, nth_error sts a = Some s /\ term a s = Ok ts) ->
  forall fuel, (length l <= fuel)%nat ->
  exists tss, walk fuel sk sts term (Some j) = Ok (concat tss) /\
    Forall2 (fun a ts => exists s, nth_error sts a = Some s /\ term a s = Ok ts) (rev l) tss.
Proof.
  induction 1 as [j jt E P|j jt p l E P Hc IH]; intros HT fuel Hf.
  - destruct fuel as [|fuel]; [cbn in Hf; lia|].
    destruct (HT j (or_introl eq_refl)) as [s [ts [E1 E2]]].
    cbn [walk]. rewrite E. unfold rd at 1. rewrite E1. cbn [obind]. rewrite E2. cbn [obind].
    rewrite P. replace (walk fuel sk sts term None) with (Ok (@nil A)) by (destruct fuel; reflexivity).
    cbn [obind]. exists [ts]. split; [reflexivity|]. repeat constructor. eauto.
  - rewrite app_length in Hf; cbn in Hf. destruct fuel as [|fuel]; [lia|].
    destruct (HT j) as [s [ts [E1 E2]]]; [apply in_or_app; right; left; reflexivity|].
    destruct (IH (fun a Ha => HT a (in_or_app _ _ _ (or_introl Ha))) fuel ltac:(lia)) as [tss [E3 F]].
    cbn [walk]. rewrite E. unfold rd at 1. rewrite E1. cbn [obind]. rewrite E2. cbn [obind].
    rewrite P, E3. cbn [obind]. exists (ts :: tss). split; [reflexivity|].
    rewrite rev_app_distr. cbn. constructor; [eauto|exact F].
Qed.

Lemma tsum_app G C a b : tsum G C (a ++ b) = tsum G C a + tsum G C b.
Proof. unfold tsum. rewrite map_app, rsum_app. reflexivity. Qed.
Lemma tsum_concat G C tss : tsum G C (concat tss) = rsum (map (tsum G C) tss).
Proof. induction tss as [|t tss IH]; [reflexivity|]. cbn [concat map rsum]. rewrite tsum_app, IH. reflexivity. Qed.
Lemma rsum_rev l : rsum (rev l) = rsum l.
Proof. induction l as [|x l IH]; [reflexivity|]. cbn. rewrite rsum_app, IH. cbn. ring. Qed.
Lemma rsum_Forall2 {A B} (f : A -> R) (g : B -> R) P la lb :
  Forall2 P la lb -> (forall a b, In a la -> P a b -> f a = g b) -> rsum (map f la) = rsum (map g lb).
Proof.
  induction 1 as [|a b la lb H F IH]; intros E; [reflexivity|].
  cbn. rewrite (E a b (or_introl eq_refl) H), IH; [reflexivity|]. intros; apply E; [right|]; assumption.
Qed.

(** The velocity of vector [k] of a constraint, summed over the chain. *)
Definition chain_vel (sts : list jstate) (C : nat -> R) (l : list nat) (pos : bool) (v : vec3) : vec3 :=
  vsum (map (fun a => match nth_error sts a with
                      | Some sa => vel_of pos sa (jpC C a) v
                      | None => vzero end) l).

Lemma constr_terms_ok E sts c er l :
  valid_sk (cf_sk E) -> length sts = length (cf_sk E) -> chain (cf_sk E) (cparent c) l ->
  (7 * length (cf_sk E) <= length (cf_active E))%nat ->
  length (ev_v er) = length (ev_d er) ->
  exists ts, constr_terms E sts c er = Ok ts /\
    forall G C, (forall k, linear (G k)) -> inactive0 (cf_active E) C ->
      (forall k, (k < length (ev_d er))%nat -> is_zero_mat (cf_prec E) (nth k (ev_d er) []) = true ->
         forall d, G k d = 0) ->
      tsum G C ts = sumn (length (ev_v er)) (fun k =>
        G k (chain_vel sts C l (Nat.ltb k (num_pos (cdat c))) (nth k (ev_v er) vzero))).
Proof.
  intros V HL Hc HA HE. unfold constr_terms.
  assert (HR : forall a, In a l -> (a < length (cf_sk E))%nat) by (apply (chain_in_range _ _ _ Hc)).
  pose proof (chain_length _ _ _ V Hc) as Hlen.
  assert (Hj : (cparent c < length (cf_sk E))%nat).
  { inversion Hc; subst; apply nth_error_Some; congruence. }
  set (term := fun j s => joint_terms (cf_prec E) (cf_active E) j s (num_pos (cdat c)) 0 (ev_v er) (ev_d er)).
  assert (HT : forall a, In a l -> exists s ts, nth_error sts a = Some s /\ term a s = Ok ts).
  { intros a Ha. pose proof (HR a Ha) as Ra.
    destruct (nth_error sts a) as [s|] eqn:Es; [|apply nth_error_None in Es; lia].
    destruct (joint_terms_ok (cf_prec E) (cf_active E) a s (num_pos (cdat c)) ltac:(lia)
                (ev_v er) (ev_d er) 0 HE) as [ts [E1 _]].
    exists s, ts. split; [reflexivity|exact E1]. }
  destruct (walk_ok (cf_sk E) sts term _ l Hc HT (length (cf_sk E)) ltac:(lia)) as [tss [E1 F]].
  exists (concat tss). split; [exact E1|].
  intros G C L I Hz. rewrite tsum_concat.
  set (f := fun a => sumn (length (ev_v er)) (fun k =>
      G k (match nth_error sts a with
           | Some sa => vel_of (Nat.ltb k (num_pos (cdat c))) sa (jpC C a) (nth k (ev_v er) vzero)
           | None => vzero end))).
  transitivity (rsum (map f (rev l))).
  - symmetry. eapply rsum_Forall2; [exact F|]. intros a ts Ha [s [Es Et]].
    apply in_rev in Ha. pose proof (HR a Ha) as Ra.
    destruct (joint_terms_ok (cf_prec E) (cf_active E) a s (num_pos (cdat c)) ltac:(lia)
                (ev_v er) (ev_d er) 0 HE) as [ts' [E2 S2]].
    unfold term in Et. rewrite E2 in Et. injection Et as <-.
    rewrite (S2 G C L I Hz). unfold f. rewrite Es. reflexivity.
  - rewrite map_rev, rsum_rev. unfold f. rewrite <- sumn_rsum_swap.
    apply sumn_ext. intros k _. unfold chain_vel. rewrite linear_vsum by apply L.
    rewrite map_map. reflexivity.
Qed.

(** ** Expansion through the parameter transform *)

Lemma row_enabled_ok en es r x :
  (forall e, In e es -> (ecol e < kMaxModelParams)%nat) ->
  exists incs, row_enabled en es r x = Ok incs /\
    (forall k v, In (k, v) incs -> en k = true /\ exists e, In e es /\ ecol e = k) /\
    forall i, dsum incs i = if en i then x * ent_coeff es r i else 0.
Proof.
  induction es as [|e es IH]; intros H.
  - exists []. split; [reflexivity|]. split; [intros k v []|]. intros i.
    unfold dsum, ent_coeff; cbn. destruct (en i); ring.
  - destruct IH as [incs [E [B S]]]; [intros; apply H; right; assumption|].
    cbn [row_enabled]. rewrite E. cbn [obind].
    destruct (Nat.eqb_spec (erow e) r) as [Er|Er].
    + rewrite ps_test_ok by (apply H; left; reflexivity). cbn [obind].
      eexists; split; [reflexivity|]. split.
      * intros k v Hin. destruct (en (ecol e)) eqn:En.
        -- destruct Hin as [Hin|Hin].
           ++ injection Hin as <- _. split; [exact En|]. exists e; split; [left|]; reflexivity.
           ++ destruct (B k v Hin) as [H0 [e' [H1 H2]]]. split; [exact H0|]. exists e'; split; [right|]; assumption.
        -- destruct (B k v Hin) as [H0 [e' [H1 H2]]]. split; [exact H0|]. exists e'; split; [right|]; assumption.
      * intros i. specialize (S i).
        assert (Q : ent_coeff (e :: es) r i = (if Nat.eqb (ecol e) i then eval e else 0) + ent_coeff es r i).
        { unfold ent_coeff; cbn [map rsum]. rewrite Er, Nat.eqb_refl. reflexivity. }
        rewrite Q. destruct (en (ecol e)) eqn:En.
        -- unfold dsum in *; cbn [map rsum fst snd]. rewrite S.
           destruct (Nat.eqb_spec (ecol e) i) as [Ei|Ei].
           ++ rewrite <- Ei, En. ring.
           ++ destruct (en i); ring.
        -- rewrite S. destruct (Nat.eqb_spec (ecol e) i) as [Ei|Ei].
           ++ rewrite <- Ei, En. reflexivity.
           ++ destruct (en i); ring.
    + eexists; split; [reflexivity|]. split.
      * intros k v Hin. destruct (B k v Hin) as [H0 [e' [H1 H2]]]. split; [exact H0|]. exists e'; split; [right|]; assumption.
      * intros i. rewrite (S i). unfold ent_coeff; cbn [map rsum].
        apply Nat.eqb_neq in Er. rewrite Er. cbn [andb]. rewrite Rplus_0_l. reflexivity.
Qed.

Lemma expand_ok en es ts :
  (forall e, In e es -> (ecol e < kMaxModelParams)%nat) ->
  exists incs, expand en es ts = Ok incs /\
    (forall k v, In (k, v) incs -> en k = true /\ exists e, In e es /\ ecol e = k) /\
    forall i, dsum incs i =
      if en i then rsum (map (fun rx => snd rx * ent_coeff es (fst rx) i) ts) else 0.
Proof.
  intros H. induction ts as [|[r x] ts IH].
  - exists []. split; [reflexivity|]. split; [intros k v []|]. intros i. cbn. destruct (en i); reflexivity.
  - destruct IH as [incs [E [B S]]]. destruct (row_enabled_ok en es r x H) as [a [Ea [Ba Sa]]].
    cbn [expand]. rewrite Ea. cbn [obind]. rewrite E. cbn [obind]. eexists; split; [reflexivity|].
    split.
    + intros k v Hin. apply in_app_or in Hin as [Hin|Hin]; [eapply Ba|eapply B]; eassumption.
    + intros i. rewrite dsum_app, Sa, S. cbn [map rsum fst snd]. destruct (en i); ring.
Qed.

(** ** isZero *)

Lemma is_zero_resolved prec f : 0 <= prec -> resolved prec f ->
  (is_zero prec f = true <-> forall x, In x f -> x = 0).
Proof.
  intros Hp H. unfold is_zero. rewrite forallb_forall. split.
  - intros Z. destruct H as [H|[x [Hx Hl]]]; [exact H|].
    specialize (Z x Hx). destruct (Rleb_spec (Rabs x) prec); [lra|discriminate].
  - intros Z x Hx. rewrite (Z x Hx), Rabs_R0. destruct (Rleb_spec 0 prec); [reflexivity|lra].
Qed.
Lemma is_zero_mat_resolved prec m : 0 <= prec -> resolved_mat prec m ->
  is_zero_mat prec m = true -> forall r, In r m -> r = vzero.
Proof.
  intros Hp H Z. destruct H as [H|[r [x [Hr [Hx Hl]]]]]; [exact H|].
  unfold is_zero_mat in Z. rewrite forallb_forall in Z. specialize (Z r Hr).
  unfold is_zero in Z. rewrite forallb_forall in Z. specialize (Z x Hx).
  destruct (Rleb_spec (Rabs x) prec); [lra|discriminate].
Qed.
Lemma mrow_zero ds k i : (forall r, In r (nth k ds []) -> r = vzero) -> mrow ds k i = vzero.
Proof.
  intros H. unfold mrow. destruct (Nat.lt_ge_cases i (length (nth k ds []))) as [L|L].
  - apply H, nth_In, L.
  - apply nth_overflow, L.
Qed.
Lemma vdot_0_l d : vdot vzero d = 0. Proof. unfold vdot; cbn; ring. Qed.
Lemma contract_zero der ds jv d : (forall i, mrow ds jv i = vzero) -> contract der ds jv d = 0.
Proof. intros H. unfold contract. apply rsum_map_zero. intros i _. rewrite H, vdot_0_l. ring. Qed.

Lemma sqnorm_nonneg f : 0 <= sqnorm f.
Proof. apply rsum_nonneg. intros x _. nra. Qed.
Lemma sqnorm_zero f : (forall x, In x f -> x = 0) -> sqnorm f = 0.
Proof. intros H. apply rsum_map_zero. intros x Hx. rewrite (H x Hx). ring. Qed.
