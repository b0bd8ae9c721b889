(** The banded online QR solver: factorisation invariant and minimisation. *)

From Coq Require Import Reals List Arith Bool Lia Lra FunctionalExtensionality.
From Verif Require Import LinAlg Rbool QR_model QR_spec QR_gen_proofs QR_proofs
  QRBanded_model QRBanded_spec.
Import ListNotations.
Local Open Scope R_scope.

Lemma apply_band_spec bw g off beta m v js : NoDup js -> forall S0 A S1 A1,
  apply_band bw g off beta m v js S0 A = (S1, A1) ->
  (forall j, In j js ->
     S1 (band_row bw g (off + j)) (off + j)%nat =
       S0 (band_row bw g (off + j)) (off + j)%nat -
       (S0 (band_row bw g (off + j)) (off + j)%nat + sumn m (fun k => v k * A k j)) * beta /\
     forall k, A1 k j = A k j -
       (S0 (band_row bw g (off + j)) (off + j)%nat + sumn m (fun k => v k * A k j)) * beta * v k) /\
  (forall s c, (forall j, In j js -> c <> (off + j)%nat \/ s <> band_row bw g (off + j)) ->
     S1 s c = S0 s c) /\
  (forall j, ~ In j js -> forall k, A1 k j = A k j).
Proof.
  induction js as [|j js IH]; intros Hnd S0 A S1 A1 H.
  - cbn in H. injection H as <- <-. repeat split; intros; contradiction.
  - inversion Hnd as [|j0 js0 Hj Hnd']; subst j0 js0.
    set (sc := (S0 (band_row bw g (off + j)) (off + j)%nat + sumn m (fun k => v k * col A j k)) * beta).
    change (apply_band bw g off beta m v js
      (upd_at S0 (band_row bw g (off + j)) (off + j)%nat (S0 (band_row bw g (off + j)) (off + j)%nat - sc))
      (upd_col A j (fun k => col A j k - sc * v k)) = (S1, A1)) in H.
    destruct (IH Hnd' _ _ S1 A1 H) as (I1 & I2 & I3). clear H IH.
    split; [|split].
    + intros q [<-|Hq].
      * rewrite I2.
        2:{ intros j0 Hj0. left. intros E. apply Hj. replace j with j0 by lia. assumption. }
        rewrite upd_at_same. split; [reflexivity|].
        intros k. rewrite I3 by assumption. rewrite upd_col_same. reflexivity.
      * assert (Nq : q <> j) by (intros ->; contradiction).
        destruct (I1 q Hq) as [E1 E2].
        rewrite upd_at_other in E1, E2 by (right; lia).
        assert (Es : sumn m (fun k => v k * upd_col A j (fun k => col A j k - sc * v k) k q) =
                     sumn m (fun k => v k * A k q))
          by (apply sumn_ext; intros; rewrite upd_col_other by assumption; reflexivity).
        rewrite Es in E1, E2. split; [exact E1|].
        intros k. rewrite E2, upd_col_other by assumption. reflexivity.
    + intros s c Hs. rewrite I2 by (intros q Hq; apply Hs; right; assumption).
      apply upd_at_other. destruct (Hs j (or_introl eq_refl)); auto.
    + intros q Hq k. rewrite I3 by (intros h; apply Hq; right; assumption).
      apply upd_col_other. intros ->. apply Hq. left. reflexivity.
Qed.

(** The dense factor that a store and a common part stand for. *)
Definition dn (nb bw : nat) (B Rc : mat) : mat := fun r c =>
  if (c <? nb)%nat then
    (if (r <=? c)%nat && (c - r <? bw)%nat then B (band_row bw r c) c else 0)
  else Rc r (c - nb)%nat.

Lemma dn_band nb bw B Rc r c : (c < nb)%nat -> (r <= c)%nat -> (c < r + bw)%nat ->
  dn nb bw B Rc r c = B (band_row bw r c) c.
Proof.
  intros H1 H2 H3. unfold dn. destruct (Nat.ltb_spec c nb); [|lia].
  destruct (Nat.leb_spec r c); [|lia]. destruct (Nat.ltb_spec (c - r) bw); [reflexivity|lia].
Qed.
Lemma dn_out nb bw B Rc r c : (c < nb)%nat -> (c < r \/ r + bw <= c)%nat -> dn nb bw B Rc r c = 0.
Proof.
  intros H1 H2. unfold dn. destruct (Nat.ltb_spec c nb); [|lia].
  destruct (Nat.leb_spec r c), (Nat.ltb_spec (c - r) bw); cbn; try reflexivity. lia.
Qed.
Lemma dn_common nb bw B Rc r j : dn nb bw B Rc r (nb + j)%nat = Rc r j.
Proof.
  unfold dn. destruct (Nat.ltb_spec (nb + j)%nat nb); [lia|]. f_equal. lia.
Qed.
Lemma dn_common' nb bw B Rc r c : (nb <= c)%nat -> dn nb bw B Rc r c = Rc r (c - nb)%nat.
Proof. intros H. unfold dn. destruct (Nat.ltb_spec c nb); [lia|reflexivity]. Qed.

Lemma band_row_inj bw r g c : (r <= c)%nat -> (c < r + bw)%nat -> (g <= c)%nat -> (c < g + bw)%nat ->
  band_row bw r c = band_row bw g c -> r = g.
Proof. unfold band_row. lia. Qed.

(** The columns still to be eliminated during the banded phase. *)
Definition wpend (nb off w i : nat) (A C : mat) : mat := fun k c =>
  if (c <? nb)%nat then
    if (off + i <=? c)%nat && (c <? off + w)%nat then A k (c - off)%nat else 0
  else C k (c - nb)%nat.

Lemma wpend_in nb off w i A C k c : (c < nb)%nat -> (off + i <= c)%nat -> (c < off + w)%nat ->
  wpend nb off w i A C k c = A k (c - off)%nat.
Proof.
  intros. unfold wpend. destruct (Nat.ltb_spec c nb); [|lia].
  destruct (Nat.leb_spec (off + i) c); [|lia]. destruct (Nat.ltb_spec c (off + w)); [reflexivity|lia].
Qed.
Lemma wpend_out nb off w i A C k c : (c < nb)%nat -> (c < off + i \/ off + w <= c)%nat ->
  wpend nb off w i A C k c = 0.
Proof.
  intros. unfold wpend. destruct (Nat.ltb_spec c nb); [|lia].
  destruct (Nat.leb_spec (off + i) c), (Nat.ltb_spec c (off + w)); cbn; try reflexivity. lia.
Qed.
Lemma wpend_common nb off w i A C k c : (nb <= c)%nat -> wpend nb off w i A C k c = C k (c - nb)%nat.
Proof. intros. unfold wpend. destruct (Nat.ltb_spec c nb); [lia|reflexivity]. Qed.

Lemma aug_lt N M y r c : (c < N)%nat -> aug N M y r c = M r c.
Proof. intros. unfold aug. destruct (Nat.eqb_spec c N); [lia|reflexivity]. Qed.
Lemma aug_eq N M y r : aug N M y r N = y r.
Proof. unfold aug. rewrite Nat.eqb_refl. reflexivity. Qed.

Section Zero.
Context (nb nc bw off w m : nat).
Context (Hw : (w <= bw)%nat) (Hoff : (off + w <= nb)%nat).

Let N := (nb + nc)%nat.

Lemma zero_step_spec s i s' :
  (i < w)%nat ->
  (forall g c, (off <= g < off + w)%nat -> (off + w <= c < nb)%nat ->
     dn nb bw (bs_band s) (bs_common s) g c = 0) ->
  zero_step bw nc off w m s i = s' ->
  (forall r e, r <> (i + off)%nat -> (e <= N)%nat ->
     aug N (dn nb bw (bs_band s') (bs_common s')) (bs_y s') r e =
     aug N (dn nb bw (bs_band s) (bs_common s)) (bs_y s) r e) /\
  row_step m (i + off)
    (aug N (dn nb bw (bs_band s) (bs_common s)) (bs_y s) (i + off)%nat)
    (aug N (wpend nb off w i (bs_A s) (bs_C s)) (bs_b s))
    (aug N (dn nb bw (bs_band s') (bs_common s')) (bs_y s') (i + off)%nat)
    (aug N (wpend nb off w (S i) (bs_A s') (bs_C s')) (bs_b s'))
    (fun e => (e <= N)%nat) /\
  (forall r c, (off + w <= c < nb)%nat ->
     dn nb bw (bs_band s') (bs_common s') r c = dn nb bw (bs_band s) (bs_common s) r c).
Proof.
  intros Hi Hcov H. unfold zero_step in H. set (g := (i + off)%nat) in *.
  assert (Hg : (g < nb)%nat) by (unfold g; lia).
  assert (HgN : (g < N)%nat) by (unfold N; lia).
  assert (Hgi : (g - off = i)%nat) by (unfold g; lia).
  assert (Hgg : aug N (dn nb bw (bs_band s) (bs_common s)) (bs_y s) g g = bs_band s (band_row bw g g) g).
  { rewrite aug_lt by assumption. apply dn_band; lia. }
  assert (Hcol : col (aug N (wpend nb off w i (bs_A s) (bs_C s)) (bs_b s)) g = col (bs_A s) i).
  { apply functional_extensionality. intros k. unfold col. rewrite aug_lt by assumption.
    rewrite wpend_in by (unfold g; lia). rewrite Hgi. reflexivity. }
  unfold row_step. rewrite Hgg, Hcol.
  destruct (hh_vec (bs_band s (band_row bw g g) g) m (col (bs_A s) i)) as [[beta mu] v] eqn:E.
  destruct (hh_vec_facts _ _ _ _ _ _ E) as (_ & _ & Hp & _).
  destruct (Reqb_spec beta 0) as [B0|B0].
  - subst s' beta. cbn [bs_band bs_common bs_y bs_A bs_C bs_b].
    split; [reflexivity|]. split; [|reflexivity].
    split; [rewrite Hgg; lra|]. split.
    + intros k Hk. rewrite aug_lt by assumption. apply wpend_out; unfold g; lia.
    + intros c Hc Nc. split; [ring|]. intros k Hk.
      destruct (Nat.eq_dec c N) as [->|NN]; [rewrite !aug_eq; ring|].
      rewrite !aug_lt by lia.
      destruct (Nat.lt_ge_cases c nb) as [L|G].
      * destruct (Nat.lt_ge_cases c (off + S i)), (Nat.lt_ge_cases c (off + w)).
        -- rewrite (wpend_out nb off w (S i)) by lia. rewrite (wpend_out nb off w i) by (unfold g in *; lia). ring.
        -- rewrite (wpend_out nb off w (S i)) by lia. rewrite (wpend_out nb off w i) by (unfold g in *; lia). ring.
        -- rewrite !wpend_in by lia. rewrite upd_col_other by (unfold g in *; lia). ring.
        -- rewrite !wpend_out by lia. ring.
      * rewrite !wpend_common by lia. ring.
  - destruct (apply_band bw g off beta m v (seq (S i) (w - S i))
      (upd_at (bs_band s) (band_row bw g g) g mu) (upd_col (bs_A s) i v)) as [B1 A1] eqn:EB.
    destruct (apply_cols beta m v (seq 0 nc) (bs_common s g) (bs_C s)) as [rc C1] eqn:EC.
    cbn [hh_apply] in H. subst s'. cbn [bs_band bs_common bs_y bs_A bs_C bs_b].
    destruct (apply_band_spec bw g off beta m v _ (seq_NoDup (w - S i) (S i)) _ _ _ _ EB) as (P1 & P2 & P3).
    pose proof (apply_cols_spec beta m v _ (seq_NoDup nc 0) _ _ _ _ EC) as PC.
    (* entries of the store outside row g *)
    assert (Q : forall r c, (c < nb)%nat -> (r <= c)%nat -> (c < r + bw)%nat ->
       (r <> g \/ (off + w <= c)%nat) -> B1 (band_row bw r c) c = bs_band s (band_row bw r c) c).
    { intros r c Hc1 Hc2 Hc3 Hr. rewrite P2.
      - apply upd_at_other. destruct Hr as [Hr|Hr].
        + destruct (Nat.eq_dec c g) as [->|]; [left|right; assumption].
          intros X. apply Hr. apply (band_row_inj bw r g g); lia.
        + right. unfold g; lia.
      - intros j Hj. apply in_seq in Hj. destruct Hr as [Hr|Hr].
        + destruct (Nat.eq_dec c (off + j)) as [->|]; [right|left; assumption].
          intros X. apply Hr. apply (band_row_inj bw r g (off + j)); try exact X; unfold g; lia.
        + left. lia. }
    assert (Qd : forall r c, (c < nb)%nat -> (r <> g \/ (off + w <= c)%nat) ->
       dn nb bw B1 (upd_row (bs_common s) g rc) r c = dn nb bw (bs_band s) (bs_common s) r c).
    { intros r c Hc Hr. destruct (Nat.lt_ge_cases c r) as [L|G].
      - rewrite !dn_out by lia. reflexivity.
      - destruct (Nat.lt_ge_cases c (r + bw)) as [L2|G2].
        + rewrite !dn_band by lia. apply Q; assumption.
        + rewrite !dn_out by lia. reflexivity. }
    split; [|split].
    + intros r e Nr He. destruct (Nat.eq_dec e N) as [->|NN].
      { rewrite !aug_eq. apply upd_other. assumption. }
      rewrite !aug_lt by lia. destruct (Nat.lt_ge_cases e nb) as [L|G].
      * apply Qd; [assumption|left; assumption].
      * rewrite !dn_common' by lia. apply upd_row_other. assumption.
    + split; [|split].
      * rewrite aug_lt by assumption. rewrite dn_band by lia. rewrite P2.
        -- apply upd_at_same.
        -- intros j Hj. apply in_seq in Hj. left. unfold g. lia.
      * intros k Hk. rewrite aug_lt by assumption. apply wpend_out; unfold g; lia.
      * intros c Hc Nc. destruct (Nat.eq_dec c N) as [->|NN].
        { rewrite !aug_eq, upd_same.
          rewrite (sumn_ext m (fun k => v k * aug N (wpend nb off w i (bs_A s) (bs_C s)) (bs_b s) k N)
             (fun k => v k * bs_b s k)) by (intros; rewrite aug_eq; reflexivity).
          split; [reflexivity|]. intros k Hk. rewrite !aug_eq. reflexivity. }
        rewrite !(aug_lt N) by lia.
        rewrite (sumn_ext m (fun k => v k * aug N (wpend nb off w i (bs_A s) (bs_C s)) (bs_b s) k c)
             (fun k => v k * wpend nb off w i (bs_A s) (bs_C s) k c))
          by (intros; rewrite aug_lt by lia; reflexivity).
        destruct (Nat.lt_ge_cases c nb) as [L|G].
        { destruct (Nat.lt_ge_cases c g) as [Lg|Gg].
          { (* left of the pivot *)
            assert (Z : forall k, wpend nb off w i (bs_A s) (bs_C s) k c = 0)
              by (intros; apply wpend_out; unfold g in *; lia).
            rewrite (sumn_zero m (fun k => v k * wpend nb off w i (bs_A s) (bs_C s) k c))
              by (intros; rewrite Z; ring).
            rewrite !dn_out by lia. split; [ring|].
            intros k Hk. rewrite !aug_lt by lia. rewrite Z.
            rewrite wpend_out by (unfold g in *; lia). ring. }
          destruct (Nat.lt_ge_cases c (off + w)) as [Lw|Gw].
          { (* inside the window *)
            assert (Hin : In (c - off)%nat (seq (S i) (w - S i))) by (apply in_seq; unfold g in *; lia).
            destruct (P1 (c - off)%nat Hin) as [E1 E2]. clear P1.
            replace (off + (c - off))%nat with c in * by (unfold g in *; lia).
            rewrite upd_at_other in E1, E2 by (right; assumption).
            assert (F0 : forall k, upd_col (bs_A s) i v k (c - off)%nat = bs_A s k (c - off)%nat)
              by (intros; apply upd_col_other; unfold g in *; lia).
            rewrite (sumn_ext m (fun k => v k * upd_col (bs_A s) i v k (c - off)%nat)
              (fun k => v k * bs_A s k (c - off)%nat)) in E1, E2
              by (intros; rewrite F0; reflexivity).
            rewrite (sumn_ext m (fun k => v k * wpend nb off w i (bs_A s) (bs_C s) k c)
              (fun k => v k * bs_A s k (c - off)%nat))
              by (intros; rewrite wpend_in by (unfold g in *; lia); reflexivity).
            rewrite !dn_band by (unfold g in *; lia). split; [exact E1|].
            intros k Hk. rewrite !aug_lt by lia. rewrite !wpend_in by (unfold g in *; lia).
            rewrite E2, F0. reflexivity. }
          { (* beyond the window: covered, so zero *)
            assert (Z : forall k, wpend nb off w i (bs_A s) (bs_C s) k c = 0)
              by (intros; apply wpend_out; lia).
            rewrite (sumn_zero m (fun k => v k * wpend nb off w i (bs_A s) (bs_C s) k c))
              by (intros; rewrite Z; ring).
            rewrite Qd by (try right; assumption).
            rewrite (Hcov g c) by (unfold g; lia). split; [ring|].
            intros k Hk. rewrite !aug_lt by lia. rewrite Z.
            rewrite wpend_out by lia. ring. } }
        { (* common columns *)
          destruct (PC (c - nb)%nat) as [H1 _].
          destruct (H1 ltac:(apply in_seq; unfold N in *; lia)) as [E1 E2]. clear H1.
          rewrite (sumn_ext m (fun k => v k * wpend nb off w i (bs_A s) (bs_C s) k c)
              (fun k => v k * bs_C s k (c - nb)%nat))
              by (intros; rewrite wpend_common by lia; reflexivity).
          rewrite !dn_common' by lia. rewrite upd_row_same. split; [exact E1|].
          intros k Hk. rewrite !aug_lt by lia. rewrite !wpend_common by lia. apply E2. }
    + intros r c Hc. apply Qd; [lia|right; lia].
Qed.

Lemma zero_loop_spec : forall len i s s',
  (i + len = w)%nat ->
  (forall g c, (off <= g < off + w)%nat -> (off + w <= c < nb)%nat ->
     dn nb bw (bs_band s) (bs_common s) g c = 0) ->
  fold_left (zero_step bw nc off w m) (seq i len) s = s' ->
  (forall c d, (c <= N)%nat -> (d <= N)%nat ->
     total N m (aug N (dn nb bw (bs_band s') (bs_common s')) (bs_y s'))
       (aug N (wpend nb off w w (bs_A s') (bs_C s')) (bs_b s')) c d =
     total N m (aug N (dn nb bw (bs_band s) (bs_common s)) (bs_y s))
       (aug N (wpend nb off w i (bs_A s) (bs_C s)) (bs_b s)) c d) /\
  (forall r c, ~ (off + i <= r < off + w)%nat -> (c < N)%nat ->
     dn nb bw (bs_band s') (bs_common s') r c = dn nb bw (bs_band s) (bs_common s) r c) /\
  (forall r, ~ (off + i <= r < off + w)%nat -> bs_y s' r = bs_y s r) /\
  (forall r c, (off + w <= c < nb)%nat ->
     dn nb bw (bs_band s') (bs_common s') r c = dn nb bw (bs_band s) (bs_common s) r c) /\
  (forall r, (r < nb)%nat ->
     dn nb bw (bs_band s) (bs_common s) r r * dn nb bw (bs_band s) (bs_common s) r r <=
     dn nb bw (bs_band s') (bs_common s') r r * dn nb bw (bs_band s') (bs_common s') r r).
Proof.
  induction len as [|len IH]; intros i s s' Hil Hcov H.
  - cbn in H. subst s'. replace i with w by lia. repeat split; auto; intros; lra.
  - cbn [seq fold_left] in H.
    destruct (zero_step_spec s i _ ltac:(lia) Hcov eq_refl) as (Ho & Hr & Hk).
    set (s1 := zero_step bw nc off w m s i) in *.
    destruct (IH (S i) s1 s' ltac:(lia)) as (I1 & I2 & I2y & I3 & I4).
    { intros g c Hg Hc. rewrite Hk by assumption. apply Hcov; assumption. }
    { exact H. }
    split; [|split; [|split; [|split]]].
    + intros c d Hc Hd. rewrite I1 by assumption.
      apply (total_step N m (i + off)); try assumption; [unfold N; lia|].
      intros r e Hr' He Nr. apply Ho; assumption.
    + intros r c Hr' Hc. rewrite I2 by (try assumption; lia).
      specialize (Ho r c ltac:(lia) ltac:(lia)). rewrite !aug_lt in Ho by assumption. exact Ho.
    + intros r Hr'. rewrite I2y by lia.
      specialize (Ho r N ltac:(lia) (le_n N)). rewrite !aug_eq in Ho. exact Ho.
    + intros r c Hc. rewrite I3, Hk by assumption. reflexivity.
    + intros r Hr'. specialize (I4 r Hr').
      destruct (Nat.eq_dec r (i + off)) as [->|Nr].
      * pose proof (row_step_pivot _ _ _ _ _ _ _ Hr) as Hp.
        rewrite !aug_lt in Hp by (unfold N; lia). lra.
      * specialize (Ho r r Nr ltac:(unfold N; lia)). rewrite !aug_lt in Ho by (unfold N; lia).
        rewrite Ho in I4. assumption.
Qed.

End Zero.

(** ** The common phase is a dense elimination on the bottom rows *)

Definition shift4 (nb : nat) (s : mat * vec * mat * vec) : mat * vec * mat * vec :=
  let '(Rc, y, C, b) := s in (fun r c => Rc (nb + r)%nat c, fun r => y (nb + r)%nat, C, b).

Lemma common_step_shift nb nc m s i :
  shift4 nb (common_step nb nc m s i) = qr_step nc m (shift4 nb s) i.
Proof.
  destruct s as [[[Rc y] C] b]. unfold common_step, qr_step, shift4.
  rewrite (Nat.add_comm i nb).
  destruct (hh_vec (Rc (nb + i)%nat i) m (col C i)) as [[beta mu] v].
  destruct (Reqb beta 0); [reflexivity|].
  assert (E1 : upd_at Rc (nb + i)%nat i mu (nb + i)%nat =
               upd_at (fun r c => Rc (nb + r)%nat c) i i mu i).
  { apply functional_extensionality. intros c. unfold upd_at.
    rewrite !Nat.eqb_refl. reflexivity. }
  rewrite E1.
  destruct (apply_cols beta m v (seq (S i) (nc - S i)) _ (upd_col C i v)) as [r A].
  cbn [hh_apply]. f_equal. f_equal. f_equal.
  - apply functional_extensionality. intros q. apply functional_extensionality. intros c.
    unfold upd_row, upd_at.
    destruct (Nat.eqb_spec (nb + q)%nat (nb + i)%nat), (Nat.eqb_spec q i); try lia; try reflexivity.
  - apply functional_extensionality. intros q. unfold upd.
    destruct (Nat.eqb_spec (nb + q)%nat (nb + i)%nat), (Nat.eqb_spec q i); try lia; reflexivity.
Qed.

Lemma common_step_top nb nc m Rc y C b i Rc' y' C' b' :
  common_step nb nc m (Rc, y, C, b) i = (Rc', y', C', b') ->
  (forall r c, (r < nb)%nat -> Rc' r c = Rc r c) /\ (forall r, (r < nb)%nat -> y' r = y r).
Proof.
  unfold common_step. intros H.
  destruct (hh_vec (Rc (i + nb)%nat i) m (col C i)) as [[beta mu] v].
  destruct (Reqb beta 0).
  - injection H as <- <- _ _. auto.
  - destruct (apply_cols _ _ _ _ _ _) as [r A]. cbn [hh_apply] in H. injection H as <- <- _ _.
    split; intros.
    + rewrite upd_row_other by lia. apply upd_at_other. left; lia.
    + apply upd_other. lia.
Qed.

Lemma common_loop_shift nb nc m js : forall s,
  shift4 nb (fold_left (common_step nb nc m) js s) = fold_left (qr_step nc m) js (shift4 nb s).
Proof.
  induction js as [|j js IH]; intros s; [reflexivity|].
  cbn [fold_left]. rewrite IH, common_step_shift. reflexivity.
Qed.

Lemma common_loop_top nb nc m js : forall Rc y C b Rc' y' C' b',
  fold_left (common_step nb nc m) js (Rc, y, C, b) = (Rc', y', C', b') ->
  (forall r c, (r < nb)%nat -> Rc' r c = Rc r c) /\ (forall r, (r < nb)%nat -> y' r = y r).
Proof.
  induction js as [|j js IH]; intros Rc y C b Rc' y' C' b' H.
  - cbn in H. injection H as <- <- _ _. auto.
  - cbn [fold_left] in H.
    destruct (common_step nb nc m (Rc, y, C, b) j) as [[[R1 y1] C1] b1] eqn:E.
    destruct (common_step_top _ _ _ _ _ _ _ _ _ _ _ _ E) as [T1 T2].
    destruct (IH _ _ _ _ _ _ _ _ H) as [J1 J2].
    split; intros; [rewrite J1, T1|rewrite J2, T2]; auto.
Qed.

Definition common_upper (q : bqr) : Prop :=
  upper (bq_nc q) (fun r c => bq_common q (bq_nb q + r)%nat c).

Lemma add_common_spec q m C b :
  common_upper q ->
  let q' := add_common q m C b in
  bq_nb q' = bq_nb q /\ bq_nc q' = bq_nc q /\ bq_bw q' = bq_bw q /\ bq_lambda q' = bq_lambda q /\
  bq_band q' = bq_band q /\
  (forall r c, (r < bq_nb q)%nat -> bq_common q' r c = bq_common q r c) /\
  (forall r, (r < bq_nb q)%nat -> bq_y q' r = bq_y q r) /\
  common_upper q' /\
  (forall c d, (c < bq_nc q)%nat -> (d < bq_nc q)%nat ->
     sumn (bq_nc q) (fun r => bq_common q' (bq_nb q + r)%nat c * bq_common q' (bq_nb q + r)%nat d) =
     sumn (bq_nc q) (fun r => bq_common q (bq_nb q + r)%nat c * bq_common q (bq_nb q + r)%nat d)
       + sumn m (fun k => C k c * C k d)) /\
  (forall c, (c < bq_nc q)%nat ->
     sumn (bq_nc q) (fun r => bq_common q' (bq_nb q + r)%nat c * bq_y q' (bq_nb q + r)%nat) =
     sumn (bq_nc q) (fun r => bq_common q (bq_nb q + r)%nat c * bq_y q (bq_nb q + r)%nat)
       + sumn m (fun k => C k c * b k)) /\
  (forall r, (r < bq_nc q)%nat ->
     bq_common q (bq_nb q + r)%nat r * bq_common q (bq_nb q + r)%nat r <=
     bq_common q' (bq_nb q + r)%nat r * bq_common q' (bq_nb q + r)%nat r).
Proof.
  intros Hu. cbv zeta. unfold add_common.
  destruct (fold_left (common_step (bq_nb q) (bq_nc q) m) (seq 0 (bq_nc q))
    (bq_common q, bq_y q, C, b)) as [[[Rc' y'] C'] b'] eqn:E.
  unfold common_upper.
  cbn [bq_nb bq_nc bq_bw bq_lambda bq_band bq_common bq_y].
  destruct (common_loop_top _ _ _ _ _ _ _ _ _ _ _ _ E) as [T1 T2].
  pose proof (common_loop_shift (bq_nb q) (bq_nc q) m (seq 0 (bq_nc q)) (bq_common q, bq_y q, C, b)) as X.
  rewrite E in X. cbn [shift4] in X.
  set (q0 := {| q_n := bq_nc q; q_R := fun r c => bq_common q (bq_nb q + r)%nat c;
                q_y := fun r => bq_y q (bq_nb q + r)%nat |}).
  assert (Ea : qr_add q0 m C b = {| q_n := bq_nc q; q_R := fun r c => Rc' (bq_nb q + r)%nat c;
                q_y := fun r => y' (bq_nb q + r)%nat |}).
  { unfold qr_add, qr_add_mutating.
    change (fold_left (qr_step (q_n q0) m) (seq 0 (q_n q0)) (q_R q0, q_y q0, C, b)) with
      (fold_left (qr_step (bq_nc q) m) (seq 0 (bq_nc q))
        (fun r c => bq_common q (bq_nb q + r)%nat c, fun r => bq_y q (bq_nb q + r)%nat, C, b)).
    rewrite <- X. reflexivity. }
  pose proof (qr_add_spec q0 m C b Hu) as S. cbv zeta in S. rewrite Ea in S.
  unfold q0 in S. cbn [q_n q_R q_y] in S. destruct S as (_ & S1 & S2 & S3 & S4).
  repeat (split; [first [reflexivity|assumption]|]). assumption.
Qed.

(** ** One block *)

Lemma sumn_band_common nb nc f : sumn (nb + nc)%nat f = sumn nb f + sumn nc (fun r => f (nb + r)%nat).
Proof. apply sumn_split. Qed.

Definition bq_ok (q : bqr) : Prop := common_upper q.

Lemma bq_R_dense_dn q : bq_R_dense q = dn (bq_nb q) (bq_bw q) (bq_band q) (bq_common q).
Proof. reflexivity. Qed.

Definition covered (q : bqr) (off w : nat) : Prop :=
  forall g c, (off <= g < off + w)%nat -> (off + w <= c < bq_nb q)%nat -> bq_R_dense q g c = 0.

Lemma bq_add_spec q B :
  bq_ok q -> block_fits (bq_nb q) (bq_bw q) B -> covered q (bb_off B) (bb_w B) ->
  let q' := bq_add q (bb_off B) (bb_w B) (bb_rows B) (bb_A B) (bb_C B) (bb_b B) in
  let N := (bq_nb q + bq_nc q)%nat in
  let F := full_block (bq_nb q) B in
  (bq_nb q' = bq_nb q /\ bq_nc q' = bq_nc q /\ bq_bw q' = bq_bw q /\ bq_lambda q' = bq_lambda q) /\
  bq_ok q' /\
  (forall c d, (c < N)%nat -> (d < N)%nat ->
     sumn N (fun r => bq_R_dense q' r c * bq_R_dense q' r d) =
     sumn N (fun r => bq_R_dense q r c * bq_R_dense q r d)
       + sumn (lb_rows F) (fun k => lb_A F k c * lb_A F k d)) /\
  (forall c, (c < N)%nat ->
     sumn N (fun r => bq_R_dense q' r c * bq_y q' r) =
     sumn N (fun r => bq_R_dense q r c * bq_y q r)
       + sumn (lb_rows F) (fun k => lb_A F k c * lb_b F k)) /\
  (forall r, (r < N)%nat ->
     bq_R_dense q r r * bq_R_dense q r r <= bq_R_dense q' r r * bq_R_dense q' r r) /\
  (forall r c, (c < bq_nb q)%nat ->
     ~ ((bb_off B <= r < bb_off B + bb_w B)%nat /\ (c < bb_off B + bb_w B)%nat) ->
     bq_R_dense q' r c = bq_R_dense q r c).
Proof.
  intros Hok [Hw Hoff] Hcov. cbv zeta.
  destruct B as [off w m A C b]. cbn [bb_off bb_w bb_rows bb_A bb_C bb_b] in *.
  unfold bq_add, zero_banded.
  set (s0 := {| bs_band := bq_band q; bs_common := bq_common q; bs_y := bq_y q;
       bs_A := A; bs_C := C; bs_b := b |}).
  set (nb := bq_nb q) in *. set (nc := bq_nc q) in *. set (bw := bq_bw q) in *.
  destruct (zero_loop_spec nb nc bw off w m Hw Hoff w 0 s0 _ eq_refl Hcov eq_refl)
    as (Z1 & Z2 & Z2y & Z3 & Z4).
  set (s1 := fold_left (zero_step bw nc off w m) (seq 0 w) s0) in *.
  set (q1 := {| bq_nb := nb; bq_nc := nc; bq_bw := bw; bq_lambda := bq_lambda q;
      bq_band := bs_band s1; bq_common := bs_common s1; bq_y := bs_y s1 |}).
  set (N := (nb + nc)%nat) in *.
  assert (Hlow : forall r c, (nb <= r)%nat -> (c < nc)%nat -> bs_common s1 r c = bq_common q r c).
  { intros r c Hr Hc. specialize (Z2 r (nb + c)%nat ltac:(lia) ltac:(unfold N; lia)).
    rewrite !dn_common in Z2. exact Z2. }
  assert (Hu1 : common_upper q1).
  { intros r c Hr Hc. unfold q1 in *. cbn [bq_nb bq_nc bq_common] in *. rewrite Hlow by lia. apply Hok; assumption. }
  destruct (add_common_spec q1 m (bs_C s1) (bs_b s1) Hu1)
    as (A1 & A2 & A3 & A4 & A5 & A6 & A7 & A8 & A9 & A10 & A11).
  set (q2 := add_common q1 m (bs_C s1) (bs_b s1)) in *.
  cbv delta [q1] in A1, A2, A3, A4, A5, A6, A7, A9, A10, A11.
  cbn [bq_nb bq_nc bq_bw bq_lambda bq_band bq_common bq_y] in A1, A2, A3, A4, A5, A6, A7, A9, A10, A11.
  (* dense entries of q2 *)
  assert (Dtop : forall r c, (r < nb)%nat -> bq_R_dense q2 r c = dn nb bw (bs_band s1) (bs_common s1) r c).
  { intros r c Hr. rewrite bq_R_dense_dn, A1, A3, A5.
    destruct (Nat.lt_ge_cases c nb).
    - unfold dn. destruct (Nat.ltb_spec c nb); [reflexivity|lia].
    - rewrite !dn_common' by assumption. apply A6; assumption. }
  assert (Dband : forall r c, (c < nb)%nat -> bq_R_dense q2 r c = dn nb bw (bs_band s1) (bs_common s1) r c).
  { intros r c Hc. rewrite bq_R_dense_dn, A1, A3, A5. unfold dn.
    destruct (Nat.ltb_spec c nb); [reflexivity|lia]. }
  assert (Dbot : forall r c, (c < nb)%nat -> bq_R_dense q2 (nb + r)%nat c = 0).
  { intros r c Hc. rewrite Dband by assumption. apply dn_out; [assumption|lia]. }
  assert (Dbot1 : forall r c, (c < nb)%nat -> dn nb bw (bs_band s1) (bs_common s1) (nb + r)%nat c = 0).
  { intros r c Hc. apply dn_out; [assumption|lia]. }
  assert (Dcc : forall r c, bq_R_dense q2 r (nb + c)%nat = bq_common q2 r c).
  { intros. rewrite bq_R_dense_dn, A1. apply dn_common. }
  (* pending part after the banded phase *)
  assert (Pb : forall k c, (c < nb)%nat -> aug N (wpend nb off w w (bs_A s1) (bs_C s1)) (bs_b s1) k c = 0).
  { intros k c Hc. rewrite aug_lt by (unfold N; lia). apply wpend_out; [assumption|lia]. }
  assert (Pc : forall k c, (c < nc)%nat ->
     aug N (wpend nb off w w (bs_A s1) (bs_C s1)) (bs_b s1) k (nb + c)%nat = bs_C s1 k c).
  { intros k c Hc. rewrite aug_lt by (unfold N; lia). rewrite wpend_common by lia. f_equal. lia. }
  assert (P0 : forall k c, (c < N)%nat ->
     aug N (wpend nb off w 0 A C) b k c = lb_A (full_block nb (Build_band_block off w m A C b)) k c).
  { intros k c Hc. rewrite aug_lt by assumption. unfold wpend, full_block.
    cbn [lb_A bb_off bb_w bb_A bb_C]. rewrite Nat.add_0_r. reflexivity. }
  split; [repeat split; assumption|]. split.
  { unfold bq_ok. exact A8. }
  assert (GRAM : forall c d, (c < N)%nat -> (d < N)%nat ->
     sumn N (fun r => bq_R_dense q2 r c * bq_R_dense q2 r d) =
     total N m (aug N (dn nb bw (bs_band s1) (bs_common s1)) (bs_y s1))
       (aug N (wpend nb off w w (bs_A s1) (bs_C s1)) (bs_b s1)) c d).
  { intros c d Hc Hd. unfold total, N. rewrite !sumn_band_common. fold N.
    rewrite (sumn_ext nb (fun r => bq_R_dense q2 r c * bq_R_dense q2 r d)
      (fun r => aug N (dn nb bw (bs_band s1) (bs_common s1)) (bs_y s1) r c *
                aug N (dn nb bw (bs_band s1) (bs_common s1)) (bs_y s1) r d))
      by (intros; rewrite !aug_lt by assumption; rewrite !Dtop by assumption; reflexivity).
    destruct (Nat.lt_ge_cases c nb) as [Lc|Gc]; [|destruct (Nat.lt_ge_cases d nb) as [Ld|Gd]].
    - rewrite (sumn_zero nc (fun r => bq_R_dense q2 (nb + r)%nat c * bq_R_dense q2 (nb + r)%nat d))
        by (intros; rewrite Dbot by assumption; ring).
      rewrite (sumn_zero nc (fun r => aug N (dn nb bw (bs_band s1) (bs_common s1)) (bs_y s1) (nb + r)%nat c * _))
        by (intros; rewrite aug_lt by assumption; rewrite Dbot1 by assumption; ring).
      rewrite (sumn_zero m) by (intros; rewrite Pb by assumption; ring). ring.
    - rewrite (sumn_zero nc (fun r => bq_R_dense q2 (nb + r)%nat c * bq_R_dense q2 (nb + r)%nat d))
        by (intros; rewrite (Dbot _ d) by assumption; ring).
      rewrite (sumn_zero nc (fun r => aug N (dn nb bw (bs_band s1) (bs_common s1)) (bs_y s1) (nb + r)%nat c *
          aug N (dn nb bw (bs_band s1) (bs_common s1)) (bs_y s1) (nb + r)%nat d))
        by (intros; rewrite (aug_lt N _ _ _ d) by assumption; rewrite (Dbot1 _ d) by assumption; ring).
      rewrite (sumn_zero m) by (intros; rewrite (Pb _ d) by assumption; ring). ring.
    - replace c with (nb + (c - nb))%nat by lia. replace d with (nb + (d - nb))%nat by lia.
      rewrite (sumn_ext nc (fun r => bq_R_dense q2 (nb + r)%nat (nb + (c - nb))%nat * bq_R_dense q2 (nb + r)%nat (nb + (d - nb))%nat)
        (fun r => bq_common q2 (nb + r)%nat (c - nb)%nat * bq_common q2 (nb + r)%nat (d - nb)%nat))
        by (intros; rewrite !Dcc; reflexivity).
      rewrite A9 by (unfold N in *; lia).
      rewrite (sumn_ext m (fun k => aug N (wpend nb off w w (bs_A s1) (bs_C s1)) (bs_b s1) k (nb + (c - nb))%nat *
           aug N (wpend nb off w w (bs_A s1) (bs_C s1)) (bs_b s1) k (nb + (d - nb))%nat)
        (fun k => bs_C s1 k (c - nb)%nat * bs_C s1 k (d - nb)%nat))
        by (intros; rewrite !Pc by (unfold N in *; lia); reflexivity).
      rewrite (sumn_ext nc (fun r => aug N (dn nb bw (bs_band s1) (bs_common s1)) (bs_y s1) (nb + r)%nat (nb + (c - nb))%nat *
           aug N (dn nb bw (bs_band s1) (bs_common s1)) (bs_y s1) (nb + r)%nat (nb + (d - nb))%nat)
        (fun r => bs_common s1 (nb + r)%nat (c - nb)%nat * bs_common s1 (nb + r)%nat (d - nb)%nat))
        by (intros; rewrite !aug_lt by (unfold N in *; lia); rewrite !dn_common; reflexivity).
      ring. }
  assert (RHS : forall c, (c < N)%nat ->
     sumn N (fun r => bq_R_dense q2 r c * bq_y q2 r) =
     total N m (aug N (dn nb bw (bs_band s1) (bs_common s1)) (bs_y s1))
       (aug N (wpend nb off w w (bs_A s1) (bs_C s1)) (bs_b s1)) c N).
  { intros c Hc. unfold total. unfold N at 1 2. rewrite !sumn_band_common. fold N.
    rewrite (sumn_ext nb (fun r => bq_R_dense q2 r c * bq_y q2 r)
      (fun r => aug N (dn nb bw (bs_band s1) (bs_common s1)) (bs_y s1) r c *
                aug N (dn nb bw (bs_band s1) (bs_common s1)) (bs_y s1) r N))
      by (intros; rewrite aug_eq, aug_lt by assumption; rewrite Dtop, A7 by assumption; reflexivity).
    destruct (Nat.lt_ge_cases c nb) as [Lc|Gc].
    - rewrite (sumn_zero nc (fun r => bq_R_dense q2 (nb + r)%nat c * bq_y q2 (nb + r)%nat))
        by (intros; rewrite Dbot by assumption; ring).
      rewrite (sumn_zero nc (fun r => aug N (dn nb bw (bs_band s1) (bs_common s1)) (bs_y s1) (nb + r)%nat c * _))
        by (intros; rewrite aug_lt by assumption; rewrite Dbot1 by assumption; ring).
      rewrite (sumn_zero m) by (intros; rewrite Pb by assumption; ring). ring.
    - replace c with (nb + (c - nb))%nat by lia.
      rewrite (sumn_ext nc (fun r => bq_R_dense q2 (nb + r)%nat (nb + (c - nb))%nat * bq_y q2 (nb + r)%nat)
        (fun r => bq_common q2 (nb + r)%nat (c - nb)%nat * bq_y q2 (nb + r)%nat))
        by (intros; rewrite !Dcc; reflexivity).
      rewrite A10 by (unfold N in *; lia).
      rewrite (sumn_ext m (fun k => aug N (wpend nb off w w (bs_A s1) (bs_C s1)) (bs_b s1) k (nb + (c - nb))%nat *
           aug N (wpend nb off w w (bs_A s1) (bs_C s1)) (bs_b s1) k N)
        (fun k => bs_C s1 k (c - nb)%nat * bs_b s1 k))
        by (intros; rewrite aug_eq, Pc by (unfold N in *; lia); reflexivity).
      rewrite (sumn_ext nc (fun r => aug N (dn nb bw (bs_band s1) (bs_common s1)) (bs_y s1) (nb + r)%nat (nb + (c - nb))%nat *
           aug N (dn nb bw (bs_band s1) (bs_common s1)) (bs_y s1) (nb + r)%nat N)
        (fun r => bs_common s1 (nb + r)%nat (c - nb)%nat * bs_y s1 (nb + r)%nat))
        by (intros; rewrite aug_eq, aug_lt by (unfold N in *; lia); rewrite dn_common; reflexivity).
      ring. }
  split; [|split; [|split]].
  - intros c d Hc Hd. rewrite GRAM, Z1 by (assumption || lia).
    unfold s0. cbn [bs_band bs_common bs_y bs_A bs_C bs_b]. unfold total.
    rewrite (sumn_ext N (fun r => aug N (dn nb bw (bq_band q) (bq_common q)) (bq_y q) r c * _)
      (fun r => bq_R_dense q r c * bq_R_dense q r d))
      by (intros; rewrite !aug_lt by assumption; reflexivity).
    f_equal. apply sumn_ext. intros k Hk. rewrite !P0 by assumption. reflexivity.
  - intros c Hc. rewrite RHS, Z1 by (assumption || lia).
    unfold s0. cbn [bs_band bs_common bs_y bs_A bs_C bs_b]. unfold total.
    rewrite (sumn_ext N (fun r => aug N (dn nb bw (bq_band q) (bq_common q)) (bq_y q) r c * _)
      (fun r => bq_R_dense q r c * bq_y q r))
      by (intros; rewrite aug_eq, aug_lt by assumption; reflexivity).
    f_equal. apply sumn_ext. intros k Hk. rewrite aug_eq, P0 by assumption. reflexivity.
  - intros r Hr. destruct (Nat.lt_ge_cases r nb) as [L|G].
    + rewrite Dtop by assumption. apply Z4. assumption.
    + replace r with (nb + (r - nb))%nat by lia. rewrite Dcc.
      specialize (A11 (r - nb)%nat ltac:(unfold N in *; lia)).
      rewrite bq_R_dense_dn. fold nb. rewrite dn_common.
      rewrite Hlow in A11 by (unfold N in *; lia). exact A11.
  - intros r c Hc Hn. rewrite Dband by assumption.
    destruct (Nat.lt_ge_cases c (off + w)) as [L|G].
    + apply Z2; [lia|unfold N; lia].
    + apply Z3. lia.
Qed.

(** ** Any sequence of blocks *)


Lemma bq_new_dense nb nc bw lambda r c : (0 < bw)%nat ->
  bq_R_dense (bq_new nb nc bw lambda) r c = if (r =? c)%nat then lambda else 0.
Proof.
  intros Hbw. rewrite bq_R_dense_dn. cbn [bq_new bq_nb bq_bw bq_band bq_common].
  unfold dn. destruct (Nat.ltb_spec c nb).
  - unfold band_row. destruct (Nat.leb_spec r c), (Nat.ltb_spec (c - r) bw); cbn [andb];
      destruct (Nat.eqb_spec r c); try lia; try reflexivity.
    + destruct (Nat.eqb_spec (bw + r - c - 1) (bw - 1)); [reflexivity|lia].
    + destruct (Nat.eqb_spec (bw + r - c - 1) (bw - 1)); [lia|reflexivity].
  - destruct (Nat.eqb_spec r (nb + (c - nb))), (Nat.eqb_spec r c); try lia; reflexivity.
Qed.

Lemma bq_run_spec nb nc bw lambda Bs :
  (0 < bw)%nat -> Forall (block_fits nb bw) Bs -> windows_ordered Bs ->
  let q := bq_run nb nc bw lambda Bs in
  let N := (nb + nc)%nat in
  (bq_nb q = nb /\ bq_nc q = nc /\ bq_bw q = bw /\ bq_lambda q = lambda) /\
  bq_ok q /\
  (forall i j, (i < N)%nat -> (j < N)%nat ->
     sumn N (fun r => bq_R_dense q r i * bq_R_dense q r j) = gram lambda (map (full_block nb) Bs) i j) /\
  (forall i, (i < N)%nat ->
     sumn N (fun r => bq_R_dense q r i * bq_y q r) = rhs (map (full_block nb) Bs) i) /\
  (forall r, (r < N)%nat -> lambda * lambda <= bq_R_dense q r r * bq_R_dense q r r) /\
  (forall r c, (c < nb)%nat -> r <> c -> bq_R_dense q r c <> 0 ->
     exists B, In B Bs /\ (bb_off B <= r < bb_off B + bb_w B)%nat /\ (c < bb_off B + bb_w B)%nat).
Proof.
  intros Hbw. cbv zeta. set (N := (nb + nc)%nat). unfold bq_run.
  induction Bs as [|B Bs IH] using rev_ind; intros Hf Ho.
  - cbn [fold_left map].
    split; [repeat split|]. split; [|split; [|split; [|split]]].
    + intros r c Hr Hc. cbn. destruct (Nat.eqb_spec (nb + r) (nb + c)); [lia|reflexivity].
    + intros i j Hi Hj. unfold gram. cbn [map rsum].
      rewrite (sumn_single N i); [|assumption|].
      * rewrite !bq_new_dense by assumption. rewrite Nat.eqb_refl. destruct (i =? j)%nat; ring.
      * intros r Hr Hn. rewrite !bq_new_dense by assumption.
        destruct (Nat.eqb_spec r i); [contradiction|ring].
    + intros i Hi. unfold rhs. cbn [map rsum]. apply sumn_zero. intros. cbn [bq_new bq_y]. ring.
    + intros r Hr. rewrite !bq_new_dense by assumption. rewrite Nat.eqb_refl. lra.
    + intros r c Hc Hn Hd. rewrite bq_new_dense in Hd by assumption.
      destruct (Nat.eqb_spec r c); [contradiction|exfalso; apply Hd; reflexivity].
  - rewrite fold_left_app. cbn [fold_left].
    apply Forall_app in Hf. destruct Hf as [Hf HB]. apply Forall_inv in HB.
    assert (Ho' : windows_ordered Bs).
    { intros l1 B1 l2 B2 l3 E. apply (Ho l1 B1 l2 B2 (l3 ++ [B])). rewrite E.
      rewrite <- app_assoc. cbn. rewrite <- app_assoc. reflexivity. }
    destruct (IH Hf Ho') as ((E1 & E2 & E3 & E4) & Hok & HG & Hr & Hd & Hsp). clear IH.
    set (q := fold_left bq_give Bs (bq_new nb nc bw lambda)) in *.
    assert (Hcov : covered q (bb_off B) (bb_w B)).
    { intros g c Hg Hc. rewrite E1 in Hc.
      destruct (Req_EM_T (bq_R_dense q g c) 0) as [|Hne]; [assumption|exfalso].
      destruct (Hsp g c ltac:(lia) ltac:(lia) Hne) as (B1 & Hin & H1 & H2).
      apply in_split in Hin. destruct Hin as (l1 & l2 & EBs).
      assert (Hc' : covers_earlier B1 B).
      { apply (Ho l1 B1 l2 B []). rewrite EBs. rewrite <- app_assoc. reflexivity. }
      unfold covers_earlier in Hc'. lia. }
    assert (HB' : block_fits (bq_nb q) (bq_bw q) B) by (rewrite E1, E3; assumption).
    destruct (bq_add_spec q B Hok HB' Hcov) as ((F1 & F2 & F3 & F4) & G1 & G2 & G3 & G4 & G5).
    fold (bq_give q B) in *. rewrite E1, E2 in *. fold N in G2, G3, G4.
    rewrite map_app. cbn [map].
    split; [repeat split; congruence|]. split; [assumption|]. split; [|split; [|split]].
    + intros i j Hi Hj. rewrite gram_snoc, G2, HG by assumption. reflexivity.
    + intros i Hi. rewrite rhs_snoc, G3, Hr by assumption. reflexivity.
    + intros r Hr'. specialize (G4 r Hr'). specialize (Hd r Hr'). lra.
    + intros r c Hc Hn Hne.
      destruct (Nat.le_gt_cases (bb_off B) r) as [K1|K1];
      [destruct (Nat.lt_ge_cases r (bb_off B + bb_w B)) as [K2|K2];
       [destruct (Nat.lt_ge_cases c (bb_off B + bb_w B)) as [K3|K3]|]|].
      * exists B. rewrite in_app_iff. cbn. split; [auto|]. lia.
      * rewrite G5 in Hne by (try assumption; lia).
        destruct (Hsp r c Hc Hn Hne) as (B1 & Hin & HH). exists B1. rewrite in_app_iff. auto.
      * rewrite G5 in Hne by (try assumption; lia).
        destruct (Hsp r c Hc Hn Hne) as (B1 & Hin & HH). exists B1. rewrite in_app_iff. auto.
      * rewrite G5 in Hne by (try assumption; lia).
        destruct (Hsp r c Hc Hn Hne) as (B1 & Hin & HH). exists B1. rewrite in_app_iff. auto.
Qed.

(** ** Solving *)

Lemma sumn_window n i L (f : nat -> R) :
  (0 < L)%nat -> (i + L <= n)%nat ->
  (forall c, (c < n)%nat -> (c < i \/ i + L <= c)%nat -> f c = 0) ->
  sumn n f = f i + rsum (map (fun o => f (i + o)%nat) (seq 1 (L - 1))).
Proof.
  intros HL Hn Hz.
  assert (E : n = (i + (L + (n - i - L)))%nat) by lia.
  rewrite E at 1. rewrite !sumn_split.
  rewrite (sumn_zero i) by (intros; apply Hz; lia).
  rewrite (sumn_zero (n - i - L)) by (intros; apply Hz; lia).
  unfold sumn. replace L with (S (L - 1)) at 1 by lia. cbn [seq map rsum]. rewrite Nat.add_0_r. ring.
Qed.

Lemma bq_x_dense_eqs q :
  (0 < bq_bw q)%nat -> bq_ok q ->
  (forall r, (r < bq_nb q + bq_nc q)%nat -> bq_R_dense q r r <> 0) ->
  forall r, (r < bq_nb q + bq_nc q)%nat ->
  sumn (bq_nb q + bq_nc q) (fun j => bq_R_dense q r j * bq_x_dense q j) = bq_y q r.
Proof.
  intros Hbw Hok Hd. unfold bq_x_dense. set (nb := bq_nb q) in *. set (nc := bq_nc q) in *.
  set (bw := bq_bw q) in *.
  set (xc := tri_solve nc _ _). set (x0 := fun j => if (j <? nb)%nat then 0 else xc (j - nb)%nat).
  match goal with |- context [fold_left ?F _ _] => set (f := F) end.
  assert (Hdiag : forall i, (i < nb)%nat -> bq_band q (band_row bw i i) i <> 0).
  { intros i Hi. specialize (Hd i ltac:(lia)). rewrite bq_R_dense_dn in Hd.
    rewrite dn_band in Hd by (fold nb bw; lia). exact Hd. }
  (* common unknowns are not touched *)
  assert (Hx0 : forall l x, Forall (fun i => (i < nb)%nat) l ->
     forall j, (nb <= j)%nat -> fold_left f l x j = x j).
  { induction l as [|i l IH]; intros x Hl j Hj; [reflexivity|]. cbn [fold_left].
    inversion Hl; subst. rewrite IH by assumption. unfold f. apply upd_other. lia. }
  assert (Hl : forall k, (k <= nb)%nat -> Forall (fun i => (i < nb)%nat) (rev (seq 0 k))).
  { intros k Hk. apply Forall_forall. intros i Hi. apply in_rev in Hi. apply in_seq in Hi. lia. }
  (* the equation of banded row i, in terms of x *)
  set (eqn := fun x i => bq_band q (band_row bw i i) i * x i +
     (sumn nc (fun k => bq_common q i k * x (nb + k)%nat) +
      rsum (map (fun o => bq_band q (band_row bw i (i + o)) (i + o)%nat * x (i + o)%nat)
             (seq 1 (Nat.min bw (nb - i) - 1)))) = bq_y q i).
  assert (G : forall k, (k <= nb)%nat -> forall x,
     (forall i, (k <= i < nb)%nat -> eqn x i) ->
     forall i, (i < nb)%nat -> eqn (fold_left f (rev (seq 0 k)) x) i).
  { induction k as [|k IH]; intros Hk x Hx i Hi.
    - cbn. apply Hx. lia.
    - rewrite seq_S, rev_app_distr. cbn [rev app fold_left Nat.add].
      apply IH; [lia| |assumption]. intros j Hj.
      unfold eqn, f. set (wv := (_ / _)).
      assert (EC : sumn nc (fun k0 => bq_common q j k0 * upd x k wv (nb + k0)%nat) =
                   sumn nc (fun k0 => bq_common q j k0 * x (nb + k0)%nat))
        by (apply sumn_ext; intros; rewrite upd_other by lia; reflexivity).
      assert (EB : rsum (map (fun o => bq_band q (band_row bw j (j + o)) (j + o)%nat * upd x k wv (j + o)%nat)
             (seq 1 (Nat.min bw (nb - j) - 1))) =
             rsum (map (fun o => bq_band q (band_row bw j (j + o)) (j + o)%nat * x (j + o)%nat)
             (seq 1 (Nat.min bw (nb - j) - 1)))).
      { apply rsum_map_ext. intros o Ho. apply in_seq in Ho. rewrite upd_other by lia. reflexivity. }
      rewrite EC, EB. destruct (Nat.eq_dec j k) as [->|Nj].
      + rewrite upd_same. unfold wv. field. apply Hdiag. lia.
      + rewrite upd_other by assumption. apply Hx. lia. }
  specialize (G nb (le_n nb) x0 ltac:(intros; lia)).
  set (x := fold_left f (rev (seq 0 nb)) x0) in *.
  assert (Hxc : forall j, x (nb + j)%nat = xc j).
  { intros j. unfold x. rewrite Hx0 by (try apply Hl; lia). unfold x0.
    destruct (Nat.ltb_spec (nb + j) nb); [lia|]. f_equal. lia. }
  intros r Hr. rewrite sumn_band_common.
  rewrite (sumn_ext nc (fun j => bq_R_dense q r (nb + j)%nat * x (nb + j)%nat)
    (fun j => bq_common q r j * x (nb + j)%nat))
    by (intros; rewrite bq_R_dense_dn; fold nb; rewrite dn_common; reflexivity).
  destruct (Nat.lt_ge_cases r nb) as [L|Ge].
  - rewrite (sumn_window nb r (Nat.min bw (nb - r))); [|lia|lia|].
    + specialize (G r L). unfold eqn in G. rewrite <- G.
      rewrite bq_R_dense_dn. fold nb bw. rewrite dn_band by lia.
      rewrite (rsum_map_ext (fun o => dn nb bw (bq_band q) (bq_common q) r (r + o)%nat * x (r + o)%nat)
        (fun o => bq_band q (band_row bw r (r + o)) (r + o)%nat * x (r + o)%nat)).
      * ring.
      * intros o Ho. apply in_seq in Ho. rewrite dn_band by lia. reflexivity.
    + intros c Hc Hout. rewrite bq_R_dense_dn. fold nb bw. rewrite dn_out by lia. ring.
  - rewrite (sumn_zero nb).
    + pose proof (tri_solve_eqs nc (fun r c => bq_common q (nb + r)%nat c) (fun r => bq_y q (nb + r)%nat)) as T.
      specialize (T ltac:(intros i Hi; specialize (Hd (nb + i)%nat ltac:(lia));
        rewrite bq_R_dense_dn in Hd; fold nb in Hd; rewrite dn_common in Hd; exact Hd)).
      specialize (T ltac:(intros i j Hi Hj; apply Hok; assumption) (r - nb)%nat ltac:(lia)).
      cbv beta in T. fold xc in T. replace (nb + (r - nb))%nat with r in T by lia.
      rewrite (sumn_ext nc (fun r0 => bq_common q r r0 * x (nb + r0)%nat) (fun j => bq_common q r j * xc j))
        by (intros; rewrite Hxc; reflexivity).
      rewrite T. ring.
    + intros c Hc. rewrite bq_R_dense_dn. fold nb bw. rewrite dn_out by lia. ring.
Qed.

Lemma bq_x_dense_minimises nb nc bw lambda Bs :
  (0 < bw)%nat -> lambda <> 0 -> Forall (block_fits nb bw) Bs -> windows_ordered Bs ->
  unique_minimiser (nb + nc) (objective (nb + nc) lambda (map (full_block nb) Bs))
    (bq_x_dense (bq_run nb nc bw lambda Bs)).
Proof.
  intros Hbw Hl Hf Ho.
  destruct (bq_run_spec nb nc bw lambda Bs Hbw Hf Ho) as ((E1 & E2 & E3 & E4) & Hok & HG & Hr & Hd & _).
  set (q := bq_run nb nc bw lambda Bs) in *.
  assert (Hdiag : forall i, (i < nb + nc)%nat -> bq_R_dense q i i <> 0).
  { intros i Hi E. specialize (Hd i Hi). rewrite E in Hd. nra. }
  apply (factor_minimises (nb + nc) lambda _ (bq_R_dense q) (bq_y q)); auto.
  - intros i j Hi Hj. rewrite bq_R_dense_dn, E1, E3. destruct (Nat.lt_ge_cases j nb).
    + apply dn_out; lia.
    + rewrite dn_common' by assumption. unfold bq_ok, common_upper, upper in Hok.
      specialize (Hok (i - nb)%nat (j - nb)%nat).
      rewrite E1, E2 in Hok. replace (nb + (i - nb))%nat with i in Hok by lia. apply Hok; lia.
  - intros i Hi. pose proof (bq_x_dense_eqs q) as T. rewrite E1, E2, E3 in T. apply T; auto.
Qed.

(** ** A^T b *)

Lemma acc_inner i (f : nat -> R) L : forall res j,
  fold_left (fun res o => upd res (i + o)%nat (res (i + o)%nat + f o)) (seq 0 L) res j =
  res j + (if (i <=? j)%nat && (j <? i + L)%nat then f (j - i)%nat else 0).
Proof.
  induction L as [|L IH]; intros res j.
  - cbn [seq fold_left]. rewrite Nat.add_0_r.
    destruct (Nat.leb_spec i j), (Nat.ltb_spec j i); cbn [andb]; try lia; ring.
  - rewrite seq_S, fold_left_app. cbn [fold_left Nat.add].
    destruct (Nat.eq_dec j (i + L)) as [->|Nj].
    + rewrite upd_same, IH.
      destruct (Nat.leb_spec i (i + L)), (Nat.ltb_spec (i + L) (i + L)), (Nat.ltb_spec (i + L) (i + S L)); try lia.
      cbn. replace (i + L - i)%nat with L by lia. ring.
    + rewrite upd_other by assumption. rewrite IH.
      destruct (Nat.leb_spec i j), (Nat.ltb_spec j (i + L)), (Nat.ltb_spec j (i + S L)); cbn; try lia; ring.
Qed.

Lemma bq_At_times_b_dense q :
  (0 < bq_bw q)%nat ->
  bq_At_times_b q =
  map (fun c => sumn (bq_nb q + bq_nc q) (fun r => bq_R_dense q r c * bq_y q r))
    (seq 0 (bq_nb q + bq_nc q)).
Proof.
  intros Hbw. unfold bq_At_times_b. set (nb := bq_nb q). set (nc := bq_nc q). set (bw := bq_bw q) in *.
  rewrite seq_app, map_app. f_equal.
  - apply map_ext_in. intros c Hc. apply in_seq in Hc.
    rewrite sumn_band_common.
    rewrite (sumn_zero nc).
    2:{ intros r Hr. rewrite bq_R_dense_dn. fold nb bw. rewrite dn_out by lia. ring. }
    rewrite Rplus_0_r.
    assert (G : forall p, (p <= nb)%nat -> forall res,
      fold_left (fun res i =>
        fold_left (fun res o =>
          upd res (i + o)%nat (res (i + o)%nat +
             bq_band q (band_row bw i (i + o)) (i + o)%nat * bq_y q i))
         (seq 0 (Nat.min bw (nb - i))) res) (seq 0 p) res c =
      res c + sumn p (fun r => bq_R_dense q r c * bq_y q r)).
    { induction p as [|p IH]; intros Hp res; [cbn [seq fold_left]; rewrite sumn_0; ring|].
      rewrite seq_S, fold_left_app. cbn [fold_left Nat.add].
      rewrite (acc_inner p (fun o => bq_band q (band_row bw p (p + o)) (p + o)%nat * bq_y q p)).
      rewrite IH by lia. rewrite sumn_S.
      rewrite bq_R_dense_dn. fold nb bw.
      destruct (Nat.leb_spec p c), (Nat.ltb_spec c (p + Nat.min bw (nb - p))); cbn [andb].
      - rewrite dn_band by lia. replace (p + (c - p))%nat with c by lia. ring.
      - rewrite dn_out by lia. ring.
      - rewrite dn_out by lia. ring.
      - rewrite dn_out by lia. ring. }
    rewrite G by lia. ring.
  - rewrite Nat.add_0_l. rewrite <- (map_map (fun c => (nb + c)%nat)
      (fun c => sumn (nb + nc) (fun r => bq_R_dense q r c * bq_y q r)) (seq 0 nc)) || idtac.
    replace (seq nb nc) with (map (fun c => (nb + c)%nat) (seq 0 nc)).
    + rewrite map_map. apply map_ext_in. intros c Hc. apply in_seq in Hc.
      apply sumn_ext. intros r Hr. rewrite bq_R_dense_dn. fold nb. rewrite dn_common. reflexivity.
    + clear. induction nc as [|p IH]; [reflexivity|]. rewrite !seq_S, map_app, IH. reflexivity.
Qed.

Lemma bq_At_times_b_spec nb nc bw lambda Bs :
  (0 < bw)%nat -> Forall (block_fits nb bw) Bs -> windows_ordered Bs ->
  bq_At_times_b (bq_run nb nc bw lambda Bs) = map (rhs (map (full_block nb) Bs)) (seq 0 (nb + nc)).
Proof.
  intros Hbw Hf Ho.
  destruct (bq_run_spec nb nc bw lambda Bs Hbw Hf Ho) as ((E1 & E2 & E3 & E4) & _ & _ & Hr & _).
  rewrite bq_At_times_b_dense by (rewrite E3; assumption). rewrite E1, E2.
  apply map_ext_in. intros i Hi. apply in_seq in Hi. apply Hr. lia.
Qed.

(** ** A window that stops inside an earlier one *)

Lemma hh_vec_eval1 x1 x a mu v1 beta :
  x 0%nat = a -> a <> 0 -> 0 < x1 -> 0 < mu -> mu * mu = x1 * x1 + a * a ->
  v1 * (x1 + mu) = - (a * a) -> beta * (a * a + v1 * v1) = 2 * (v1 * v1) ->
  hh_vec x1 1 x = (beta, mu, fun k => x k / v1).
Proof.
  intros Hx Ha H1 Hmu Hm Hv Hb. unfold hh_vec.
  assert (Es : sumn 1 (fun k => x k * x k) = a * a) by (unfold sumn; cbn; rewrite Hx; ring).
  rewrite Es. destruct (Reqb_spec (a * a) 0) as [E|_]; [nra|].
  destruct (Rleb_spec x1 0) as [L|_]; [lra|].
  assert (Eq : sqrt (x1 * x1 + a * a) = mu) by (rewrite <- Hm; apply sqrt_square; lra).
  rewrite Eq.
  assert (Ev : - (a * a) / (x1 + mu) = v1) by (rewrite <- Hv; field; lra).
  rewrite Ev.
  assert (Eb : 2 * (v1 * v1) / (a * a + v1 * v1) = beta) by (rewrite <- Hb; field; nra).
  rewrite Eb. reflexivity.
Qed.

Definition short_W1 : band_block :=
  {| bb_off := 0; bb_w := 2; bb_rows := 1;
     bb_A := fun _ c => match c with 0%nat => 4 | _ => 20 / 3 end;
     bb_C := fun _ _ => 0; bb_b := fun _ => 0 |}.
Definition short_W2 : band_block :=
  {| bb_off := 0; bb_w := 1; bb_rows := 1;
     bb_A := fun _ _ => 12; bb_C := fun _ _ => 0; bb_b := fun _ => 13 |}.

Lemma Reqb_ne x y : x <> y -> Reqb x y = false.
Proof. destruct (Reqb_spec x y); congruence. Qed.

Lemma short_window_eval : let x := bq_x_dense (bq_run 2 0 2 3 [short_W1; short_W2]) in x 0%nat = 12 / 13 /\ x 1%nat = 0.
Proof.
  set (s0 := {| bs_band := bq_band (bq_new 2 0 2 3);
     bs_common := bq_common (bq_new 2 0 2 3); bs_y := bq_y (bq_new 2 0 2 3);
       bs_A := bb_A short_W1; bs_C := bb_C short_W1; bs_b := bb_b short_W1 |}).
  assert (R1 : exists s, zero_step 2 0 0 2 1 s0 0 = s /\
     bs_band s 1%nat 0%nat = 5 /\ bs_band s 0%nat 1%nat = 16 / 3 /\ bs_band s 1%nat 1%nat = 3 /\
     bs_A s 0%nat 1%nat = -4 /\ bs_y s 0%nat = 0 /\ bs_y s 1%nat = 0 /\ bs_b s 0%nat = 0).
  { eexists. split; [reflexivity|]. unfold zero_step, s0. cbn [Nat.add bs_band bs_A bs_common bs_y bs_C bs_b].
    rewrite (hh_vec_eval1 (bq_band (bq_new 2 0 2 3) (band_row 2 0 0) 0%nat) (col (bb_A short_W1) 0) 4 5 (-2) (2/5))
      by (cbn; lra).
    rewrite Reqb_ne by lra.
    cbn. unfold sumn; cbn. repeat split; lra. }
  destruct R1 as (s1 & E1 & B00 & B01 & B11 & A1 & y0 & y1 & b0).
  assert (R2 : exists s, zero_step 2 0 0 2 1 s1 1 = s /\
     bs_band s 1%nat 0%nat = 5 /\ bs_band s 0%nat 1%nat = 16 / 3 /\ bs_band s 1%nat 1%nat = 5 /\
     bs_y s 0%nat = 0 /\ bs_y s 1%nat = 0).
  { eexists. split; [reflexivity|]. unfold zero_step. cbn [Nat.add].
    change (band_row 2 1 1) with 1%nat.
    rewrite B11. rewrite (hh_vec_eval1 3 (col (bs_A s1) 1) (-4) 5 (-2) (2/5))
      by (unfold col; lra).
    rewrite Reqb_ne by lra.
    cbn. unfold sumn, col; cbn. rewrite ?A1, ?B00, ?B01, ?y0, ?y1, ?b0. repeat split; lra. }
  destruct R2 as (s2 & E2 & C00 & C01 & C11 & z0 & z1).
  set (s3 := {| bs_band := bs_band s2; bs_common := bs_common s2; bs_y := bs_y s2;
       bs_A := bb_A short_W2; bs_C := bb_C short_W2; bs_b := bb_b short_W2 |}).
  assert (R3 : exists s, zero_step 2 0 0 1 1 s3 0 = s /\
     bs_band s 1%nat 0%nat = 13 /\ bs_band s 0%nat 1%nat = 16 / 3 /\ bs_band s 1%nat 1%nat = 5 /\
     bs_y s 0%nat = 12 /\ bs_y s 1%nat = 0).
  { eexists. split; [reflexivity|]. unfold zero_step, s3. cbn [Nat.add bs_band bs_A bs_common bs_y bs_C bs_b].
    change (band_row 2 0 0) with 1%nat.
    rewrite C00. rewrite (hh_vec_eval1 5 (col (bb_A short_W2) 0) 12 13 (-8) (8/13))
      by (unfold col; cbn; lra).
    rewrite Reqb_ne by lra.
    cbn. unfold sumn, col; cbn. rewrite ?C11, ?C01, ?z0, ?z1. repeat split; lra. }
  destruct R3 as (s4 & E4 & D00 & D01 & D11 & w0 & w1).
  assert (EQ : bq_run 2 0 2 3 [short_W1; short_W2] =
    {| bq_nb := 2; bq_nc := 0; bq_bw := 2; bq_lambda := 3;
       bq_band := bs_band s4; bq_common := bs_common s4; bq_y := bs_y s4 |}).
  { unfold bq_run. cbn [fold_left]. unfold bq_give at 2, bq_add, zero_banded.
    change (bb_w short_W1) with 2%nat. cbn [seq fold_left bq_bw bq_nc bq_new bb_off bb_rows short_W1].
    fold short_W1.
    change (zero_step 2 0 0 2 1 _ 0) with (zero_step 2 0 0 2 1 s0 0).
    rewrite E1, E2. unfold add_common. cbn [seq fold_left bq_nc bq_nb bq_bw bq_lambda bq_band bq_common bq_y].
    unfold bq_give, bq_add, zero_banded. cbn [seq fold_left bq_bw bq_nc bq_band bq_common bq_y bb_off bb_rows short_W2 bb_w].
    fold short_W2.
    change (zero_step 2 0 0 1 1 _ 0) with (zero_step 2 0 0 1 1 s3 0).
    rewrite E4. reflexivity. }
  cbv zeta. rewrite EQ. unfold bq_x_dense. cbn. unfold sumn; cbn.
  rewrite D00, D01, D11, w0, w1. split; lra.
Qed.
