(** Property C87: mixtures of probabilistic PCA; the root L of property C43. *)

From Coq Require Import Reals List Arith Bool String Lia Lra.
From Verif Require Import Prelude Loops LinAlg Rbool QR_spec QR_model QR_gen_proofs QR_proofs Det Cov_model Cov_spec Cov_proofs Cov_props
  Mppca_model Mppca_spec.
Import ListNotations.
Local Open Scope R_scope.

(** ** The inverse from the factor *)

Section Inv.
Variables (n : nat) (U C : mat).
Hypothesis Hu : upper n U.
Hypothesis Hd : forall r, (r < n)%nat -> U r r <> 0.
Hypothesis HG : forall i j, (i < n)%nat -> (j < n)%nat -> sumn n (fun r => U r i * U r j) = C i j.
Let V : mat := fun i j => tri_solve n U (unit_vec j) i.   (* inverse of U *)
Let L : mat := fun i j => tri_solve n U (unit_vec i) j.
Let D : mat := fun i j => tri_solve n U (col L j) i.

(** Back substitution gives the only solution. *)
Lemma upper_inj x z : (forall i, (i < n)%nat -> sumn n (fun j => U i j * x j) = sumn n (fun j => U i j * z j)) ->
  forall i, (i < n)%nat -> x i = z i.
Proof.
  intros H. assert (G : forall k i, (n - k <= i < n)%nat -> x i = z i).
  { induction k as [|k IH]; intros i Hi; [lia|]. destruct (Nat.le_gt_cases (n - k) i) as [|Lt]; [apply IH; lia|].
    specialize (H i ltac:(lia)). replace n with (i + S (n - S i))%nat in H at 1 2 by lia. rewrite !sumn_split in H.
    rewrite !(sumn_zero i) in H by (intros j Hj; rewrite Hu by lia; ring). rewrite !sumn_shift in H. rewrite Nat.add_0_r in H.
    rewrite (sumn_ext (n - S i) (fun j => U i (i + S j)%nat * x (i + S j)%nat) (fun j => U i (i + S j)%nat * z (i + S j)%nat)) in H by (intros j Hj; rewrite IH by lia; reflexivity).
    assert (E : U i i * x i = U i i * z i) by lra. apply Rmult_eq_reg_l in E; [exact E|apply Hd; lia]. }
  intros i Hi. apply (G n). lia.
Qed.

Lemma UV i j : (i < n)%nat -> (j < n)%nat -> sumn n (fun k => U i k * V k j) = if (i =? j)%nat then 1 else 0.
Proof. intros Hi Hj. unfold V. rewrite (tri_solve_eqs n U (unit_vec j) Hd Hu i Hi). reflexivity. Qed.

Lemma delta_l (x : vec) i : (i < n)%nat -> sumn n (fun k => (if (i =? k)%nat then 1 else 0) * x k) = x i.
Proof.
  intros Hi. rewrite (sumn_single n i); [rewrite Nat.eqb_refl; ring|exact Hi|]. intros k Hk Ne. destruct (Nat.eqb_spec i k); [congruence|ring].
Qed.
Lemma delta_r (x : vec) i : (i < n)%nat -> sumn n (fun k => x k * (if (k =? i)%nat then 1 else 0)) = x i.
Proof.
  intros Hi. rewrite (sumn_single n i); [rewrite Nat.eqb_refl; ring|exact Hi|]. intros k Hk Ne. destruct (Nat.eqb_spec k i); [congruence|ring].
Qed.
Lemma assoc3 (a : vec) (M : mat) (b : vec) :
  sumn n (fun i => a i * sumn n (fun j => M i j * b j)) = sumn n (fun j => sumn n (fun i => a i * M i j) * b j).
Proof.
  rewrite (sumn_ext n _ (fun i => sumn n (fun j => a i * M i j * b j))) by (intros; rewrite <- sumn_scal; apply sumn_ext; intros; ring).
  rewrite sumn_swap. apply sumn_ext. intros j Hj. rewrite sumn_scal_r. reflexivity.
Qed.

Lemma VU i j : (i < n)%nat -> (j < n)%nat -> sumn n (fun k => V i k * U k j) = if (i =? j)%nat then 1 else 0.
Proof.
  intros Hi Hj. apply (upper_inj (fun i => sumn n (fun k => V i k * U k j)) (fun i => if (i =? j)%nat then 1 else 0)); [|exact Hi].
  clear i Hi. intros i Hi. rewrite assoc3.
  rewrite (sumn_ext n _ (fun k => (if (i =? k)%nat then 1 else 0) * U k j)) by (intros k Hk; rewrite UV by assumption; reflexivity).
  rewrite delta_l by exact Hi. rewrite (delta_r (fun k => U i k)) by exact Hj. reflexivity.
Qed.

(** D = V V^T *)
Lemma D_eq i j : (i < n)%nat -> (j < n)%nat -> D i j = sumn n (fun k => V i k * V j k).
Proof.
  intros Hi Hj. apply (upper_inj (fun i => D i j) (fun i => sumn n (fun k => V i k * V j k))); [|exact Hi]. clear i Hi. intros i Hi.
  unfold D. rewrite (tri_solve_eqs n U (col L j) Hd Hu i Hi). rewrite assoc3.
  rewrite (sumn_ext n _ (fun k => (if (i =? k)%nat then 1 else 0) * V j k)) by (intros k Hk; rewrite UV by assumption; reflexivity).
  rewrite delta_l by exact Hi. reflexivity.
Qed.
Lemma D_sym i j : (i < n)%nat -> (j < n)%nat -> D i j = D j i.
Proof. intros Hi Hj. rewrite !D_eq by assumption. apply sumn_ext. intros; ring. Qed.
Lemma D_root : is_root n D L.
Proof. intros i j Hi Hj. rewrite D_eq by assumption. apply sumn_ext. intros k Hk. unfold L, V. reflexivity. Qed.
Lemma C_eq i j : (i < n)%nat -> (j < n)%nat -> C i j = C j i.
Proof. intros Hi Hj. rewrite <- !HG by assumption. apply sumn_ext. intros; ring. Qed.
Lemma CD i j : (i < n)%nat -> (j < n)%nat -> sumn n (fun k => C i k * D k j) = if (i =? j)%nat then 1 else 0.
Proof.
  intros Hi Hj. rewrite (sumn_ext n _ (fun k => sumn n (fun r => U r i * U r k) * D k j)) by (intros k Hk; rewrite HG by assumption; reflexivity).
  rewrite <- (assoc3 (fun r => U r i) U (fun k => D k j)).
  rewrite (sumn_ext n _ (fun r => V j r * U r i)).
  - rewrite VU by assumption. rewrite Nat.eqb_sym. reflexivity.
  - intros r Hr. unfold D. rewrite (tri_solve_eqs n U (col L j) Hd Hu r Hr). unfold col, L, V. ring.
Qed.
Lemma D_inverse : is_inverse n C D.
Proof.
  intros i j Hi Hj. split; [apply CD; assumption|].
  rewrite (sumn_ext n _ (fun k => C j k * D k i)) by (intros k Hk; rewrite (D_sym i k), (C_eq k j) by assumption; ring).
  rewrite CD by assumption. rewrite Nat.eqb_sym. reflexivity.
Qed.
(** L is lower triangular. *)
Lemma V_upper i j : (i < n)%nat -> (j < i)%nat -> V i j = 0.
Proof.
  intros Hi Hj. assert (G : forall k i, (n - k <= i < n)%nat -> (j < i)%nat -> V i j = 0); [|apply (G n); lia]. clear i Hi Hj.
  induction k as [|k IH]; intros i Hi Hj; [lia|]. destruct (Nat.le_gt_cases (n - k) i) as [|Lt]; [apply IH; lia|].
  pose proof (UV i j ltac:(lia) ltac:(lia)) as E. destruct (Nat.eqb_spec i j); [lia|].
  rewrite (sumn_single n i) in E; [apply Rmult_integral in E; destruct E as [E|E]; [exfalso; revert E; apply Hd; lia|exact E]|lia|].
  intros l Hl Ne. destruct (Nat.lt_ge_cases l i); [rewrite Hu by lia; ring|]. rewrite IH by lia. ring.
Qed.
End Inv.

Lemma quad_root n D M x : is_root n D M -> quad n D x = image_norm2 n M x.
Proof.
  intros H. unfold quad, image_norm2.
  rewrite (sumn_ext n _ (fun i => sumn n (fun r => x i * M r i * sumn n (fun c => M r c * x c)))).
  - rewrite sumn_swap. apply sumn_ext. intros r Hr. rewrite sumn_scal_r. f_equal. apply sumn_ext. intros; ring.
  - intros i Hi. rewrite (sumn_ext n _ (fun j => sumn n (fun r => M r i * M r j * x j))).
    + rewrite sumn_swap, <- sumn_scal. apply sumn_ext. intros r Hr. rewrite Rmult_assoc. f_equal. rewrite <- sumn_scal. apply sumn_ext. intros; ring.
    + intros j Hj. rewrite <- H by assumption. rewrite sumn_scal_r. reflexivity.
Qed.

Lemma mode_covariance_eq s2 k W i j : 0 <= s2 -> covariance (sqrt s2) k (fun a b => W b a) i j = mode_covariance s2 k W i j.
Proof. intros H. unfold covariance, mode_covariance. rewrite sqrt_def by exact H. reflexivity. Qed.

Lemma set_mode_ok d pi w s2 : wm_rows w = d -> 0 < pi -> 0 < s2 ->
  exists Cinv L rpre, set_mode d pi w s2 = Ok (Cinv, L, rpre) /\
    forall mu, mode_ok d pi s2 (wm_cols w) (wm_at w) Cinv L mu rpre.
Proof.
  intros Hr Hp Hs. assert (Sq : 0 < sqrt s2) by (apply sqrt_lt_R0; exact Hs).
  unfold set_mode. rewrite Hr, Nat.eqb_refl. set (A := fun i j => wm_at w j i).
  destruct (cov_factor (sqrt s2) (wm_cols w) d A ltac:(lra)) as (En & Hu & Hd & HG & _).
  destruct (cov_logdet_correct (sqrt s2) (wm_cols w) d A Sq) as (Dp & Ld & _).
  set (U := q_R (cv_qr (cov_reset (sqrt s2) (wm_cols w) d A))) in *. rewrite Ld. cbn [obind].
  set (C := covariance (sqrt s2) (wm_cols w) A) in *.
  assert (EC : forall i j, C i j = mode_covariance s2 (wm_cols w) (wm_at w) i j) by (intros; apply mode_covariance_eq; lra).
  assert (HG' : forall i j, (i < d)%nat -> (j < d)%nat -> sumn d (fun r => U r i * U r j) = mode_covariance s2 (wm_cols w) (wm_at w) i j) by (intros; rewrite <- EC; apply HG; assumption).
  assert (ED : mdet d C = mdet d (mode_covariance s2 (wm_cols w) (wm_at w))) by (apply mdet_ext; intros; apply EC).
  do 3 eexists. split; [reflexivity|]. intros mu. split.
  - apply (D_inverse d U _ Hu Hd HG').
  - apply (D_sym d U Hu Hd).
  - apply (D_root d U Hu Hd).
  - intros i j Hj Hi. apply (V_upper d U Hu Hd j i Hj Hi).
  - intros x. unfold normal_density. rewrite <- ED. set (q := quad _ _ _).
    assert (P2 : 0 < 2 * PI) by (pose proof PI_RGT_0; lra).
    assert (Pd : 0 < (2 * PI) ^ d) by (apply pow_lt; exact P2).
    assert (Pr : 0 < (2 * PI) ^ d * mdet d C) by (apply Rmult_lt_0_compat; assumption).
    replace (ln pi - / 2 * ln (mdet d C) - / 2 * INR d * ln (2 * PI) - / 2 * q)
      with (ln pi + (- / 2 * q + - (/ 2 * ln ((2 * PI) ^ d * mdet d C)))).
    + rewrite !exp_plus, exp_Ropp, exp_ln by exact Hp. unfold Rdiv. do 3 f_equal.
      assert (E : forall y, 0 < y -> exp (/ 2 * ln y) = sqrt y).
      { intros y Hy. rewrite <- (sqrt_Rsqr (exp (/ 2 * ln y))) by (left; apply exp_pos). f_equal. unfold Rsqr. rewrite <- exp_plus.
        replace (/ 2 * ln y + / 2 * ln y) with (ln y) by lra. apply exp_ln, Hy. }
      apply E, Pr.
    + rewrite ln_mult by assumption. rewrite ln_pow by exact P2. ring.
Qed.

Lemma ofold_map {B} (f : nat -> outcome B) n : (forall c, (c < n)%nat -> exists b, f c = Ok b) ->
  exists l, ofold (fun c acc => obind (f c) (fun b => Ok (acc ++ [b]))) (seq 0 n) [] = Ok l /\ List.length l = n /\
    forall c, (c < n)%nat -> exists b, f c = Ok b /\ nth_error l c = Some b.
Proof.
  intros H. destruct (ofold_seq_inv (fun c acc => obind (f c) (fun b => Ok (acc ++ [b])))
    (fun n l => List.length l = n /\ forall c, (c < n)%nat -> exists b, f c = Ok b /\ nth_error l c = Some b) n []) as (l & E & P).
  - split; [reflexivity|]. intros; lia.
  - intros k s Hk [L N]. destruct (H k Hk) as [b Eb]. rewrite Eb. cbn [obind]. eexists. split; [reflexivity|].
    rewrite app_length. cbn. split; [lia|]. intros c Hc. destruct (Nat.eq_dec c k) as [->|Ne].
    + exists b. split; [exact Eb|]. rewrite nth_error_app2 by lia. rewrite L, Nat.sub_diag. reflexivity.
    + destruct (N c ltac:(lia)) as (b' & E1 & E2). exists b'. split; [exact E1|]. rewrite nth_error_app1 by lia. exact E2.
  - exists l. split; [exact E|]. exact P.
Qed.

(** set succeeds for positive weights and variances, and the score of every mode, Rpre minus half of
    the squared distance that Cinv gives, is the logarithm of the weighted density of that mode. *)
Theorem mppca_set_correct d pi mu W s2 :
  List.length pi = List.length s2 -> List.length W = List.length s2 ->
  (forall x, In x pi -> 0 < x) -> (forall x, In x s2 -> 0 < x) -> (forall w, In w W -> wm_rows w = d) ->
  exists m, mppca_set d pi mu W s2 = Ok m /\ mx_d m = d /\ mx_p m = List.length s2 /\ mx_mu m = mu /\
    List.length (mx_Cinv m) = List.length s2 /\ List.length (mx_L m) = List.length s2 /\ List.length (mx_Rpre m) = List.length s2 /\
    forall c x w s Cinv L r, nth_error pi c = Some x -> nth_error W c = Some w -> nth_error s2 c = Some s ->
      nth_error (mx_Cinv m) c = Some Cinv -> nth_error (mx_L m) c = Some L -> nth_error (mx_Rpre m) c = Some r ->
      forall mu, mode_ok d x s (wm_cols w) (wm_at w) Cinv L mu r.
Proof.
  intros Lp Lw Hp Hs Hw. unfold mppca_set.
  set (f := fun c => obind (rd s2 c) (fun s => obind (rd W c) (fun w => obind (rd pi c) (fun x => set_mode d x w s)))).
  assert (F : forall c, (c < List.length s2)%nat -> exists b, f c = Ok b).
  { intros c Hc. unfold f. destruct (nth_error_lt s2 c Hc) as [s Es]. destruct (nth_error_lt W c ltac:(lia)) as [w Ew]. destruct (nth_error_lt pi c ltac:(lia)) as [x Ex].
    rewrite (rd_some _ _ _ Es), (rd_some _ _ _ Ew), (rd_some _ _ _ Ex). cbn [obind].
    destruct (set_mode_ok d x w s) as (A & B & C & E & _); [apply Hw; eapply nth_error_In; eauto|apply Hp; eapply nth_error_In; eauto|apply Hs; eapply nth_error_In; eauto|]. eexists. exact E. }
  destruct (ofold_map f (List.length s2) F) as (l & El & Ll & Nl).
  assert (E' : ofold (fun c acc => obind (rd s2 c) (fun s => obind (rd W c) (fun w => obind (rd pi c) (fun x => obind (set_mode d x w s) (fun m => Ok (acc ++ [m]))))))
                 (seq 0 (List.length s2)) [] = Ok l).
  { rewrite <- El. clear. match goal with |- ofold ?F _ _ = ofold ?G _ _ => enough (Q : forall acc, ofold F (seq 0 (List.length s2)) acc = ofold G (seq 0 (List.length s2)) acc) by apply Q end.
    induction (seq 0 (List.length s2)) as [|c cs IH]; intros acc; [reflexivity|]. cbn [ofold]. unfold f at 1.
    destruct (rd s2 c); cbn [obind]; try reflexivity. destruct (rd W c); cbn [obind]; try reflexivity. destruct (rd pi c); cbn [obind]; try reflexivity.
    destruct (set_mode d _ _ _); cbn [obind]; try reflexivity. apply IH. }
  rewrite E'. cbn [obind]. eexists. split; [reflexivity|]. cbn [mx_d mx_p mx_mu mx_Cinv mx_L mx_Rpre]. rewrite !map_length. do 6 (split; [first [reflexivity|exact Ll]|]).
  intros c x w s Cinv L r Ex Ew Es EC EL ER. assert (Hc : (c < List.length s2)%nat) by (apply nth_error_Some; congruence).
  destruct (Nl c Hc) as ([[C' L'] r'] & Ef & En). unfold f in Ef. rewrite (rd_some _ _ _ Es), (rd_some _ _ _ Ew), (rd_some _ _ _ Ex) in Ef. cbn [obind] in Ef.
  destruct (set_mode_ok d x w s) as (A & B & C & E & Hm); [apply Hw; eapply nth_error_In; eauto|apply Hp; eapply nth_error_In; eauto|apply Hs; eapply nth_error_In; eauto|].
  rewrite E in Ef. injection Ef as <- <- <-. rewrite (map_nth_error _ _ _ En) in EC. rewrite (map_nth_error _ _ _ En) in EL. rewrite (map_nth_error _ _ _ En) in ER. cbn [fst snd] in *.
  injection EC as <-. injection EL as <-. injection ER as <-. exact Hm.
Qed.
Print Assumptions mppca_set_correct.

(** Every root of Cinv measures the same lengths as L, so an L computed again from Cinv, as loadMppca
    does, gives the same distances. *)
Theorem mppca_roots_agree n D L M x : is_root n D L -> is_root n D M ->
  image_norm2 n M x = image_norm2 n L x /\ image_norm2 n L x = quad n D x.
Proof. intros H1 H2. rewrite <- !(quad_root n D) by assumption. split; reflexivity. Qed.
Print Assumptions mppca_roots_agree.

(** But it is another matrix: set gives a lower triangular L, the transposed Cholesky factor that
    loadMppca computes is upper triangular. So a saved and loaded mixture differs from the original. *)
Theorem mppca_L_refuted : exists pi mu W s2 m Cinv L,
  mppca_set 2 pi mu W s2 = Ok m /\ nth_error (mx_Cinv m) 0 = Some Cinv /\ nth_error (mx_L m) 0 = Some L /\
  is_root 2 Cinv L /\
  forall U, (forall i j, (i < 2)%nat -> (j < i)%nat -> U i j = 0) -> is_root 2 Cinv U -> U 0%nat 1%nat <> L 0%nat 1%nat.
Proof.
  set (w := WMat 2 1 (fun _ _ => 1)).
  destruct (mppca_set_correct 2 [1] [[0; 0]] [w] [1] eq_refl eq_refl) as (m & E & _ & _ & _ & LC & LL & LR & H);
    [intros x [<-|[]]; lra|intros x [<-|[]]; lra|intros x [<-|[]]; reflexivity|].
  destruct (nth_error_lt (mx_Cinv m) 0) as [Ci EC]; [rewrite LC; cbn; lia|]. destruct (nth_error_lt (mx_L m) 0) as [L EL]; [rewrite LL; cbn; lia|].
  destruct (nth_error_lt (mx_Rpre m) 0) as [r ER]; [rewrite LR; cbn; lia|].
  destruct (H 0%nat 1 w 1 Ci L r eq_refl eq_refl eq_refl EC EL ER (fun _ => 0)) as [Hi Hs Hr Hl _]. clear H.
  exists [1], [[0; 0]], [w], [1], m, Ci, L. do 3 (split; [assumption|]). split; [exact Hr|]. intros U HU HR X.
  rewrite (Hl 0%nat 1%nat ltac:(lia) ltac:(lia)) in X.
  assert (R0 := HR 0%nat 1%nat ltac:(lia) ltac:(lia)). assert (U10 := HU 1%nat 0%nat ltac:(lia) ltac:(lia)). unfold sumn in R0. cbn in R0. rewrite U10, X in R0.
  assert (I0 := Hi 0%nat 1%nat ltac:(lia) ltac:(lia)). destruct I0 as [I0 _]. assert (I1 := Hi 1%nat 1%nat ltac:(lia) ltac:(lia)). destruct I1 as [I1 _].
  unfold mode_covariance, sumn in I0, I1. cbn in I0, I1. lra.
Qed.
Print Assumptions mppca_L_refuted.

(** The case of the theorems: two dimensions, two modes. *)
Example mppca_set_case : exists m,
  mppca_set 2 [1/4; 3/4] [[0; 0]; [1; 2]] [WMat 2 1 (fun _ _ => 1); WMat 2 0 (fun _ _ => 0)] [1; 2] = Ok m /\ mx_p m = 2%nat /\
  mode_covariance 1 1 (fun _ _ => 1) 0 1 = 1.
Proof.
  destruct (mppca_set_correct 2 [1/4; 3/4] [[0; 0]; [1; 2]] [WMat 2 1 (fun _ _ => 1); WMat 2 0 (fun _ _ => 0)] [1; 2] eq_refl eq_refl) as (m & E & _ & P & _).
  - intros x [<-|[<-|[]]]; lra.
  - intros x [<-|[<-|[]]]; lra.
  - intros w [<-|[<-|[]]]; reflexivity.
  - exists m. split; [exact E|]. split; [exact P|]. unfold mode_covariance, sumn. cbn. ring.
Qed.
