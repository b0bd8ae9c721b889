(** Properties C88, C89: the pose prior. *)

From Coq Require Import Reals List Arith Bool String Lia Lra.
From Coquelicot Require Import Coquelicot.
From Verif Require Import Prelude Loops LinAlg Rbool QR_model FK_spec FK_deriv_proofs Limits_model Limits_spec Cov_spec Mppca_model Mppca_spec Mppca_props Prior_model Prior_spec Prior_proofs.
Import ListNotations.
Local Open Scope nat_scope.
Local Open Scope R_scope.

(** A function with a prior is always built, whatever the names. *)
Theorem prior_new_succeeds pn w m : NoDup pn -> exists E, prior_new pn w (Some m) = Ok E.
Proof. intros ND. destruct (new_ok pn w m ND) as (E & H & _). exists E. exact H. Qed.
Print Assumptions prior_new_succeeds.

Lemma new_fresh pn w m E : NoDup pn -> prior_new pn w (Some m) = Ok E -> fresh pn w m E.
Proof. intros ND H. destruct (new_ok pn w m ND) as (E' & H' & F). congruence. Qed.

Lemma fresh_inv_length pn w m E : fresh pn w m E -> List.length (pr_inv E) = List.length pn.
Proof. intros F. apply (mk_iv _ _ _ _ _ _ (fr_maps _ _ _ _ F)). Qed.

(** The error is half the squared distance to the mean of the mode with the highest weighted density. *)
Theorem prior_error_correct fmax pn w m E p c :
  NoDup pn -> mixture_wf m -> List.length p = List.length pn -> prior_new pn w (Some m) = Ok E ->
  best_mode m (prior_point m pn p) c -> - fmax < mode_score m (prior_point m pn p) c ->
  prior_error fmax E p = Ok (mode_dist m (prior_point m pn p) c / 1000 * w) /\
  log_probability fmax E p = Ok (- mode_dist m (prior_point m pn p) c).
Proof.
  intros ND W L HE B P. assert (F := new_fresh _ _ _ _ ND HE).
  destruct (get_best_ok fmax pn w m E p c ND F W L B P) as (diff & G & _).
  assert (Q : log_probability fmax E p = Ok (- mode_dist m (prior_point m pn p) c)).
  { unfold log_probability. rewrite (fresh_inv_length _ _ _ _ F), L, Nat.eqb_refl, G. reflexivity. }
  split; [|exact Q]. unfold prior_error. rewrite Q. cbn [obind]. rewrite Ropp_involutive, (fr_weight _ _ _ _ F). reflexivity.
Qed.
Print Assumptions prior_error_correct.

(** ** Derivatives *)

Lemma named_value_set pn : forall p j t a, NoDup pn -> List.length p = List.length pn -> (j < List.length pn)%nat ->
  named_value pn (set_nth p j t) a = named_value pn p a + (t - nth j p 0) * (if String.eqb (nth j pn EmptyString) a then 1 else 0).
Proof.
  induction pn as [|b pn IH]; intros [|x p] [|j] t a ND L Hj; cbn in *; try lia; try discriminate.
  - destruct (String.eqb b a); ring.
  - destruct (String.eqb_spec b a) as [->|Ne].
    + destruct (String.eqb_spec (nth j pn EmptyString) a) as [X|]; [|ring]. exfalso. inversion ND; subst. apply H1. apply nth_In. lia.
    + apply IH; [inversion ND; assumption|lia|lia].
Qed.

Definition hits (m : mixture) (pn : list string) (j i : nat) : R := if String.eqb (nth j pn EmptyString) (nth i (mx_names m) EmptyString) then 1 else 0.
Lemma prior_point_set m pn p j t i : NoDup pn -> List.length p = List.length pn -> (j < List.length pn)%nat ->
  prior_point m pn (set_nth p j t) i = prior_point m pn p i + (t - nth j p 0) * hits m pn j i.
Proof. intros ND L Hj. unfold prior_point, hits. apply named_value_set; assumption. Qed.

Lemma quad_line n C u v s : quad n C (fun i => u i + s * v i) =
  quad n C u + s * (sumn n (fun i => v i * sumn n (fun j => C i j * u j)) + sumn n (fun i => u i * sumn n (fun j => C i j * v j))) + s * s * quad n C v.
Proof.
  unfold quad. rewrite (sumn_ext n _ (fun i => (u i * sumn n (fun j => C i j * u j) + s * (v i * sumn n (fun j => C i j * u j) + u i * sumn n (fun j => C i j * v j))) + s * s * (v i * sumn n (fun j => C i j * v j)))).
  - rewrite !sumn_plus, !sumn_scal, !sumn_plus. reflexivity.
  - intros i Hi. rewrite (sumn_ext n (fun j => C i j * (u j + s * v j)) (fun j => C i j * u j + s * (C i j * v j))) by (intros; ring).
    rewrite sumn_plus, sumn_scal. ring.
Qed.

(** Distance and score along one parameter are polynomials. *)
Lemma mode_dist_line m pn p j c : NoDup pn -> List.length p = List.length pn -> (j < List.length pn)%nat ->
  exists b q, (forall t, mode_dist m (prior_point m pn (set_nth p j t)) c = mode_dist m (prior_point m pn p) c + (t - nth j p 0) * b + (t - nth j p 0) * (t - nth j p 0) * q) /\
    b = / 2 * (sumn (mx_d m) (fun i => hits m pn j i * sumn (mx_d m) (fun k => nth c (mx_Cinv m) (fun _ _ => 0) i k * (prior_point m pn p k - nth k (nth c (mx_mu m) []) 0))) +
               sumn (mx_d m) (fun i => (prior_point m pn p i - nth i (nth c (mx_mu m) []) 0) * sumn (mx_d m) (fun k => nth c (mx_Cinv m) (fun _ _ => 0) i k * hits m pn j k))).
Proof.
  intros ND L Hj. do 2 eexists. split; [|reflexivity]. intros t. unfold mode_dist.
  rewrite (quad_ext _ _ (nth c (mx_Cinv m) (fun _ _ => 0)) _ (fun i => (prior_point m pn p i - nth i (nth c (mx_mu m) []) 0) + (t - nth j p 0) * hits m pn j i)).
  - rewrite quad_line. instantiate (1 := / 2 * quad (mx_d m) (nth c (mx_Cinv m) (fun _ _ => 0)) (hits m pn j)). ring.
  - reflexivity.
  - intros i Hi. rewrite prior_point_set by assumption. ring.
Qed.
Lemma score_continuous m pn p j c (t0 : R) : NoDup pn -> List.length p = List.length pn -> (j < List.length pn)%nat ->
  continuous (fun t => mode_score m (prior_point m pn (set_nth p j t)) c) t0.
Proof.
  intros ND L Hj. destruct (mode_dist_line m pn p j c ND L Hj) as (b & q & H & _).
  apply (continuous_ext (fun t => nth c (mx_Rpre m) 0 - (mode_dist m (prior_point m pn p) c + (t - nth j p 0) * b + (t - nth j p 0) * (t - nth j p 0) * q))).
  - intros t. unfold mode_score. rewrite H. reflexivity.
  - match goal with |- continuous ?f _ => assert (X : ex_derive (f : R -> R) t0) by (auto_derive; exact I); exact (ex_derive_continuous (V := R_NormedModule) (f : R -> R) t0 X) end.
Qed.
Lemma lt_locally (f g : R -> R) t0 : continuous f t0 -> continuous g t0 -> f t0 < g t0 -> locally t0 (fun t => f t < g t).
Proof.
  intros Cf Cg H. assert (C : continuous (fun t => minus (g t) (f t)) t0) by (apply (continuous_minus g f t0); assumption).
  specialize (C (fun y => 0 < y)). assert (O : locally (minus (g t0) (f t0)) (fun y => 0 < y)).
  { assert (X : 0 < g t0 - f t0) by lra. exists (mkposreal _ X). intros y Hy. unfold ball in Hy; cbn in Hy; unfold AbsRing_ball, abs, minus, plus, opp in Hy; cbn in Hy. apply Rabs_def2 in Hy. lra. }
  specialize (C O). unfold filtermap in C. revert C. apply filter_imp. intros t Ht. unfold minus, plus, opp in Ht; cbn in Ht. lra.
Qed.
Lemma all_locally (P : nat -> R -> Prop) n t0 : (forall c, (c < n)%nat -> locally t0 (P c)) -> locally t0 (fun t => forall c, (c < n)%nat -> P c t).
Proof.
  induction n as [|n IH]; intros H; [apply filter_forall; intros; lia|].
  apply (filter_imp (fun t => (forall c, (c < n)%nat -> P c t) /\ P n t)).
  - intros t [A B] c Hc. destruct (Nat.eq_dec c n) as [->|]; [exact B|apply A; lia].
  - apply filter_and; [apply IH; intros; apply H; lia|apply H; lia].
Qed.

Lemma only_best_locally fmax m pn p j c : NoDup pn -> List.length p = List.length pn -> (j < List.length pn)%nat ->
  only_best_mode m (prior_point m pn (set_nth p j (nth j p 0))) c -> - fmax < mode_score m (prior_point m pn (set_nth p j (nth j p 0))) c ->
  locally (nth j p 0) (fun t => only_best_mode m (prior_point m pn (set_nth p j t)) c /\ - fmax < mode_score m (prior_point m pn (set_nth p j t)) c).
Proof.
  intros ND L Hj [Hc B] P. apply filter_and.
  - apply (filter_imp (fun t => forall c', (c' < mx_p m)%nat -> c' <> c -> mode_score m (prior_point m pn (set_nth p j t)) c' < mode_score m (prior_point m pn (set_nth p j t)) c)).
    + intros t H. split; assumption.
    + apply all_locally. intros c' Hc'. destruct (Nat.eq_dec c' c) as [->|Ne]; [apply filter_forall; intros; congruence|].
      apply (filter_imp (fun t => mode_score m (prior_point m pn (set_nth p j t)) c' < mode_score m (prior_point m pn (set_nth p j t)) c)); [intros; assumption|].
      apply (lt_locally (fun t => mode_score m (prior_point m pn (set_nth p j t)) c') (fun t => mode_score m (prior_point m pn (set_nth p j t)) c)); [apply score_continuous; assumption|apply score_continuous; assumption|]. apply B; assumption.
  - apply (lt_locally (fun _ => - fmax) (fun t => mode_score m (prior_point m pn (set_nth p j t)) c)); [apply continuous_const|apply score_continuous; assumption|exact P].
Qed.

Lemma set_nth_same (p : list R) j : (j < List.length p)%nat -> set_nth p j (nth j p 0) = p.
Proof. revert j. induction p as [|x p IH]; intros [|j] H; cbn in *; try lia; [reflexivity|]. rewrite IH by lia. reflexivity. Qed.

Lemma prior_error_total fmax pn w m E p : NoDup pn -> fresh pn w m E -> mixture_wf m -> List.length p = List.length pn ->
  exists e, prior_error fmax E p = Ok e.
Proof.
  intros ND F W L. unfold prior_error, log_probability, get_best. rewrite (fresh_inv_length _ _ _ _ F), L, Nat.eqb_refl, (fr_prior _ _ _ _ F).
  destruct (sub_ok pn w m E p ND F L) as (xs & Ex & Lx & Nx). rewrite Ex. cbn [obind]. rewrite (xw_names m W) in Lx, Nx.
  destruct (best_loop fmax m xs (prior_point m pn p) W Lx Nx) as ([[[idx diff] r] dist] & El & _). rewrite El. cbn [obind]. eexists. reflexivity.
Qed.

(** The derivative of the error along parameter j. *)
Definition slope (m : mixture) (pn : list string) (p : list R) (c j : nat) : R :=
  sumn (mx_d m) (fun i => hits m pn j i * sumn (mx_d m) (fun k => nth c (mx_Cinv m) (fun _ _ => 0) i k * (prior_point m pn p k - nth k (nth c (mx_mu m) []) 0))).

Lemma error_derive fmax pn w m E p c j : NoDup pn -> mixture_wf m -> List.length p = List.length pn -> prior_new pn w (Some m) = Ok E -> (j < List.length p)%nat ->
  only_best_mode m (prior_point m pn p) c -> - fmax < mode_score m (prior_point m pn p) c ->
  exists F, (forall t, prior_error fmax E (set_nth p j t) = Ok (F t)) /\ F (nth j p 0) = mode_dist m (prior_point m pn p) c / 1000 * w /\
    is_derive F (nth j p 0) (slope m pn p c j * kPosePriorWeight * w).
Proof.
  intros ND W L HE Hj B P. assert (F := new_fresh _ _ _ _ ND HE).
  set (G := fun t => match prior_error fmax E (set_nth p j t) with Ok v => v | _ => 0 end). exists G.
  assert (Lt : forall t, List.length (set_nth p j t) = List.length pn) by (intros; rewrite set_nth_length; exact L).
  split; [|split].
  - intros t. destruct (prior_error_total fmax pn w m E (set_nth p j t) ND F W (Lt t)) as [e He]. unfold G. rewrite He. reflexivity.
  - unfold G. rewrite set_nth_same by exact Hj. destruct (prior_error_correct fmax pn w m E p c ND W L HE (only_best _ _ _ B) P) as [-> _]. reflexivity.
  - destruct (mode_dist_line m pn p j c ND L ltac:(lia)) as (b & q & H & Eb).
    assert (Eb' : b = slope m pn p c j).
    { rewrite Eb. unfold slope. set (X := sumn (mx_d m) (fun i => hits m pn j i * _)).
      replace (sumn (mx_d m) (fun i => (prior_point m pn p i - _) * _)) with X; [lra|]. unfold X. clear X.
      rewrite (sumn_ext (mx_d m) _ (fun i => sumn (mx_d m) (fun k => hits m pn j i * (nth c (mx_Cinv m) (fun _ _ => 0) i k * (prior_point m pn p k - nth k (nth c (mx_mu m) []) 0))))) by (intros; rewrite sumn_scal; reflexivity).
      rewrite sumn_swap. apply sumn_ext. intros k Hk. rewrite <- sumn_scal. apply sumn_ext. intros i Hi.
      rewrite (xw_sym m W (nth c (mx_Cinv m) (fun _ _ => 0)) i k); [ring|apply nth_In; rewrite (xw_cinv m W); apply B|exact Hi|exact Hk]. }
    rewrite <- Eb'. apply (is_derive_ext_loc (fun t => (mode_dist m (prior_point m pn p) c + (t - nth j p 0) * b + (t - nth j p 0) * (t - nth j p 0) * q) * kPosePriorWeight * w)).
    + assert (B' := B). assert (P' := P). rewrite <- (set_nth_same p j Hj) in B', P'. generalize (only_best_locally fmax m pn p j c ND L ltac:(lia) B' P'). apply filter_imp. intros t [Bt Pt].
      unfold G. destruct (prior_error_correct fmax pn w m E (set_nth p j t) c ND W (Lt t) HE (only_best _ _ _ Bt) Pt) as [-> _]. rewrite H. reflexivity.
    + auto_derive; [exact I|]. ring.
Qed.

(** ** The gradient *)

Lemma add_at_ok g j v : (j < List.length g)%nat -> exists g', add_at g j v = Ok g' /\ List.length g' = List.length g /\
  forall k, nth k g' 0 = nth k g 0 + (if (k =? j)%nat then v else 0).
Proof.
  intros H. unfold add_at. destruct (nth_error_lt g j H) as [x Ex]. rewrite (rd_some _ _ _ Ex). cbn [obind].
  destruct (Loops.wr_ok g j (x + v) H) as (g' & E & L & S1 & O). exists g'. split; [exact E|]. split; [exact L|]. intros k. destruct (Nat.eqb_spec k j) as [->|Ne].
  - rewrite (nth_error_nth _ _ 0 S1), (nth_error_nth _ _ 0 Ex). reflexivity.
  - rewrite Rplus_0_r. destruct (Nat.lt_ge_cases k (List.length g)) as [Hk|Hk].
    + destruct (nth_error_lt g k Hk) as [y Ey]. rewrite (nth_error_nth _ _ 0 Ey). apply nth_error_nth. rewrite O by exact Ne. exact Ey.
    + rewrite !nth_overflow by lia. reflexivity.
Qed.

Lemma fresh_map pn w m E i : NoDup pn -> fresh pn w m E -> (i < List.length (mx_names m))%nat ->
  exists e, nth_error (pr_map E) i = Some e /\ match e with Some j => (j < List.length pn)%nat | None => True end /\
    forall j, (j < List.length pn)%nat -> hits m pn j i = match e with Some j' => if (j =? j')%nat then 1 else 0 | None => 0 end.
Proof.
  intros ND [_ _ _ M] Hi. destruct (nth_error_lt (mx_names m) i Hi) as [a Ea]. unfold hits. rewrite (nth_error_nth _ _ EmptyString Ea).
  destruct (in_dec string_dec a pn) as [Ia|Na].
  - apply In_nth_error in Ia as [j' Ej]. exists (Some j'). split; [apply (mk_some _ _ _ _ _ _ M i a j' Ea Ej)|]. split; [apply nth_error_Some; congruence|].
    intros j Hj. destruct (nth_error_lt pn j Hj) as [b Eb]. rewrite (nth_error_nth _ _ EmptyString Eb). destruct (String.eqb_spec b a) as [->|Ne], (Nat.eqb_spec j j') as [->|Nj]; try reflexivity.
    + exfalso. apply Nj. apply (proj1 (NoDup_nth_error pn) ND); [exact Hj|congruence].
    + congruence.
  - exists None. split; [rewrite (mk_none _ _ _ _ _ _ M i a Ea Na); apply nth_repeat_none, Hi|]. split; [exact I|]. intros j Hj.
    destruct (String.eqb_spec (nth j pn EmptyString) a) as [<-|]; [exfalso; apply Na, nth_In, Hj|reflexivity].
Qed.

(** Where one mode has the highest score, getGradient returns the error and adds its derivative. *)
Theorem prior_gradient_correct fmax pn w m E p g c j :
  NoDup pn -> mixture_wf m -> List.length p = List.length pn -> List.length g = List.length p -> prior_new pn w (Some m) = Ok E ->
  only_best_mode m (prior_point m pn p) c -> - fmax < mode_score m (prior_point m pn p) c -> (j < List.length p)%nat ->
  exists F g', (forall t, prior_error fmax E (set_nth p j t) = Ok (F t)) /\
    prior_gradient fmax E p g = Ok (F (nth j p 0), g') /\ List.length g' = List.length g /\
    is_derive F (nth j p 0) (nth j g' 0 - nth j g 0).
Proof.
  intros ND W L Lg HE B P Hj. assert (F := new_fresh _ _ _ _ ND HE).
  destruct (error_derive fmax pn w m E p c j ND W L HE Hj B P) as (G & G1 & G2 & G3). exists G.
  destruct (get_best_ok fmax pn w m E p c ND F W L (only_best _ _ _ B) P) as (diff & Eb & Ld & Nd).
  unfold prior_gradient. rewrite (fr_prior _ _ _ _ F), (fresh_inv_length _ _ _ _ F), L, Nat.eqb_refl, Eb. cbn [obind].
  destruct (nth_error_lt (mx_Cinv m) c) as [C EC]; [rewrite (xw_cinv m W); apply B|]. rewrite (rd_some _ _ _ EC). cbn [obind].
  set (inc := fun i => sumn (List.length diff) (fun k => nth k diff 0 * C k i) * kPosePriorWeight * pr_weight E).
  match goal with |- context [ofold ?f (seq 0 (mx_d m)) g] => destruct (ofold_seq_inv f (fun n g' => List.length g' = List.length g /\
      forall k, (k < List.length pn)%nat -> nth k g' 0 = nth k g 0 + sumn n (fun i => hits m pn k i * inc i)) (mx_d m) g) as (g' & Eg & Lg' & Ng) end.
  - split; [reflexivity|]. intros k Hk. rewrite sumn_0. ring.
  - intros n g' Hn [Lg' Ng]. destruct (fresh_map pn w m E n ND F) as (e & Ee & Re & He); [rewrite (xw_names m W); exact Hn|]. rewrite (rd_some _ _ _ Ee). cbn [obind]. destruct e as [j'|].
    + destruct (add_at_ok g' j' (inc n)) as (g2 & E2 & L2 & N2); [lia|]. exists g2. split; [exact E2|]. split; [lia|]. intros k Hk. rewrite N2, Ng, sumn_S, (He k Hk) by exact Hk. destruct (k =? j')%nat; ring.
    + exists g'. split; [reflexivity|]. split; [exact Lg'|]. intros k Hk. rewrite Ng, sumn_S, (He k Hk) by exact Hk. ring.
  - exists g'. rewrite Eg. cbn [obind]. split; [exact G1|]. rewrite (fr_weight _ _ _ _ F), G2. split; [reflexivity|]. split; [exact Lg'|].
    rewrite Ng by lia. replace (nth j g 0 + _ - nth j g 0) with (slope m pn p c j * kPosePriorWeight * w); [exact G3|].
    unfold slope. rewrite <- !sumn_scal_r. match goal with |- _ = ?x + ?y - ?x => replace (x + y - x) with y by ring end.
    apply sumn_ext. intros i Hi. unfold inc. rewrite (fr_weight _ _ _ _ F), Ld. rewrite (@nth_error_nth mat _ _ _ (fun _ _ => 0) EC).
    rewrite (sumn_ext (mx_d m) (fun k => nth k diff 0 * C k i) (fun k => C i k * (prior_point m pn p k - nth k (nth c (mx_mu m) []) 0))); [ring|].
    intros k Hk. rewrite Nd by exact Hk. rewrite (xw_sym m W C k i (nth_error_In _ _ EC) Hk Hi). ring.
Qed.
Print Assumptions prior_gradient_correct.

(** ** The Jacobian *)

Lemma jac_cells_ok d M r iv : (forall c, In (Some c) iv -> (c < d)%nat) ->
  exists row, jac_cells d M r iv = Ok row /\ List.length row = List.length iv /\
    forall j, nth j row 0 = match nth_error iv j with Some (Some c) => M r c | _ => 0 end.
Proof.
  induction iv as [|e iv IH]; intros H; [exists []; repeat split; intros [|j]; reflexivity|]. destruct IH as (row & E & L & N); [intros; apply H; right; assumption|].
  cbn [jac_cells]. destruct e as [c|]; cbn [jac_cell].
  - specialize (H c (or_introl eq_refl)). destruct (Nat.ltb_spec c d); [|lia]. cbn [obind]. rewrite E. cbn [obind]. eexists. split; [reflexivity|]. cbn [List.length]. split; [lia|]. intros [|j]; [reflexivity|apply N].
  - cbn [obind]. rewrite E. cbn [obind]. eexists. split; [reflexivity|]. cbn [List.length]. split; [lia|]. intros [|j]; [reflexivity|apply N].
Qed.
Lemma fresh_inv_range pn w m E c : fresh pn w m E -> In (Some c) (pr_inv E) -> (c < List.length (mx_names m))%nat.
Proof.
  intros [_ _ _ M] H. apply In_nth_error in H as [j Hj]. assert (Hl : (j < List.length pn)%nat) by (rewrite <- (mk_iv _ _ _ _ _ _ M); apply nth_error_Some; congruence).
  destruct (nth_error_lt pn j Hl) as [b Eb]. destruct (mk_inv _ _ _ _ _ _ M j b Eb) as [(i & Ei & Ii & _)|[_ Ii]]; rewrite Ii in Hj.
  - injection Hj as <-. apply nth_error_Some. congruence.
  - rewrite nth_repeat_none in Hj by exact Hl. discriminate.
Qed.

(** The column of parameter j under distinct names. *)
Lemma fresh_column pn w m E j (f : nat -> R) : NoDup (mx_names m) -> fresh pn w m E -> (j < List.length pn)%nat ->
  match nth_error (pr_inv E) j with Some (Some c) => f c | _ => 0 end = sumn (List.length (mx_names m)) (fun i => hits m pn j i * f i).
Proof.
  intros ND [_ _ _ M] Hj. destruct (nth_error_lt pn j Hj) as [b Eb]. unfold hits. rewrite (nth_error_nth _ _ EmptyString Eb).
  destruct (mk_inv _ _ _ _ _ _ M j b Eb) as [(i & Ei & Ii & _)|[Nb Ii]]; rewrite Ii.
  - rewrite (sumn_single _ i); [rewrite (nth_error_nth _ _ EmptyString Ei), String.eqb_refl; ring|apply nth_error_Some; congruence|].
    intros i' Hi' Ne. destruct (String.eqb_spec b (nth i' (mx_names m) EmptyString)) as [X|]; [|ring]. exfalso. apply Ne.
    apply (proj1 (NoDup_nth_error _) ND); [exact Hi'|]. rewrite Ei. destruct (nth_error_lt _ i' Hi') as [a Ea]. rewrite (nth_error_nth _ _ EmptyString Ea) in X. congruence.
  - rewrite nth_repeat_none by exact Hj. symmetry. apply sumn_zero. intros i Hi. destruct (String.eqb_spec b (nth i (mx_names m) EmptyString)) as [->|]; [|ring]. exfalso. apply Nb, nth_In, Hi.
Qed.

Lemma rows_loop (f : nat -> outcome (list R)) (res : nat -> R) n : (forall r, (r < n)%nat -> exists row, f r = Ok row) ->
  exists rows, ofold (fun r rows => obind (f r) (fun row => Ok (rows ++ [(row, res r)]))) (seq 0 n) [] = Ok rows /\ List.length rows = n /\
    forall r, (r < n)%nat -> exists row, f r = Ok row /\ nth_error rows r = Some (row, res r).
Proof.
  intros H. destruct (ofold_map (fun r => obind (f r) (fun row => Ok (row, res r))) n) as (rows & E & L & N).
  { intros c Hc. destruct (H c Hc) as [row ->]. eexists. reflexivity. }
  exists rows. split; [|split].
  - rewrite <- E. clear. match goal with |- ofold ?F ?l _ = ofold ?G _ _ => enough (Q : forall acc, ofold F l acc = ofold G l acc) by apply Q end.
    induction (seq 0 n) as [|c cs IH]; intros acc; [reflexivity|]. cbn [ofold]. destruct (f c); cbn [obind]; try reflexivity. apply IH.
  - exact L.
  - intros r Hr. destruct (N r Hr) as (b & Eb & Nb). destruct (f r) as [row| | | |] eqn:Ef; try discriminate. cbn [obind] in Eb. injection Eb as <-. exists row. split; [reflexivity|exact Nb].
Qed.
Lemma rsum_rows {A} (f : A -> R) (l : list A) n (g : nat -> R) : List.length l = n -> (forall r, (r < n)%nat -> exists a, nth_error l r = Some a /\ f a = g r) -> rsum (map f l) = sumn n g.
Proof.
  intros L H. rewrite rsum_nth, map_length, L. apply sumn_ext. intros r Hr. destruct (H r Hr) as (a & Ea & Ga). rewrite <- Ga. apply nth_error_nth, map_nth_error, Ea.
Qed.

(** Under distinct names getJacobian uses one row per dimension; the residuals square up to the error
    and 2 J^T r is its derivative. *)
Theorem prior_jacobian_correct fmax pn w m E p c j :
  NoDup pn -> NoDup (mx_names m) -> mixture_wf m -> 0 <= w -> List.length p = List.length pn -> prior_new pn w (Some m) = Ok E ->
  only_best_mode m (prior_point m pn p) c -> - fmax < mode_score m (prior_point m pn p) c -> (j < List.length p)%nat ->
  exists F rows, (forall t, prior_error fmax E (set_nth p j t) = Ok (F t)) /\
    prior_jacobian fmax E p = Ok (F (nth j p 0), rows, mx_d m) /\ prior_jsize E = mx_d m /\ List.length rows = mx_d m /\
    (forall row, In row rows -> List.length (fst row) = List.length p) /\
    rsum (map (fun row => snd row * snd row) rows) = F (nth j p 0) /\
    is_derive F (nth j p 0) (2 * jt_r rows j).
Proof.
  intros ND NDm W Hw L HE B P Hj. assert (F := new_fresh _ _ _ _ ND HE).
  destruct (error_derive fmax pn w m E p c j ND W L HE Hj B P) as (G & G1 & G2 & G3). exists G.
  destruct (get_best_ok fmax pn w m E p c ND F W L (only_best _ _ _ B) P) as (diff & Eb & Ld & Nd).
  unfold prior_jacobian, prior_jsize. rewrite (fr_prior _ _ _ _ F), (fresh_inv_length _ _ _ _ F), L, Nat.eqb_refl, Eb. cbn [obind]. cbv zeta.
  assert (Hc : (c < mx_p m)%nat) by apply B.
  destruct (nth_error_lt (mx_L m) c) as [Lm EL]; [rewrite (xw_l m W); exact Hc|]. rewrite (rd_some _ _ _ EL). cbn [obind].
  set (wgt := sqrt (/ 2 * kPosePriorWeight * pr_weight E)). set (M := fun i j0 : nat => Lm i j0 * wgt).
  assert (Wg : wgt * wgt = / 2 * kPosePriorWeight * w).
  { unfold wgt. rewrite (fr_weight _ _ _ _ F), sqrt_def; [reflexivity|]. unfold kPosePriorWeight. nra. }
  destruct (rows_loop (fun r => jac_cells (mx_d m) M r (pr_inv E)) (fun r => sumn (mx_d m) (fun k => M r k * nth k diff 0)) (mx_d m)) as (rows & Er & Lr & Nr).
  { intros r Hr. destruct (jac_cells_ok (mx_d m) M r (pr_inv E)) as (row & X & _); [intros i Hi; rewrite <- (xw_names m W); apply (fresh_inv_range pn w m E i F Hi)|]. exists row. exact X. }
  match goal with |- context [ofold ?f ?l ?s] => replace (ofold f l s) with (Ok rows) by (symmetry; exact Er) end. cbn [obind]. exists rows. split; [exact G1|]. rewrite (fr_weight _ _ _ _ F), G2. split; [reflexivity|]. split; [reflexivity|]. split; [exact Lr|].
  assert (Row : forall r, (r < mx_d m)%nat -> exists row, nth_error rows r = Some (row, sumn (mx_d m) (fun k => M r k * nth k diff 0)) /\ List.length row = List.length p /\
     nth j row 0 = sumn (mx_d m) (fun i => hits m pn j i * M r i)).
  { intros r Hr. destruct (Nr r Hr) as (row & Ef & En). exists row. split; [exact En|].
    destruct (jac_cells_ok (mx_d m) M r (pr_inv E)) as (row' & X & Lw & Nw); [intros i Hi; rewrite <- (xw_names m W); apply (fresh_inv_range pn w m E i F Hi)|].
    rewrite Ef in X. injection X as <-. split; [rewrite Lw, (fresh_inv_length _ _ _ _ F); congruence|]. rewrite Nw, <- (xw_names m W). apply (fresh_column pn w m E j (M r) NDm F). lia. }
  assert (Rt := xw_root m W c Hc). rewrite (@nth_error_nth mat _ _ _ (fun _ _ => 0) EL) in Rt.
  set (D := nth c (mx_Cinv m) (fun _ _ => 0)) in *. set (u := fun k => prior_point m pn p k - nth k (nth c (mx_mu m) []) 0).
  assert (Res : forall r, (r < mx_d m)%nat -> sumn (mx_d m) (fun k => M r k * nth k diff 0) = wgt * sumn (mx_d m) (fun k => Lm r k * u k)).
  { intros r Hr. rewrite <- sumn_scal. apply sumn_ext. intros k Hk. unfold M. rewrite Nd by exact Hk. unfold u. ring. }
  split; [|split].
  - intros row Hrow. apply In_nth_error in Hrow as [r Hr]. assert (r < mx_d m)%nat by (rewrite <- Lr; apply nth_error_Some; congruence).
    destruct (Row r ltac:(assumption)) as (row' & Ew & Lw & _). rewrite Hr in Ew. apply (f_equal (fun o => match o with Some x => List.length (fst x) | None => O end)) in Ew. cbn beta iota in Ew. rewrite Ew. exact (eq_trans Lw L).
  - rewrite (rsum_rows _ rows (mx_d m) (fun r => wgt * wgt * (sumn (mx_d m) (fun k => Lm r k * u k) * sumn (mx_d m) (fun k => Lm r k * u k))) Lr).
    + rewrite sumn_scal, Wg. fold (image_norm2 (mx_d m) Lm u). rewrite <- (quad_root (mx_d m) D Lm u Rt). unfold mode_dist. fold D u. unfold kPosePriorWeight, Rdiv. ring.
    + intros r Hr. destruct (Row r Hr) as (row & Ew & _ & _). eexists. split; [exact Ew|]. cbn [snd]. rewrite Res by exact Hr. ring.
  - replace (2 * jt_r rows j) with (slope m pn p c j * kPosePriorWeight * w); [exact G3|].
    unfold jt_r. rewrite (rsum_rows _ rows (mx_d m) (fun r => sumn (mx_d m) (fun i => hits m pn j i * (wgt * wgt * (Lm r i * sumn (mx_d m) (fun k => Lm r k * u k))))) Lr).
    + rewrite sumn_swap. unfold slope. fold D. rewrite <- !sumn_scal_r, <- sumn_scal. apply sumn_ext. intros i Hi. rewrite sumn_scal, sumn_scal, Wg.
      assert (Q : sumn (mx_d m) (fun k => D i k * (prior_point m pn p k - nth k (nth c (mx_mu m) []) 0)) = sumn (mx_d m) (fun r => Lm r i * sumn (mx_d m) (fun k => Lm r k * u k))).
      { rewrite (sumn_ext (mx_d m) (fun k => D i k * _) (fun k => sumn (mx_d m) (fun r => Lm r i * Lm r k * u k))).
        - rewrite sumn_swap. apply sumn_ext. intros r Hr. rewrite <- sumn_scal. apply sumn_ext. intros; ring.
        - intros k Hk. rewrite <- (Rt i k Hi Hk), sumn_scal_r. reflexivity. }
      rewrite Q. field.
    + intros r Hr. destruct (Row r Hr) as (row & Ew & _ & Nw). eexists. split; [exact Ew|]. cbn [fst snd]. rewrite Nw, Res by exact Hr. rewrite <- sumn_scal_r. apply sumn_ext. intros i Hi. unfold M. ring.
Qed.
Print Assumptions prior_jacobian_correct.

(** The mean of the best mode, in the order of the parameters; zero for those the prior does not know. *)
Theorem prior_mean_correct fmax pn w m E p c :
  NoDup pn -> NoDup (mx_names m) -> mixture_wf m -> List.length p = List.length pn -> prior_new pn w (Some m) = Ok E ->
  best_mode m (prior_point m pn p) c -> - fmax < mode_score m (prior_point m pn p) c ->
  exists r, prior_mean_shape fmax E p = Ok r /\ List.length r = List.length pn /\
    forall j, (j < List.length pn)%nat -> nth j r 0 = named_value (mx_names m) (nth c (mx_mu m) []) (nth j pn EmptyString).
Proof.
  intros ND NDm W L HE B P. assert (F := new_fresh _ _ _ _ ND HE).
  destruct (get_best_ok fmax pn w m E p c ND F W L B P) as (diff & Eb & _). unfold prior_mean_shape. rewrite Eb. cbn [obind]. rewrite (fr_prior _ _ _ _ F).
  destruct (nth_error_lt (mx_mu m) c) as [mu Em]; [rewrite (xw_mu m W); apply B|]. rewrite (rd_some _ _ _ Em). cbn [obind].
  assert (Lm : List.length mu = List.length (mx_names m)) by (rewrite (xw_names m W); apply (xw_mean m W), (nth_error_In _ _ Em)).
  destruct (map_parameters_ok mu (pr_inv E)) as (r & Er & Lr & Nr); [intros i Hi; rewrite Lm; apply (fresh_inv_range pn w m E i F Hi)|].
  exists r. split; [exact Er|]. split; [rewrite Lr; apply (fresh_inv_length _ _ _ _ F)|]. intros j Hj. rewrite Nr, (nth_error_nth _ _ [] Em).
  destruct (nth_error_lt pn j Hj) as [b Eb']. rewrite (nth_error_nth _ _ EmptyString Eb').
  destruct (mk_inv _ _ _ _ _ _ (fr_maps _ _ _ _ F) j b Eb') as [(i & Ei & Ii & _)|[Nb Ii]]; rewrite Ii.
  - symmetry. apply named_value_some; assumption.
  - rewrite nth_repeat_none by exact Hj. symmetry. apply named_value_none, Nb.
Qed.
Print Assumptions prior_mean_correct.

(** ** A jump *)

Definition one_mat : mat := fun _ _ => 1.
Definition two_modes : mixture := Mixture 1 2 ["a"%string] [[0]; [2]] [one_mat; one_mat] [one_mat; one_mat] [0; 1].
Lemma two_modes_wf : mixture_wf two_modes.
Proof.
  split; try reflexivity.
  - intros r [<-|[<-|[]]]; reflexivity.
  - intros C i j [<-|[<-|[]]] _ _; reflexivity.
  - intros c Hc i j Hi Hj. cbn in Hc, Hi, Hj. assert (i = 0%nat /\ j = 0%nat) as [-> ->] by lia.
    destruct c as [|[|c]]; [| |lia]; unfold sumn; cbn; unfold one_mat; ring.
Qed.
Lemma two_modes_dist t : mode_dist two_modes (prior_point two_modes ["a"%string] [t]) 0 = / 2 * (t * t) /\
                         mode_dist two_modes (prior_point two_modes ["a"%string] [t]) 1 = / 2 * ((t - 2) * (t - 2)).
Proof. unfold mode_dist, quad, sumn, prior_point. cbn. unfold one_mat. split; ring. Qed.
Lemma two_modes_score t : mode_score two_modes (prior_point two_modes ["a"%string] [t]) 0 = 0 - / 2 * (t * t) /\
                          mode_score two_modes (prior_point two_modes ["a"%string] [t]) 1 = 1 - / 2 * ((t - 2) * (t - 2)).
Proof. unfold mode_score. destruct (two_modes_dist t) as [-> ->]. cbn [nth mx_Rpre two_modes]. split; reflexivity. Qed.

(** The error is not continuous: the mode with the highest score changes where the scores are equal,
    and there the distances differ by the difference of the constants. *)
Theorem prior_jump_refuted : exists fmax pn m E t0 e0, NoDup pn /\ mixture_wf m /\ prior_new pn 1 (Some m) = Ok E /\ prior_error fmax E [t0] = Ok e0 /\
  forall delta, 0 < delta -> exists t e, t0 < t < t0 + delta /\ prior_error fmax E [t] = Ok e /\ 3 / 8 / 1000 <= e - e0.
Proof.
  assert (ND : NoDup ["a"%string]) by (constructor; [intros []|constructor]).
  destruct (prior_new_succeeds ["a"%string] 1 two_modes ND) as [E HE].
  exists 1000, ["a"%string], two_modes, E, (/ 2), (/ 8 / 1000). split; [exact ND|]. split; [apply two_modes_wf|]. split; [exact HE|]. split.
  - destruct (prior_error_correct 1000 ["a"%string] 1 two_modes E [/ 2] 0%nat ND two_modes_wf eq_refl HE) as [Q _].
    + split; [cbn; lia|]. intros c' Hc'. split; [|lia]. destruct (two_modes_score (/ 2)) as [S0 S1]. cbn in Hc'. destruct c' as [|[|c']]; [lra| |lia]. rewrite S0, S1. lra.
    + destruct (two_modes_score (/ 2)) as [-> _]. lra.
    + rewrite Q. f_equal. destruct (two_modes_dist (/ 2)) as [-> _]. lra.
  - intros delta Hd. set (s := Rmin (delta / 2) (/ 2)).
    assert (S0 : 0 < s) by (apply Rmin_glb_lt; lra). assert (S1 : s <= / 2) by apply Rmin_r. assert (S2 : s <= delta / 2) by apply Rmin_l.
    exists (/ 2 + s). destruct (two_modes_score (/ 2 + s)) as [T0 T1]. destruct (two_modes_dist (/ 2 + s)) as [_ D1].
    assert (X : mode_score two_modes (prior_point two_modes ["a"%string] [/ 2 + s]) 0 < mode_score two_modes (prior_point two_modes ["a"%string] [/ 2 + s]) 1) by (rewrite T0, T1; nra).
    destruct (prior_error_correct 1000 ["a"%string] 1 two_modes E [/ 2 + s] 1%nat ND two_modes_wf eq_refl HE) as [Q _].
    + split; [cbn; lia|]. intros c' Hc'. cbn in Hc'. destruct c' as [|[|c']]; [| |lia]; split; intros; try lia; lra.
    + rewrite T1. nra.
    + eexists. split; [lra|]. split; [exact Q|]. rewrite D1.
      assert (Y : 1 <= (/ 2 + s - 2) * (/ 2 + s - 2)) by nra. set (q := (/ 2 + s - 2) * (/ 2 + s - 2)) in *.
      lra.
Qed.
Print Assumptions prior_jump_refuted.

(** The case of the theorems: the same mixture at t = 0, where mode 0 alone is best. *)
Example prior_case : only_best_mode two_modes (prior_point two_modes ["a"%string] [0]) 0 /\ - 1000 < mode_score two_modes (prior_point two_modes ["a"%string] [0]) 0 /\ NoDup (mx_names two_modes).
Proof.
  destruct (two_modes_score 0) as [S0 S1]. split; [|split; [rewrite S0; lra|constructor; [intros []|constructor]]].
  split; [cbn; lia|]. intros c' Hc' Ne. cbn in Hc'. destruct c' as [|[|c']]; [congruence| |lia]. rewrite S0, S1. lra.
Qed.

(** ** Exchanging the prior *)

Lemma maps_unique pn ns mp0 iv0 mp iv mp' iv' : maps_ok pn ns mp0 iv0 mp iv -> maps_ok pn ns mp0 iv0 mp' iv' -> mp = mp' /\ iv = iv'.
Proof.
  intros M M'. split; apply nth_error_ext_len.
  - rewrite (mk_mp _ _ _ _ _ _ M), (mk_mp _ _ _ _ _ _ M'). reflexivity.
  - intros i Hi. rewrite (mk_mp _ _ _ _ _ _ M) in Hi. destruct (nth_error_lt ns i Hi) as [a Ea]. destruct (in_dec string_dec a pn) as [Ia|Na].
    + apply In_nth_error in Ia as [j Ej]. rewrite (mk_some _ _ _ _ _ _ M i a j Ea Ej), (mk_some _ _ _ _ _ _ M' i a j Ea Ej). reflexivity.
    + rewrite (mk_none _ _ _ _ _ _ M i a Ea Na), (mk_none _ _ _ _ _ _ M' i a Ea Na). reflexivity.
  - rewrite (mk_iv _ _ _ _ _ _ M), (mk_iv _ _ _ _ _ _ M'). reflexivity.
  - intros j Hj. rewrite (mk_iv _ _ _ _ _ _ M) in Hj. destruct (nth_error_lt pn j Hj) as [b Eb].
    destruct (mk_inv _ _ _ _ _ _ M j b Eb) as [(i & Ei & Ii & Ui)|[Nb Ii]], (mk_inv _ _ _ _ _ _ M' j b Eb) as [(i' & Ei' & Ii' & Ui')|[Nb' Ii']].
    + destruct (Nat.lt_total i i') as [X|[->|X]]; [exfalso; apply (Ui i' X Ei')|congruence|exfalso; apply (Ui' i X Ei)].
    + exfalso. apply Nb'. eapply nth_error_In; exact Ei.
    + exfalso. apply Nb. eapply nth_error_In; exact Ei'.
    + congruence.
Qed.
Lemma resize_same {A} (l : list A) n a : List.length l = n -> resize l n a = l.
Proof. intros <-. unfold resize. rewrite firstn_all, Nat.sub_diag. apply app_nil_r. Qed.

(** Giving a function another prior with the same names is the same as building it with that prior. *)
Theorem prior_set_partial pn w m1 m2 E1 :
  NoDup pn -> prior_new pn w (Some m1) = Ok E1 -> mx_names m2 = mx_names m1 -> prior_set E1 (Some m2) = prior_new pn w (Some m2).
Proof.
  intros ND H1 Hn. assert (F1 := new_fresh _ _ _ _ ND H1). destruct (new_ok pn w m2 ND) as (E2 & H2 & F2). rewrite H2. unfold prior_set.
  destruct F1 as [N1 W1 _ M1]. assert (ND' : NoDup (pr_names E1)) by (rewrite N1; exact ND).
  destruct (load_ok E1 m2 ND') as (mp & iv & EL & M). rewrite EL, N1, W1. rewrite N1 in M.
  rewrite !resize_same in M by (rewrite ?Hn; first [apply (mk_mp _ _ _ _ _ _ M1)|apply (mk_iv _ _ _ _ _ _ M1)]).
  destruct F2 as [N2 W2 P2 M2]. destruct E2 as [n2 w2 p2 mp2 iv2]. cbn [pr_names pr_weight pr_prior pr_map pr_inv] in *. subst n2 w2 p2. f_equal.
  rewrite Hn in M, M2.
  assert (M' : maps_ok pn (mx_names m1) (repeat None (List.length (mx_names m1))) (repeat None (List.length pn)) mp iv).
  { destruct M as [A1 A2 A3 A4 A5]. split; try assumption.
    - intros i a Ei Na. rewrite (A4 i a Ei Na). apply (mk_none _ _ _ _ _ _ M1 i a Ei Na).
    - intros j b Ej. destruct (A5 j b Ej) as [X|[Nb X]]; [left; exact X|]. right. split; [exact Nb|]. rewrite X.
      destruct (mk_inv _ _ _ _ _ _ M1 j b Ej) as [(i & Ei & _)|[_ Y]]; [exfalso; apply Nb; eapply nth_error_In; exact Ei|exact Y]. }
  destruct (maps_unique _ _ _ _ _ _ _ _ M' M2) as [-> ->]. reflexivity.
Qed.
Print Assumptions prior_set_partial.

(** With other names it is not: the maps keep what they held. Here a coordinate no parameter is named
    after is taken from the parameter of the old prior. *)
Definition one_mode (names : list string) (mu : list R) : mixture :=
  Mixture (List.length names) 1 names [mu] [fun i j => if (i =? j)%nat then 1 else 0] [fun i j => if (i =? j)%nat then 1 else 0] [0].
Lemma one_mode_wf names mu : List.length mu = List.length names -> mixture_wf (one_mode names mu).
Proof.
  intros H. split; try reflexivity.
  - intros r [<-|[]]. exact H.
  - intros C i j [<-|[]] _ _. rewrite Nat.eqb_sym. reflexivity.
  - intros c Hc i j Hi Hj. cbn in Hc. assert (c = 0%nat) by lia. subst c. cbn [nth mx_Cinv mx_L one_mode mx_d] in *.
    rewrite (sumn_single _ i); [rewrite Nat.eqb_refl; ring|exact Hi|]. intros k Hk Ne. destruct (Nat.eqb_spec k i); [contradiction|ring].
Qed.
Theorem prior_set_refuted : exists fmax pn m1 m2 E1 E2 E3 p, NoDup pn /\ mixture_wf m1 /\ mixture_wf m2 /\
  prior_new pn 1 (Some m1) = Ok E1 /\ prior_set E1 (Some m2) = Ok E2 /\ prior_new pn 1 (Some m2) = Ok E3 /\
  prior_error fmax E3 p = Ok 0 /\ exists e, prior_error fmax E2 p = Ok e /\ 0 < e.
Proof.
  exists 1000, ["a"%string], (one_mode ["a"%string] [0]), (one_mode ["b"%string] [0]). do 3 eexists. exists [2].
  split; [constructor; [intros []|constructor]|]. do 2 (split; [apply one_mode_wf; reflexivity|]). do 3 (split; [reflexivity|]). split.
  - unfold prior_error, log_probability, get_best. cbn. unfold best_step. cbn. unfold sumn. cbn.
    match goal with |- context [Rltb ?x ?y] => destruct (Rltb_spec x y) as [|X]; [|exfalso; lra] end. cbn. f_equal. ring.
  - unfold prior_error, log_probability, get_best. cbn. unfold best_step. cbn. unfold sumn. cbn.
    match goal with |- context [Rltb ?x ?y] => destruct (Rltb_spec x y) as [|X]; [|exfalso; lra] end. cbn. eexists. split; [reflexivity|]. unfold kPosePriorWeight. lra.
Qed.
Print Assumptions prior_set_refuted.

(** A smaller prior leaves a column index that the new factor does not have, and no prior at all is
    a null pointer that is used. *)
Theorem prior_set_jacobian_refuted : exists fmax pn m1 m2 E1 E2 p, NoDup pn /\ NoDup (mx_names m2) /\ mixture_wf m1 /\ mixture_wf m2 /\ List.length p = List.length pn /\
  prior_new pn 1 (Some m1) = Ok E1 /\ prior_set E1 (Some m2) = Ok E2 /\ prior_jacobian fmax E2 p = CheckFail /\ prior_set E1 None = UB /\ exists E, prior_new pn 1 None = Ok E.
Proof.
  exists 1000, ["x"; "a"]%string, (one_mode ["x"; "a"]%string [0; 0]), (one_mode ["x"]%string [0]). do 2 eexists. exists [0; 0].
  split; [constructor; [intros [X|[]]; discriminate X|constructor; [intros []|constructor]]|]. split; [constructor; [intros []|constructor]|].
  do 2 (split; [apply one_mode_wf; reflexivity|]). split; [reflexivity|]. do 2 (split; [reflexivity|]). split; [|split; [reflexivity|eexists; reflexivity]].
  unfold prior_jacobian, get_best. cbn. unfold best_step. cbn. unfold sumn. cbn.
  match goal with |- context [Rltb ?x ?y] => destruct (Rltb_spec x y) as [|X]; [|exfalso; lra] end. reflexivity.
Qed.
Print Assumptions prior_set_jacobian_refuted.
